{"id": "C01", "title": "until_to_gr1 is exact on traces", "statement": "For formulas p and q, an infinite trace over the user's variables satisfies p U q (strong until) exactly when it can be extended with some trace of the auxiliary variable so that every init, safety and recurrence clause of the GRSpec returned by until_to_gr1(p, q) holds.", "quantifier": "all formula texts p, q accepted by the parser, all infinite traces, all auxiliary traces", "why_tests_cant": "the claim is an equivalence over infinite traces and over all formulas; a test can only evaluate finitely many finite prefixes", "anchors": ["tulip/spec/gr1_fragment.py:until_to_gr1"]}
{"id": "C02", "title": "eventually_to_gr1 is exact on traces", "statement": "A trace satisfies <>p exactly when it can be extended with an auxiliary trace satisfying every clause of eventually_to_gr1(p).", "quantifier": "all formula texts p, all infinite traces", "why_tests_cant": "infinite traces, all formulas", "anchors": ["tulip/spec/gr1_fragment.py:eventually_to_gr1"]}
{"id": "C03", "title": "response_to_gr1 is exact on traces", "statement": "A trace satisfies [](p -> <>q) exactly when it can be extended with an auxiliary trace satisfying every clause of response_to_gr1(p, q).", "quantifier": "all formula texts p, q, all infinite traces", "why_tests_cant": "infinite traces, all formulas", "anchors": ["tulip/spec/gr1_fragment.py:response_to_gr1"]}
{"id": "C04", "title": "stability_to_gr1 is sound, and complete on traces", "statement": "A trace satisfies <>[]p exactly when it can be extended with an auxiliary trace satisfying every clause of stability_to_gr1(p).", "quantifier": "all formula texts p, all infinite traces", "why_tests_cant": "infinite traces, all formulas", "anchors": ["tulip/spec/gr1_fragment.py:stability_to_gr1"]}
{"id": "C05", "title": "Conversions preserve realizability except stability", "statement": "For until_to_gr1, eventually_to_gr1 and response_to_gr1 the auxiliary variable can be computed online (its value at a step is a function of the past and present of the trace), so adding the conversion to a specification loses no implementation; for stability_to_gr1 no online choice works for every trace satisfying <>[]p, so a realizable stability specification can become unrealizable.", "quantifier": "all formulas, all online (causal) auxiliary functions, all infinite traces", "why_tests_cant": "quantifies over all strategies for the auxiliary variable and all infinite traces", "anchors": ["tulip/spec/gr1_fragment.py:until_to_gr1", "tulip/spec/gr1_fragment.py:eventually_to_gr1", "tulip/spec/gr1_fragment.py:response_to_gr1", "tulip/spec/gr1_fragment.py:stability_to_gr1"]}
{"id": "C06", "title": "split_gr1 keeps the meaning of the formula", "statement": "When split_gr1 accepts a formula, the conjunction of its init part, [] of its G part and []<> of each GF part is satisfied by exactly the traces that satisfy the formula.", "quantifier": "all formulas accepted by split_gr1, all infinite traces", "why_tests_cant": "all nestings of conjunction and all traces", "anchors": ["tulip/spec/gr1_fragment.py:split_gr1"]}
{"id": "C07", "title": "split_gr1 accepts only GR(1)", "statement": "When split_gr1 accepts a formula, the init part contains no temporal operator, the G part contains no temporal operator except next, and each GF part contains no temporal operator; any other formula raises an error.", "quantifier": "all formulas", "why_tests_cant": "a test samples formulas; the claim is that no formula slips through", "anchors": ["tulip/spec/gr1_fragment.py:split_gr1", "tulip/spec/gr1_fragment.py:has_operator"]}
{"id": "C08", "title": "GRSpec.to_canon denotes assumptions imply guarantees", "statement": "The formula text returned by to_canon parses, and a trace satisfies it exactly when satisfaction of all assumption clauses (init now, safety always, progress infinitely often) implies satisfaction of all guarantee clauses.", "quantifier": "all GRSpec instances with parseable clauses, all traces", "why_tests_cant": "all clause lists and all traces; operator precedence of the glued text matters", "anchors": ["tulip/spec/form.py:GRSpec.to_canon", "tulip/spec/form.py:_conj"]}
{"id": "C09", "title": "Combining two GRSpecs conjoins them and changes neither operand", "statement": "For compatible specs, (a | b) has a trace satisfy all its assumption (guarantee) clauses exactly when it satisfies all assumption (guarantee) clauses of both; its variables are the union; neither operand is modified; combining specs that give one variable different types or different roles is reported as an error.", "quantifier": "all pairs of specs, all traces", "why_tests_cant": "all pairs of specs and all conflict patterns", "anchors": ["tulip/spec/form.py:GRSpec.__or__", "tulip/spec/form.py:LTL.check_vars"]}
{"id": "C10", "title": "declare keeps environment and system variables consistent", "statement": "After any sequence of declare calls, successful or raising, no variable is both an environment and a system variable, no variable changes its domain, and a raising call leaves the declarations unchanged.", "quantifier": "all sequences of declare calls with arbitrary names and domains", "why_tests_cant": "all operation histories including failures", "anchors": ["tulip/spec/form.py:GRSpec.declare", "tulip/spec/transformation.py:_check_var_conflicts"]}
{"id": "C11", "title": "check_syntax rejects primed variables where they have no meaning", "statement": "check_syntax raises whenever a next-step variable occurs in an init or progress clause, or a system variable occurs next-step in an environment safety clause, and otherwise accepts well-formed clauses.", "quantifier": "all specs", "why_tests_cant": "all placements of the offending clause", "anchors": ["tulip/spec/form.py:GRSpec.check_syntax", "tulip/spec/transformation.py:collect_primed_vars"]}
{"id": "C12", "title": "Substituting formulas for Boolean variables is semantic substitution", "statement": "Replacing Boolean variables by formulas (replace_dependent_vars, sub_bool_with_subtree) yields a formula which holds on a trace exactly when the original holds on the trace where each replaced variable takes the truth value of its definition; substitution is simultaneous and leaves other variables alone.", "quantifier": "all formulas, all substitutions (including ones mentioning the replaced variables), all traces", "why_tests_cant": "all formulas and all substitutions, including cyclic ones", "anchors": ["tulip/spec/transformation.py:sub_bool_with_subtree", "tulip/spec/form.py:replace_dependent_vars", "tulip/spec/transformation.py:Tree.add_subtree"]}
{"id": "C13", "title": "String-valued variables are encoded as integers without changing meaning", "statement": "str_to_int replaces string constants by their position in the variable's domain so that a formula comparing string variables holds on a trace exactly when the encoded formula holds on the integer-encoded trace; constants outside the domain are rejected.", "quantifier": "all formulas, all finite string domains without duplicates, all traces", "why_tests_cant": "all formulas and domains", "anchors": ["tulip/spec/form.py:GRSpec.str_to_int", "tulip/spec/transformation.py:sub_constants", "tulip/spec/transformation.py:pair_node_to_var", "tulip/spec/transformation.py:check_for_undefined_identifiers"]}
{"id": "C14", "title": "Printing and re-parsing a formula gives the same formula", "statement": "For every formula tree whose constants are numbers, variables or Booleans, parse(str(tree)) is the same tree; operators keep their grouping whatever the precedence table says.", "quantifier": "all formula trees", "why_tests_cant": "all nestings of operators; precedence conflicts appear only in particular combinations", "anchors": ["tulip/spec/ast.py", "tulip/spec/lexyacc.py", "tulip/spec/parser.py:parse"]}
{"id": "C15", "title": "Compiled initial condition evaluates like the logical formula", "statement": "The Python expression produced for Boolean formulas (translate to python, GRSpec.compile_init) evaluates to true on an assignment exactly when the assignment satisfies the formula, for every nesting of not, and, or, implies, iff, xor, comparisons and arithmetic supported by the translator; unsupported operators raise an error.", "quantifier": "all Boolean formulas, all assignments", "why_tests_cant": "all formulas and all assignments", "anchors": ["tulip/spec/translation.py:translate_ast", "tulip/spec/translation.py:_ast_to_python", "tulip/spec/form.py:GRSpec.compile_init"]}
{"id": "C16", "title": "Translation of safety formulas to gr1c keeps their meaning", "statement": "For formulas in which next is applied only to state formulas, the gr1c text denotes the same step relation as the formula; a formula with nested next is not translatable and must not be silently changed.", "quantifier": "all formulas, all pairs of consecutive states", "why_tests_cant": "all nestings of next", "anchors": ["tulip/spec/translation.py:translate", "tulip/spec/translation.py:_ast_to_lang"]}
{"id": "C17", "title": "mutex and exactly_one constrain cardinality exactly", "statement": "For pairwise different propositions the formula returned by mutex holds exactly in the assignments making at most one of them true, and the one by exactly_one exactly in those making exactly one true.", "quantifier": "all lists of propositions of any length, all assignments", "why_tests_cant": "all lengths and all 2^n assignments", "anchors": ["tulip/synth.py:mutex", "tulip/synth.py:exactly_one", "tulip/synth.py:_conj_neg_diff"]}
{"id": "C18", "title": "iter2var encodes a set of values faithfully", "statement": "For the variables, identifiers and constraint returned by iter2var for a set of states or actions, the assignments allowed by the declared domains and the constraint correspond to the given values: exactly one identifier true under xor, at most one under mutex, and every given value is representable.", "quantifier": "all sets of values, all modes", "why_tests_cant": "all sizes and modes", "anchors": ["tulip/synth.py:iter2var"]}
{"id": "C19", "title": "sys_to_spec has exactly the executions of the transition system", "statement": "A trace satisfies the init and safety clauses produced by sys_to_spec for a finite transition system exactly when its location sequence is an infinite execution of the system from an initial state, each step's actions are those of a transition between the two locations, and the atomic propositions at each step are exactly those labelling the location.", "quantifier": "all finite transition systems (deadlocking or not), all infinite traces", "why_tests_cant": "all transition systems and infinite traces", "anchors": ["tulip/synth.py:sys_to_spec", "tulip/synth.py:_sys_init_from_ts", "tulip/synth.py:_sys_trans_from_ts", "tulip/synth.py:_ap_trans_from_ts"]}
{"id": "C20", "title": "env_to_spec and environment constraints from a system", "statement": "The environment clauses produced for an environment transition system hold exactly on traces following it; the environment clauses derived from a system's own transitions forbid only environment actions for which the system has no transition.", "quantifier": "all transition systems, all infinite traces", "why_tests_cant": "all systems and traces", "anchors": ["tulip/synth.py:env_to_spec", "tulip/synth.py:_env_trans_from_env_ts", "tulip/synth.py:_env_trans_from_sys_ts"]}
{"id": "C21", "title": "Replacing dependent propositions does not change the specification", "statement": "Replacing each atomic proposition by the disjunction of the locations labelled with it yields a specification with the same satisfying traces among executions of the system, for every proposition including ones labelling no state.", "quantifier": "all transition systems, formulas and traces", "why_tests_cant": "all label assignments", "anchors": ["tulip/synth.py:build_dependent_var_table", "tulip/synth.py:map_ap_to_states", "tulip/spec/form.py:replace_dependent_vars"]}
{"id": "C22", "title": "strategy2mealy preserves the strategy's behaviour", "statement": "The input/output words of runs of the machine returned by strategy2mealy starting at its initial state are exactly the words of valuations along paths of the synthesized strategy graph that start at an initial node.", "quantifier": "all strategy graphs, all path lengths", "why_tests_cant": "all graphs and all runs", "anchors": ["tulip/synth.py:strategy2mealy", "tulip/synth.py:_init_edges_using_initial_nodes", "tulip/synth.py:_init_edges_using_compile_init"]}
{"id": "C23", "title": "determinize_machine_init makes the first reaction deterministic and nothing else", "statement": "After determinize_machine_init, from the initial state there is at most one transition for every input valuation, every input valuation that had an acceptable transition still has one, kept transitions come from the original machine, agree with the requested outputs, and all transitions from other states are unchanged.", "quantifier": "all machines, all requested initial outputs", "why_tests_cant": "all machines", "anchors": ["tulip/synth.py:determinize_machine_init"]}
{"id": "C24", "title": "LTL.loads inverts LTL.dumps", "statement": "Loading the text written by dumps returns the same formula and the same variables with the same domains.", "quantifier": "all LTL objects with Boolean, range and finite-set domains", "why_tests_cant": "all domains and names", "anchors": ["tulip/spec/form.py:LTL.dumps", "tulip/spec/form.py:LTL.loads"]}
{"id": "C25", "title": "MathSet behaves as a mathematical set", "statement": "After any sequence of add, add_from, remove and set operations, membership, size and equality of a MathSet are those of the mathematical set of the elements added and not removed, whether elements are hashable or not, and no element occurs twice.", "quantifier": "all operation sequences over hashable and unhashable elements", "why_tests_cant": "all histories", "anchors": ["tulip/transys/mathset.py:MathSet"]}
{"id": "C26", "title": "SubSet never leaves its superset", "statement": "After any sequence of add and add_from on a SubSet, every element is in the superset; a rejected add or add_from leaves the SubSet unchanged.", "quantifier": "all operation sequences", "why_tests_cant": "all histories including failing operations", "anchors": ["tulip/transys/mathset.py:SubSet"]}
{"id": "C27", "title": "PowerSet membership, size and enumeration agree", "statement": "For a base set, an object is in the PowerSet exactly when it is a set of base elements, the enumeration lists every subset exactly once, and the reported length is the number of enumerated subsets.", "quantifier": "all finite base sets, all candidate subsets", "why_tests_cant": "all base sizes", "anchors": ["tulip/transys/mathset.py:PowerSet", "tulip/transys/mathset.py:powerset", "tulip/transys/mathset.py:is_subset"]}
{"id": "C28", "title": "TypedDict only stores allowed values", "statement": "After any sequence of item assignments and updates, every typed key that was set through the dictionary holds an allowed value, untyped keys are rejected only where documented, and a rejected assignment leaves the dictionary unchanged.", "quantifier": "all operation sequences", "why_tests_cant": "all histories including failures", "anchors": ["tulip/transys/mathset.py:TypedDict"]}
{"id": "C29", "title": "LabeledDiGraph edges are well-labelled and never duplicated", "statement": "After any sequence of add_node, add_edge, remove_labeled_edge and remove_node calls, both ends of every edge are nodes, every typed label has an allowed value, a raising call leaves the edges unchanged, and no two edges between the same nodes carry the same label.", "quantifier": "all operation sequences, all label types", "why_tests_cant": "all histories including failures", "anchors": ["tulip/transys/labeled_graphs.py:LabeledDiGraph.add_edge", "tulip/transys/labeled_graphs.py:LabeledDiGraph.add_node", "tulip/transys/labeled_graphs.py:LabeledDiGraph.remove_labeled_edge"]}
{"id": "C30", "title": "remove_deadends keeps exactly the states with infinite runs", "statement": "After remove_deadends the graph contains exactly the states from which an infinite path existed in the original graph, with all edges among them; no dead end remains.", "quantifier": "all finite graphs", "why_tests_cant": "all graphs, chains of any length", "anchors": ["tulip/transys/labeled_graphs.py:LabeledDiGraph.remove_deadends", "tulip/transys/labeled_graphs.py:LabeledDiGraph.has_deadends"]}
{"id": "C31", "title": "simu_abstract computes the bisimulation quotient", "statement": "simu_abstract(ts, 'bi') terminates; its cells partition the states, states in a cell have equal labels, a transition between two cells is reported exactly when every state of the source cell has a successor in the target cell, two states are in one cell exactly when they are bisimilar, and initial cells are those containing an initial state.", "quantifier": "all finite labelled transition systems", "why_tests_cant": "all systems; termination and coarsest-ness are unbounded claims", "anchors": ["tulip/transys/transys.py:simu_abstract", "tulip/transys/transys.py:_output_fts", "tulip/transys/transys.py:_pre"]}
{"id": "C32", "title": "simu_abstract dual mode gives a sound abstraction", "statement": "simu_abstract(ts, 'dual') terminates; cells cover all states and respect labels; whenever a transition is reported from one cell to another, every state of the source cell has a successor in the target cell.", "quantifier": "all finite labelled transition systems", "why_tests_cant": "all systems", "anchors": ["tulip/transys/transys.py:simu_abstract"]}
{"id": "C33", "title": "ts_ba_sync_prod is the reachable synchronous product", "statement": "The states of the product of a transition system and a Buchi automaton are exactly the pairs reachable by synchronised steps, its transitions exactly the synchronised steps, initial and accepting states are those induced by the factors, so product runs project to runs of both and vice versa.", "quantifier": "all finite transition systems and automata over the same propositions", "why_tests_cant": "all pairs of systems, all runs", "anchors": ["tulip/transys/products.py:ts_ba_sync_prod", "tulip/transys/products.py:find_ba_succ", "tulip/transys/products.py:find_prod_succ"]}
{"id": "C34", "title": "synchronous_parallel preserves probability", "statement": "When every component's outgoing probabilities (per action) sum to one, so do those of the synchronous composition; states are tuples, labels unions and initial states products of the components'.", "quantifier": "all finite lists of Markov chains/decision processes", "why_tests_cant": "all numbers of components and probability values", "anchors": ["tulip/transys/compositions.py:synchronous_parallel", "tulip/transys/compositions.py:_get_transition_attr"]}
{"id": "C35", "title": "apply_policy resolves nondeterminism as the policy says", "statement": "Applying a policy to a Markov decision process gives a Markov chain with the same states, labels and initial states whose transitions are exactly those of the action chosen at each state with unchanged probabilities.", "quantifier": "all decision processes and policies", "why_tests_cant": "all processes", "anchors": ["tulip/transys/compositions.py:apply_policy"]}
{"id": "C36", "title": "Mealy reaction and guided_run agree with the transition relation", "statement": "For a deterministic machine, reaction returns exactly the unique matching transition and raises otherwise; guided_run returns exactly the state and output sequence of the run on the given inputs, for input sequences of any length.", "quantifier": "all machines and input sequences", "why_tests_cant": "all runs of any length", "anchors": ["tulip/transys/machines.py:MealyMachine.reaction", "tulip/transys/machines.py:guided_run"]}
{"id": "C37", "title": "moore2mealy and mealy2moore preserve behaviour", "statement": "The input/output words of the machine returned by moore2mealy (mealy2moore) are exactly those of the given machine.", "quantifier": "all machines, all words", "why_tests_cant": "all machines and words of any length", "anchors": ["tulip/transys/machines.py:moore2mealy", "tulip/transys/machines.py:mealy2moore"]}
{"id": "C38", "title": "strip_ports projects labels and changes nothing else", "statement": "strip_ports removes exactly the named ports from every label, keeps states and transitions, so words of the result are projections of words of the machine and conversely.", "quantifier": "all machines, all port sets", "why_tests_cant": "all machines", "anchors": ["tulip/transys/machines.py:strip_ports"]}
{"id": "C39", "title": "line_labeled_with and cycle_labeled_with have exactly the given words", "statement": "The only label sequence of a maximal path from the initial state is the given list (line), or its infinite repetition (cycle).", "quantifier": "all label lists of any length", "why_tests_cant": "all lengths and infinite runs", "anchors": ["tulip/transys/transys.py:line_labeled_with", "tulip/transys/transys.py:cycle_labeled_with"]}
{"id": "C40", "title": "tuple2fts and tuple2ba build what they are given", "statement": "For well-formed arguments the constructed system has exactly the given states, initial states, labels and transitions (renamed by the prefix), the renaming is injective, and ill-formed references are rejected.", "quantifier": "all argument tuples", "why_tests_cant": "all sizes and name clashes", "anchors": ["tulip/transys/transys.py:tuple2fts", "tulip/transys/automata.py:tuple2ba"]}
{"id": "C41", "title": "Dijkstra search is correct and optimal", "statement": "dijkstra_single_source_multiple_targets terminates and returns a path from the source to a target whose total cost equals the returned cost and is minimal among all paths to any target, or infinity and an empty path exactly when no target is reachable; the multi-source version is minimal over all sources.", "quantifier": "all finite graphs with non-negative (scalar or lexicographic vector) costs", "why_tests_cant": "all graphs; optimality is over infinitely many paths", "anchors": ["tulip/transys/graph_algorithms.py:dijkstra_single_source_multiple_targets", "tulip/transys/graph_algorithms.py:dijkstra_multiple_sources_multiple_targets"]}
{"id": "C42", "title": "VectorCost comparison is a lexicographic total order compatible with addition", "statement": "For vectors of one length, <, <=, >, >= and == on VectorCost agree with lexicographic order, and adding the same vector to both sides preserves them.", "quantifier": "all pairs of vectors", "why_tests_cant": "all values and lengths, including ties", "anchors": ["tulip/transys/cost.py:VectorCost"]}
{"id": "C43", "title": "mvp.solve returns a least-violating plan", "statement": "solve returns the minimum, over all runs of the system from an initial state to a goal state, of the prioritised cost of rule violations, together with a run attaining it.", "quantifier": "all weighted structures and prioritised rules", "why_tests_cant": "all runs of any length", "anchors": ["tulip/mvp.py:solve", "tulip/mvp.py:_construct_weighted_product_automaton", "tulip/mvp.py:_get_rule_violation_cost"]}
{"id": "C44", "title": "PrioritizedSpecification enumerates rules by level", "statement": "After any sequence of add_rule calls, iteration, indexing and get_rules agree and list every rule exactly once by increasing level, in insertion order within a level, len counts them, and nested iteration over the same specification works.", "quantifier": "all sequences of add_rule calls and all iteration interleavings", "why_tests_cant": "all histories", "anchors": ["tulip/spec/prioritized_safety.py:PrioritizedSpecification"]}
{"id": "C45", "title": "FunctionOnLabeledState is a finite map", "statement": "After any sequence of add calls, lookup returns the output most recently added for that input and raises for inputs never added.", "quantifier": "all call sequences", "why_tests_cant": "all histories", "anchors": ["tulip/transys/mathfunc.py:FunctionOnLabeledState"]}
{"id": "C46", "title": "GridWorld.is_reachable decides reachability", "statement": "is_reachable terminates and is true exactly when a path of horizontally or vertically adjacent empty cells joins the two cells; negative coordinates wrap; out-of-range coordinates raise.", "quantifier": "all grids and cell pairs", "why_tests_cant": "all grid sizes and path lengths", "anchors": ["tulip/gridworld.py:GridWorld.is_reachable", "tulip/gridworld.py:GridWorld.is_empty"]}
{"id": "C47", "title": "GridWorld.spec has exactly the legal walks", "statement": "A trace satisfies the init and safety clauses of spec() exactly when it is a walk starting in an initial cell and moving each step to the same or an adjacent empty cell; its progress clauses say every goal is visited infinitely often.", "quantifier": "all grids, all infinite traces", "why_tests_cant": "all grids and infinite traces", "anchors": ["tulip/gridworld.py:GridWorld.spec", "tulip/gridworld.py:GridWorld.__getitem__"]}
{"id": "C48", "title": "GridWorld.loads inverts dumps", "statement": "Loading the dumped description (copy) yields the same size, occupied cells, initial cells and goal cells.", "quantifier": "all grids", "why_tests_cant": "all sizes and all initial/goal placements", "anchors": ["tulip/gridworld.py:GridWorld.loads", "tulip/gridworld.py:GridWorld.dumps", "tulip/gridworld.py:GridWorld.copy"]}
{"id": "C49", "title": "GridWorld equality is extensional", "statement": "Two gridworlds compare equal exactly when sizes, every cell, initial and goal lists agree.", "quantifier": "all pairs of grids", "why_tests_cant": "all pairs", "anchors": ["tulip/gridworld.py:GridWorld.__eq__"]}
{"id": "C50", "title": "dump_subworld and scale copy the right cells", "statement": "Each cell of a sub-gridworld equals the corresponding cell of the original, cells outside the original count as occupied when extend is set; each cell of a scaled world equals the cell it was blown up from and goals and initial cells move to the corresponding corner.", "quantifier": "all grids, sizes, offsets and factors", "why_tests_cant": "all offsets including entirely outside", "anchors": ["tulip/gridworld.py:GridWorld.dump_subworld", "tulip/gridworld.py:GridWorld.scale"]}
{"id": "C51", "title": "extract_coord inverts cell variable names", "statement": "extract_coord of the Boolean variable name of a cell returns the prefix, row and column used to make it.", "quantifier": "all prefixes and coordinates", "why_tests_cant": "all prefixes, including ones with underscores and digits", "anchors": ["tulip/gridworld.py:extract_coord", "tulip/gridworld.py:GridWorld.__getitem__"]}
{"id": "C52", "title": "python_case exports an equivalent controller", "statement": "Feeding any input sequence to the exported class gives the outputs and states of the run of the machine taking the first matching transition, and raises exactly when no transition matches.", "quantifier": "all machines and input sequences", "why_tests_cant": "all machines and sequences", "anchors": ["tulip/dumpsmach.py:python_case"]}
{"id": "C53", "title": "prop2part partitions the domain by propositions", "statement": "The regions returned by prop2part are disjoint and cover the domain up to sets without interior, and each region is labelled exactly with the propositions containing it.", "quantifier": "all domains and proposition maps, for any region algebra with intersection, difference and full-dimensionality test", "why_tests_cant": "all numbers of propositions and overlaps", "anchors": ["tulip/abstract/prop2partition.py:prop2part"]}
{"id": "C54", "title": "add_grid intervals tile the domain", "statement": "compute_interval returns consecutive intervals starting at the lower and ending at the upper bound, each of at most the requested size (up to tolerance), and terminates for every positive size; product_interval lists every combination once.", "quantifier": "all bounds and sizes", "why_tests_cant": "all values", "anchors": ["tulip/abstract/prop2partition.py:compute_interval", "tulip/abstract/prop2partition.py:product_interval"]}
{"id": "C55", "title": "Slugs bit fields decode to the encoded integer", "statement": "Decoding the bit fields of an integer variable returns the integer that was encoded, for every value in its domain.", "quantifier": "all domains and values", "why_tests_cant": "all widths", "anchors": ["tulip/interfaces/slugs.py:_bitfields_to_ints"]}
{"id": "C56", "title": "Parity-game attractor is the least controlled-predecessor fixpoint", "statement": "attractor(W, game, player) is exactly the set of nodes from which the player can force a visit to W.", "quantifier": "all finite games and target sets", "why_tests_cant": "all games", "anchors": ["contrib/parity_games/solve_parity_game.py:attractor", "contrib/parity_games/solve_parity_game.py:ctrl_next"]}
{"id": "C57", "title": "transitions.find returns exactly the matching transitions", "statement": "Transitions.find returns exactly the edges that leave the given states, enter the given states and carry the desired label (all labels if none is given).", "quantifier": "all graphs, all state sets, all desired labels", "why_tests_cant": "Graphs, label sets and combinations of optional arguments are unbounded.", "anchors": ["tulip/transys/labeled_graphs.py:Transitions.find", "tulip/transys/labeled_graphs.py:label_is_desired"]}
{"id": "C58", "title": "add_initial_states adds the states carrying a label", "statement": "After add_initial_states(ts, ap_labels) the initial states are the former ones together with exactly the states whose label is one of ap_labels.", "quantifier": "all transition systems, all label lists", "why_tests_cant": "Systems and label lists are unbounded; the shipped example never checks the result.", "anchors": ["tulip/transys/transys.py:add_initial_states"]}
{"id": "C59", "title": "Marking a cell changes that cell only", "statement": "After mark_occupied or mark_empty, is_empty answers accordingly for that cell (also through a negative index), and as before for every other cell.", "quantifier": "all worlds, cells and indices", "why_tests_cant": "Quantifies over all worlds and indices.", "anchors": ["tulip/gridworld.py:GridWorld.mark_occupied", "tulip/gridworld.py:GridWorld.mark_empty", "tulip/gridworld.py:GridWorld.is_empty"]}
{"id": "C60", "title": "GridWorld.state sets exactly the variable of its cell", "statement": "state(key, offset) gives every variable of the world once, true for the cell at key and false for all others (or row and column in the integer encoding), matching the names and domains of spec with the same offset.", "quantifier": "all worlds, keys and offsets", "why_tests_cant": "Quantifies over all worlds, keys and offsets.", "anchors": ["tulip/gridworld.py:GridWorld.state", "tulip/gridworld.py:GridWorld.spec"]}
{"id": "C61", "title": "Refining a partition keeps it a partition", "statement": "pwa_partition, part2convex and add_grid return partitions of the same domain whose cells lie each inside the cell named as its parent and carry its propositions, with two cells adjacent exactly when they touch and their parents are equal or adjacent.", "quantifier": "all region algebras, partitions, subsystem lists and grid sizes", "why_tests_cant": "Quantifies over all partitions; the tests compare a handful of concrete grids.", "anchors": ["tulip/abstract/prop2partition.py:pwa_partition", "tulip/abstract/prop2partition.py:part2convex", "tulip/abstract/prop2partition.py:add_grid"]}
{"id": "C62", "title": "McNaughton's algorithm returns the winning regions of a parity game", "statement": "For every finite parity game without sinks McNaughton returns the sets of nodes won by player 0 and by player 1.", "quantifier": "all finite parity games", "why_tests_cant": "Quantifies over all games; the script has one demonstration and no test.", "anchors": ["contrib/parity_games/solve_parity_game.py:McNaughton", "tulip/transys/automata.py:ParityGame.max_color"]}
{"id": "C63", "title": "createLM stacks exactly the constraints of the trajectories", "statement": "For every linear system, horizon, list of polytopes and disturbance set, a vector (x(0), u(0), ..., u(N-1)) satisfies L z <= M as computed by createLM if and only if for all disturbances from the disturbance set the trajectory satisfies x(k) in list_P[k] and [u(k); x(k)] in Uset.", "quantifier": "all systems, horizons, polytopes, disturbance sets and points", "why_tests_cant": "A statement about all real points and all disturbance sequences; the tests solve a few examples end to end.", "anchors": ["tulip/abstract/feasible.py:createLM", "tulip/abstract/feasible.py:get_max_extreme", "tulip/abstract/feasible.py:_block_diag2"]}
{"id": "C64", "title": "solve_feasible returns states from which the target can be enforced", "statement": "Every state in the result of solve_feasible lies in P1, and from it the inputs can be chosen so that for all disturbances the target P2 is reached in exactly N steps (within N steps with use_all_horizon), with intermediate states in trans_set; between polytopes the fixed-horizon result is exact; is_feasible answers True only if all states of the region have this property.", "quantifier": "all systems, regions, horizons, disturbances", "why_tests_cant": "Quantifies over all states and all plays against the disturbance.", "anchors": ["tulip/abstract/feasible.py:solve_feasible", "tulip/abstract/feasible.py:_solve_closed_loop_fixed_horizon", "tulip/abstract/feasible.py:_underapproximate_attractor", "tulip/abstract/feasible.py:_solve_closed_loop_bounded_horizon", "tulip/abstract/feasible.py:solve_open_loop", "tulip/abstract/feasible.py:is_feasible"]}
{"id": "C65", "title": "The bisimulation-like abstraction is a partition whose transitions can be executed", "statement": "For every system, partition and parameters, when _discretize_bi returns, the cells are a partition with the same labels that refines the given one, the maps to the coarser partitions and to subsystems are right, every transition of the returned transition system can be executed by the system from all states of its cell (up to a set of volume abs_tol) within the coarser cell, every pair of cells within trans_length steps without a transition was refused by solve_feasible, and states and labels of the transition system are those of the cells. The function returns.", "quantifier": "all systems, partitions, parameters and runs of the loop", "why_tests_cant": "The loop runs over growing matrices for an unbounded number of rounds; tests compare a few final systems.", "anchors": ["tulip/abstract/discretization.py:_discretize_bi", "tulip/abstract/discretization.py:reachable_within", "tulip/abstract/discretization.py:sym_adj_change"]}
{"id": "C66", "title": "The abstraction of a switched system merges its modes into one transition system", "statement": "For every dictionary of mode abstractions over one partition and whatever the order in which modes are taken, merge_partitions returns the common refinement: every merged region is the intersection of one cell per mode, recorded in ppp2modes, with the same propositions; regions overlap in null sets; every common part of radius at least 1e-5 is in some region; adjacency is exactly touching; and if no full-dimensional common part is thinner, the regions are a partition of the domain. get_transitions gives a transition only between regions within trans_length steps, whose states can all be driven there in that mode within the region the cell comes from, and tries all such pairs. The merged transition system has the regions as states with their propositions and exactly the transitions of the modes labelled with the names of the mode, and discretize_switched returns it.", "quantifier": "all numbers of modes, partitions, horizons, orders of iteration", "why_tests_cant": "The number of modes and of cells is unbounded and the order of a set of modes varies between runs; tests use two modes and one partition.", "anchors": ["tulip/abstract/discretization.py:discretize_switched", "tulip/abstract/discretization.py:merge_partitions", "tulip/abstract/discretization.py:merge_partition_pair", "tulip/abstract/discretization.py:get_transitions", "tulip/abstract/discretization.py:merge_abstractions", "tulip/hybrid.py:SwitchedSysDyn"]}
{"id": "C67", "title": "Inputs computed for a transition of the abstraction execute it, at least cost", "statement": "For all systems, horizons, polytopes and costs, whatever exact solvers and polytope library: inputs returned by get_input_helper in open loop keep the plant in the start set and take it to the target polytope under every disturbance, and have the least program cost among all inputs that do; if such inputs exist and costs are bounded, the norms 1 and infinity find some. In closed loop the first input is admissible and leads, under every disturbance, to states from which the target can still be forced; recomputing with decreasing horizon reaches the target through the start set; if Uset does not constrain states and no disturbance is possible, recomputation never fails where the target can be forced. get_input returns inputs only for transitions of the abstraction, for some polytope of the target, with the least cost among its attempts. is_seq_inside is true exactly for input sequences whose undisturbed trajectory stays and arrives; find_discrete_state returns the first region that contains the point.", "quantifier": "all systems, horizons, disturbances, costs, abstractions", "why_tests_cant": "Disturbances and costs range over continua; tests run a few transitions of two systems and check undisturbed trajectories.", "anchors": ["tulip/abstract/find_controller.py:get_input", "tulip/abstract/find_controller.py:get_input_helper", "tulip/abstract/find_controller.py:is_seq_inside", "tulip/abstract/find_controller.py:find_discrete_state"]}
{"id": "C68", "title": "Synthesis from transition systems yields a controller that executes them and meets the specification", "statement": "For all specifications, transition systems, options and strategies: the specification that synthesize (and synthesize_many) gives to the solver is, on every trace, exactly the user's assumptions and guarantees plus that the environment system behaves and the controlled system is executed, with the systems' initial conditions as assumptions when all initial values are universally quantified; if the solver returns a strategy whose infinite paths meet that specification then every infinite run of the returned machine on which the user's assumptions hold and the environment is executed meets the user's guarantees and executes the system; trimming neither adds nor loses infinite runs and leaves a machine that never gets stuck; None is returned exactly if the solver returns None; is_realizable answers for the same specification; options of systems must agree with the user's; gr1c accepts the merged specification exactly if it accepts the user's.", "quantifier": "all specifications, transition systems, options, solver answers, infinite runs", "why_tests_cant": "The claim is about infinite runs of machines for arbitrary systems; tests synthesize a few controllers and check that the result is not None or count its states.", "anchors": ["tulip/synth.py:synthesize", "tulip/synth.py:synthesize_many", "tulip/synth.py:_spec_plus_sys", "tulip/synth.py:_trim_strategy", "tulip/synth.py:is_realizable", "tulip/interfaces/gr1c.py:select_options"]}
{"id": "C69", "title": "Solvers are given what the specification says, and their answers become strategies that meet it", "statement": "For all specifications and solver answers: the automaton given to omega declares each variable once with its range (string variables over the positions of their values), and on integer-encoded traces its initial conditions, actions and goals say exactly what the specification says; every specification whose clauses can be encoded is accepted; load_aut_json accepts exactly the version-1 documents with enough values and an initial mark at each node, and yields exactly their nodes, values, edges and initial nodes; if the answer of omega meets the automaton, or the answer of gr1c or gr1py meets the document, then the returned strategy has the required form and meets the specification, and the machine that synthesize returns with that solver controls the system; omega's two entry points agree.", "quantifier": "all specifications, automata, documents, solver answers, traces and infinite runs", "why_tests_cant": "Tests run the solvers on a few specifications and check realizability; they cannot compare the meaning of the texts given to a solver with the specification on all infinite traces.", "anchors": ["tulip/interfaces/omega.py:_grspec_to_automaton", "tulip/interfaces/omega.py:synthesize_enumerated_streett", "tulip/interfaces/omega.py:_strategy_to_state_annotated", "tulip/interfaces/gr1c.py:load_aut_json", "tulip/interfaces/gr1c.py:synthesize", "tulip/interfaces/gr1py.py:synthesize"]}
{"id": "C70", "title": "What slugs is given says what the specification says, and its answers become strategies that meet it", "statement": "For all specifications over Booleans and integers whose text for slugs is produced: read by an independent grammar of structured slugs documents, the text declares each player's variables with their domains, and the INIT, TRANS and LIVENESS sections of each player allow exactly the infinite traces allowed by that player's part of the specification; the translation succeeds on a clause exactly if it uses the supported operators; the initial condition compiled to Python is true on the integers read at a node exactly if the initial condition of the specification holds there; if the answer of slugs meets the document then the returned strategy has the required form and meets the specification from every node that satisfies the compiled initial condition, and the machine that synthesize returns with solver slugs controls the system; the realizability check agrees with synthesis.", "quantifier": "all specifications, documents, answers of slugs, traces and infinite runs", "why_tests_cant": "Tests run slugs on a few specifications; they cannot compare the meaning of the text with the specification on all infinite traces, nor follow the initial nodes that are recomputed by evaluating a condition on the decoded integers.", "anchors": ["tulip/spec/translation.py:_to_slugs", "tulip/spec/translation.py:_format_slugs_vars", "tulip/spec/translation.py:_slugs_str", "tulip/interfaces/slugs.py:synthesize", "tulip/interfaces/slugs.py:check_realizable", "tulip/synth.py:_init_edges_using_compile_init"]}
{"id": "C71", "title": "Markov models written for stormpy are the models, and what is read back is about the right states and actions", "statement": "For all Markov chains and decision processes with one initial state whose propositions all label a state: to_prism_file writes a text which, read by an independent grammar of prism programs, is a program with the same states, initial state, labels, one command for each state and action that has transitions, with the same targets in the same order and probabilities within 1/20000 (exactly the same if they have four decimals); to_tulip_state returns exactly the one state with the labels of a state of stormpy; if stormpy builds the model of the program, the probabilities returned by model_checking are the values of the formula at the states they are given for; get_action_map keeps exactly the actions that agree with all choices of a name to a millionth; the policy returned is the one chosen if choices are named after the actions and the actions are told apart; to_tulip_transys yields a system with exactly the states, initial states, labels, actions and transitions of the model of stormpy.", "quantifier": "all Markov chains and decision processes, all models and results of stormpy, all formulas", "why_tests_cant": "Tests run stormpy on one model; they cannot show that the text written is the model for every size and every probability, nor that states and actions are recovered whenever labels and probabilities tell them apart.", "anchors": ["tulip/interfaces/stormpy.py:to_prism_file", "tulip/interfaces/stormpy.py:to_tulip_state", "tulip/interfaces/stormpy.py:to_tulip_labels", "tulip/interfaces/stormpy.py:get_action_map", "tulip/interfaces/stormpy.py:to_tulip_action", "tulip/interfaces/stormpy.py:model_checking", "tulip/interfaces/stormpy.py:to_tulip_transys"]}
{"id": "C72", "title": "The texts written for Wring (Lily) and JTLV say what the specification says", "statement": "For all GR(1) specifications: the formula written for Wring, read by an independent grammar, is true of exactly the behaviours in which the system meets its part if the environment does; the assumption and the guarantee written for JTLV, read by an independent grammar with comments, are conjunctions true of exactly the (integer encoded, player qualified) behaviours in which the environment, respectively the system, meets its part. A formula has a translation to Wring, JTLV or SMV exactly if all its operators are on a fixed list and its variables are declared (Boolean for Wring), and it is then read back as the same formula. Lily is given this formula and a file with exactly the variables of the two players; None is returned iff Lily says that the formula is not realizable.", "quantifier": "all specifications and formulas, all behaviours, all answers of Lily", "why_tests_cant": "Tests compare a few translations with expected texts and skip the calls to the tools; they cannot show for every specification that the text is well formed and has the same behaviours.", "anchors": ["tulip/spec/translation.py:_to_jtlv", "tulip/spec/translation.py:_jtlv_str", "tulip/spec/translation.py:_to_wring", "tulip/spec/translation.py:make_jtlv_nodes", "tulip/spec/translation.py:make_wring_nodes", "tulip/spec/translation.py:make_smv_nodes", "tulip/spec/translation.py:make_promela_nodes", "tulip/interfaces/lily.py:synthesize", "tulip/interfaces/lily.py:_lily_strategy2moore"]}
{"id": "C73", "title": "The dual-simulation abstraction keeps the given cells and has only transitions that the system can make", "statement": "For all systems, partitions, options and cuts: whatever _discretize_dual returns has the given cells (refined by the subsystems) followed by further cells, all full-dimensional, labelled like and contained in the given cell they come from, covering the domain; a transition from cell i to cell j means that all of cell i, up to the tolerance, can be driven to cell j; for every pair of cells within the given number of hops there is the transition, or the answer of the reachability computation is too small or leaves too little, or exactly the part of cell i that reaches cell j is itself a cell with the transition. Without subsystems and without removal of transitions no error is raised if the reachability computation raises none.", "quantifier": "all partitions, adjacency tolerances and polytope operations with the stated laws, all reachability oracles, all numbers of rounds", "why_tests_cant": "The repository tests run the dual algorithm on one system without subsystems and look at the number of cells; they cannot show what a transition means for every system, nor that the loop ends.", "anchors": ["tulip/abstract/discretization.py:_discretize_dual"]}
{"id": "C74", "title": "The never claims of ltl2ba are read as the automata that they are", "statement": "For every text of a never claim in the format of ltl2ba whose labels are all followed by lists of cases, the reader returns an automaton whose propositions are the names in the guards, whose nodes are the labels, whose edges are the cases in their order with guards that evaluate in Python to the value of the guard in the claim; with the labels that ltl2ba uses for claims that start in a state that is not accepting, the automaton accepts exactly the infinite words that the claim accepts. A text whose end is missing is not read as a claim.", "quantifier": "all texts of the grammar of claims (all blanks, guards, numbers of labels and cases), all infinite words", "why_tests_cant": "The repository test reads one text; what the automaton accepts is about infinite words, and errors of syntax are only logged, so that a claim that is partly dropped looks like one that is read.", "anchors": ["tulip/interfaces/ltl2ba.py:Lexer", "tulip/interfaces/ltl2ba.py:Parser", "tulip/interfaces/ltl2ba.py:call_ltl2ba", "tulip/interfaces/ltl2ba.py:ltl2ba"]}
{"id": "C75", "title": "The Promela text of a transition system is a program whose executions are the paths of the system", "statement": "For every finite transition system without labels on its transitions, whose states and propositions have names of Promela and whose states all have a successor, fts2promela returns a text that is a well-formed Promela program with the propositions as variables; its executions visit exactly the paths of the system, after each transition the variables hold exactly for the propositions in the label of the state reached, and its name has been printed.", "quantifier": "all such systems, all paths and executions", "why_tests_cant": "No test of the repository exports to Promela; what the text means is about all executions of the program, which needs a description of Promela beside the exporter.", "anchors": ["tulip/transys/export/graph2promela.py:fts2promela", "tulip/transys/transys.py:FiniteTransitionSystem._save"]}
{"id": "C76", "title": "A simulation of plant and strategy is an execution of both", "statement": "For every affine plant without offset, abstraction, strategy and sequence of environment inputs, with exact polytope operations and solvers: when the simulation after its initialization returns, its points form a trajectory of the plant without disturbances under admissible inputs, of T intervals of N steps; in each interval the strategy makes a step on the next environment input, the plant stays before the end of the interval in the set of the cell where it starts (for an original partition: in the original cell), is at the end in the cell that the output names, and the two cells are a transition of the abstraction. Its assertions fail only if two cells have a point in common, and it runs to the end if the strategy has exactly one answer, names a cell that the plant can be driven to, and cells have no points in common.", "quantifier": "all plants, abstractions, strategies, environment inputs, numbers of rounds, initial points", "why_tests_cant": "The function is not tested, and it fails on every call; what its loop does depends on all reachable points and the solutions of linear programs.", "anchors": ["tulip/abstract/plot.py:simulate2d", "tulip/abstract/plot.py:pick_point_in_polytope", "tulip/abstract/find_controller.py:get_input"]}
{"id": "C77", "title": "Constructors of dynamical systems accept exactly what fits together and give the parts the time data of the whole", "statement": "For all arguments, LtiSysDyn returns exactly if the matrices and sets have fitting sizes and the time data are right, and fills in missing E and K with zero columns. PwaSysDyn returns exactly if the domains of its pieces cover its domain and overlap only in null sets, all pieces have the same sizes, and with overwrite_time=False there is a piece and all have equal time data; SwitchedSysDyn returns exactly if its modes are accepted and their systems are PWA systems with the right time data. The factories return exactly if the constructors that they call do with all matrices given. In every state that a program reaches by calls of the constructors, every object has these properties, although later calls overwrite the time data of its parts. The parts of a new object, and with overwrite_time the parts of its parts, have its time data and nothing else is changed; where no object is part of two others, every object agrees with its parts for ever.", "quantifier": "all arguments, all sequences of constructor calls, every library of sets with exact operations up to null sets", "why_tests_cant": "Objects are shared and changed by later calls, so the claim is about all sequences of calls; the tests try single calls with a few matrices.", "anchors": ["tulip/hybrid.py:LtiSysDyn.__init__", "tulip/hybrid.py:PwaSysDyn.__init__", "tulip/hybrid.py:SwitchedSysDyn.__init__", "tulip/hybrid.py:_push_time_data", "tulip/hybrid.py:_check_time_data", "tulip/hybrid.py:_check_time_consistency", "tulip/hybrid.py:PwaSysDyn.from_lti", "tulip/hybrid.py:SwitchedSysDyn.from_lti", "tulip/hybrid.py:SwitchedSysDyn.from_pwa"]}
{"id": "C78", "title": "An interactive session with gr1c stays in step with the tool", "statement": "For every game that gr1c reads from a file, all variable lists, and every prompt without line ends and dashes that has a character which answers do not have: whatever sequence of calls of GR1CSession methods is made (iswinning, getindex, env_next, sys_nextfeas, sys_nexta, getvars, numgoals, reset, close), with states that give a value to each variable and to nothing else, every call returns the answer of the tool for the state that was meant, goal modes out of range raise ValueError, calls without a running tool raise AttributeError, reset and close start and end the tool as documented, and afterwards no output of the tool is left over, so that the next answer is not mistaken. A state without one of the variables is an error before anything is sent.", "quantifier": "all games, variables, prompts of that kind, all finite sequences of calls", "why_tests_cant": "The answers are read from one stream of text; whether they belong to the questions depends on all calls made before. The tests make a few calls on one specification.", "anchors": ["tulip/interfaces/gr1c.py:GR1CSession"]}
{"id": "C79", "title": "Strategies and specifications in tulipcon XML are read as they are written", "statement": "For every document with variables of both players, domains, six lists of clauses and possibly a strategy, whose lists are written as elements or as text: load_aut_xml returns, without a strategy, the specification with these variables and clauses, and with one, the graph whose nodes have the states, modes and ranks of the document and whose edges are exactly those to the listed successors; of nodes with the same number the first one counts. This holds in every namespace and whatever blanks the document has. load_mealy returns that graph, or a ValueError for an unknown format. get_version reads the version that the tool prints.", "quantifier": "all documents: variables, domains, clauses, nodes, successors, extra elements, blanks, namespaces; all versions", "why_tests_cant": "The only test reads one document in the default namespace with blanks in it and counts its nodes.", "anchors": ["tulip/interfaces/gr1c.py:load_aut_xml", "tulip/interfaces/gr1c.py:_untaglist", "tulip/interfaces/gr1c.py:_untagdict", "tulip/interfaces/gr1c.py:_parse_vars", "tulip/interfaces/gr1c.py:load_mealy", "tulip/interfaces/gr1c.py:get_version"]}
{"id": "C80", "title": "Generated gridworlds have what was asked for", "statement": "For all outcomes of the random draws: a world from random_world has the given size, exactly the given number of walls, and the given numbers of initial cells, goals and centres of trolls, all distinct and free; with ensure_feasible all initial cells and goals are mutually reachable. Without it a world is made if and only if the cells suffice, and else ValueError is raised; with it the function returns or times out. A world from narrow_passage has walls exactly between two zones of the given width and outside of the rows of the passage, initial cells in the left zone and goals in the right zone, and all of them are connected through the passage, which may be at every row. The prefix that was given is kept.", "quantifier": "all sizes, numbers, lengths and widths; all sequences of random draws; all moments of the timeout", "why_tests_cant": "The tests draw some worlds of one size and check only that goals are reachable; other draws, sizes and passages outside of the grid are not tried.", "anchors": ["tulip/gridworld.py:random_world", "tulip/gridworld.py:narrow_passage", "tulip/gridworld.py:unoccupied"]}
{"id": "C81", "title": "Games with moving obstacles are what was described", "statement": "With integer variables, the specification from add_trolls describes exactly this game: each troll has its own position, starts at its centre or, if asked, at any free cell of its trollspace, and moves one step or stays, always to free cells within the given radius of its centre; the system moves likewise in the whole world, starting at an initial cell, and never moves onto a cell to which a troll moves; trolls return to their centres infinitely often, and the system visits its goals. The lists of moves have one state for each cell of each trollspace. Also with Boolean variables the names agree; the system and a troll never are on one cell and never exchange cells; the states are in the domains of the variables and on free cells.", "quantifier": "all worlds, all lists of trolls with centres and radii, all traces of the variables", "why_tests_cant": "The tests only check that some specification is realizable; that the clauses exclude exactly the collisions in coordinates of subworlds that are cut at the borders is a statement about all positions and traces.", "anchors": ["tulip/gridworld.py:add_trolls"]}
{"id": "C82", "title": "Random and interactive runs are runs of the machine", "statement": "For all random draws, the states and outputs from random_run are those of a run of the machine with the number of reactions that was asked for; it fails only where the machine blocks; every run of the machine is the result for some draws; and on a deterministic machine it is the guided run on the inputs that were drawn. In an interactive run, the line with the number of a transition selects this transition, the machine moves along the selected transitions, and an empty line ends the run.", "quantifier": "all machines, start states, numbers of reactions, sequences of draws and lines of input", "why_tests_cant": "The tests do not call these functions; a test would see some draws, and an interactive run needs a person.", "anchors": ["tulip/transys/machines.py:random_run", "tulip/transys/machines.py:interactive_run", "tulip/transys/machines.py:_interactive_run_step", "tulip/transys/machines.py:_select_transition"]}
{"id": "C83", "title": "Full names of operators mean their symbols", "statement": "With full_operators=True, exactly the words that are full names of operators, in any case, are replaced by their symbols, all at once, and the rest of the text is kept; a text without such words is parsed as without the option; and a formula whose operators are written by full names or by symbols, in any mixture, is parsed to its tree. Variables and values between quotes are not changed.", "quantifier": "all texts; all trees with plain operators and all ways of writing their operators", "why_tests_cant": "The tests parse three formulas; names inside of identifiers with dots, in quotes and next to other symbols are not tried.", "anchors": ["tulip/spec/parser.py:_replace_full_name_operators", "tulip/spec/parser.py:parse", "tulip/spec/ast.py:FULL_OPERATOR_NAMES"]}
{"id": "C84", "title": "Values replace variables in trees", "statement": "sub_values with a map from variables to values gives the tree in which exactly the variables of the map are replaced by nodes with their values, for strings, integers and Booleans; the method of specifications does so for every formula of the specification and leaves the specification unchanged.", "quantifier": "all trees, maps and specifications", "why_tests_cant": "The tests do not call the function on trees that consist of one variable, nor with integer or Boolean values.", "anchors": ["tulip/spec/transformation.py:sub_values", "tulip/spec/form.py:GRSpec.sub_values"]}
{"id": "C85", "title": "Masked outputs and projected strategies", "statement": "mask_outputs erases from every edge exactly the outputs that are zero and keeps everything else; project_strategy_on_partition gives the matrix with a 1 exactly at the pairs of regions between which the strategy moves, in particular for strategies that were synthesized.", "quantifier": "all machines; all strategies from a solver", "why_tests_cant": "The tests call neither function: they serve drawing.", "anchors": ["tulip/synth.py:mask_outputs", "tulip/abstract/plot.py:project_strategy_on_partition"]}
{"id": "C86", "title": "Accepting states, Rabin pairs and colors", "statement": "The accepting states of an automaton, and the good and bad states of every Rabin pair, are states, after any sequence of calls. Removing a state removes it from the states, from the initial states and from the accepting states if present, with its transitions, and nothing else. Adding a Rabin pair appends the pair of exactly these sets or changes nothing; removing one removes the first equal pair; adding states to a pair adds to both sets or changes nothing. max_color is the maximal color of the nodes of a parity game.", "quantifier": "all sequences of calls on automata and Rabin automata; all parity games", "why_tests_cant": "The one test makes five calls on Rabin pairs; no test removes a state of an automaton, and no test uses parity games.", "anchors": ["tulip/transys/automata.py:FiniteStateAutomaton.remove_node", "tulip/transys/automata.py:RabinPairs", "tulip/transys/automata.py:ParityGame.max_color", "tulip/transys/labeled_graphs.py:States.remove"]}
{"id": "C87", "title": "The transition system of a partition", "statement": "ppp2ts returns a transition system with one state for each region of the partition, a transition exactly between regions that are adjacent, and as label of each state the propositions of its region, together with the list of states in the order of regions; a region with a proposition that the partition does not have is rejected.", "quantifier": "all partitions with a matrix of adjacency and labelled regions", "why_tests_cant": "No test calls the function; a test would see some partitions only.", "anchors": ["tulip/abstract/prop2partition.py:ppp2ts", "tulip/transys/labeled_graphs.py:Transitions.add_adj", "tulip/transys/labeled_graphs.py:prepend_with"]}
{"id": "C88", "title": "Switched systems abstracted by several processes", "statement": "multiproc_discretize_switched returns for each order in which the workers end a sound abstraction of the switched system: the common refinement of the partitions of the modes with the transitions that can be executed in each mode. It returns what discretize_switched returns for the same parameters, and it ends whenever discretize_switched does.", "quantifier": "all switched systems, parameters of the modes and orders in which the workers end", "why_tests_cant": "A run of the test shows one order of the processes; the parameters of the tests are few.", "anchors": ["tulip/abstract/discretization.py:multiproc_discretize_switched", "tulip/abstract/discretization.py:multiproc_get_transitions", "tulip/abstract/discretization.py:multiproc_discretize", "tulip/abstract/discretization.py:get_transitions"]}
{"id": "C89", "title": "Maps of an abstraction and the check of its transitions", "statement": "ts2ppp, ppp2pwa, ppp2sys and ppp2orig map each state to its cell, each cell to the region that its transitions pass through, to the subsystem active in it and to the region of the given partition, each containing the cell. verify_transitions reports each transition of the abstraction once, and as correct if and only if solve_feasible with the parameters of the discretization finds all of its cell, so that all transitions made by discretize are correct.", "quantifier": "all partitions, linear and piecewise affine systems and parameters of the discretization", "why_tests_cant": "No test calls verify_transitions; what it says is only logged.", "anchors": ["tulip/abstract/discretization.py:AbstractPwa.ts2ppp", "tulip/abstract/discretization.py:AbstractPwa.ppp2pwa", "tulip/abstract/discretization.py:AbstractPwa.ppp2sys", "tulip/abstract/discretization.py:AbstractPwa.ppp2orig", "tulip/abstract/discretization.py:AbstractPwa.verify_transitions"]}
{"id": "C90", "title": "State Chart XML of a Mealy machine", "statement": "mealy2scxml returns, for each Mealy machine with exactly one initial state, a well-formed XML document with one element for each state, inside of it one element for each transition that leaves the state with its label and target, and the initial state as attribute of the document; for other machines it raises. Saving a machine as scxml writes this document.", "quantifier": "all machines, names of states and printed labels", "why_tests_cant": "No test calls mealy2scxml, and the shape of the text for all machines is not a finite check.", "anchors": ["tulip/transys/export/machine2scxml.py:mealy2scxml", "tulip/transys/machines.py:MealyMachine._save"]}
{"id": "C91", "title": "Players and colors of game graphs", "statement": "After any calls that add or remove states and edges of a GameGraph, each state belongs to player 0 or player 1: player_states of the two players returns two disjoint sets that together are the states, and edge_controlled_by returns the player of the source of an edge. Adding a state gives it to the player named, else to player 0, and changes no other state; naming only another label of a state keeps its player. Colors of ParityGame(c) are 0, ..., c-1. The constructor changes no argument.", "quantifier": "all label types given to the constructor, all sequences of calls, all numbers of colors", "why_tests_cant": "The tests build one game; the invariant is about all sequences of calls and label types.", "anchors": ["tulip/transys/transys.py:GameGraph", "tulip/transys/automata.py:ParityGame"]}
{"id": "C92", "title": "Translation of formulas to the syntax of ltl2dstar", "statement": "spin_to_dstar translates each formula in the syntax of SPIN to a text in prefix notation that ltl2dstar reads as the same formula, in any number of calls one after the other; it raises for texts that are no formulas, and this has no effect on later calls.", "quantifier": "all formulas, names and sequences of calls", "why_tests_cant": "Five formulas are tested, all with parentheses, none with a mistake; formulas have any depth.", "anchors": ["contrib/spin2dstar.py:spin_to_AST", "contrib/spin2dstar.py:spin_to_dstar", "contrib/spin2dstar.py:AST.to_dstar", "contrib/spin2dstar.py:push_op"]}
{"id": "C93", "title": "Reading automata in the format of lbt", "statement": "readlbt returns the automaton that its text describes: the number of acceptance sets, each state with whether it is initial and the sets it is in, and an edge with its gate for each transition.", "quantifier": "all automata in the format of lbt: any number of states, acceptance sets, transitions, and gates of any length", "why_tests_cant": "The module has no tests; automata and gates have any size.", "anchors": ["contrib/readlbt.py:readlbt", "contrib/readlbt.py:_split2", "contrib/readlbt.py:GBAutomaton"]}
