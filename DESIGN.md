# Formal model of tulip-control in Rocq (Coq 8.16.1)

The code in /repo is read, never run.  The model lives in `rocq/theories`:

* `M_*.v`  models of the Python code, function by function, each definition citing file and lines;
* `S_*.v`  small specifications, written without using the models (trace semantics, graph paths, set laws);
* `L_*.v`  proofs;
* `T_*.v`  the property theorems: statement, `exact lemma`, `Print Assumptions`, and a concrete `Example`
  meeting the hypotheses.

Modelling conventions: Python functions become total Gallina functions; a raised exception becomes an error
value (`option`/`result`), never a default; loops become structural recursion, folds, or recursion on fuel with
a distinct out-of-fuel value which the theorems exclude; Python `str` is Coq `string` (ASCII);
Python `set`/`dict` are duplicate-free lists / association lists, and where iteration order of a `set` is
unspecified the theorem holds for every order.  Floats are not modelled (costs and probabilities are Z, Q or an
abstract ordered monoid).

## Plan per property

| id | modelled | how proved |
|----|----------|-----------|
| C01-C05 | lexer, parser (PLY shift/reduce with the precedence table), text generation of the four `*_to_gr1` conversions, LTL semantics over infinite traces | parser frame lemma for parenthesised text, then equivalences over traces by first-occurrence arguments; causality by explicit online witness / diagonal trace |
| C06-C07 | `split_gr1` stack loop, `has_operator` | loop invariant over the stack; semantic equivalence; acceptance characterised, with `W` as a counterexample |
| C08 | `to_canon` text | parse of the text + semantics |
| C09-C10 | GRSpec record, `|`, `declare` | algebra of clause lists; invariant over call sequences |
| C11 | `check_syntax` | case analysis; counterexample for `sys_prog` |
| C12-C13 | AST substitution, constant encoding | structural induction, semantics |
| C14 | `flatten`, lexer, parser | round trip by structural induction with a stack-generalised statement |
| C15-C16 | translators to Python / gr1c | structural induction against an evaluator for the target |
| C17-C21 | synth.py formula generators | parse of generated text, counting lemmas, trace semantics |
| C22-C23 | strategy2mealy, determinize_machine_init | run simulation by induction on path length |
| C24 | LTL.dumps/loads | string round trip |
| C25-C28 | mathset.py | invariants over operation sequences, refinement to sets |
| C29-C30 | LabeledDiGraph operations, remove_deadends | invariants over operation lists; greatest-fixpoint argument |
| C31-C32 | simu_abstract | loop invariants, termination measure, bisimulation |
| C33-C35 | products.py, compositions.py | worklist invariant; sums over Q |
| C36-C38 | machines.py | simulation |
| C39-C40 | builders in transys.py, automata.py | induction on lists |
| C41-C43 | Dijkstra, VectorCost, mvp | priority-queue invariant, optimality over all paths |
| C44-C45 | PrioritizedSpecification, FunctionOnLabeledState | refinement to a list / finite map |
| C46-C51 | gridworld.py | search invariant, trace semantics of generated text, string round trips |
| C52 | text written by `dumpsmach.python_case`; independent reader and interpreter of the class | parse of the text by indentation, then simulation of runs |
| C53-C54 | prop2partition list surgery over an abstract region algebra, compute_interval | invariant, induction |
| C55-C56 | slugs bit fields, contrib parity attractor | arithmetic; counterexample |
| C57-C60 | `Transitions.find`, `add_initial_states`, marking cells, `GridWorld.state` | case analysis, counterexamples |
| C61 | `pwa_partition`, `part2convex`, `add_grid` over an abstract region algebra | partition record preserved by each refinement |
| C62 | contrib McNaughton recursion on parity games | case analysis, counterexamples |
| C63 | `createLM`, `get_max_extreme` over rational arrays | stacked arrays as linear forms on trajectories, maxima over vertex sequences |
| C64 | horizon loops of `solve_feasible` over an abstract polytope library | refinement of a game between inputs and disturbances; instance by Fourier-Motzkin elimination |
| C65 | loop of `_discretize_bi` over an abstract polytope library | invariant of the loop (partition, parents, adjacency, executable transitions, pairs still to try), ranking by cells that still fit and pairs; instances by points and by intervals |
| C66 | `merge_partitions`, `get_transitions`, `merge_abstractions`, `discretize_switched` over an abstract polytope library, any order of the set of modes | invariant of the merges (common refinement with parents), soundness of the transitions, exact edges of the common system, `is_abstraction` of C65 gives what is assumed of a mode |
| C67 | `get_input`, `get_input_helper`, `is_seq_inside`, `find_discrete_state` over an abstract polytope library and abstract solvers | rows of the programs as linear forms on trajectories (C63), equality of the program costs with norms of trajectories, induction over recomputed steps, invariant of the search over target polytopes; instance by Fourier-Motzkin elimination with an exact solver for linear programs |
| C68 | `_spec_plus_sys`, `_copy_options_from_ts`, `synthesize`, `synthesize_many`, `_synthesize`, `_trim_strategy`, `is_realizable`, gr1c's `select_options`, solvers as oracles | meaning of the merged clauses from C17-C21 and C12; infinite words of machine and strategy (C23) and removal of dead ends (C35); contract of the solver on infinite words gives the guarantee of the user's specification |
| C69 | interfaces: omega (`_grspec_to_automaton`, `_strategy_to_state_annotated`, `synthesize_enumerated_streett`, `is_realizable`), gr1c (`load_aut_json`, `synthesize`, `check_realizable`), gr1py; the algorithms of the solvers are oracles | texts of the automaton read with the grammar of C01-C04 and compared, through the encoding of C15, with the clauses on all traces; contracts on automaton and document level imply the contract of C68, hence correctness of the machine |
| C70 | translation to slugs, `slugs.synthesize`, `slugs.check_realizable`, and the initial condition evaluated on the nodes of the answer; the algorithm of slugs is an oracle | an independent reader of structured slugs documents; sections compared with the clauses on all traces; Python evaluation of Booleans and of 0/1 related; the contract on documents implies the contract of C68 |
| C71 | `to_prism_file`, states, labels, actions, probabilities and policies read from stormpy, `to_tulip_transys`; stormpy itself is an oracle | an independent reader of prism programs; the model built of a program as a relation; folds over states characterized exactly |
| C72 | translation to Wring, JTLV, SMV and Promela, and the interface to Lily; Lily is an oracle | independent readers of the four languages, parametric in operators and atoms; round trip of formulas; conjunctions of clauses |
| C73 | `_discretize_dual` with the parameters of C65 (polytope operations, `solve_feasible`) | invariant of the loop: the cells have a map to the given cells, each transition is justified, each pair is pending, justified, turned down or represented by a cell that is the intersection; unbounded runs by invariants of two families of states |
| C74 | tokens, guards, cases, clauses and claims of ltl2ba.py with the actions of the parser in their order | texts are described by a grammar with meanings (S_Never); each construct gives its tokens whatever follows and is read with the actions of its parts; the actions are folded; runs of the automaton are runs of the claim |
| C75 | `fts2promela` over the graphs of C55-C57, the part of Promela that it uses (tokens, programs, executions) in S_Promela | the text gives the tokens of a program written down from the system (parts give tokens whatever follows); executions and paths by induction; texts that are no programs by a property of the tokens of all programs |
| C76 | `simulate2d` over `get_input` (C70), `reaction` (C36) and `find_discrete_state`, with the polytope library and solvers as parameters (M_Simulate) | the constraints of the programs hold for the trajectory without disturbances (whether computed for open or closed loop); rounds by induction; executions of machine and plant are an inductive relation in T_Simulate |
| C77 | constructors and factories of hybrid.py over a list of objects with identities, time data pushed into shared parts; the polytope library is a parameter (M_Hybrid) | each check is an `iff` with a specification of sizes, divided domains and time data; an inductive predicate of reachable lists of objects gives invariants (soundness, and agreement of time data without sharing) |
| C78 | `GR1CSession` over a process with unread output (M_Session); the tool is a parameter of the model, and in the theorems a specification of gr1c's command language that splits lines into words and reads the numbers itself (T_Session) | the invariant that exactly the prompt is unread; induction over sequences of calls against an abstract state (file, running) |
| C79 | `load_aut_xml` and its helpers on trees of elements (M_GrXml) | a separate writer of documents, and which graph a list of rows describes (first row of a number counts); induction over the nodes; reading is the inverse of writing (T_GrXml) |
| C80 | `random_world`, `narrow_passage`, `unoccupied` with the draws as parameter (M_GridGen) | invariant of the loop that adds walls; connectivity as an equivalence; reachability decided as in C46 (T_GridGen) |
| C81 | `add_trolls` on the model of C46/C47 of worlds and their specifications (M_Trolls) | trollspaces as restricted views of the world; denotations of the texts of clauses as in C47; induction over the list of trolls for the union of specifications (T_Trolls) |
| C82 | `random_run` and `interactive_run` on the model of C36-C38 of machines (M_Runs) | induction over the number of reactions; a run gives the draws that make it; comparison with `guided_run` by uniqueness of its run (T_Runs) |
| C83 | `parse` with full names of operators (M_FullNames: `re.sub` of a word, the table of names) on the lexer and parser of C01-C03 | texts split into maximal words and gaps; one substitution acts on words; the sequence of substitutions as one; then the tokens of trees as in C02 (T_FullNames) |
| C84 | `sub_values` on the trees of M_Tree, and the method of specifications on its cached trees (M_SubValues) | the tree with values put for variables as a recursive specification; when the constructors of nodes raise (T_SubValues) |
| C85 | `mask_outputs` with the iterator of a Python dictionary, `project_strategy_on_partition` (M_Mask) | cases of the loop: unchanged, or one key erased and RuntimeError; the entries of the matrix from the labels of states; states of synthesized machines have no labels (invariant of `strategy2mealy`) (T_Mask) |
| C86 | the set of accepting states as `SubSet` (M_Set) of the states of a graph (M_Graph), `remove_node`, `RabinPairs`, `max_color` (M_Automata) | invariants over all sequences of calls; each call as sets (T_Automata) |
| C87 | `ppp2ts` (M_Ppp) on the graphs of M_Graph and M_Fts | nodes, edges and labels of each loop by induction; names of states differ (T_Ppp) |
| C88 | `multiproc_discretize_switched` (M_Parallel): a worker that raises sends no message, the order of messages is a parameter; the rest is M_Switched | what a permutation of the modes keeps; comparison with `discretize_switched` message by message (T_Parallel) |
| C89 | maps and `verify_transitions` of `AbstractPwa` (M_Verify) on the abstractions of M_Discretize | from `is_abstraction` of T_Abstract; the log entry by entry (T_Verify) |
| C90 | `mealy2scxml`, `MealyMachine._save` (M_Scxml) | a reader of tags and of their nesting as specification, texts read piece by piece (T_Scxml) |
| C91 | `GameGraph`, `ParityGame` without printing (M_Game) over M_Graph | invariant of the calls: labels with defaults are there and typed (T_Game) |
| C92 | contrib/spin2dstar.py (M_Spin), by characters, with the parser that pyparsing makes | induction on formulas for the round trip through a reader of prefix notation; invariant of the global stack (T_Spin) |
| C93 | contrib/readlbt.py (M_Lbt), by characters | induction on states, transitions and words of gates, for the round trip of the text of an automaton (T_Lbt) |

## Trusted base

What has to be believed for the theorems to say something about tulip-control:

1. **Coq 8.16.1's kernel** (and `coqc`/`coqchk` around it). No plugins, no `-type-in-type`, no disabled guard,
   positivity or universe checks, no functors, no module types.
2. **Axioms.** `Print Assumptions` follows every property theorem in its `T_` file. All theorems are *closed
   under the global context* except four:

   | theorem | axioms (standard library) |
   |---|---|
   | `until_to_gr1_equiv`, `eventually_to_gr1_equiv`, `response_to_gr1_equiv`, `stability_to_gr1_equiv` | `Classical_Prop.classic`, `Description.constructive_definite_description` |

   These four quantify over arbitrary LTL operands, whose truth at a step is not decidable; choosing the value
   of the auxiliary variable needs both axioms. Their `_step` versions, for operands whose truth is decided by
   finitely many steps, are axiom free. The check tool also lists the constants of `Coq.ssr.ssrunder`, because
   `lia` and `ring` load ssreflect files; no theorem depends on them.
3. **The specifications `S_*.v`** and the definitions stated next to the theorems in `T_*.v`: LTL over
   infinite traces (`S_LTL`), the fragment of Python's expression language that translations target
   (`S_Python`), the gr1c input format (`S_Gr1c`), runs and words of graphs and machines (`S_Run`), products,
   compositions, bisimulation, routes and costs, grids.
4. **That the models `M_*.v` are the code.** They were written by reading /repo; nothing was extracted and the
   code was not run. Every definition cites the lines it models. What is idealised:
   * `str` is a list of ASCII characters; `int` is `Z`; `float` is not modelled (probabilities and grid bounds
     are exact rationals, costs are integers or vectors of integers, plus infinity);
   * iteration order of `set` is a parameter (a function or relation over which the theorem quantifies) or the
     theorem is stated up to order;
   * Python object identity is modelled where the code depends on it (`M_Tree`, syntax-tree nodes with `id`);
     elsewhere values are immutable and aliasing of mutable arguments is not modelled, except for the cases
     named in the comments;
   * networkx `MultiDiGraph`, `heapq`, `re`, `ast.literal_eval`, `json` and polytope are replaced by small
     definitions or, for polytope, by section variables with set-theoretic hypotheses (`T_Prop2part`,
     `T_Refine`, `T_Horizon`); each has a concrete instance meeting the hypotheses (`pt_*`, `rc_*`, and
     Fourier-Motzkin elimination `fm_*` for projections);
   * PLY: the LALR tables are not reproduced; `M_Parser` is the precedence-driven shift/reduce machine that the
     tables implement for this unambiguous-after-precedence grammar, and `M_Lexer` the longest/first match of
     the token regular expressions;
   * memory and integer-size limits, recursion depth, logging, warnings and printing are not modelled.

### Code modelled, and code not modelled

| source file | modelled (model file) | not modelled |
|---|---|---|
| spec/ast.py | node classes, `flatten`, OPMAP (M_Ast, M_Tree) | `dump_dot`, `str_to_latex`-like printing |
| spec/lexyacc.py | lexer, grammar, precedence (M_Lexer, M_Parser) | PLY table generation, error text |
| spec/parser.py | `parse` (M_Parser), with `full_operators=True` and `_replace_full_name_operators` (M_FullNames) | - |
| spec/transformation.py | `Tree`, `ast_to_labeled_graph`, `sub_bool_with_subtree`, `sub_constants`, `pair_node_to_var`, `check_for_undefined_identifiers`, `infer_constants`, `check_var_name_conflict`, `collect_primed_vars` (M_Tree, M_Form, M_Gr1), `sub_values` (M_SubValues) | drawing |
| spec/form.py | `LTL.dumps/loads` (M_LtlFile), `GRSpec` construction, `declare`, `__or__`, `to_canon`, `check_syntax`, `replace_dependent_vars`, `str_to_int`, `compile_init` (M_Spec, M_Form, M_Tree, M_Python), `sub_values` (M_SubValues) | `dump` to files, `pretty`, stale `_bool_int` cache |
| spec/gr1_fragment.py | `split_gr1`, `has_operator`, `str_to_grspec`, the four `*_to_gr1` (M_Split, M_Gr1) | `check` (74-172: it uses `_ast.dump_dot` and `_ast.Unary`, which spec/ast.py does not define, so that every call ends with AttributeError) |
| spec/translation.py | Python, gr1c, slugs (M_Python, M_Gr1c, M_Slugsin), jtlv, wring, SMV and Promela output (M_Lang) | |
| spec/prioritized_safety.py | all (M_Prio) | |
| synth.py | 86-1255 formula generation (M_Synth, M_Dep), 1258-1655 `synthesize`, `synthesize_many`, `is_realizable`, `_spec_plus_sys` and their helpers (M_Synthesize), 1658-2017 `strategy2mealy`, `determinize_machine_init` (M_Strategy), `mask_outputs` (M_Mask) | the solvers (oracles), logging |
| transys/mathset.py | `MathSet`, `SubSet`, `PowerSet`, `TypedDict`, `CartesianProduct.__contains__` (M_Set, M_Dict) | `dict2pydot`, rest of `CartesianProduct` |
| transys/labeled_graphs.py | `LabeledDiGraph`, `States`, `Transitions` except as named at right (M_Graph, M_Fts) | `ast`-like drawing, `save`, `prefix` drawing options |
| transys/transys.py | `FTS` label types, `tuple2fts`, `line/cycle_labeled_with`, `add_initial_states`, `simu_abstract` (M_Fts, M_Simu), Kripke structures and Markov models (M_Compose), `GameGraph` (M_Game) | `LabeledGameGraph` (its constructor raises), printing |
| transys/automata.py | `tuple2ba`, label types of automata (M_Fts, M_Mvp), accepting states and their removal, `RabinPairs`, `max_color` (M_Automata), `ParityGame` (M_Game) | printing |
| transys/products.py | all (M_Product) | |
| transys/compositions.py | all (M_Compose) | |
| transys/machines.py | ports, `reaction`, `guided_run`, conversions, `strip_ports` (M_Machine), `random_run`, `interactive_run`, `_interactive_run_step`, `_select_transition` with the draws and the lines of the input as parameters (M_Runs) | printing |
| transys/cost.py, graph_algorithms.py, mathfunc.py | all (M_Cost, M_Dijkstra, M_Func) | |
| mvp.py | all (M_Mvp) | |
| gridworld.py | `GridWorld` without drawing, `extract_coord` (M_Grid, M_GridSpec); `random_world`, `narrow_passage`, `unoccupied` (M_GridGen; draws are a parameter, floats rationals, the number of walls given); `add_trolls` (M_Trolls) | plotting, the random number generators |
| abstract/prop2partition.py | partitions and refinements (M_Part), `ppp2ts` (M_Ppp) | `PPP` pretty-printing, plotting |
| abstract/feasible.py | `createLM`, `get_max_extreme`, `_block_diag2` (M_Feas); `solve_feasible` and its loops, `is_feasible` (M_Horizon) | logging; floats are rationals |
| abstract/discretization.py | `_discretize_bi`, `reachable_within`, `sym_adj_change`, the transition system built from the matrix (M_Discretize); `_discretize_dual` (M_Dual); `discretize_switched`, `merge_partitions`, `merge_partition_pair`, `get_transitions`, `merge_abstractions`, maps of `AbstractSwitched` (M_Switched); `multiproc_discretize_switched` and its workers (M_Parallel); maps of `AbstractPwa`, `verify_transitions` (M_Verify) | plots, timing, `debug` checks, `discretize_overlap` |
| abstract/find_controller.py | `get_input`, `get_input_helper`, `is_seq_inside`, `find_discrete_state` (M_Control) | printing; the solvers, `cheby_ball` and `qhull` are parameters; floats are rationals (an integer array `R` given by the caller, to which numpy cannot add floats in place, is not modelled) |
| abstract/plot.py | `simulate2d`, `pick_point_in_polytope` (M_Simulate), `project_strategy_on_partition` (M_Mask); its helpers only as far as their calls raise | plots |
| hybrid.py | modes and labels of `SwitchedSysDyn` (M_Switched); constructors, factories, time data (M_Hybrid) | printing, plots, warnings; which of several errors is raised; the dimension of the domain of a PWA system (left to the library) |
| interfaces/slugs.py | reading of strategies (M_Slugs), `synthesize` and `check_realizable` (M_Slugsin) | the tool itself (oracle), files, `symbolic=True` |
| interfaces/gr1c.py | 585-620 `select_options` (M_Synthesize), 415-452 `load_aut_json`, 482-582 `check_realizable`, `synthesize` with the tool as oracle (M_Solvers), 657-937 `GR1CSession` (M_Session), 108-412 `get_version`, `_untaglist`, `_untagdict`, `load_aut_xml`, `_parse_vars`, 623-654 `load_mealy` (M_GrXml) | reading JSON text, the parser of XML, `check_gr1c`, running the tool |
| interfaces/omega.py | 33-77, 112-191 (M_Solvers), with the solver and the enumeration of its strategy as an oracle | omega itself and how it reads texts, `is_circular`, `_int_bounds` |
| interfaces/gr1py.py | 54-105 (M_Solvers): same option, same text and same reader as gr1c, the library as oracle | gr1py itself |
| interfaces/stormpy.py | all but `build_stormpy_model` and the printing (M_Storm); stormpy is an oracle, floats are rationals, the file is its text | stormpy itself |
| interfaces/lily.py | all (M_Lang), with Lily as an oracle for the text of the file it writes; labels of the machine are not reached by the code | files |
| interfaces/ltl2ba.py | `Lexer`, `Parser` with what PLY does after a syntax error, `call_ltl2ba`, `ltl2ba` (M_Ltl2ba) | the tool itself (an oracle); how PLY builds its tables; logging |
| dumpsmach.py | `python_case` (M_PyCase) | `write_python_case` (file output) |
| contrib/parity_games | both functions (M_Parity) | |
| contrib/spin2dstar.py | all but the command line (M_Spin); pyparsing is modelled as far as this grammar uses it: literals, words, blanks, ordered choice, repetition, parse actions that are not undone | `AST.__str__` |
| contrib/readlbt.py | `_split2`, `readlbt` (M_Lbt); ASCII texts; `int` reads digits only | `dumpdot`, the command line |
| transys/export/graph2promela.py | all, with `FTS._save` (M_Promela); the date and the text of a dictionary that is not empty are parameters | files, printing to the screen |
| transys/export/machine2scxml.py | all, with `MealyMachine._save` (M_Scxml); what is printed for a state and for a dictionary are parameters | files |
| transys/algorithms.py | | all: `__all__` is empty, no other module calls it, and functions such as `ts_sync_prod` use names that are not defined |
| graphics.py, rest of export/, other contrib/ | | all (contrib/readdstar.py does not compile: an f-string is closed by a parenthesis too many) |

## Findings

Places where the code does not do what its users would rely on. Each is a theorem with a concrete witness; the
part that does hold is proved beside it.

| theorem(s) | what happens |
|---|---|
| `split_gr1_weak_until_refuted` | `split_gr1` accepts `W` inside a safety formula although it rejects the other temporal operators |
| `split_gr1_texts_parse_refuted` | an absent part is returned as the text `''`, which does not parse |
| `to_canon_comment_refuted` | a clause containing a comment makes the joined formula unparsable |
| `or_roles_refuted` | `spec1 \| spec2` accepts a variable that is an environment variable of one and a system variable of the other |
| `check_syntax_sys_prog_refuted` | `check_syntax` reads `env_prog` twice and never `sys_prog` |
| `round_trip_strings_refuted`, `printing_raises_refuted` | printing drops the quotes of string constants, and raises KeyError for `=>`, `<=>`, `~`, `/=`, `=<` |
| `compile_init_strings_refuted` | with `no_str=False` string constants lose their quotes |
| `compared_domains_refuted` | integer encoding changes the meaning when two variables with differently ordered string domains are compared |
| `gr1c_nested_next_refuted` | `X X p` is printed for gr1c as `p'` |
| `exactly_one_refuted` | `exactly_one([])` imposes nothing; repeated propositions give text that does not parse |
| `iter2var_xor_refuted` | integers with gaps may take a value in a gap; one Boolean value is unconstrained |
| `sys_to_spec_unlocated_refuted`, `sys_to_spec_environment_refuted`, `env_to_spec_refuted`, `env_to_spec_empty_type_refuted` | edge cases of the translation of transition systems: no start location with `ignore_initial`, unlabelled transitions, an environment that may jump when the system blocks, an empty action type |
| `dependent_unlabelled_refuted`, `dependent_strings_refuted` | a proposition labelling no state is defined as the empty text; string states lose their quotes |
| `strategy2mealy_lost_words_refuted`, `strategy2mealy_reserved_name_refuted` | of initial nodes with equal valuation only the first is kept; a variable named like a parameter of `Transitions.add` breaks the call |
| `loads_*_refuted` (T_LtlFile) | `LTL.loads(LTL.dumps(f))` changes sets of strings, empty sets and digit strings, and truncates at `#` |
| `mathset_*_refuted`, `typeddict_*_refuted` | unhashable items displace hashable ones, one-shot iterators lose items, equal items of two kinds are stored twice; `update` is not atomic, `\|=` is unchecked, `is_consistent` looks at keys |
| `graph_*_refuted` | duplicate labelled edges through defaults or keys, mixed labelled and unlabelled edges, initial states that are no longer nodes |
| `find_transitions_labelled_refuted` | unlabelled edges match every desired label |
| `add_initial_states_refuted` | never adds a state, because it looks for the literal name `label` |
| `simu_bi_repr_refuted`, `simu_stale_initial_refuted` | states with equal label sets of different `repr` are separated; a stale initial state raises |
| `sync_prod_*_refuted`, `ba_ts_sync_prod_*refuted`, `add_all_states_*_refuted` | products raise for systems with actions and for parallel automaton transitions; a state is looked up by substring; the on-the-fly automaton misses states |
| `synchronous_parallel_mass_refuted`, `synchronous_parallel_total_refuted` | parallel transitions with equal joint label are merged and probability is lost (0.79) |
| `moore2mealy_shared_port_refuted`, `mealy2moore_many_initial_refuted`, `strip_ports_parallel_refuted` | a port that is input and output changes words; only the first initial state is kept; two transitions becoming unlabelled raise |
| `line_*_refuted`, `tuple2fts_*_refuted`, `tuple2ba_alphabet_refuted`, `prefix_injective_refuted` | builders misread a two-element label as a pair, cannot take actions, accept undeclared propositions |
| `vector_gt_refuted`, `vector_le_refuted` | `x > x` is true and `x <= x` false for cost vectors |
| `solve_memory_refuted`, `solve_accepting_refuted` | minimum-violation planning is right only for one-state rules: the product iterator is used up after the first state |
| `nested_loops_refuted`, `get_rules_at_negative_refuted` | nested loops over a prioritized specification share a cursor |
| `func_*_refuted` | degenerate declarations of functions on labelled states |
| `spec_*_refuted`, `copy_refuted`, `world_eq_refuted`, `subworld_extend_refuted`, `state_domain_refuted` (gridworld) | no initial cell leaves the start unconstrained; `copy` loses cells; two worlds are equal as soon as one cell agrees; `extend` copies the wrong part; `state` and `spec` disagree on the offset |
| `prop2part_flat_refuted`, `compute_interval_*_refuted`, `grid_boxes_line_refuted`, `pwa_overlap_refuted`, `add_grid_*_refuted` | partitions of flat domains, reversed bounds, one dimension, integer sizes, endless loops on negative sizes |
| `bitfields_*_refuted`, `read_strategy_closed_refuted` | slugs bit fields with upper bound 0, negative values, lower bounds, strings; an edge to an unlisted node |
| `attractor_choice_refuted` | the attractor leaves out an opponent node all of whose successors are in the set |
| `mcnaughton_strings_refuted`, `mcnaughton_winner_refuted`, `mcnaughton_loops_refuted` | `max_color` returns a node: string nodes raise, integer nodes give wrong winners or no end |
| `python_case_unlabeled_refuted`, `python_case_quote_refuted`, `python_case_names_refuted` | an edge without an input label, a quote in a value, an input named `output` or `dict` break the exported class |
| `createLM_blind_refuted` | with a constraint on input and state, a disturbance that the target polytopes do not see is forgotten in the input constraints: the test `np.all(Gk == 0)` does not look at `GU` |
| `createLM_flat_refuted`, `createLM_flat_raises_refuted`, `createLM_vertices_refuted` | a disturbance set without interior is ignored, or raises because `E` is replaced by zeros of the shape of `K`; more than 10 vertices raise because `np.base_repr` uses letters |
| `fixed_horizon_exact_refuted`, `bounded_horizon_refuted`, `solve_feasible_trans_refuted` | results without interior become empty, although the docstring says exact for convex sets; the bounded-horizon loop returns states outside the starting polytope; the result is in `P1`, not in `trans_set` as documented |
| `conservative_maps_refuted`, `conservative_maps` | with `conservative=True` the lists `ppp2pwa` and `ppp2orig` keep a single entry, whatever the number of cells |
| `conservative_stays_refuted` | with `conservative=True` and a horizon above 1, a transition found for a cell stays when the cell is divided, although trajectories leave the smaller cell (documentation: the sequence stays inside the starting cell) |
| `small_cell_refuted` | a cell of volume less than `abs_tol` has transitions to all cells within `trans_length`, whatever the system does |
| `discretize_ends_refuted` | with `min_cell_volume=0` the loop need not end: x' = 2x on [0, 1] |
| `merged_covers_refuted` | `merge_partition_pair` drops common parts of Chebyshev radius below 1e-5, so the merged regions need not cover the domain |
| `default_labels_refuted`, `merge_abstractions_numbers` | the transitions of the merged system are labelled with `str` of the names of a mode, but the names themselves are declared as actions: for the default (integer) labels every transition raises ValueError |
| `no_modes`, `no_modes_raise` | the branches for systems without environment or without system modes are never reached: such a system has no modes, and then `discretize_switched` raises TypeError |
| `default_parameters_raise`, `default_horizon_refuted` | without `disc_params` a KeyError is raised; `N` and `trans_length` have to be given for every mode although `discretize` has defaults, and their absence is noticed after all modes are abstracted |
| `documented_cost_refuted`, `documented_cost_inf_refuted` | `get_input_helper` minimizes, for the norms 1 and infinity, the cost of the part of the states due to the inputs, not the documented cost of the states |
| `center_cost_refuted` | `mid_weight` does not weigh the documented distance to the center: with the defaults the input from 0 to [2, 4] is 4 (documented cost 7), not 3 (documented cost 3) |
| `target_order_refuted`, `tried_weights` | the weight of the center is added to `R` once more for each polytope of the target, so polytopes are compared by different costs and the result depends on their order |
| `region_cost_refuted`, `no_weight_raises` | costs given without a positive `mid_weight` always raise for a target that is a `Region`: the program is not even tried |
| `quadratic_target_refuted` | for `ord=2` the exception for a polytope that cannot be reached is not caught, so the other polytopes of the target are not tried |
| `arrays_changed_refuted`, `targets_arrays` | `get_input` changes the arrays `R` and `r` of the caller |
| `closed_joint_refuted`, `closed_push_refuted` | the closed loop asks for the later inputs without feedback and without disturbance; with a constraint on input and state, or where no disturbance is not possible, it finds none although the transition exists |
| `conservative_modes_refuted` | a conservative abstraction of a mode cannot be merged (IndexError, see `conservative_maps_refuted`) |
| `synthesize_many_defaults_refuted` | `synthesize_many` with its default `ignore_init=None` raises TypeError for every nonempty dictionary of systems; its default `ts=None` raises AssertionError |
| `synthesize_many_owner_refuted` | `synthesize_many` leaves out, without notice, a system whose owner is neither 'sys' nor 'env': the result is not constrained by it |
| `synthesize_many_all_all_refuted` | with `qinit = '\A \A'` `synthesize` moves the systems' initial conditions to the environment but `synthesize_many` does not, so that gr1c refuses the result |
| `spec_plus_sys_exists_refuted` | with `qinit = '\E \E'` the initial states of an environment system stay conditions on the environment, and gr1c refuses although it accepts the user's specification |
| `spec_plus_sys_roles_refuted` | a variable of the environment named like the state variable (`loc`) silently becomes a variable of both players |
| `synthesize_many_actions_refuted` | systems that name an action type alike share one variable, or the call fails when the actions differ |
| `omega_false_action_refuted` | contradictory safety guarantees: synthesis with omega raises AssertionError, while `is_realizable` answers |
| `omega_unchecked_refuted` | the interface to omega does not call `check_syntax`: an assumption about the next value of a system variable is passed on, which the gr1c translation rejects |
| `omega_roles_refuted` | a variable declared for both players is given to omega as a variable of both, with the system's domain |
| `slugs_string_states_refuted`, `slugs_strings_refuted` | a variable with a domain of strings is refused by the translation to slugs, and a transition system whose states are strings always declares one: `synthesize` with solver slugs never returns for such systems |
| `slugs_options_refuted` | slugs refuses (AssertionError) the options `moore` and `plus_one` that a `GRSpec` has by default |
| `slugs_nested_next_refuted` | a next inside a next is silently translated to a single step, as for gr1c |
| `prism_rounding_refuted`, `policy_rounding_refuted` | probabilities are written for prism with four decimals, so that the probabilities of a state need not sum to one, and the comparison of actions up to a millionth then rules out the right action: ValueError |
| `prism_unused_label_refuted`, `prism_quoted_label_refuted` | a proposition that labels no state, or one with a quote, makes the text for prism unreadable |
| `same_labels_refuted` | states are recovered by their labels: two states with the same labels, and no result is returned (ValueError) |
| `policy_names_refuted` | choices are identified by `str(action)`, which stormpy numbers within each state: for the vehicle of the repository's tests the policy of state 9 is an action that the state does not have |
| `policy_targets_refuted` | an action is ruled out only by transitions that it has: of two actions that lead to different states the first is returned for both |
| `lily_no_states`, `lily_returns_machine_refuted` | the filter at lily.py:166 keeps only the title lines, and the labels are indexed like dictionaries: no answer of Lily leads to a transducer with a state, whatever the specification |
| `wring_xor_refuted`, `wring_not_boolean_refuted` | exclusive or has the key `xor` in the table for Wring, which no formula contains: KeyError; the message for a variable that is not Boolean raises AttributeError |
| `smv_connectives_refuted`, `smv_supported` | the table for SMV has only X, G, F and U: a formula with a Boolean operator, a constant, a comparison or a release raises KeyError |
| `promela_connectives_refuted` | conjunction and disjunction are printed as the bitwise operators of Promela, which its grammar of LTL formulas does not have |
| `dual_ends_refuted` | `_discretize_dual` need not end, whatever the least volume of cells: for x' = 2x + u on [-1, 1] smaller and smaller cells are added forever (`_discretize_bi` ends) |
| `dual_pieces_refuted` | of an intersection with several connected pieces only the first becomes a cell, the intersection is never found among the cells, and the same cell is added forever |
| `dual_partition_refuted` | the cells returned in a `PropPreservingPartition` overlap |
| `dual_pwa_refuted`, `no_cell_added` | the list of subsystems is not extended with the cells: for a piecewise affine system IndexError as soon as a cell is added, so that every abstraction returned has only the given cells |
| `dual_remove_refuted` | with `conservative` and `remove_trans` the matrix of transitions is written before it is padded: IndexError |
| `ltl2ba_returns_refuted` | `ltl2ba` uses the undefined name `ltl2baint`: NameError after every successful call of the tool |
| `accept_init_refuted`, `never_language_refuted` | a state named `accept_init` (as for `[] p`) is initial and not accepting: the automaton accepts no word |
| `skip_refuted` | `accept_all: skip` (as for `<> p`) is an error of syntax that is only logged: the accepting state has no successor and the automaton accepts no word |
| `false_refuted` | after a label with `false;` the labels that follow are not read; no exception |
| `save_promela_refuted` | saving a transition system as Promela reads the attribute `env_vars`, which does not exist: AttributeError |
| `labelled_transitions_refuted` | `Transitions.find` has no parameter `as_dict` and takes it for a label: transitions with actions are left out of the Promela text |
| `first_label_refuted` | the variables for the propositions are not set for the initial states |
| `no_program_refuted` | dead ends, numbers as states, names with blanks and systems without a name give texts that are not Promela |
| `simulate2d_returns_refuted` | `simulate2d` calls its helpers without the arguments that they take, and the helper without parameters reads names that do not exist: the function never returns (examples/continuous_forall_init.py calls it) |
| `shared_time_refuted` | two PWA systems with a common subsystem: the second constructor overwrites the time data of the piece, so the first system no longer agrees with its pieces |
| `timestep_positive_refuted`, `nan_consistency_refuted` | a time step NaN passes the check for positive numbers; with `overwrite_time=False` a piece with the same NaN is then rejected as inconsistent |
| `from_lti_default_refuted` | `PwaSysDyn.from_lti` and `SwitchedSysDyn.from_lti` replace a missing `E` or `K` by `list()`, which `LtiSysDyn` rejects with `AttributeError`; `LtiSysDyn` itself does without them |
| `lti_default_refuted` | all arguments of `LtiSysDyn` have the default `None`, but without `A` every call raises |
| `switched_domain_refuted` | `cts_ss` of a switched system is not compared with the domains of its modes |
| `no_parts_refuted` | a PWA system without pieces is accepted, but with `overwrite_time=False` it raises `IndexError` |
| `session_extra_refuted` | a state with one more variable (nodes of strategies have such): the index of the entry is sent as a number, gr1c gets another question, and `iswinning` returns False for a winning state |
| `session_crash_refuted` | if gr1c ends without an answer, `iswinning` returns False, and `env_next`, `sys_nextfeas`, `sys_nexta` read empty lines for ever |
| `session_prompt_refuted` | the prompt is cut off the beginning of a line whenever it occurs anywhere in it: with a prompt that occurs in answers moves are read wrongly |
| `session_reset_refuted` | when the old process ends with an error code, `reset(file)` does not start the new one, forgets both file names and returns False |
| `xml_compact_refuted` | `load_aut_xml` calls `getchildren`, which Python 3.9 removed, if the element `aut` has no text: a strategy in a document without blanks before its first node, and an empty strategy, raise AttributeError |
| `xml_namespace_refuted` | `namespace` is not passed on for variables, annotations and successors: in another namespace a graph without variables and without edges is returned, without an error |
| `xml_dangling_refuted` | successors that have no node of their own are accepted and become nodes without a state |
| `xml_text_clause_refuted` | a clause that is written as text instead of in an element `litem` is cut at its blanks into several clauses |
| `mealy_refuted` | `load_mealy` makes a ValueError for an unknown format and does not raise it: UnboundLocalError; a document without strategy gives an AttributeError from the log message |
| `random_world_answers_refuted` | `random_world(ensure_feasible=True)` without timeout tries for ever when the only cells left separate a goal from an initial cell, though it may do so after few draws and other draws would succeed |
| `narrow_passage_refuted` | `narrow_passage` does not check `ptop`: outside of the grid there is no passage and goals cannot be reached; a passage as wide as the grid raises ValueError when its place is drawn; the last row is in no drawn passage of width 1 (`randint` excludes its upper bound); `unoccupied` and so `narrow_passage` ignore `prefix` and use "Y" |
| `trolls_start_together_refuted` | `add_trolls` excludes collisions only in the next state: the system may start on the cell of a troll |
| `trolls_pass_refuted` | the system and a troll may exchange their cells in one step |
| `troll_states_refuted` | with integer variables, the states in `moves_N` use coordinates of the world, although the variables of trolls have coordinates of the trollspace: values are outside of the domains |
| `troll_walls_refuted` | `moves_N` has states in which the troll is on a wall |
| `troll_boolean_refuted` | with Boolean variables, `add_trolls` gives `spec` the negated offset: the names of cells become negative and do not parse, and the clauses of mutual exclusion use other names, which are not declared |
| `interactive_run_refuted` | the loop of `_interactive_run_step` has no exit and its `except` catches everything, so an interactive run from a state with transitions never moves and never ends, also after "Enter" and at the end of the input; `interactive_run` does not change its state |
| `full_names_dotted_refuted` | with `full_operators=True` the variable `x.next` becomes the variable `x.X`, and nothing is reported |
| `full_names_quoted_refuted` | with `full_operators=True` values between quotes are changed: `"go.until"` becomes `"go.U"`, and `"Release"` does not parse |
| `full_names_join_refuted` | a replaced name joins with the text next to it: `x not= y` is read as `x != y` |
| `sub_values_typed_refuted`, `sub_values_needs_strings` | `sub_values` raises TypeError for values that are integers or Booleans, since nodes are made from strings |
| `sub_values_root_refuted` | a formula that is one variable is not substituted |
| `mask_outputs_refuted`, `mask_outputs_cases` | `mask_outputs` pops keys of the dictionary over which it iterates: it raises RuntimeError whenever there is an output to erase, after erasing one |
| `project_synthesized_refuted` | `project_strategy_on_partition` reads the label `loc` of states, but the states of synthesized machines have no labels: the projection of every synthesized strategy is the zero matrix |
| `remove_not_accepting_refuted` | removing a state that is not accepting from an automaton raises ValueError, though it says it removes from the accepting set "if present"; the state stays but is no longer initial. So `remove_deadends` fails too |
| `rabin_remove_state_refuted` | no state can be removed from a Rabin automaton: `remove_node` calls `RabinPairs.remove` with one argument instead of two |
| `rabin_add_states_refuted` | `add_states` with bad states that are no states raises ValueError after adding the good ones |
| `max_color_refuted` | `ParityGame.max_color` returns a node of maximal color, not the color. (By reading: `LabeledGameGraph` cannot be made, its constructor omits an argument) |
| `parallel_deterministic_refuted` | The numbers of the states returned by `multiproc_discretize_switched` depend on which worker ends first |
| `parallel_other_refuted` | `multiproc_discretize_switched` waits for ever at `q.get()` when a parameter of `discretize` other than `N`, `closed_loop`, `trans_length` is given, because `get_transitions` does not take it and its worker fails (`parallel_waits`: also when `discretize` raises); `discretize_switched` returns |
| `parallel_defaults_refuted` | Without `N` and `trans_length` `discretize_switched` raises KeyError and `multiproc_discretize_switched` takes 10 and 1; without `disc_params` it raises TypeError (`parallel_no_parameters`) |
| `parallel_loop_refuted` | With `closed_loop=False` `discretize_switched` checks the transitions of the merged partition in closed loop, `multiproc_discretize_switched` in open loop |
| `verify_small_cell_refuted` | `verify_transitions` reports a transition of `discretize` as incorrect when the states that were not found have a volume below `abs_tol` |
| `verify_open_loop_refuted` | `verify_transitions` looks for `close_loop`, and the entry is named `closed_loop`: abstractions made in open loop are checked in closed loop (`verify_ignores_loop`), and the name it looks for is not an argument of `solve_feasible` (`verify_close_loop`) |
| `verify_conservative_refuted` | `verify_transitions` of a conservative abstraction raises IndexError |
| `mealy2scxml_refuted`, `mealy_save_refuted` | `mealy2scxml` calls the set of initial states, and sets cannot be called, so it raises TypeError for every machine and no file is written |
| `scxml_transition_refuted`, `scxml_well_formed` | each transition is closed twice, so without that error the text would be XML only for machines without transitions |
| `scxml_escape_refuted` | names and labels are not escaped: a state named `a<b` gives a text that is not XML |
| `game_recolor_refuted` | adding a state again with another label (`states.add(s, color=0)`) gives it back to player 0, as all defaults are stored again |
| `game_init_list_refuted` | `GameGraph(l1, l2)` appends the type of the player to the list `l1` of the caller, so a graph made next with this list has players too |
| `player_states_set_refuted` | `player_states` returns a `filter` object, not a set: reading it a second time gives no states |
| `spin_after_error_refuted`, `spin_calls_stuck` | the stack of `spin2dstar.py` is global and keeps what a failed call pushed: after the text `a &&` every later call raises |
| `spin_precedence_refuted` | `a && b \|\| c` is translated as `a && (b \|\| c)`: operators have no precedence and group to the right |
| `spin_names_refuted` | `Xray` is read as `X ray` and `p Until` as `p U ntil`; a name such as `F` is written as the operator of ltl2dstar |
| `readlbt_dead_end_refuted` | the part with the transitions of a state is left out if it is blank, so after a state without transitions the next state is read as its transitions, and states and transitions are swapped from there on |
| `readlbt_parallel_refuted` | of two transitions with the same source and target only the second gate is kept |
| `readlbt_empty_refuted` | the text of an automaton without states raises `IndexError` |
| `simulation_completes_refuted` | with the start given, the simulation can still fail its own assertion: inputs of least cost lead to the common boundary of two cells, which counts as the first cell |
| `simulation_drift_refuted` | the simulation leaves out the offset `K` of the plant for which the inputs were computed |

## Testing the theorems against wrong programs

`seeded/LOG.jsonl` records the edits made to scratch copies of the models, the claim each breaks, and the
theorems that failed. Where a theorem survived an edit that made its English claim false it was tightened; the
line says which.
