{
 "claims": [
  {
   "property": "C01",
   "status": "proved",
   "theorems": [
    "until_to_gr1_equiv",
    "until_to_gr1_equiv_step",
    "until_to_gr1_total"
   ],
   "note": "Texts are lexed and parsed by the modelled parser. The version for arbitrary LTL operands uses classic and constructive_definite_description; the version for operands without nested G/F/U/W/V is axiom free."
  },
  {
   "property": "C02",
   "status": "proved",
   "theorems": [
    "eventually_to_gr1_equiv",
    "eventually_to_gr1_equiv_step",
    "eventually_to_gr1_total"
   ],
   "note": "As C01."
  },
  {
   "property": "C03",
   "status": "proved",
   "theorems": [
    "response_to_gr1_equiv",
    "response_to_gr1_equiv_step",
    "response_to_gr1_total"
   ],
   "note": "As C01."
  },
  {
   "property": "C04",
   "status": "proved",
   "theorems": [
    "stability_to_gr1_equiv",
    "stability_to_gr1_equiv_step",
    "stability_to_gr1_total"
   ],
   "note": "As C01; equivalence with a clairvoyant auxiliary variable."
  },
  {
   "property": "C05",
   "status": "proved",
   "theorems": [
    "until_to_gr1_causal",
    "eventually_to_gr1_causal",
    "response_to_gr1_causal",
    "stability_to_gr1_not_causal"
   ],
   "note": "Causal witness for until, eventually, response; none exists for stability (the documented incompleteness)."
  },
  {
   "property": "C06",
   "status": "proved",
   "theorems": [
    "split_gr1_meaning",
    "str_to_grspec_meaning",
    "split_gr1_texts_parse_refuted"
   ],
   "note": "For every text that is split, without string constants. Empty parts are the text '' which is read as no formula; that '' itself does not parse is the refuted statement."
  },
  {
   "property": "C07",
   "status": "partial",
   "theorems": [
    "split_gr1_accepts_only",
    "split_gr1_decides",
    "split_gr1_weak_until_refuted"
   ],
   "note": "Exact acceptance condition proved: GR(1) shapes with G, F, U, V excluded. The full claim (no temporal operator at all) is false for W, shown by a concrete formula."
  },
  {
   "property": "C08",
   "status": "proved",
   "theorems": [
    "to_canon_meaning",
    "to_canon_comment_refuted"
   ],
   "note": "All specs whose clauses parse and contain no comment sign; a clause with a comment makes the glued text unparsable (refuted without that condition)."
  },
  {
   "property": "C09",
   "status": "partial",
   "theorems": [
    "or_meaning",
    "or_variables",
    "or_succeeds_iff",
    "or_roles_refuted"
   ],
   "note": "Meaning, declarations and the exact success condition are proved; the part of the claim that role conflicts are reported is false (or_roles_refuted). Operands being unmodified is by construction of the model (copy)."
  },
  {
   "property": "C10",
   "status": "proved",
   "theorems": [
    "declare_consistent",
    "declare_raises_unchanged",
    "declare_declares",
    "new_spec_disjoint"
   ],
   "note": "All sequences of calls with distinct keyword names (as Python guarantees)."
  },
  {
   "property": "C11",
   "status": "partial",
   "theorems": [
    "check_syntax_decides",
    "check_syntax_sys_prog_refuted"
   ],
   "note": "Exact raising condition proved; guaranteed progress clauses are never checked, so the full claim is false for them."
  },
  {
   "property": "C12",
   "status": "proved",
   "theorems": [
    "sub_bool_is_substitution",
    "tree_round_trip",
    "subst_meaning",
    "replace_meaning",
    "replace_total",
    "redefinition_exists",
    "replace_strings_refuted",
    "replace_comparison_refuted"
   ],
   "note": "Graph rewriting with shared objects, then trace meaning, for all formulas in which replaced variables are used as Booleans and no string constants occur; both conditions shown necessary."
  },
  {
   "property": "C13",
   "status": "proved",
   "theorems": [
    "str_to_int_meaning",
    "str_to_int_total",
    "str_to_int_rejects",
    "encoding_exists",
    "compared_domains_refuted"
   ],
   "note": "str_to_int on the graph form of the syntax tree: encoded clauses parse back, contain no string constants, and hold on the integer-encoded trace exactly when the clause holds; out-of-domain constants are rejected. Comparing variables of differently ordered domains is refuted."
  },
  {
   "property": "C14",
   "status": "proved",
   "theorems": [
    "parse_of_flatten",
    "parse_flatten_parse",
    "parse_well_formed",
    "flatten_raises_iff",
    "round_trip_strings_refuted",
    "printing_raises_refuted"
   ],
   "note": "Round trip for every well-formed tree without string constants whose operators are in OPMAP; exact condition for flatten to raise KeyError; the statement without these conditions is refuted by concrete trees."
  },
  {
   "property": "C15",
   "status": "proved",
   "theorems": [
    "python_translation_meaning",
    "python_translation_supported",
    "compile_init_meaning",
    "compile_init_plain",
    "compile_init_strings_refuted"
   ],
   "note": "Python's tokenizer, expression grammar (the operators used) and evaluation are specified in S_Python; variables must have Python names. With no_str=False string constants lose their quotes: refuted there."
  },
  {
   "property": "C16",
   "status": "partial",
   "theorems": [
    "gr1c_clause_meaning",
    "gr1c_document_meaning",
    "gr1c_translation_supported",
    "gr1c_nested_next_refuted"
   ],
   "note": "Proved for all specs whose clauses apply next to state formulas/terms only, including the reading of the whole gr1c document (declarations and six sections); the second half of the statement is false of the code: X X p is silently printed as p' (gr1c_nested_next_refuted)."
  },
  {
   "property": "C17",
   "status": "partial",
   "theorems": [
    "mutex_formulas",
    "mutex_meaning",
    "exactly_one_formulas",
    "exactly_one_meaning",
    "exactly_one_refuted"
   ],
   "note": "Proved for every list of different propositions (identifiers or formulas), for exactly_one non-empty. exactly_one_refuted: exactly_one([]) imposes nothing although no element can be true, and repeated propositions give an unparsable text."
  },
  {
   "property": "C18",
   "status": "partial",
   "theorems": [
    "iter2var_identifiers",
    "iter2var_representable",
    "iter2var_mutex",
    "iter2var_mutex_none",
    "iter2var_free_subsets",
    "iter2var_xor",
    "iter2var_xor_refuted"
   ],
   "note": "Identifiers, representability, at-most-one, none under mutex and free subsets proved for all value sets; exactly-one under xor proved for two or more Booleans, strings, and integers without gaps. iter2var_xor_refuted: it fails for integers with gaps and for a single Boolean value."
  },
  {
   "property": "C19",
   "status": "proved",
   "theorems": [
    "sys_to_spec_executions",
    "sys_to_spec_unlocated_refuted"
   ],
   "note": "Equivalence for every system with distinct identifier-like names; besides the execution the clauses state how many values of each system action type are shown. With ignore_initial the trace must show a location at step 0 (refuted otherwise)."
  },
  {
   "property": "C20",
   "status": "partial",
   "theorems": [
    "sys_to_spec_environment",
    "sys_to_spec_environment_only",
    "sys_to_spec_environment_refuted",
    "env_to_spec_environment",
    "env_to_spec_executions",
    "env_to_spec_executions_free",
    "env_to_spec_refuted",
    "env_to_spec_empty_type_refuted"
   ],
   "note": "Exact meaning of both kinds of environment clauses proved. The claim as stated holds when transitions from a location are uniformly labelled for the environment, and when the system never blocks a location; refuted outside these conditions."
  },
  {
   "property": "C21",
   "status": "partial",
   "theorems": [
    "dependent_table",
    "dependent_replacement",
    "dependent_unlabelled_refuted",
    "dependent_strings_refuted"
   ],
   "note": "Same satisfying executions proved for integer states when every proposition labels a state and is used only as a Boolean. Refuted for a proposition labelling no state (empty definition does not parse) and for string states (quotes lost when printing)."
  },
  {
   "property": "C22",
   "status": "partial",
   "theorems": [
    "strategy2mealy_sound",
    "strategy2mealy_complete",
    "strategy2mealy_first",
    "strategy2mealy_total",
    "strategy2mealy_lost_words_refuted",
    "strategy2mealy_reserved_name_refuted"
   ],
   "note": "Words of the machine are words of the strategy; the converse when no two initial nodes agree on all variables (otherwise the later ones are dropped and the full statement is false: strategy2mealy_lost_words_refuted). Success under in-domain values. Hypothesis: no variable is named like a keyword parameter of Transitions.add (strategy2mealy_reserved_name_refuted shows why). The compiled initial condition is an oracle."
  },
  {
   "property": "C23",
   "status": "proved",
   "theorems": [
    "determinize_spec",
    "determinize_total"
   ],
   "note": "Hypotheses: every edge from Sinit carries all ports; checked on a concrete machine."
  },
  {
   "property": "C24",
   "status": "partial",
   "theorems": [
    "loads_dumps_shifted",
    "ltl_loads_dumps",
    "loads_strings_refuted",
    "loads_empty_refuted",
    "loads_digits_refuted",
    "loads_hash_refuted",
    "loads_separator_refuted"
   ],
   "note": "Proved for names and strings without the characters of the format and sets whose strings come first; a set with several strings, an empty set, a string of digits, and formulas with a number sign or the separator are not read back (refuted). What is read back from any set is given exactly by loads_dumps_shifted."
  },
  {
   "property": "C25",
   "status": "partial",
   "theorems": [
    "mathset_is_set",
    "mathset_eq",
    "mathset_remove",
    "mathset_operators",
    "mathset_pop",
    "compare_lists_spec",
    "mathset_is_set_refuted",
    "mathset_iterator_refuted",
    "mathset_equal_kinds_refuted"
   ],
   "note": "proved for all call sequences whose collections do not mix hashable elements with tuples hiding unhashables and whose iterators yield hashable elements; refuted otherwise"
  },
  {
   "property": "C26",
   "status": "proved",
   "theorems": [
    "subset_below",
    "subset_reject_unchanged",
    "subset_accepts"
   ],
   "note": "for every superset, including lists, sets and objects with their own membership test"
  },
  {
   "property": "C27",
   "status": "proved",
   "theorems": [
    "powerset_contains",
    "powerset_enumerates",
    "powerset_add_eq"
   ],
   "note": "membership of any finite collection; the limit of Python's len to machine integers is not modelled"
  },
  {
   "property": "C28",
   "status": "proved",
   "theorems": [
    "typeddict_values_allowed",
    "typeddict_setitem",
    "typeddict_update",
    "typeddict_setdefault",
    "typeddict_update_atomic_refuted",
    "typeddict_ior_refuted",
    "typeddict_is_consistent_refuted"
   ],
   "note": "all sequences of assignments, updates, setdefault and deletions; a rejected update keeps the pairs before the rejected one, |= is not checked and is_consistent looks at keys (refuted theorems)"
  },
  {
   "property": "C29",
   "status": "partial",
   "theorems": [
    "graph_wellformed",
    "graph_raise_unchanged",
    "add_edge_raises",
    "add_edge_effect",
    "remove_labeled_edge_effect",
    "add_node_effect",
    "graph_no_duplicate_edges",
    "graph_initial_states",
    "graph_no_duplicate_edges_refuted",
    "graph_key_duplicate_refuted",
    "graph_mixed_edges_refuted",
    "graph_initial_states_refuted"
   ],
   "note": "all parts proved except uniqueness of labels, which holds when labels with defaults are given explicitly and no key is given, and is refuted otherwise"
  },
  {
   "property": "C30",
   "status": "proved",
   "theorems": [
    "remove_deadends_spec"
   ],
   "note": "includes termination, labels, initial states and the exact condition for raising"
  },
  {
   "property": "C31",
   "status": "partial",
   "theorems": [
    "simu_bi_spec",
    "simu_bi_equal",
    "simu_bi_total",
    "simu_bi_repr_refuted",
    "simu_stale_initial_refuted"
   ],
   "note": "For every well-formed finite system: the loop stops within (n+1)(n^2+1) rounds, the cells partition the states, two states share a cell exactly when they are bisimilar with labels compared by repr, transitions between cells are exactly those where every source state has a successor in the target, and initial cells are those holding an initial state. When repr separates labels exactly as == does, cells are the bisimilarity classes for ==. The property as stated is false for equal sets whose repr differs (iteration order): simu_bi_repr_refuted. A stale initial state raises KeyError."
  },
  {
   "property": "C32",
   "status": "proved",
   "theorems": [
    "simu_dual_spec",
    "simu_dual_total"
   ],
   "note": "Cells cover all states, no cell is empty, no cell occurs twice, states in a cell have labels of equal repr, every reported transition is sound for every state of the source cell, and each concrete transition from a cell is covered through some sub-cell; termination within a bound in the number of states."
  },
  {
   "property": "C33",
   "status": "partial",
   "theorems": [
    "sync_prod_spec",
    "sync_prod_runs",
    "sync_prod_acceptance",
    "sync_prod_total",
    "sync_prod_terminates",
    "ba_ts_sync_prod_spec",
    "ba_ts_sync_prod_total",
    "add_successors_spec",
    "add_all_states_sound",
    "sync_prod_actions_refuted",
    "sync_prod_parallel_refuted",
    "sync_prod_unlabelled_refuted",
    "ba_ts_sync_prod_refuted",
    "ba_ts_sync_prod_int_refuted",
    "add_all_states_refuted",
    "add_all_states_deadend_refuted"
   ],
   "note": "sync_prod_spec: whenever ts_ba_sync_prod returns, for any order of the queue, states, initial states, transitions, labels and accepting states are those of the reachable product, and runs correspond (sync_prod_runs, sync_prod_acceptance); it always stops (sync_prod_terminates). sync_prod_total: it returns for systems without action labels and automata with at most one transition per pair of states reading a label. Without that it raises (sync_prod_*_refuted), so the statement is not true for all inputs. ba_ts_sync_prod looks a state up by substring (refuted); the on-the-fly automaton is sound but incomplete (add_all_states_sound, add_all_states_refuted)."
  },
  {
   "property": "C34",
   "status": "partial",
   "theorems": [
    "synchronous_parallel_spec",
    "synchronous_parallel_total",
    "synchronous_parallel_mass",
    "synchronous_parallel_stochastic",
    "synchronous_parallel_mass_refuted",
    "synchronous_parallel_total_refuted"
   ],
   "note": "All lists of factors: states, initial states, labels and transitions are the joint ones; probabilities multiply and stay stochastic when no factor has two transitions with the same ends and action. Refuted in general: parallel transitions of equal joint label are merged and mass is lost (0.79); mixtures with weighted structures, an empty list and transitions without action raise. Rationals instead of floats."
  },
  {
   "property": "C35",
   "status": "proved",
   "theorems": [
    "apply_policy_spec",
    "apply_policy_mass",
    "apply_policy_total"
   ],
   "note": "All decision processes and policies; rationals instead of floats. apply_policy_total: no exception if the policy is defined on every state and every transition has an action and a probability."
  },
  {
   "property": "C36",
   "status": "proved",
   "theorems": [
    "reaction_unique",
    "reaction_raises",
    "reaction_sound",
    "guided_run_sound",
    "guided_run_complete"
   ],
   "note": "reaction returns the unique enabled transition's successor and outputs or raises; a guided run of the model is exactly a run of the machine over the given inputs."
  },
  {
   "property": "C37",
   "status": "proved",
   "theorems": [
    "moore2mealy_step",
    "moore2mealy_words",
    "moore2mealy_total",
    "moore2mealy_shared_port_refuted",
    "mealy2moore_simulates",
    "mealy2moore_words",
    "mealy2moore_total",
    "mealy2moore_many_initial_refuted"
   ],
   "note": "Both conversions keep the input/output words and return, under stated conditions: no port is both input and output (refuted otherwise) for moore2mealy, and one initial state (refuted otherwise) for mealy2moore, for every order in which the work set is popped. mealy2moore keeps outputs at the state entered."
  },
  {
   "property": "C38",
   "status": "proved",
   "theorems": [
    "strip_ports_spec",
    "strip_ports_words",
    "strip_ports_total",
    "strip_ports_parallel_refuted"
   ],
   "note": "Words of the stripped machine are the words of the machine projected on the kept ports, whenever strip_ports returns; it raises when two parallel transitions become unlabelled (refuted theorem)."
  },
  {
   "property": "C39",
   "status": "partial",
   "theorems": [
    "line_words",
    "cycle_words",
    "line_two_propositions_refuted",
    "line_empty_refuted"
   ],
   "note": "line_words and cycle_words: for every list of labels that tuple2fts does not mistake for a (state, label) pair, the labels read along maximal paths are exactly the list, respectively its infinite repetition (read from state s0; cycle_labeled_with leaves the initial states empty unless told otherwise, as cycle_words states). The statement fails for other inputs: a first label of two propositions is unpacked as a pair (line_two_propositions_refuted) and the empty list raises (line_empty_refuted)."
  },
  {
   "property": "C40",
   "status": "partial",
   "theorems": [
    "tuple2fts_spec",
    "prefix_injective",
    "prefix_injective_refuted",
    "tuple2fts_actions_refuted",
    "tuple2fts_no_prefix_refuted",
    "tuple2fts_label_refuted",
    "tuple2ba_spec",
    "tuple2ba_alphabet_refuted"
   ],
   "note": "tuple2fts_spec and tuple2ba_spec: exactly which arguments are accepted, and the result has exactly the renamed states, initial and accepting states, labels and transitions; prefix_injective for states of one kind. Refuted outside: states of mixed kinds collide under the prefix, actions can never be given, labels without prefix fail, undeclared propositions are accepted as labels, a plain alphabet always fails."
  },
  {
   "property": "C41",
   "status": "proved",
   "theorems": [
    "dijkstra_spec",
    "dijkstra_multiple_spec"
   ],
   "note": "For every finite graph whose edges all carry a cost (integers, vectors of one positive length, or both mixed, lexicographically not below zero): the search ends within |E|+1 rounds and returns a route whose weight the returned cost stands for and that no route to a target undercuts lexicographically, or (inf, []) exactly when no target is reachable; the same over all sources. The heap is a priority queue with Python's tuple order, ties broken by an arbitrary comparison of nodes; floats other than inf are not modelled."
  },
  {
   "property": "C42",
   "status": "partial",
   "theorems": [
    "vector_eq_spec",
    "vector_lt_spec",
    "vector_ge_spec",
    "vector_gt_spec",
    "vector_le_spec",
    "vector_gt_partial",
    "vector_le_partial",
    "vector_total_order",
    "vector_add_compatible",
    "vector_lengths",
    "valid_cost_spec",
    "vector_gt_refuted",
    "vector_le_refuted"
   ],
   "note": "<, >= and == are lexicographic for all vectors of one length and one of x<y, x==y, y<x holds; adding a vector to both sides keeps every comparison. > is wrong (True) and <= is wrong (False) exactly when both sides are equal: vector_gt_spec and vector_le_spec give the exact behaviour, vector_gt_refuted and vector_le_refuted the counterexamples, the _partial theorems hold for different vectors. Floats other than inf are not modelled."
  },
  {
   "property": "C43",
   "status": "partial",
   "theorems": [
    "solve_single_partial",
    "solve_memory_refuted",
    "solve_accepting_refuted"
   ],
   "note": "Proved for rules whose automata have one state: a least-cost plan over all runs, or infinity when there is none. Refuted in general: only the first automaton state gets transitions (the product iterator is used up), and a non-accepting automaton state raises ValueError. Costs are integers."
  },
  {
   "property": "C44",
   "status": "partial",
   "theorems": [
    "get_rules_spec",
    "get_rules_at_spec",
    "getitem_spec",
    "for_each_spec",
    "to_list_spec",
    "nested_loops_spec",
    "nested_loops_refuted",
    "get_rules_at_negative_refuted"
   ],
   "note": "After any sequence of add_rule calls get_rules lists each accepted rule once, by increasing level and in order of addition within a level; len, indexing, list() and every loop whose body leaves the cursor alone agree with it. Nested iteration is broken by the shared cursor: nested_loops_spec shows that for every specification the outer loop sees only the first rule."
  },
  {
   "property": "C45",
   "status": "partial",
   "theorems": [
    "func_lookup",
    "func_len",
    "func_add_ok",
    "func_wrong_length",
    "func_no_output_refuted",
    "func_equal_outputs_refuted",
    "func_state_name_refuted"
   ],
   "note": "For all declarations with distinct input keys containing 'state', distinct output keys and at least one output, and all call sequences: lookup gives the output most recently added for the input and KeyError otherwise; len counts distinct inputs. False for degenerate declarations: without outputs lookup gives None, equal output keys are merged, a single input key that merely contains 'state' admits no call."
  },
  {
   "property": "C46",
   "status": "proved",
   "theorems": [
    "is_reachable_decides",
    "is_reachable_none",
    "is_empty_spec"
   ],
   "note": "For every grid whose rows fill its shape and all integer coordinates; the search ends within rows*cols+1 steps. Coordinates of the wrong length are not modelled."
  },
  {
   "property": "C47",
   "status": "partial",
   "theorems": [
    "spec_int_traces",
    "spec_int_walks",
    "spec_bool_traces",
    "spec_bool_walks",
    "spec_no_init_refuted",
    "spec_walls_refuted",
    "spec_negative_offset_refuted"
   ],
   "note": "Both encodings: for worlds of 0/1 cells with an identifier prefix and initial cells that are empty and inside the world, the traces of the initial and safety clauses are exactly the walks, and the progress clauses say the goals. Without initial cells the start is unconstrained (may be a wall), and an all-wall world or a negative offset gives Boolean clauses that do not parse; these refute the unrestricted claim."
  },
  {
   "property": "C48",
   "status": "partial",
   "theorems": [
    "loads_spec",
    "loads_dumps",
    "copy_partial",
    "copy_refuted",
    "dumps_err",
    "loads_skip",
    "mark_spec"
   ],
   "note": "Full claim refuted: a cell that is both initial and goal, or an initial cell in a wall, is lost. Proved exactly what comes back for every binary grid, and the full claim when initial cells and goals are free and disjoint."
  },
  {
   "property": "C49",
   "status": "partial",
   "theorems": [
    "world_eq_iff",
    "world_eq_partial",
    "world_eq_none",
    "world_eq_refuted"
   ],
   "note": "Refuted: __eq__ returns False only when all cells differ, so one common cell suffices, and a grid with no cells differs from itself. Exact characterisation proved."
  },
  {
   "property": "C50",
   "status": "partial",
   "theorems": [
    "subworld_inside",
    "subworld_extend_partial",
    "subworld_extend_refuted",
    "scale_cells"
   ],
   "note": "Exact without extend and for scale. With extend it is right when the part overlaps the grid along both axes and refuted for parts entirely outside."
  },
  {
   "property": "C51",
   "status": "proved",
   "theorems": [
    "extract_coord_name",
    "extract_coord_getitem",
    "extract_coord_nowhere"
   ],
   "note": "All prefixes and all integers."
  },
  {
   "property": "C52",
   "status": "partial",
   "theorems": [
    "python_case_class",
    "python_case_run",
    "python_case_unlabeled_refuted",
    "python_case_quote_refuted",
    "python_case_names_refuted"
   ],
   "note": "Read back by an independent reader and interpreter of the class, the text has the inputs as parameters, the start node as initial state, and every sequence of calls follows the machine (first edge that fires, its outputs; ValueError and RuntimeError otherwise), for machines whose edges mention an input and whose names and strings can stand in Python text. Refuted otherwise: an edge without an input label gives an empty condition, a quote ends a string, inputs named output or dict are shadowed."
  },
  {
   "property": "C53",
   "status": "partial",
   "theorems": [
    "prop2part_partition",
    "partition_cells",
    "partition_complete",
    "prop2part_distinct",
    "preserves_predicates_iff",
    "prop2part_preserves",
    "prop2part_flat_refuted",
    "split_all_eq"
   ],
   "note": "Proved for every region algebra whose intersection, difference and full-dimension test have their set meaning up to null sets: the regions partition the domain and each carries exactly the propositions containing it. The domain must be full-dimensional: a flat domain stays unlabelled (prop2part_flat_refuted)."
  },
  {
   "property": "C54",
   "status": "partial",
   "theorems": [
    "compute_interval_tiles",
    "tiles_widths",
    "tiles_cover",
    "tiles_count",
    "product_interval_pairs",
    "grid_boxes_choices",
    "compute_interval_loops",
    "compute_interval_size_refuted",
    "compute_interval_reversed_refuted",
    "grid_boxes_line_refuted",
    "grid_sizes_spec"
   ],
   "note": "Over exact rationals. Positive part: consecutive tiles from low to high, widths at most size+tol, termination, all pairs. Refuted: the last interval can exceed the size by the tolerance, reversed bounds give a reversed interval, a size of at most 0 never returns, and a single dimension raises UnboundLocalError."
  },
  {
   "property": "C55",
   "status": "partial",
   "theorems": [
    "bitfields_decode",
    "bitfields_round_trip",
    "decoded_range",
    "read_strategy_graph",
    "read_strategy_values",
    "all_vars_spec",
    "bitfields_zero_refuted",
    "bitfields_negative_refuted",
    "bitfields_offset_refuted",
    "bitfields_strings_refuted",
    "read_strategy_closed_refuted"
   ],
   "note": "Every value 0..hi with hi > 0 decodes to itself, and the whole strategy graph is read correctly, every node giving every variable its value; fails for hi = 0, negative values, string domains, and for a tool that stores the offset from the lower bound."
  },
  {
   "property": "C56",
   "status": "partial",
   "theorems": [
    "attractor_spec",
    "attractor_total",
    "attractor_sound",
    "attractor_no_choice",
    "attractor_choice_refuted"
   ],
   "note": "The loop ends and computes exactly the least fixpoint of the implemented operator; every node in it is one from which the player can force a visit, by a strategy on plays; all such nodes are in it when the opponent never has a choice. Refuted in general: an opponent node with two successors that both lie in the set is left out."
  },
  {
   "property": "C57",
   "status": "partial",
   "theorems": [
    "find_transitions_spec",
    "find_transitions_labelled_refuted"
   ],
   "note": "exact characterisation; unlabelled edges match every desired label (refuted theorem); label domains that are callables are not modelled"
  },
  {
   "property": "C58",
   "status": "partial",
   "theorems": [
    "add_initial_states_refuted",
    "add_initial_states_ex_refuted"
   ],
   "note": "The full statement is false: add_initial_states looks for states whose label is the literal keyword, so it never changes the initial states (add_initial_states_refuted, for all systems); add_initial_states_ex_refuted exhibits a state carrying the label that is not added."
  },
  {
   "property": "C59",
   "status": "proved",
   "theorems": [
    "mark_spec",
    "mark_is_empty"
   ],
   "note": "One cell changes, also through negative indices; the initial cells, goals and prefix stay."
  },
  {
   "property": "C60",
   "status": "partial",
   "theorems": [
    "state_bool",
    "state_int",
    "state_domain_refuted"
   ],
   "note": "Boolean encoding in full; the integer encoding adds the offset although spec ignores it, so the state may lie outside the declared domains (refuted)."
  },
  {
   "property": "C61",
   "status": "partial",
   "theorems": [
    "pwa_partition_refines",
    "pwa_uncovered",
    "part2convex_refines",
    "add_grid_refines",
    "pwa_adj_iff",
    "grid_adj_iff",
    "pwa_overlap_refuted",
    "add_grid_line_refuted",
    "add_grid_int_refuted",
    "add_grid_negative_refuted"
   ],
   "note": "Proved for every region algebra meeting the set-theoretic laws stated in the section; overlapping subsystems give overlapping cells (refuted), add_grid fails on one dimension and integer sizes and loops on negative sizes (refuted)."
  },
  {
   "property": "C62",
   "status": "partial",
   "theorems": [
    "mcnaughton_sinks",
    "mcnaughton_empty",
    "mcnaughton_strings_refuted",
    "mcnaughton_winner_refuted",
    "mcnaughton_loops_refuted"
   ],
   "note": "False: max_color returns a node instead of its color, so every game with string nodes raises TypeError (for all games), the game of one node 0 of color 1 is given to the wrong player, and a node number that is no color makes the recursion endless. Sinks and the empty game behave as documented."
  },
  {
   "property": "C63",
   "status": "partial",
   "theorems": [
    "createLM_exact",
    "createLM_poly_exact",
    "createLM_step_exact",
    "createLM_nominal",
    "createLM_total",
    "createLM_blind_refuted",
    "createLM_flat_refuted",
    "createLM_flat_raises_refuted",
    "createLM_vertices_refuted"
   ],
   "note": "Exact when the disturbance set is full-dimensional with 2 to 10 vertices and, for a constraint on input and state over several steps, some target sees the disturbance. The full statement is false: otherwise the disturbance is forgotten in the input constraints; a set without interior is ignored or makes createLM raise; more than 10 vertices raise."
  },
  {
   "property": "C64",
   "status": "partial",
   "theorems": [
    "fixed_horizon_sound",
    "fixed_horizon_exact",
    "attractor_sound",
    "bounded_horizon_sound",
    "open_loop_sound",
    "open_loop_all_horizon",
    "volumes_largest",
    "is_feasible_fixed",
    "is_feasible_within",
    "fm_fixed_exact",
    "fm_feasible_sound",
    "fixed_horizon_exact_refuted",
    "bounded_horizon_refuted",
    "solve_feasible_trans_refuted"
   ],
   "note": "Soundness holds for sets that unions, projections and reductions represent exactly (instance: Fourier-Motzkin elimination). Exactness is false for results without interior, which become empty; the unused bounded-horizon variant returns states outside P1; the documented inclusion in trans_set is false."
  },
  {
   "property": "C65",
   "status": "partial",
   "theorems": [
    "discretize_sound",
    "discretize_returns",
    "bi_loop_sound",
    "bi_loop_ends",
    "bi_start_ok",
    "build_ts_spec",
    "within_hops",
    "solve_feasible_steers",
    "steered_mono",
    "conservative_maps",
    "conservative_maps_refuted",
    "conservative_stays_refuted",
    "small_cell_refuted",
    "discretize_ends_refuted"
   ],
   "note": "Proved for polytope libraries that are exact up to null sets and for any sound solve_feasible. False in conservative mode for the maps, and for staying in the cell; false without a least cell volume for termination; cells smaller than abs_tol get arbitrary transitions."
  },
  {
   "property": "C66",
   "status": "partial",
   "theorems": [
    "merge_partitions_ok",
    "merged_partition",
    "get_transitions_sound",
    "get_transitions_returns",
    "merge_abstractions_ok",
    "merge_abstractions_numbers",
    "discretize_switched_sound",
    "discretize_switched_returns",
    "abstraction_mode_ok",
    "no_modes",
    "no_modes_raise",
    "default_parameters_raise",
    "merged_covers_refuted",
    "default_labels_refuted",
    "default_horizon_refuted",
    "conservative_modes_refuted"
   ],
   "note": "Proved for polytope libraries that are exact up to null sets and any sound solve_feasible, for modes named by strings and with N and trans_length given. False for covering when common parts are thinner than 1e-5, and for returning with integer labels, default parameters or conservative abstractions."
  },
  {
   "property": "C67",
   "status": "partial",
   "theorems": [
    "helper_open_sound",
    "helper_open_complete",
    "helper_closed_sound",
    "helper_closed_complete",
    "controlled_reaches",
    "controlled_returns",
    "tried_weights",
    "targets_least",
    "targets_arrays",
    "get_input_open_sound",
    "get_input_closed_sound",
    "get_input_returns",
    "start_set_covers",
    "no_weight_raises",
    "is_seq_inside_exact",
    "robust_seq_inside",
    "find_discrete_state_first",
    "fm_helper_open_sound",
    "fm_helper_closed_sound",
    "lp_fm_sound",
    "lp_fm_complete",
    "documented_cost_refuted",
    "documented_cost_inf_refuted",
    "center_cost_refuted",
    "target_order_refuted",
    "region_cost_refuted",
    "quadratic_target_refuted",
    "arrays_changed_refuted",
    "closed_joint_refuted",
    "closed_push_refuted",
    "other_norm_raises",
    "nonconvex_raises"
   ],
   "note": "What inputs do is proved for every system and exact solver. Partial because the documented cost is not the one minimized, the order of target polytopes matters, costs without mid_weight are refused for regions, and the closed loop misses inputs for joint constraints or permanent disturbances (refuted). Exact rationals instead of floats."
  },
  {
   "property": "C68",
   "status": "partial",
   "theorems": [
    "spec_plus_sys_meaning",
    "spec_plus_sys_options",
    "trim_strategy_words",
    "trim_strategy_live",
    "trim_strategy_traces",
    "synthesize_correct",
    "synthesize_none",
    "spec_plus_many_meaning",
    "synthesize_many_correct",
    "is_realizable_agrees",
    "spec_plus_sys_accepted",
    "select_options_iff",
    "synthesize_many_defaults_refuted",
    "synthesize_many_owner_refuted",
    "synthesize_many_all_all_refuted",
    "spec_plus_sys_exists_refuted",
    "spec_plus_sys_roles_refuted",
    "synthesize_many_actions_refuted"
   ],
   "note": "Proved relative to a solver whose strategy wins and has the form of a graph; the state variables must be located when initial states are ignored, and each variable must belong to one player. Refuted: acceptance by gr1c for existential quantification and for synthesize_many, the defaults of synthesize_many, silent omission of systems with another owner, silent conflicts of roles and of action names."
  },
  {
   "property": "C69",
   "status": "partial",
   "theorems": [
    "automaton_declares",
    "automaton_accepted",
    "automaton_meaning",
    "omega_solves",
    "omega_agrees",
    "load_json_accepts",
    "load_json_meaning",
    "gr1c_solves",
    "synthesize_with_omega",
    "synthesize_with_gr1c",
    "omega_false_action_refuted",
    "omega_unchecked_refuted",
    "omega_roles_refuted"
   ],
   "note": "Proved for all specifications and answers, with the solvers as oracles under contracts on the automaton or document level. For clauses in which string variables are only compared with values of their domain or with variables of the same domain (and, for gr1c, in which next is applied to state formulas only). The liveness assumptions appear in the automaton as the absence of persistence, which is equivalent classically; the constructive direction needed for correctness is proved. Refuted: the two omega entry points disagree on contradictory safety guarantees; no syntax check before omega; a variable of both players is passed on."
  },
  {
   "property": "C70",
   "status": "partial",
   "theorems": [
    "slugs_document_meaning",
    "slugs_translation_supported",
    "isinit_meaning",
    "isinit_items",
    "slugs_solves",
    "synthesize_with_slugs",
    "slugs_agrees",
    "slugs_nested_next_refuted",
    "slugs_strings_refuted",
    "slugs_options_refuted",
    "slugs_string_states_refuted"
   ],
   "note": "Proved for clauses over Booleans and integers with next applied to formulas without next (sl_formula). The tool is an oracle with a contract on the document (slugs_answer), met by the concrete case jump_case. False in general: nested next collapses, domains of strings and string states raise, default options raise."
  },
  {
   "property": "C71",
   "status": "partial",
   "theorems": [
    "to_prism_describes",
    "to_prism_exact",
    "to_prism_only",
    "to_tulip_state_spec",
    "extract_probability_spec",
    "model_checking_values",
    "action_map_exact",
    "extract_policy_spec",
    "model_checking_policy",
    "to_tulip_transys_spec",
    "to_tulip_transys_only",
    "prism_rounding_refuted",
    "prism_unused_label_refuted",
    "prism_quoted_label_refuted",
    "policy_names_refuted",
    "policy_targets_refuted",
    "policy_rounding_refuted",
    "same_labels_refuted"
   ],
   "note": "Writing, reading and the recovery of states, probabilities and systems are proved. Policies are proved correct only when choices are named after actions, probabilities have four decimals and actions differ in the probability of a common step; the refuted theorems show that each of these is needed and that rounding, unused or quoted propositions and states with equal labels break the interface."
  },
  {
   "property": "C72",
   "status": "partial",
   "theorems": [
    "wring_document",
    "jtlv_document",
    "wring_reading",
    "jtlv_reading",
    "promela_reading",
    "wring_supported",
    "jtlv_supported",
    "smv_supported",
    "partition_reading",
    "lily_given",
    "lily_types",
    "lily_no_states",
    "lily_returns_machine_refuted",
    "wring_xor_refuted",
    "wring_not_boolean_refuted",
    "smv_connectives_refuted",
    "promela_connectives_refuted"
   ],
   "note": "Proved for all specifications whose names are identifiers that are not words of the target language (and, for JTLV, typed clauses; for Wring, clauses over Boolean variables). Partial: no machine with a state is ever returned from an answer of Lily, and Promela and SMV lack operators (refuted)."
  },
  {
   "property": "C73",
   "status": "partial",
   "theorems": [
    "discretize_dual_sound",
    "dual_no_error",
    "dual_loop_sound",
    "no_cell_added",
    "dual_ends_refuted",
    "dual_pieces_refuted",
    "dual_partition_refuted",
    "dual_pwa_refuted",
    "dual_remove_refuted"
   ],
   "note": "Whatever is returned is as stated; the loop need not end, the cells overlap, and there are IndexErrors for piecewise affine systems and with remove_trans."
  },
  {
   "property": "C74",
   "status": "partial",
   "theorems": [
    "never_read",
    "never_language",
    "tool_language",
    "cut_text",
    "call_output",
    "accept_init_refuted",
    "skip_refuted",
    "false_refuted",
    "never_language_refuted",
    "ltl2ba_returns_refuted"
   ],
   "note": "Proved: every claim whose labels are all followed by lists of cases is read as it is, and with the labels of ltl2ba (first state T<i>_init) the automaton accepts the words of the claim. Refuted for claims that start in accept_init, for accept_all: skip and after false;. The function ltl2ba itself always raises NameError."
  },
  {
   "property": "C75",
   "status": "partial",
   "theorems": [
    "promela_export",
    "promela_default_name",
    "first_label_refuted",
    "labelled_transitions_refuted",
    "no_program_refuted",
    "save_promela_refuted"
   ],
   "note": "Proved for systems without labels on transitions in which each state has a successor and names are names of Promela: the text is a program whose executions are the paths, showing labels after each transition. Refuted: labels of initial states, transitions with actions, dead ends, other names, and the method that saves the text."
  },
  {
   "property": "C76",
   "status": "partial",
   "theorems": [
    "simulation_follows",
    "simulation_assertion",
    "simulation_runs",
    "simulation_completes_refuted",
    "simulation_drift_refuted",
    "simulate2d_returns_refuted"
   ],
   "note": "Positive: simulation_follows, simulation_assertion, simulation_runs, for the code after the helper that finds the initial cell and machine state. False for the function as written: simulate2d_returns_refuted (every call raises), simulation_completes_refuted (cells of a partition share boundaries), simulation_drift_refuted (offset K left out)."
  },
  {
   "property": "C77",
   "status": "partial",
   "theorems": [
    "lti_returns",
    "lti_shaped",
    "pwa_returns",
    "pwa_made",
    "switched_returns",
    "switched_made",
    "built_sound",
    "consistency_check",
    "pwa_time",
    "switched_time",
    "apart_consistent",
    "pwa_from_lti_returns",
    "switched_from_lti_returns",
    "switched_from_pwa_returns",
    "factories_built",
    "example_apart",
    "f_built_sound",
    "shared_time_refuted",
    "timestep_positive_refuted",
    "nan_consistency_refuted",
    "from_lti_default_refuted",
    "lti_default_refuted",
    "switched_domain_refuted",
    "no_parts_refuted"
   ],
   "note": "Exact conditions for every constructor and factory, invariants of all sequences of calls. Refuted: agreement of time data when parts are shared, positivity for NaN, defaults of the factories, domains of switched systems."
  },
  {
   "property": "C78",
   "status": "partial",
   "theorems": [
    "session_answers",
    "new_session_answers",
    "missing_variable",
    "session_extra_refuted",
    "session_crash_refuted",
    "session_prompt_refuted",
    "session_reset_refuted"
   ],
   "note": "All sequences of calls against a specification of gr1c's command language. Refuted for states with more variables, for a tool that ends without an answer, for prompts that occur in answers, and for reset after an error code."
  },
  {
   "property": "C79",
   "status": "partial",
   "theorems": [
    "xml_strategy_read",
    "xml_distinct_read",
    "xml_any_graph",
    "xml_accepted",
    "xml_spec_read",
    "version_read",
    "mealy_xml",
    "xml_compact_refuted",
    "xml_namespace_refuted",
    "xml_dangling_refuted",
    "xml_text_clause_refuted",
    "mealy_refuted"
   ],
   "note": "Reading is the inverse of writing for all documents in the default namespace with text before the first node; what every accepted document has. Refuted for documents without blanks, for other namespaces, for clauses as text and for load_mealy with an unknown format."
  },
  {
   "property": "C80",
   "status": "partial",
   "theorems": [
    "random_world_made",
    "random_world_answers",
    "random_world_answers_refuted",
    "unoccupied_made",
    "narrow_passage_made",
    "narrow_passage_answers",
    "narrow_passage_refuted"
   ],
   "note": "All parts for all draws; connectivity through the passage if and only if one of its rows is in the grid. Refuted: termination with ensure_feasible and no timeout, passages given outside of the grid or as wide as the grid, the prefix."
  },
  {
   "property": "C81",
   "status": "partial",
   "theorems": [
    "add_trolls_game",
    "trolls_start_together_refuted",
    "trolls_pass_refuted",
    "troll_states_refuted",
    "troll_walls_refuted",
    "troll_boolean_refuted"
   ],
   "note": "The whole game is characterized for integer variables (the default), for all worlds, trolls and traces. Refuted for Boolean variables, for the first state, for exchanges of cells, and for the lists of states."
  },
  {
   "property": "C82",
   "status": "partial",
   "theorems": [
    "random_run_sound",
    "random_run_blocks",
    "random_run_complete",
    "random_run_guided",
    "select_transition_number",
    "interactive_run_refuted"
   ],
   "note": "Random runs: proved for all draws. Selecting by number: proved, with negative numbers from the end. The full statement is false for interactive runs: the loop that asks has no exit, so no transition is taken and an empty line does not end the run."
  },
  {
   "property": "C83",
   "status": "partial",
   "theorems": [
    "replace_words",
    "parse_full_plain",
    "parse_full_written",
    "full_names_dotted_refuted",
    "full_names_quoted_refuted",
    "full_names_join_refuted"
   ],
   "note": "Replacement and parsing: proved for all texts and trees, with variables of letters, digits and underscores. The last sentence is false: names with dots and values between quotes are changed."
  },
  {
   "property": "C84",
   "status": "partial",
   "theorems": [
    "sub_values_put",
    "sub_values_needs_strings",
    "sub_values_typed_refuted",
    "sub_values_root_refuted",
    "form_sub_values_put"
   ],
   "note": "Proved: with a string for every variable, the tree with these strings put for the variables, if it is not one variable alone; all formulas in the cache of a specification; success means a string for every variable. Refuted: integers and Booleans raise TypeError; a formula that is one variable stays. The method works on cached trees only: a specification that was not parsed has none."
  },
  {
   "property": "C85",
   "status": "partial",
   "theorems": [
    "mask_outputs_cases",
    "mask_outputs_refuted",
    "project_strategy_regions",
    "synthesized_unlabeled",
    "project_synthesized_refuted"
   ],
   "note": "Proved: without zero outputs masking changes nothing; the matrix has a 1 exactly at the pairs of regions of transitions between labelled states. Refuted: with a zero output mask_outputs raises RuntimeError after one removal, for all machines; the projection of every synthesized strategy is zero because its states have no labels."
  },
  {
   "property": "C86",
   "status": "partial",
   "theorems": [
    "accepting_states",
    "remove_accepting",
    "remove_not_accepting_refuted",
    "rabin_states",
    "rabin_add_pair",
    "rabin_remove_pair",
    "rabin_add_states_pair",
    "rabin_add_states_refuted",
    "rabin_remove_state_refuted",
    "rabin_pair_index",
    "max_color_refuted"
   ],
   "note": "Proved: accepting states and states of pairs are states after all sequences of calls; removal of accepting states; adding and removing pairs; pairs by number. Refuted: removal of other states raises ValueError, and TypeError for Rabin automata; add_states is not atomic; max_color is a node."
  },
  {
   "property": "C87",
   "status": "proved",
   "theorems": [
    "ppp2ts_spec",
    "ppp2ts_states_differ",
    "ppp2ts_rejects"
   ],
   "note": "For all partitions whose matrix has one row for each region."
  },
  {
   "property": "C88",
   "status": "partial",
   "theorems": [
    "parallel_sound",
    "parallel_returns",
    "parallel_in_order",
    "parallel_other_parameters",
    "parallel_waits",
    "parallel_missing",
    "parallel_no_parameters",
    "parallel_deterministic_refuted",
    "parallel_other_refuted",
    "parallel_defaults_refuted",
    "parallel_loop_refuted"
   ],
   "note": "Proved: every result is a sound abstraction for each order of the messages (parallel_sound); with no other argument than N, closed_loop, trans_length a result is returned and otherwise the program waits for ever (parallel_returns); with both N and trans_length given and workers of the first phase ending in order the result is that of discretize_switched (parallel_in_order). Refuted: the result depends on the order of the workers; other parameters, defaults and closed_loop=False are treated unlike in discretize_switched. Processes are modelled by their messages only."
  },
  {
   "property": "C89",
   "status": "partial",
   "theorems": [
    "ts2ppp_spec",
    "cell_maps",
    "cell_system",
    "verify_reports",
    "verify_correct",
    "verify_ignores_loop",
    "verify_close_loop",
    "verify_small_cell_refuted",
    "verify_open_loop_refuted",
    "verify_conservative_refuted"
   ],
   "note": "Proved for abstractions that are not conservative: the maps, one report for each transition with what it means, and that a transition reported as correct can be executed in closed loop. Refuted: transitions of discretize may be reported as incorrect; abstractions in open loop are checked in closed loop; conservative ones raise IndexError."
  },
  {
   "property": "C90",
   "status": "partial",
   "theorems": [
    "scxml_tags",
    "scxml_well_formed",
    "scxml_initial",
    "mealy2scxml_refuted",
    "mealy_save_refuted",
    "scxml_transition_refuted",
    "scxml_escape_refuted"
   ],
   "note": "Proved for the text that the code puts together: its tags for all machines whose names need no escaping, and for which machines it would be returned if the set of initial states could be called. Refuted: the code raises TypeError for each machine, and each transition is closed twice, so the text is XML exactly for the machines without transitions; names are not escaped."
  },
  {
   "property": "C91",
   "status": "partial",
   "theorems": [
    "game_player_states",
    "game_edge_controlled",
    "game_add_state",
    "parity_colors",
    "parity_no_colors",
    "parity_add_state",
    "game_recolor_refuted",
    "game_init_list_refuted",
    "player_states_set_refuted"
   ],
   "note": "Proved for all label types and sequences of calls: the states of the two players partition the states, edges are controlled by the player of their source, what adding a state does, and the range of colors. Refuted: naming another label of a state keeps its player (the defaults are stored again), the constructor leaves its arguments as they are, and player_states returns a set."
  },
  {
   "property": "C92",
   "status": "partial",
   "theorems": [
    "dstar_denotes",
    "spin_dstar_correct",
    "spin_calls_correct",
    "spin_calls_stuck",
    "spin_after_error_refuted",
    "spin_precedence_refuted",
    "spin_names_refuted"
   ],
   "note": "Proved for formulas of any depth whose binary operators are in parentheses and whose names neither start with X nor are operators of ltl2dstar, for any number of calls. Refuted: precedence of operators, names that start with an operator or are one of ltl2dstar, and calls after one that failed."
  },
  {
   "property": "C93",
   "status": "partial",
   "theorems": [
    "readlbt_correct",
    "readlbt_last",
    "readlbt_dead_end_refuted",
    "readlbt_parallel_refuted",
    "readlbt_empty_refuted"
   ],
   "note": "Proved for all automata with at least one state whose states have at least one transition each, with gates of words that are no numbers and have no minus signs: states and transitions are all kept if names are distinct and the targets of each state are; otherwise exactly the last state of each name and the last transition between two states are. Refuted: states without transitions, several transitions between the same states, automata without states."
  }
 ]
}