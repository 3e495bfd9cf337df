{
 "claims": [
  {
   "property": "C01",
   "status": "proved",
   "theorems": [
    "C01_match_is_match_match_all_agree",
    "C01_top_level_star_rejected"
   ],
   "note": "All patterns, expressions and errors of the model."
  },
  {
   "property": "C02",
   "status": "partial",
   "theorems": [
    "C02_match_sound_partial",
    "C02_match_sound_refuted"
   ],
   "note": "Soundness proved for patterns in which a Star name is not reused; the unrestricted claim is false and refuted (the second Star of the same name skips the element pattern)."
  },
  {
   "property": "C03",
   "status": "partial",
   "theorems": [
    "C03_match_complete_partial",
    "C03_match_complete_refuted"
   ],
   "note": "Completeness proved for tame scoped patterns; the unrestricted claim is refuted (Not over a variable bound later)."
  },
  {
   "property": "C04",
   "status": "partial",
   "theorems": [
    "C04_bindings_only_extended_partial",
    "C04_same_name_same_value_partial",
    "C04_named_choice_refuted"
   ],
   "note": "Proved without named Choice; named Choice overwriting an existing binding is refuted by a counterexample in the model."
  },
  {
   "property": "C05",
   "status": "partial",
   "theorems": [
    "C05_ground_partial",
    "C05_ground_exact",
    "C05_cross_type_refuted"
   ],
   "note": "Ground patterns match exactly the equal expression of the same container type; cross-type Python equality (tuple vs node) is refuted."
  },
  {
   "property": "C06",
   "status": "partial",
   "theorems": [
    "C06_star_order_partial",
    "C06_two_segments",
    "C06_plus_empty_refuted"
   ],
   "note": "Order and exhaustiveness of splits proved; Plus matching an empty segment (name already bound) refuted."
  },
  {
   "property": "C07",
   "status": "proved",
   "theorems": [
    "C07_not",
    "C07_not_declarative"
   ],
   "note": "All patterns and bindings."
  },
  {
   "property": "C08",
   "status": "proved",
   "theorems": [
    "C08_choice_commits"
   ],
   "note": "All alternatives and continuations."
  },
  {
   "property": "C09",
   "status": "partial",
   "theorems": [
    "C09_make_rule_partial",
    "C09_mutable_raises",
    "C09_dict_refuted"
   ],
   "note": "Proved for hashable expressions; on dict expressions every make_rule rule raises TypeError (refuted)."
  },
  {
   "property": "C10",
   "status": "partial",
   "theorems": [
    "C10_cache_invisible_partial",
    "C10_cache_invisible_up_to_equality",
    "C10_equal_expressions",
    "C10_matching_respects_equality",
    "C10_cached_answer",
    "C10_scalars",
    "C10_cache_visible_refuted",
    "C10_C12_C14_nontrivial"
   ],
   "note": "Refuted in general: lru_cache identifies (1,) and (1.0,). Proved exactly for histories without distinct-but-equal expressions; for every history the answer is the fresh one up to == when neither the pattern restrictions nor the handler look at types (then matching itself respects ==)."
  },
  {
   "property": "C11",
   "status": "proved",
   "theorems": [
    "C11_rule_list_first",
    "C11_rule_list_none",
    "C11_in_order",
    "C11_in_order_errors"
   ],
   "note": "All rules and expressions."
  },
  {
   "property": "C12",
   "status": "partial",
   "theorems": [
    "C12_iterated_sound",
    "C12_iterated_complete",
    "C12_iterated_diverges",
    "C12_fixed_point_partial",
    "C12_made_rule_fixed_point",
    "C12_fixed_point_refuted",
    "C10_C12_C14_nontrivial"
   ],
   "note": "Returned value is the first repetition up to ==; it is a fixed point for rules that respect ==, in particular for make_rule rules with their caches; refuted for type-sensitive rules."
  },
  {
   "property": "C13",
   "status": "proved",
   "theorems": [
    "C13_bottom_up_visits_each_node_once_children_first",
    "C13_bottom_up_number_of_calls",
    "C13_bottom_up_result",
    "C13_bottom_up_result_unique",
    "C13_rewrite_subexpressions",
    "C13_top_down_sound",
    "C13_top_down_complete",
    "C13_top_down_visits_each_node_once_parents_first"
   ],
   "note": "All expressions built from registered node types."
  },
  {
   "property": "C14",
   "status": "partial",
   "theorems": [
    "C14_normal_form_partial",
    "C14_made_rules",
    "C14_normal_form_refuted",
    "C14_cached_refuted",
    "C10_C12_C14_nontrivial"
   ],
   "note": "False in general (cyclic rules can return a non-normal form; a type-sensitive rule can be hidden by its own cache); proved for decreasing rules, and for decreasing make_rule rules with their caches after any history."
  },
  {
   "property": "C15",
   "status": "proved",
   "theorems": [
    "C15_meaning_preserved",
    "C15_terminates",
    "C15_made_rules_meaning",
    "C15_made_rules_terminates"
   ],
   "note": "All compositional relations / size functions, stateful rules included; for make_rule rules with their caches, fresh or used, the hypotheses are on pattern and handler only."
  },
  {
   "property": "C16",
   "status": "partial",
   "theorems": [
    "C16_rewrite_identity_partial"
   ],
   "note": "Proved for every jaxpr (multi-output primitives, literals, shadowing, nested calls and pjits) whose nested pjits carry no constants; with constants it is false (C18)."
  },
  {
   "property": "C17",
   "status": "partial",
   "theorems": [
    "C17_rewrite_preserves_partial",
    "C17_lifted_rules_preserve"
   ],
   "note": "As C16 for every value-preserving rule; lifting by bottom_up/term_rewriter proved without restriction."
  },
  {
   "property": "C18",
   "status": "partial",
   "theorems": [
    "C18_nested_consts_refuted",
    "C16_rewrite_identity_partial"
   ],
   "note": "Refuted: constants of nested pjit are dropped, evaluation raises ValueError. The const-free case is C16."
  },
  {
   "property": "C19",
   "status": "proved",
   "theorems": [
    "C19_compose_einsums_correct",
    "C19_compose_einsums_returns",
    "C19_rank_mismatch"
   ],
   "note": "All formula strings with explicit output and letters, all operands over any commutative semiring; composing raises RuntimeError only when more than 52 letters are needed."
  },
  {
   "property": "C20",
   "status": "proved",
   "theorems": [
    "C20_transpose",
    "C20_squeeze",
    "C20_reduce_sum",
    "C20_dot_general",
    "C20_too_many_dimensions"
   ],
   "note": "All arrays over a commutative semiring with at most 52 dimensions in total; above that no wrong value is produced, the einsum raises."
  },
  {
   "property": "C21",
   "status": "proved",
   "theorems": [
    "C21_add_to_addn",
    "C21_addn_of_addn"
   ],
   "note": "All arrays (same-shape addition, no broadcasting) over a commutative semiring; whole expressions are C22."
  },
  {
   "property": "C22",
   "status": "partial",
   "theorems": [
    "C22_canonicalize_returns",
    "C22_canonicalize_raises_not",
    "C22_canonicalize_keeps_value_partial",
    "C22_canonicalize_keeps_value_refuted",
    "C22_canonicalize_terminates",
    "C22_returns_example",
    "C22_returns_example_40"
   ],
   "note": "Every expression (variables, literals, known and opaque primitives, parts, bound expressions, calls, Einsum, AddN), commutative semiring, environment and history of the rule caches, for arrays of at most 26 dimensions; canonicalize always comes to an end.  Without the bound the claim is false (C22_canonicalize_keeps_value_refuted): the rules run out of the 52 letters.  C22_canonicalize_returns: on every expression that evaluates, has hashable parameters, applies no linear primitive to the result of a call and needs at most 52 letters per nest of linear operations, canonicalize returns, with the same value, whatever the number of dimensions."
  },
  {
   "property": "C23",
   "status": "proved",
   "theorems": [
    "C23_sow_identity",
    "C23_sow_cond_identity",
    "C23_reap_outputs"
   ],
   "note": "All programs of the model (straight-line code, calls, nest, scan, while, cond, all modes), all inputs; errors are preserved too."
  },
  {
   "property": "C24",
   "status": "partial",
   "theorems": [
    "C24_reap_exactly_partial",
    "C24_reap_total_partial",
    "C24_filter",
    "C24_allow_block",
    "C28_mixed_modes_refuted"
   ],
   "note": "Proved for programs without the mode mixtures that reap mishandles (regular); the mixtures are refuted by counterexamples in C26/C28."
  },
  {
   "property": "C25",
   "status": "partial",
   "theorems": [
    "C25_repeated_name_raises",
    "C25_clobber_keeps_last",
    "C25_reap_succeeds_iff",
    "C25_append_collects_refuted",
    "C25_zero_iterations_refuted"
   ],
   "note": "Strict clause and clobber clause proved; C25_reap_succeeds_iff characterises exactly the programs on which reap raises; the append clause is false (two appends outside a loop raise), and a zero-iteration loop overwrites an earlier clobber value by zeros."
  },
  {
   "property": "C26",
   "status": "partial",
   "theorems": [
    "C26_sow_cond_last_effective_partial",
    "C26_sow_cond_zeros_partial",
    "C24_reap_exactly_partial",
    "C28_reap_scan_partial",
    "C29_reap_while_partial",
    "C26_after_clobber_refuted",
    "C26_nest_refuted"
   ],
   "note": "Proved for names sown only with sow_cond (any sequence; scans, whiles, conds through C28/C29); refuted after clobber sows and below nest."
  },
  {
   "property": "C27",
   "status": "partial",
   "theorems": [
    "C27_other_tags_kept_partial",
    "C27_exclusive_drops",
    "C27_plant_keeps_other_tags",
    "C27_plant_legal",
    "C27_harvest_keeps_other_tags",
    "C27_harvest_nothing"
   ],
   "note": "Harvest (plant and reap at once) leaves other tags as plant does. Values for reap followed by reap of another tag proved for regular programs; drops of exclusive reaps proved for all programs."
  },
  {
   "property": "C28",
   "status": "partial",
   "theorems": [
    "C28_reap_scan_partial",
    "C28_strict_in_scan_raises",
    "C28_mixed_modes_refuted"
   ],
   "note": "Proved for bodies in which none or all sows are sow_cond; mixtures are refuted (late-bound mode)."
  },
  {
   "property": "C29",
   "status": "partial",
   "theorems": [
    "C29_reap_while_partial",
    "C29_while_rejects",
    "C29_reap_cond_partial",
    "C29_cond_rejects"
   ],
   "note": "All loops, iteration counts and branches without a name sown both with sow_cond and clobber."
  },
  {
   "property": "C30",
   "status": "partial",
   "theorems": [
    "C30_reap_nest_partial",
    "C30_nest_without_sows",
    "C30_plant_nest",
    "C30_plant_nest_missing",
    "C30_scopes_do_not_collide",
    "C26_nest_refuted"
   ],
   "note": "Proved when the body has no sow_cond (refuted there) and the scope passes the filters."
  },
  {
   "property": "C31",
   "status": "partial",
   "theorems": [
    "C31_plant_overrides",
    "C31_at_sow",
    "C31_nothing_planted",
    "C31_planted_twice_raises_partial",
    "C31_plant_succeeds_iff",
    "C31_plant_total",
    "C31_planted_twice_refuted"
   ],
   "note": "Overriding proved for all programs; C31_plant_succeeds_iff characterises exactly when plant raises; the raise clause holds within one planting context and is refuted across calls."
  },
  {
   "property": "C32",
   "status": "partial",
   "theorems": [
    "C32_plant_succeeds_partial",
    "C32_plant_reaped",
    "C32_silent_scope_refuted"
   ],
   "note": "All strict/append programs without filters: planting succeeds and reproduces the run, provided scopes that sow nothing contain no further scopes or scans; without that proviso plant can raise (C32_silent_scope_refuted: a silent scope called like a sown name)."
  },
  {
   "property": "C33",
   "status": "partial",
   "theorems": [
    "C33_harvest_partial",
    "C33_harvest_output",
    "C33_not_reaped",
    "C33_nothing_left_to_reap",
    "C33_nothing_left_to_plant",
    "C33_harvest_nothing_iff",
    "C33_harvest_succeeds_iff",
    "C33_harvest_total"
   ],
   "note": "C33_harvest_succeeds_iff says exactly when harvest raises. Reaped values for regular programs; outputs and nothing-left clauses for all programs."
  },
  {
   "property": "C34",
   "status": "proved",
   "theorems": [
    "C34_concatenate",
    "C34_raises",
    "C34_can_concatenate",
    "C34_full",
    "C34_new"
   ],
   "note": "Every rank, dimension, slice bounds and contents of values and ILDJs."
  },
  {
   "property": "C35",
   "status": "partial",
   "theorems": [
    "C35_sound",
    "C35_covers_partial",
    "C35_rank1",
    "C35_nothing_invented",
    "C35_example",
    "C35_join_loses_refuted"
   ],
   "note": "Nothing is invented (all ranks, all set orders); nothing is lost in rank 1 and whenever the order on slices agrees with inclusion. In rank 2 and more NDSlice.__lt__ is not inclusion and joins lose elements: refuted by a concrete pair of cells."
  },
  {
   "property": "C36",
   "status": "partial",
   "theorems": [
    "C36_least_partial",
    "C36_order_irrelevant_partial",
    "C36_nodes_least",
    "C36_example",
    "C36_repeated_variable_refuted",
    "C36_source_refuted"
   ],
   "note": "All jaxprs with nested calls, all lattices of finite height, all queue orders: termination, leastness and order independence. Needs: no variable twice in one equation (or idempotence of the whole step, C36_nodes_least), no equation that can act but has no variable of the frame (both necessary: refuted otherwise), frames of called jaxprs without literals and constants."
  },
  {
   "property": "C37",
   "status": "proved",
   "theorems": [
    "C37_inverse",
    "C37_undetermined",
    "C37_example",
    "C37_undetermined_example",
    "C37_custom_none_fails"
   ],
   "note": "All programs of registered primitives (elementwise, binary, slice, concatenate, reshape, convert, tie, sow, custom_inverse, bijector), nested calls and initial-style primitives, all schedules and set orders; strides of slices are not modelled."
  },
  {
   "property": "C38",
   "status": "partial",
   "theorems": [
    "C38_unary",
    "C38_zeroth_power",
    "C38_left",
    "C38_right",
    "C38_div_left_refuted",
    "C38_pow_left_refuted",
    "C38_pow_right_refuted",
    "C38_odd_power_refuted"
   ],
   "note": "All registered rules over the real numbers, on explicit domains; outside them the ILDJ or the inverse is NaN although the function is injective and smooth (c/x with c<0, c^x with c<1, x^c with c<0, odd powers of negative numbers): refuted. Floating point is not modelled."
  },
  {
   "property": "C39",
   "status": "partial",
   "theorems": [
    "C39_change_of_variables",
    "C39_reals_nontrivial",
    "C37_chain_returns",
    "C39_ildj",
    "C39_ildj_sum",
    "C39_example",
    "C39_through_example",
    "C39_reshape_refuted",
    "C39_convert_refuted",
    "C39_bijector_refuted"
   ],
   "note": "Over the reals, for every composition of registered unary primitives and binary primitives with constants, every array shape and every point of the domains, every schedule: inverse and ildj return, with the sum of log|derivative of the inverse| (C39_change_of_variables). C39_ildj: also several inputs and computed side values, sow, tie_all, custom inverses (def_inverse_unary), scalar bijectors, and concatenate, reshape and convert_element_type where the ILDJ is zero. The second half of the claim is false: reshape, convert_element_type and vector bijectors (refuted)."
  },
  {
   "property": "C40",
   "status": "partial",
   "theorems": [
    "C40_log_prob_partial",
    "C40_log_prob_exact",
    "C40_example",
    "C40_unreached_call_refuted",
    "C40_initial_style_refuted",
    "C40_plate_refuted"
   ],
   "note": "The exact sum for all programs of samples, nested calls, plates (whose outputs are samples or computed from samples by inverted code), elementwise and binary primitives, sow, tie_all, custom inverses, scalar bijectors, concatenate/reshape/convert at zero ILDJ, and forward code, when every call shares a variable with the inputs or outputs; without that a call is dropped silently (refuted), as are samples in initial-style primitives; plates count the ILDJ twice."
  },
  {
   "property": "C41",
   "status": "partial",
   "theorems": [
    "C41_intervene",
    "C41_intervene_joint_sample",
    "C41_not_sampled",
    "C41_conditional",
    "C41_conditional_string",
    "C41_conditional_missing_values",
    "C41_intervene_succeeds_iff",
    "C41_intervene_succeeds",
    "C41_scope_array_raises",
    "C41_name_f_refuted",
    "C41_scan_in_function_refuted"
   ],
   "note": "Proved for all programs with random variables in any control flow and scopes; C41_intervene_succeeds_iff says exactly when intervene succeeds. It raises for a variable called \"f\" (clash with the parameter) and for random_variable of functions with a scan (refuted)."
  },
  {
   "property": "C42",
   "status": "partial",
   "theorems": [
    "C42_joint_sample_succeeds_iff",
    "C42_trace",
    "C42_trace_and_joint_sample_together",
    "C42_block_succeeds_iff",
    "C42_block_output",
    "C42_block_joint_sample",
    "C42_block_joint_sample_partial",
    "C42_block_scope_refuted"
   ],
   "note": "trace and the output of block: all programs. joint_sample of block: all programs, scopes and control flow included; it is the joint sample (and raises exactly when) of the program without the variables of those names. Scope names themselves are not blocked (refuted), so the claim is false of names of random_variable(function) scopes with inner variables."
  },
  {
   "property": "C43",
   "status": "proved",
   "theorems": [
    "C43_outputs",
    "C43_latents",
    "C43_unknown_output"
   ],
   "note": "All programs, input and output names."
  },
  {
   "property": "C44",
   "status": "partial",
   "theorems": [
    "C44_handlers_partial",
    "C44_spec_is_execution",
    "C44_no_handlers_partial",
    "C44_state_only_partial",
    "C44_nontrivial",
    "C44_nested_consts_refuted",
    "C44_call_handlers_ignored"
   ],
   "note": "Proved for all jaxprs with primitives, calls and pjits without nested constants, all handler tables and states. With constants in a nested pjit the interpreter fails (refuted). Bodies of scan/while/cond are not interpreted by the code; a handler for a call/pjit primitive is ignored (proved)."
  },
  {
   "property": "C45",
   "status": "partial",
   "theorems": [
    "C45_call_and_update",
    "C45_new_variables",
    "C45_undeclared_assign_raises",
    "C45_variable_set",
    "C45_projections",
    "C45_history_partial",
    "C45_assign_twice",
    "C45_skipped_loop_refuted"
   ],
   "note": "All stateful functions built with variable and assign (any control flow and scopes) and all call histories; variables keep their tree structure. False clause: a variable assigned only inside a loop that runs zero times is overwritten by zeros although nothing was assigned (C45_skipped_loop_refuted). Keyword arguments are not modelled; purity is by construction of the functional model."
  },
  {
   "property": "C46",
   "status": "proved",
   "theorems": [
    "C46_variables",
    "C46_call",
    "C46_call_exec",
    "C46_call_is_the_function_partial",
    "C46_init_succeeds",
    "C46_stateless"
   ],
   "note": "Every function whose state is declared with variable/assign, any control flow. A variable declared only in control flow that is not executed is zeros. C46_init_succeeds: when init does not raise. C46_call_is_the_function_partial additionally relates m.call to the plain function when the key is only used for initial values."
  },
  {
   "property": "C47",
   "status": "proved",
   "theorems": [
    "C47_list",
    "C47_tuple",
    "C47_empty",
    "C47_append",
    "C47_structure",
    "C47_composition"
   ],
   "note": "All nestings and lengths; the empty tuple raises in the code (proved)."
  },
  {
   "property": "C48",
   "status": "partial",
   "theorems": [
    "C48_function_roundtrip",
    "C48_reachable_roundtrip",
    "C48_layer_roundtrip",
    "C48_layer_roundtrip_call",
    "C48_empty_serial_refuted"
   ],
   "note": "Function modules; layers and Serial stacks of any depth in which every Serial has a child.  A Serial of no layers cannot be flattened (C48_empty_serial_refuted).  serialize/deserialize: pickle itself is not modelled."
  },
  {
   "property": "C49",
   "status": "partial",
   "theorems": [
    "C49_filter_kwargs",
    "C49_subdictionary",
    "C49_no_unexpected_keyword_partial",
    "C49_check_in_kwargs",
    "C49_agree_partial",
    "C49_keyword_only_refuted",
    "C49_positional_only_refuted"
   ],
   "note": "Exact characterisation for all signatures; the English property is false for keyword-only parameters (dropped) and positional-only parameters with defaults (kept), both refuted."
  },
  {
   "property": "C50",
   "status": "proved",
   "theorems": [
    "C50_tie_all",
    "C50_tie_in"
   ],
   "note": "All pytrees, including those without leaves. Transformation rules (JVP, batching, transposition) of the primitive are not modelled."
  },
  {
   "property": "C51",
   "status": "proved",
   "theorems": [
    "C51_dynamic_contexts",
    "C51_fresh",
    "C51_isolation"
   ],
   "note": "All programs of nested contexts, trace changes, exceptions and handlers; trace states are numbers, one thread."
  },
  {
   "property": "C52",
   "status": "partial",
   "theorems": [
    "C52_trace",
    "C52_schedule",
    "C52_scale",
    "C52_rms",
    "C52_stddev",
    "C52_adam",
    "C52_adam_weights",
    "C52_add_noise",
    "C52_sgd_partial",
    "C52_adam_optimizer_partial",
    "C52_rmsprop_partial",
    "C52_noisy_sgd_partial",
    "C52_sgd_raises",
    "C52_adam_raises",
    "C52_apply_updates",
    "C52_apply_updates_raises",
    "C52_optimize",
    "C52_optimize_trace",
    "C52_optimize_rms",
    "C52_optimize_stddev",
    "C52_optimize_adam",
    "C52_optimize_schedule",
    "C52_optimize_sgd_raises",
    "C52_optimize_adam_raises",
    "C52_optimize_example",
    "C52_example",
    "C52_trace_example"
   ],
   "note": "Each update function, initialised by state.init on any updates and called on any sequence of updates, never fails and its n-th result is the documented closed form (trace: sum of decay^(n-j) g_j, nesterov; schedule: 0-based step number; adam: bias-corrected averages whose weights sum to one), for every tree of arrays, number of steps and hyper-parameter, over exact reals.  sgd, adam, rmsprop and noisy_sgd are proved to emit -lr times these for versions of JAX in which a sow without arrays is invisible (suffix _partial); with the current JAX calling sgd or adam through state.init raises on every call (C52_sgd_raises, C52_adam_raises) because scale has no variables.  apply_updates adds the updates element by element; optimize(objective, update, n) with these update functions never fails and ends at the parameters obtained by adding the closed form for the gradients so far, n times (with sgd or adam it raises, current JAX).  Not covered: floating point."
  },
  {
   "property": "C53",
   "status": "proved",
   "theorems": [
    "C53_apply_every",
    "C53_steps"
   ],
   "note": "For every k >= 1, tree of arrays and sequence of updates the n-th result is zero unless n = j*k-1 for some j >= 1, and then it is g_n + g_(n-1) + ... + g_(n-k+1)."
  },
  {
   "property": "C54",
   "status": "partial",
   "theorems": [
    "C54_clip_by_global_norm",
    "C54_clip_array_partial",
    "C54_clip_tree_raises"
   ],
   "note": "clip_by_global_norm: proved for every tree and positive bound.  clip: proved for a single array; for every other tree with at least one array the property is false of the code: the lambda clips the whole tree, so jnp.clip raises TypeError (C54_clip_tree_raises)."
  },
  {
   "property": "C55",
   "status": "partial",
   "theorems": [
    "C55_chain_partial",
    "C55_chains_nest",
    "C55_stateless_stage_raises",
    "C55_positional_names",
    "C55_chain_initialises",
    "C55_example",
    "C55_gradient_descent",
    "C55_optimize",
    "C55_optimize_succeeds",
    "C55_optimize_example"
   ],
   "note": "Any number of functions and calls, both directions: the outputs and variables of a chain are those of a pipeline of modules initialised and updated independently. Missing: functions that declare variables below nest. Found: with the current JAX a chain with a function without variables (optix.scale, hence sgd, adam, rmsprop) raises ValueError on every call; a keyword equal to a positional name raises."
  },
  {
   "property": "C56",
   "status": "proved",
   "theorems": [
    "C56_accepts_iff",
    "C56_acceptance",
    "C56_acceptance_zero",
    "C56_detailed_balance",
    "C56_stationary",
    "C56_probabilities_unique",
    "C56_density_balance",
    "C56_random_walk_symmetric",
    "C56_random_walk_step",
    "C56_example"
   ],
   "note": "Every target (log probabilities may be -inf), every symmetric proposal driven by finitely many random keys with any probabilities, every state space and pytree of arrays; probabilities are integrals over the uniform number of the accept step.  C56_density_balance is the pointwise balance for proposal densities."
  },
  {
   "property": "C57",
   "status": "partial",
   "theorems": [
    "C57_detailed_balance_refuted",
    "C57_acceptance_inverted",
    "C57_symmetric_is_metropolis_partial"
   ],
   "note": "False of the code: log_prob(inner_step)(state, next_state) is the probability of going from next_state to state (the first argument of log_prob is the sample), so the correction is inverted; refuted by a two-state chain whose uniform target is not stationary.  Proved: the acceptance probability the code does have, and that with symmetric log probabilities (every use in the repository) the step is that of metropolis."
  },
  {
   "property": "C58",
   "status": "proved",
   "theorems": [
    "C58_leapfrog_reversible",
    "C58_leapfrog_injective",
    "C58_leapfrog_surjective",
    "C58_leapfrog_total",
    "C58_hmc_balance",
    "C58_hmc_acceptance",
    "C58_hmc_step",
    "C58_mala_step",
    "C58_example"
   ],
   "note": "Every n, step size, gradient function and pytree of arrays, over the reals; and, beyond the property, the balance of each accepted trajectory of hmc against its reversal and the acceptance probability."
  },
  {
   "property": "C59",
   "status": "partial",
   "theorems": [
    "C59_sample_chain_partial",
    "C59_sample_chain_succeeds_partial",
    "C59_sample_chain_state_partial",
    "C59_stateless_kernel_raises",
    "C59_example",
    "C59_plain_example"
   ],
   "note": "Any kernel (with or without variables), n, keys and initial state, as an ordinary function and under state.init (both directions).  Missing: kernels that declare variables below nest, and callbacks.  Found: under state.init a kernel without variables makes every call raise ValueError with current JAX (C59_stateless_kernel_raises)."
  },
  {
   "property": "C60",
   "status": "proved",
   "theorems": [
    "C60_serial",
    "C60_leaf",
    "C60_empty_serial_raises",
    "C60_nested",
    "C60_nested_succeeds",
    "C60_associative",
    "C60_keys_distinct",
    "C60_init",
    "C60_init_without_key_raises",
    "C60_rshift",
    "C60_rshift_spec"
   ],
   "note": "Every list of layers of any classes, input, key and keywords, at any nesting; both directions.  Distinct keys: for a generator whose halves never collide (hypothesis, with an instance).  A Serial of no layers raises (C60_empty_serial_raises)."
  },
  {
   "property": "C61",
   "status": "partial",
   "theorems": [
    "C61_spec_predicts_shape",
    "C61_template_call",
    "C61_reshape_refuted",
    "C61_reshape_init_refuted",
    "C61_layer_spec_refuted",
    "C61_windows_never_empty",
    "C61_init_succeeds",
    "C61_call_succeeds",
    "C61_template_succeeds",
    "ex_fitting",
    "ex_fitting_dropout",
    "ex_convnet",
    "ex_deconv_empty"
   ],
   "note": "Every template built from Serial and the layer classes of the repository, every input shape, and every layer reached from it by init and calls.  Templates whose hyper-parameters fit the inputs ([fitting] in NnTotal.v) can be initialised and called (C61_*_succeeds).  Excluded because the claim is false there, each with a theorem: Reshape with -1 (C61_reshape_refuted), transposed convolution of an empty image (ex_deconv_empty), state.spec of an initialised layer with hyper-parameters, which raises (C61_layer_spec_refuted).  dtypes are not modelled."
  },
  {
   "property": "C62",
   "status": "proved",
   "theorems": [
    "C62_moving_average",
    "C62_weights_sum",
    "C62_evaluation",
    "C62_evaluation_single",
    "C62_evaluation_independent",
    "C62_training",
    "C62_total",
    "C62_single_refuted",
    "ex_batchnorm"
   ],
   "note": "Every set of axes, shape without empty dimensions, momentum, initialisers and history of calls on batches of any sizes and on single examples whose first axis is averaged; C62_total: every such history runs.  Updates happen in evaluation mode too (_update takes no training flag), which the histories include.  Beyond the property: in training mode a batch is normalised with its own statistics.  Found: a single example whose first axis is not averaged moves the statistics of every row towards those of row 0 (C62_single_refuted; mean[0]).  The dispatch of a vmapped call to the batched methods (custom_layer_cau_batch) is taken as given."
  },
  {
   "property": "C63",
   "status": "partial",
   "theorems": [
    "C63_no_inner_variables",
    "C63_inner_variables_refuted"
   ],
   "note": "Proved for functions without inner named variables; refuted for all others: the scope and the output collide and joint_sample/trace raise ValueError."
  },
  {
   "property": "C64",
   "status": "partial",
   "theorems": [
    "C37_inverse",
    "C64_order_dependent_refuted"
   ],
   "note": "The value returned does not depend on the order (C37_inverse); success does (refuted with a bijector)."
  },
  {
   "property": "C65",
   "status": "proved",
   "theorems": [
    "C65_canonical_form"
   ],
   "note": "Every expression and cache history; the shape rules of opaque primitives are assumed not to raise the matcher's own MatchError."
  },
  {
   "property": "C66",
   "status": "proved",
   "theorems": [
    "C66_constrain",
    "C66_constrain_compose",
    "C66_constrain_example"
   ],
   "note": "Every composition of registered unary primitives and of binary primitives with constants (with the domains of C38), arrays of any shape, every schedule, set order and target, over the reals.  One array argument and result."
  },
  {
   "property": "C67",
   "status": "partial",
   "theorems": [
    "C67_sample",
    "C67_log_prob",
    "C67_example",
    "C67_outer_only_raises",
    "C67_outer_only_refuted",
    "C67_in_axes_refuted"
   ],
   "note": "Sampling: every nesting, in_axes and distribution.  log_prob: every nesting in which each parameter is mapped along axis 0 by all vmaps inside some level and by none outside it.  Otherwise the claim is false of the code: a parameter mapped by an outer vmap only raises (C67_outer_only_raises) or, with equal lengths, silently gives a wrong number (C67_outer_only_refuted); so does in_axes=1 (C67_in_axes_refuted): the batching rule leaves the arguments where they are.  The broadcasting of TFP's log_prob is modelled."
  },
  {
   "property": "C68",
   "status": "partial",
   "theorems": [
    "C68_reap_vmap",
    "C68_plant_vmap",
    "C68_harvest_vmap",
    "C68_reap_raises_iff",
    "C68_vmap_runs",
    "C68_reap_vmap_partial",
    "C68_append_axis_refuted",
    "C68_while_refuted",
    "C68_cond_refuted",
    "C68_exv_ok",
    "C68_reap_example",
    "C68_plants_ok",
    "C68_harvest_example"
   ],
   "note": "Every function built from arbitrary sow-free computations, sows, nests, calls and scans in which no append sow is inside a scan; all settings, examples and plants.  False of the code otherwise: append sows inside scans have the scan's axis before the batch axis (C68_append_axis_refuted; C68_reap_vmap_partial is the weaker statement for them), and while loops and conditionals whose predicate differs between examples reap values of iterations and branches that the example does not execute (C68_while_refuted, C68_cond_refuted).  Sown values that do not depend on a mapped input, and batch axes other than 0, are not modelled."
  },
  {
   "property": "C69",
   "status": "proved",
   "theorems": [
    "C69_summary_identity",
    "C69_get_summaries",
    "C69_is_call_and_reap",
    "C69_raises_iff",
    "C69_nothing_left",
    "C69_other_tags",
    "C69_other_example",
    "C69_example",
    "C69_raises_example"
   ],
   "note": "Every program in which the tag 'summary' is used through summary() (which rejects the mode of sow_cond); the values are those of the recording execution of HarvestSpec.v, as in C24."
  },
  {
   "property": "C70",
   "status": "proved",
   "theorems": [
    "C70_derivative_ignores_sows",
    "C70_primal",
    "C70_raises_iff",
    "C70_reap_jvp",
    "C70_plant_jvp",
    "C70_planted_tangent",
    "C70_harvest_jvp",
    "C70_example",
    "C70_commute_refuted"
   ],
   "note": "Every program; derivatives of sow-free computations are given with them, JAX's forward mode on calls, scans, whiles and conds is modelled (custom_jvp, remat and reverse mode are not).  harvest (both at once): programs without the mode mixtures of C26/C28.  Since tangents pass through a planted sow, plant(jvp(f)) is not jvp(plant(f)) (C70_commute_refuted)."
  },
  {
   "property": "C71",
   "status": "proved",
   "theorems": [
    "C71_plate",
    "C71_keys",
    "C71_plate_of_sample",
    "C71_example"
   ],
   "note": "Values under the named axis are families indexed by the instance. C71_plate: any body that C40 covers, the plate being the whole program; plates inside larger programs are covered by C40_log_prob_exact, where the ILDJ of what follows the plate is counted twice (C40_plate_refuted). C71_keys: every execution. C71_plate_of_sample uses functional extensionality, to compare families."
  },
  {
   "property": "C72",
   "status": "proved",
   "theorems": [
    "C72_dense",
    "C72_dense_init",
    "C72_dropout_evaluation",
    "C72_dropout_training",
    "C72_dropout_needs_key",
    "C72_relu",
    "C72_tanh",
    "C72_softplus",
    "C72_softmax",
    "C72_softmax_unique",
    "C72_log_softmax",
    "C72_flatten",
    "C72_reshape",
    "C72_elements_determine",
    "C72_flatten_reshape",
    "C72_pooling",
    "C72_average_constant",
    "C72_convolution",
    "C72_valid",
    "C72_correlation_linear",
    "C72_example"
   ],
   "note": "Over real arrays (no rounding). The lax operations are modelled by their documented meaning; what is proved is that the layers give them the right windows, strides, paddings, axes, parameters and keys, stated without the helpers of the model. Dropout: the mask is an arbitrary function of key and rate (random.bernoulli). Images must be non-empty for pooling and convolutions, filter shapes have two elements, paddings are strings."
  },
  {
   "property": "C73",
   "status": "partial",
   "theorems": [
    "C73_examples",
    "C73_succeeds",
    "C73_evaluation",
    "C73_batch_succeeds",
    "C73_batch_shape",
    "C73_batchnorm",
    "C73_mapped_key_refuted",
    "C73_training_refuted",
    "ex_local",
    "ex_batch"
   ],
   "note": "C73_examples: every network without BatchNorm, exactly, outputs and updated layers, with shared, per-example or no keys. With BatchNorm: evaluation mode, an unmapped key, networks whose activations look only at elements inside the array (all of the library: *_local lemmas), every history. False of the code otherwise: with a key per example a BatchNorm layer gives every example the outputs of the whole batch, one dimension too many (C73_mapped_key_refuted); in training mode a single call returns its input and a batch is normalised (C73_training_refuted). Examples are on axis 0 of every argument and the layer itself is not mapped."
  },
  {
   "property": "C74",
   "status": "partial",
   "theorems": [
    "C74_keywords",
    "C74_override",
    "C74_no_keywords",
    "C74_variables",
    "C74_undeclared",
    "C74_jit_refuted",
    "C74_branch_refuted",
    "C74_constant_refuted",
    "C74_unknown_keyword",
    "C74_shared_key",
    "C74_call_primitive",
    "C74_example",
    "blind_dense",
    "blind_activation",
    "blind_dropout"
   ],
   "note": "C74_keywords: the module equals the function, for functions that hand the keywords on. Without that proviso the claim is false of the code: layers inside jit, scan and so on do not see the keywords (C74_jit_refuted), Python branches are those of init (C74_branch_refuted), constants that the function passes are overridden (C74_constant_refuted), unknown keywords are accepted (C74_unknown_keyword); a keyword rng gives all layers without a key the same key (C74_shared_key). Call primitives: both readings of subjaxpr.jaxpr (function.py:121), see has_jaxpr; C74_call_primitive."
  },
  {
   "property": "C75",
   "status": "proved",
   "theorems": [
    "C75_reap",
    "C75_reap_defined",
    "C75_plant",
    "C75_harvest",
    "C75_reap_primal",
    "C75_plant_primal",
    "C75_harvest_primal",
    "C75_velocity_unique",
    "C75_example_smooth",
    "C75_example_reap",
    "C75_example_plant"
   ],
   "note": "C75_reap/C75_plant/C75_harvest: the tangents that jvp returns are velocities (GradHarvestSpec.v: limits of difference quotients, element by element) of reap(f), plant(f), harvest(f) along every curve; C75_velocity_unique: a curve has only one velocity. C75_*_primal: raises exactly when the transformation raises, same primal program. Hypothesis smooth: the parts of f between the sows have the derivatives jvp uses for them, predicates are constant near the point, and the code after a planted sow is differentiable at the planted values (D). C75_example_*: a program with a strict sow and a scan that appends. Not covered: custom_jvp functions with sows inside; there reap under an outer jvp runs only the rule, so the sows of the function itself are lost (harvest.py:586-613, by reading)."
  },
  {
   "property": "C76",
   "status": "proved",
   "theorems": [
    "C76_rule_used",
    "C76_noninvertible",
    "C76_none_raises",
    "C76_unregistered",
    "C76_automatic_ildj",
    "C76_change_of_variables",
    "C76_unary_override",
    "C76_auto_returns",
    "C76_traced",
    "C76_sin_refuted",
    "C76_negative_power_refuted",
    "C76_example_domain",
    "C76_example_program"
   ],
   "note": "Over the reals.  C76_rule_used and C76_noninvertible: any values and any rule.  C76_automatic_ildj: f_inv traced to its registered inverse (mirrors, C76_traced) and inverted again.  Limits of the automatic ILDJ, each with a theorem: sin and cos as f_inv raise NotImplementedError, since asin and acos are unregistered (C76_sin_refuted); x**n with n < -1 gives NaN (C76_negative_power_refuted); a rule that returns None for an unknown argument raises (C76_none_raises).  An f_inv that uses its argument twice (softplus_inv of the library) cannot be inverted automatically and is not covered.  jnp.square traces to integer_pow or to square_p depending on the version of JAX (parameter sq)."
  },
  {
   "property": "C77",
   "status": "partial",
   "theorems": [
    "C77_rewrite_canonicalize_returns",
    "C77_returns_example",
    "C77_rewrite_canonicalize_partial",
    "C77_rewrite_terminates",
    "C77_srun_is_run",
    "C77_rewrite_canonicalize_refuted",
    "C77_example"
   ],
   "note": "Every shaped jaxpr with nested calls and constants, commutative semiring and history of the rule caches, arrays of at most 26 dimensions: the rewritten function returns what f returns, or canonicalize raises.  It does raise (C77_rewrite_canonicalize_refuted): a linear operation on the result of a nested jit asks for CallPrimitive.shape, which is a TypeError.  C77_rewrite_canonicalize_returns: it does not raise, and returns what f returns, when the expressions are acceptable in the sense of C22.  Call primitives with constants of their own: C18."
  },
  {
   "property": "C78",
   "status": "proved",
   "theorems": [
    "C78_jvp_outputs",
    "C78_reaped_values",
    "C78_rule_tangents_zero",
    "C78_without_rules",
    "C78_undifferentiated",
    "C78_plant_inlines",
    "C78_plant_overrides",
    "C78_planted_twice_raises",
    "C78_example",
    "C78_primal_refuted",
    "C78_plant_call_refuted"
   ],
   "note": "C78_jvp_outputs/C78_reaped_values: every cprog for which jvp(reap) traces; C78_rule_tangents_zero: every name that is sown in rules only and is not a scope. C78_undifferentiated: programs without the mixtures of sow_cond with other modes that reap mishandles (regular, as in C24). C78_plant_inlines: every program and plants, errors included. C78_primal_refuted: the primal results of jvp(reap(f)) are not those of reap(f) when function and rule sow differently. C78_plant_call_refuted: unlike a call, a custom function shares the names already planted. Not covered: custom_vjp, custom functions inside jit, scan, while and cond, jvp of plant with rules."
  },
  {
   "property": "C79",
   "status": "proved",
   "theorems": [
    "C79_transparent",
    "C79_jit",
    "C79_exact",
    "C79_jit_exact",
    "C79_jvp",
    "C79_jvp_primal",
    "C79_vmap",
    "C79_level",
    "C79_level_jit",
    "C79_level_exact",
    "C79_level_jit_exact",
    "C79_branch_refuted",
    "C79_objects_refuted"
   ],
   "note": "C79_transparent/C79_jit: whatever a program with marked functions returns, the program without marks returns (Python numbers may have become arrays); it raises the same exception or refuses to be traced.  C79_exact/C79_jit_exact: without branches on traced values, objects that are no arrays (except as keyword arguments) and unnamed functions the two agree, exceptions included.  C79_jvp, C79_jvp_primal, C79_vmap: at the level of JVP tracers and of batches; C79_level_*: at any level that maps to the arrays.  The refuted theorems are the refusals.  Staging shares constants that are the same object (here: one constant per use); transposition and custom batching rules (random_variable: C67; layers: C73) are not in this model."
  },
  {
   "property": "C80",
   "status": "proved",
   "theorems": [
    "C80_sows_invisible",
    "C80_transpose",
    "C80_gradient",
    "C80_reap_is_reap",
    "C80_reap_transpose",
    "C80_reap_gradient",
    "C80_rules_kept",
    "C80_reap_of_vjp",
    "C80_forward_is_f",
    "C80_example_sound",
    "C80_example_grad",
    "C80_example",
    "C80_cond_example",
    "C80_scan_example",
    "C80_plant_is_plant",
    "C80_plant_transpose",
    "C80_plant_fixed",
    "C80_plant_gradient",
    "C80_harvest_is_harvest",
    "C80_harvest_transpose",
    "C80_harvest_gradient",
    "C80_plant_example",
    "C80_plant_scan_example",
    "C80_plant_value",
    "C80_plant_of_vjp",
    "C80_plant_of_vjp_example",
    "C80_plant_order_refuted",
    "C80_fwd_values_refuted",
    "C80_bwd_sows_refuted"
   ],
   "note": "jax.vjp as forward pass with residuals and transposed backward pass, over any arrays with a pairing of values and cotangents (instances: integers, reals). C80_sows_invisible: values, cotangents, errors equal those of the program with sows, scopes, calls removed; C80_transpose: <dy, ct> = <dx, vjp ct>, the premise `sound` being the same statement about each elementary step; C80_reap_transpose/C80_reap_gradient: the same for reap(f) with cotangents of reaped values, the velocities those of C75; C80_rules_kept: custom_vjp rules are used under reap; C80_reap_of_vjp: what is reaped from a gradient (rules whose bwd sows nothing). Limits as theorems: values sown by a fwd have no gradient; what bwd sows is reaped by reap(vjp f) and lost by vjp(reap f). Conds and scans included. Not covered: while loops (jax.vjp raises) and sow_cond in reverse mode (except inside a fwd, not in a scan). C80_plant_* and C80_harvest_*: the same for plant(f) and harvest(f), with gradients in the planted values too (functions without rules; cotangents of plants are formal sums of entries). C80_plant_of_vjp: plant(vjp f) is another gradient, f's pullback at the planted residuals (C80_plant_order_refuted: it differs from vjp(plant f))."
  }
 ]
}