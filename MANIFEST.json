{
 "claims": [
  {
   "property": "C01",
   "status": "proved",
   "theorems": [
    "C01_add_sound",
    "C01_sub_sound",
    "C01_mul_sound",
    "C01_neg_sound"
   ],
   "note": ""
  },
  {
   "property": "C02",
   "status": "proved",
   "theorems": [
    "C02_and_sound",
    "C02_or_sound",
    "C02_xor_sound",
    "C02_shl_sound",
    "C02_lshr_sound",
    "C02_ashr_sound"
   ],
   "note": ""
  },
  {
   "property": "C03",
   "status": "partial",
   "theorems": [
    "C03_udiv_sound",
    "C03_urem_sound",
    "C03_srem_sound",
    "C03_sdiv_sound_partial",
    "C03_sdiv_refuted"
   ],
   "note": "udiv/urem/srem fully sound; sdiv is unsound in the code when the dividend range includes INT_MIN and the divisor range includes -1 (C03_sdiv_refuted); proved everywhere else (C03_sdiv_sound_partial)."
  },
  {
   "property": "C04",
   "status": "partial",
   "theorems": [
    "C04_sync_exact",
    "C04_intersect_sound",
    "C04_union_sound",
    "C04_const_exact",
    "C04_full_top",
    "C04_inferConstant_sound",
    "C04_intersectWith_complete",
    "C04_nonNegative_exact",
    "C04_smax_sound",
    "C04_smin_sound",
    "C04_abs_sound_partial",
    "C04_abs_refuted",
    "C04_isEmpty_refuted"
   ],
   "note": "all proved except abs on ranges containing INT_MIN and a non-negative value and isEmpty, both refuted with witnesses."
  },
  {
   "property": "C05",
   "status": "proved",
   "theorems": [
    "C05_fold_decides_the_predicate",
    "C05_separated_ranges_are_folded",
    "C05_pass_keeps_comparisons"
   ],
   "note": ""
  },
  {
   "property": "C06",
   "status": "partial",
   "theorems": [
    "C06_pass_preserves_value_partial",
    "C06_other_rewrites_preserve_value",
    "C06_srem_to_urem_refuted",
    "C06_product_merge_refuted"
   ],
   "note": "all eleven rewrites of the pass modelled; nine preserve the value for every right range oracle; srem->urem needs constant divisor or non-negative dividend, product merging needs a product that fits; both unrestricted forms refuted with witnesses. The range analysis itself is an oracle here (its transfer functions are C01-C04)."
  },
  {
   "property": "C07",
   "status": "partial",
   "theorems": [
    "C07_reduce_preserves_value",
    "C07_pass_preserves_value",
    "C07_rule509_partial",
    "C07_rule646_zero_tests",
    "C07_rule736_partial",
    "C07_rule749_partial",
    "C07_rule1051_partial",
    "C07_rule1161_partial",
    "C07_rule1167_partial",
    "C07_rule1176_partial",
    "C07_rule1182_partial",
    "C07_rule1194_partial",
    "C07_rule1269_partial",
    "C07_rule460_partial",
    "C07_value_changed_refuted",
    "C07_illtyped_result_refuted"
   ],
   "note": "162 integer rules of the simplifier modelled; value preservation proved for every rule outside two explicit lists and for whole runs at any depth; the listed rules are proved under a stated side condition and refuted without it."
  },
  {
   "property": "C08",
   "status": "partial",
   "theorems": [
    "C08_reduce_refines_without_overflow",
    "C08_rewrite_anywhere",
    "C08_rule181_partial",
    "C08_rule443_partial",
    "C08_value_changed_refuted",
    "C08_composition_refuted"
   ],
   "note": "refinement without signed overflow proved for every rule outside the special list, at any depth; special rules partial + refuted; composition of two individually right rewrites is refuted (C08_composition_refuted)."
  },
  {
   "property": "C09",
   "status": "partial",
   "theorems": [
    "C09_folding_agrees_partial",
    "C09_division_by_zero_kept_partial",
    "C09_closed_expressions_become_constants",
    "C09_truncation_to_boolean_refuted",
    "C09_select_of_zeros_refuted"
   ],
   "note": "folding agrees with evaluation for every well-typed expression of the modelled operators; truncation to boolean and select of +0/-0 are refuted with witnesses."
  },
  {
   "property": "C10",
   "status": "partial",
   "theorems": [
    "C10_expansion_correct",
    "C10_power_of_two_always_expanded",
    "C10_cost_within_budget_refuted",
    "C10_large_constant_refuted"
   ],
   "note": "expansion correct for every multiplier; a power of two always expands; the cost budget claim is refuted (20 with budget 2 costs 3) and multipliers above 2^62 hit undefined behaviour (refuted)."
  },
  {
   "property": "C11",
   "status": "partial",
   "theorems": [
    "C11_merged_sum_partial",
    "C11_merged_sum_sign_refuted",
    "C11_merged_sum_overflow_refuted",
    "C11_linear_recurrence_final_value_partial",
    "C11_arithmetic_series_final_value_partial",
    "C11_recurrence_used_inside_loop_refuted",
    "C11_recurrence_unguarded_loop_refuted",
    "C11_recurrence_long_loop_refuted",
    "C11_recurrence_varying_modulus_refuted",
    "C11_recurrence_negative_modulus_refuted",
    "C11_remainder_to_select"
   ],
   "note": "each rewrite proved under its stated side conditions (the ones the code checks plus the ones it does not, named as hypotheses); each unchecked side condition is refuted with a concrete witness."
  },
  {
   "property": "C12",
   "status": "partial",
   "theorems": [
    "C12_every_index_exactly_once",
    "C12_any_thread_count",
    "C12_chunks_nonempty_inside_aligned",
    "C12_one_chunk_per_worker",
    "C12_end_near_INT_MAX_refuted"
   ],
   "note": "covers [beg,end) exactly; refuted for end near INT_MAX where the 32-bit index overflows."
  },
  {
   "property": "C13",
   "status": "proved",
   "theorems": [
    "C13_each_worker_ran_its_chunks_in_order",
    "C13_return_means_every_chunk_ran_exactly_once",
    "C13_bodies_run_only_inside_their_call",
    "C13_no_deadlock",
    "C13_every_schedule_is_finite",
    "C13_maximal_schedules_return",
    "C13_teardown_stops_all_workers",
    "C13_call_completes",
    "C13_every_iteration_once_under_every_schedule"
   ],
   "note": "assumes the loop body terminates and parallelFor is not called from a body (nested use is outside the model)."
  },
  {
   "property": "C14",
   "status": "partial",
   "theorems": [
    "C14_memoisation_transparent_partial",
    "C14_small_arguments_transparent_partial",
    "C14_negative_argument_refuted",
    "C14_slot_collision_refuted"
   ],
   "note": "transparent for every pure body when each argument pair maps to its own slot and the hash never repeats; negative arguments and slot collisions are refuted with witnesses."
  },
  {
   "property": "C15",
   "status": "proved",
   "theorems": [
    "C15_integer_round_trip",
    "C15_pointer_round_trip",
    "C15_float_bits_round_trip",
    "C15_stores_disturb_nothing_else",
    "C15_loads_change_nothing",
    "C15_bad_accesses_reported"
   ],
   "note": "byte-level contents and tags for every sequence of stores, loads, allocations and frees; addresses are unbounded integers."
  },
  {
   "property": "C16",
   "status": "proved",
   "theorems": [
    "C16_live_allocations_disjoint_aligned_accessible",
    "C16_stack_allocation_fresh",
    "C16_return_releases_exactly_the_frame",
    "C16_allocation_state_determined_by_live_frames",
    "C16_global_materialisation",
    "C16_single_release_is_deferred"
   ],
   "note": "covers the scratch-slot allocator of the interpreter for all nesting of calls."
  },
  {
   "property": "C17",
   "status": "proved",
   "theorems": [
    "C17_slots_disjoint_and_inside_the_frame",
    "C17_every_object_placed",
    "C17_stack_pointer_stays_aligned",
    "C17_argument_offsets",
    "C17_base_bounded"
   ],
   "note": ""
  },
  {
   "property": "C18",
   "status": "proved",
   "theorems": [
    "C18_partition_correct_and_optimal",
    "C18_partition_exists"
   ],
   "note": ""
  },
  {
   "property": "C19",
   "status": "proved",
   "theorems": [
    "C19_list_is_the_sequence",
    "C19_operations_terminate",
    "C19_other_lists_untouched"
   ],
   "note": ""
  },
  {
   "property": "C20",
   "status": "proved",
   "theorems": [
    "C20_live_objects_aligned_inside_owned_blocks",
    "C20_live_objects_disjoint",
    "C20_free_only_own_large_blocks",
    "C20_destructor_frees_each_block_once"
   ],
   "note": "no wrap-around of uintptr_t; the underlying allocator returns fresh disjoint blocks."
  },
  {
   "property": "C21",
   "status": "proved",
   "theorems": [
    "C21_interning_injective_and_stable",
    "C21_numbered_names_distinct"
   ],
   "note": "nothing is assumed about the hash function."
  },
  {
   "property": "C22",
   "status": "proved",
   "theorems": [
    "C22_calcSCC_correct"
   ],
   "note": ""
  },
  {
   "property": "C23",
   "status": "partial",
   "theorems": [
    "C23_recognised_table_is_the_expression",
    "C23_pass_preserves_behaviour",
    "C23_shift_by_64_refuted",
    "C23_out_of_bounds_store_crashes_refuted"
   ],
   "note": "tables of i8/i16/i32; shift by 64 (host UB) and out-of-bounds stores (compiler crash) refuted; i1/i64 element types not covered."
  },
  {
   "property": "C24",
   "status": "proved",
   "theorems": [
    "C24_entry_in_bounds_and_for_the_key",
    "C24_no_key_twice",
    "C24_thread_count_supported",
    "C24_parallelFor_after_any_history"
   ],
   "note": ""
  },
  {
   "property": "C25",
   "status": "proved",
   "theorems": [
    "C25_interpreter_icmp_exact",
    "C25_interpreter_fcmp_exact",
    "C25_inverted_int",
    "C25_inverted_float",
    "C25_reversed_int",
    "C25_reversed_float",
    "C25_involutive",
    "C25_inverted_computed"
   ],
   "note": ""
  },
  {
   "property": "C26",
   "status": "partial",
   "theorems": [
    "C26_stale_timings_refuted",
    "C26_fresh_loop_has_no_timings_partial"
   ],
   "note": "selection of the tuning entry refuted (a new loop inherits another loop's timings after eviction); the entry is fresh while the table is not full."
  },
  {
   "property": "C27",
   "status": "proved",
   "theorems": [
    "C27_phi_copies_are_a_parallel_assignment"
   ],
   "note": "registers are compared by identity; the copy opcode is abstract."
  },
  {
   "property": "C28",
   "status": "partial",
   "theorems": [
    "C28_switch_formation_partial",
    "C28_switch_formation_drops_effects_refuted",
    "C28_jump_table_dispatch",
    "C28_single_key_fact_sound_partial",
    "C28_shared_target_facts_refuted"
   ],
   "note": "jump-table dispatch proved for every key set; switch formation proved for chains whose blocks hold only the compare (partial) and refuted when a chain block has a store; edge facts proved for targets reached by one key and refuted for shared targets."
  },
  {
   "property": "C29",
   "status": "partial",
   "theorems": [
    "C29_multiplier_choice",
    "C29_riscv_quotient_low_word_partial",
    "C29_riscv_quotient_register_partial",
    "C29_riscv_quotient_register_refuted",
    "C29_riscv_remainder",
    "C29_riscv_division_by_shifted_one_partial",
    "C29_division_by_shifted_one_refuted",
    "C29_arm_quotient",
    "C29_arm_remainder",
    "C29_arm_division_by_shifted_one_partial"
   ],
   "note": "multiplier selection, ARM quotient/remainder and RISC-V remainder proved for all inputs; RISC-V quotient proved on the low 32 bits always and on the whole register when the selected shift is non-zero; refuted for shift 0 (x/3 of a negative x leaves a zero-extended register that the emitted 64-bit compare misreads) and for a divisor 1<<31."
  },
  {
   "property": "C30",
   "status": "partial",
   "theorems": [
    "C30_simplify_zero_exact",
    "C30_simplify_zero_witness",
    "C30_branch_to_jump_exact",
    "C30_branch_to_jump_witness",
    "C30_branch_to_jump_needs_fallthrough",
    "C30_remove_dead_branch_exact",
    "C30_remove_dead_branch_witness",
    "C30_remove_sext_partial",
    "C30_remove_sext_witness",
    "C30_remove_sext_refuted",
    "C30_relax_w_partial",
    "C30_relax_w_witness",
    "C30_relax_w_refuted",
    "C30_relax_add_uw_refuted"
   ],
   "note": "branch-to-jump, dead-branch removal and zero simplification proved exact for every run; sign-extension removal and 32-bit widening proved (any hash order) for programs without a logical right shift by exactly 32 and without relaxable results used as a 64-bit address operand; both exclusions are refuted with concrete programs."
  },
  {
   "property": "C31",
   "status": "partial",
   "theorems": [
    "C31_constant_reuse_partial",
    "C31_constant_reuse_witness",
    "C31_constant_reuse_refuted",
    "C31_constant_reuse_redefinition_refuted",
    "C31_store_pair_partial",
    "C31_load_pair_partial",
    "C31_pair_witness",
    "C31_store_pair_refuted",
    "C31_load_pair_refuted",
    "C31_zero_pair_partial",
    "C31_zero_pair_witness",
    "C31_zero_pair_refuted",
    "C31_zero_pair_redefinition_refuted",
    "C31_double_word_copy_partial",
    "C31_double_word_copy_witness",
    "C31_double_word_copy_refuted"
   ],
   "note": "each folding proved for blocks in SSA form (store, load and copy pairs), for really adjacent stack slots (zero pairs) and for constants no negative one of which is a right shift of another; every side condition the code does not check (register overwritten in between, non-adjacent stack slots, a twice-used load inside the copy window, logical shift of a negative constant) is refuted with a concrete block. Relocation addresses not modelled."
  },
  {
   "property": "C32",
   "status": "partial",
   "theorems": [
    "C32_identity_copies",
    "C32_indirect_copies",
    "C32_indirect_copies_witness",
    "C32_stack_loads",
    "C32_stack_loads_witness",
    "C32_create_indirect_copies",
    "C32_create_indirect_copies_witness",
    "C32_instruction_cse",
    "C32_instruction_cse_witness",
    "C32_repeated_instructions_partial",
    "C32_repeated_instructions_witness",
    "C32_repeated_instructions_multidef_refuted",
    "C32_unused_instructions",
    "C32_unused_instructions_witness",
    "C32_overwritten_instructions",
    "C32_overwritten_instructions_witness",
    "C32_overwritten_instructions_virtual_refuted",
    "C32_ssa_propagation",
    "C32_constant_cse_partial",
    "C32_constant_hoist_partial",
    "C32_constants_witness",
    "C32_constant_cse_reload_refuted",
    "C32_constant_cse_pcrel_refuted"
   ],
   "note": "every pass of genericPeepholeOpt and createIndirectCopy modelled over an abstract target; copies, spill-slot forwarding, instruction CSE, unused-instruction removal, overwritten-instruction removal (after register allocation) and SSA constant propagation proved without restriction on the program; deadInstElimination proved for functions without multi-result instructions and refuted with one; constant CSE and hoisting proved for constants that do not depend on their place, CSE also for blocks that do not reload a constant register; these exclusions refuted with concrete functions. The target's own scheduleModel.peepholeOpt is C30/C31."
  },
  {
   "property": "C33",
   "status": "partial",
   "theorems": [
    "C33_blockMerge_with_analysis",
    "C33_simplifyBranch",
    "C33_mergeBranch",
    "C33_simplifyPartialUnreachableBranch",
    "C33_noReturnCallEliminate",
    "C33_blockEliminate",
    "C33_blockMerge",
    "C33_combineBranch",
    "C33_unifyReturn",
    "C33_forwardBranch_edge_partial",
    "C33_forwardBranch_partial",
    "C33_unreachableEliminate_partial",
    "C33_any_sequence",
    "C33_unreachableEliminate_refuted",
    "C33_forwardBranch_refuted"
   ],
   "note": "Nine clean-up passes proved for every well-formed function, one at a time and in any sequence. ForwardBranch is proved with the target test repeated after each rewrite and refuted as written; UnreachableEliminate is proved when no call ends the program and refuted otherwise. Well-formedness covers unique results, closed edges and phi sources, not dominance or types."
  },
  {
   "property": "C34",
   "status": "proved",
   "theorems": [
    "C34_simpleCSE",
    "C34_phiEliminate",
    "C34_reduceConstantPhis",
    "C34_noSideEffectEliminate",
    "C34_cleanupUnusedInsts",
    "C34_noSideEffectEliminate_exact",
    "C34_any_sequence"
   ],
   "note": "SimpleCSE, PhiEliminate (for any grouping), reduceConstantPhis, NoSideEffectEliminate and cleanupUnusedInsts proved for every well-formed SSA function, alone and in any sequence with GVN; dead-value removal is exact. Indirect calls (null dereference in the pass) and types are not modelled."
  },
  {
   "property": "C35",
   "status": "partial",
   "theorems": [
    "C35_verifier_with_analysis_partial",
    "C35_no_unset_read_partial",
    "C35_no_unset_read_refuted"
   ],
   "note": "Proved under the extra condition that no phi takes a value of unreachable code on an edge from reachable code (C35_no_unset_read_partial); the verifier does not check that condition and C35_no_unset_read_refuted exhibits an accepted function that reads an unset value. Dominance is a parameter required to be correct; C35_verifier_with_analysis_partial discharges it with the modelled analysis (C37); types are not modelled."
  },
  {
   "property": "C36",
   "status": "proved",
   "theorems": [
    "C36_gvn_with_analysis",
    "C36_gvn",
    "C36_numbers_total",
    "C36_equal_numbers"
   ],
   "note": "GVN with numbering, leaders and hoisting proved for every well-formed SSA function given a correct dominator analysis; equal numbers are shown to mean equal values; the numbering recursion is shown to terminate. Hash buckets are left out. C36_gvn_with_analysis runs it on the modelled dominator analysis (C37)."
  },
  {
   "property": "C37",
   "status": "proved",
   "theorems": [
    "C37_dominate_exact",
    "C37_reachable_exact",
    "C37_parent",
    "C37_blocks",
    "C37_subtree_size",
    "C37_lca",
    "C37_domOk"
   ],
   "note": "Lengauer-Tarjan with path compression, the numbering of the tree, binary lifting and all queries proved exact for every graph and every iteration order. lca needs at most 2^21 blocks (its ancestor tables have 21 entries and are read unchecked). reversedBlocks(), which is unused, copies into a vector of size 0 and is not modelled."
  },
  {
   "property": "C38",
   "status": "partial",
   "theorems": [
    "C38_liveness_terminates",
    "C38_liveness_sound",
    "C38_liveness_exact_partial",
    "C38_optimize_same_positions",
    "C38_interval_exact_partial",
    "C38_interval_wellformed_partial",
    "C38_intersect_exact_partial",
    "C38_dead_flags_sound_partial",
    "C38_tied_operand_refuted"
   ],
   "note": "Termination and soundness (what is reported live is live) hold for all code. Exactness, intervals, intersections and dead flags are proved for code in which no block first mentions a register in an instruction that both defines and uses it, no instruction defines a register twice and no block is empty; without the first the claim is false (C38_tied_operand_refuted: operands are visited in order, the definition hides the use)."
  },
  {
   "property": "C39",
   "status": "partial",
   "theorems": [
    "C39_coloring_proper",
    "C39_spill_exact",
    "C39_allocation_partial",
    "C39_tied_operand_refuted"
   ],
   "note": "Colouring: complete (proper, never stuck, spill asked for exactly when a set of registers cannot be simplified). Allocation: proved whenever every class can be coloured, for every oracle of the queue and of the cost model and any usage information that covers what calls change. The insertion of spill code is C40. C39_tied_operand_refuted shows that the liveness defect of C38 makes the allocator produce a wrong program."
  },
  {
   "property": "C40",
   "status": "partial",
   "theorems": [
    "C40_spill_to_slot_partial",
    "C40_spill_constant",
    "C40_spill_argument_partial",
    "C40_spills_then_colouring_partial",
    "C40_spill_argument_refuted",
    "C40_store_placement_refuted"
   ],
   "note": "Slot mode: proved if nothing the store is moved behind mentions the register (C40_store_placement_refuted shows what happens otherwise). Constant mode: complete. Argument mode: proved if every definition loads the argument; C40_spill_argument_refuted shows that a second definition is erased. Composition with colouring: the theorem takes the liveness facts of the spilled program as hypotheses (raInput) and recomputes all classes on the final program, where the code interleaves classes and rounds. The code copies the defining instruction of a constant after it erased it from its std::list (a read of freed memory; modelled as if the copy had been made before)."
  },
  {
   "property": "C41",
   "status": "proved",
   "theorems": [
    "C41_order_is_legal",
    "C41_block_same_state",
    "C41_schedule_same_behaviour",
    "C41_riscv_always_schedules",
    "C41_arm_always_schedules",
    "C41_riscv_schedule"
   ],
   "note": "The ranks (328-352) are any order. preRASchedule returns immediately (disabled in the code) and is covered only in that its dependence graph is the same. Truthful flags are the hypothesis schedTarget; an operand that is both read and written is two operands. Cycle counters are natural numbers. The logarithms a division carries are at most 64 (otherwise a latency above 199 could make the scheduler give up). makeRegisterReady's .at(0) on a non-register operand is not modelled."
  },
  {
   "property": "C42",
   "status": "partial",
   "theorems": [
    "C42_selection_preserves_partial",
    "C42_selected_code_valid_partial",
    "C42_legalize_preserves",
    "C42_shadd_refuted",
    "C42_xnor_refuted",
    "C42_andn_refuted",
    "C42_branch_constant_refuted",
    "C42_inverted_select_refuted"
   ],
   "note": "Partial because five patterns are wrong for some operands; each is refuted with a block (SH1ADD..SH3ADD on 32-bit additions, XNOR on Bool, immediates whose low half is all ones in 64-bit code for ANDN/ORN/XNOR and for branches, select on (x ^ 1) != 0). The theorems assume no defect is met (cleanRound; it also excludes srliw by 0 of srli 32, which the patterns modelled here never produce). Legalization alone is proved without exceptions. Not modelled: floating point, memory and address patterns, division by constants (C29), the peephole passes between rounds (C30-C32), the second phase that may create blocks. Type I8/I16 arithmetic other than logic is excluded by the typing (the code has no patterns for it)."
  },
  {
   "property": "C43",
   "status": "proved",
   "theorems": [
    "C43_legalization_preserves",
    "C43_constants",
    "C43_no_pseudo_left",
    "C43_legalization_total",
    "C43_legalized_encodable"
   ],
   "note": "Hypothesis: a select does not write a register it still has to compare or copy (exOverwrite shows the need); SSA form gives it. Not modelled: Select_FPR_GPR, block probabilities, LoadImm64Complex is kept as the li pseudo instruction (the assembler expands it), the peephole passes run afterwards (C30-C32). val32 - lo overflows int for constants above 0x7ffff7ff; the model wraps, as compiled code does."
  },
  {
   "property": "C44",
   "status": "partial",
   "theorems": [
    "C44_elements_disjoint",
    "C44_scalars_aligned_partial",
    "C44_offsets_gathered",
    "C44_lowering_agrees_partial",
    "C44_combine_preserves_partial",
    "C44_decompose_preserves_partial",
    "C44_decompose_mul_partial",
    "C44_pointer_arithmetic",
    "C44_initializer_size",
    "C44_initializer_bytes",
    "C44_initializer_interpreter",
    "C44_scalars_aligned_refuted",
    "C44_lowering_agrees_refuted",
    "C44_combine_preserves_refuted",
    "C44_decompose_refuted",
    "C44_initializer_size_refuted"
   ],
   "note": "Disjointness, offset gathering, pointer arithmetic and the emitted initial values (32-bit and smaller integers, floats, arrays of these) hold in full. Refuted with witnesses: structs have no tail padding, so array elements may be misaligned; the generated code multiplies 32-bit indices in 32 bits; GEPCombine and GEPDecompose wrap 32-bit sums and products; the initial value of a 64-bit global is not emitted. The _partial theorems exclude exactly these cases. Initial values of type double are reported as not implemented by the code. Sizes are unbounded integers (no size_t overflow); recursive struct types are not modelled."
  },
  {
   "property": "C45",
   "status": "partial",
   "theorems": [
    "C45_alignment_sound_partial",
    "C45_claims_powers",
    "C45_analysis_terminates",
    "C45_alignment_sound_refuted"
   ],
   "note": "Proved for programs without element accesses to structs whose size is not a multiple of their alignment; for those the initial claim (natural alignment of the type) is wrong, shown by C45_alignment_sound_refuted. Assumed: answers of the range analysis (known zero bits) and the scalar evolution analysis, and that opaque pointers, casts and pointer additions fit the alignment of their type (otherwise undefined behaviour)."
  },
  {
   "property": "C46",
   "status": "partial",
   "theorems": [
    "C46_known_value_is_in_memory_partial",
    "C46_load_reduce_preserves_partial",
    "C46_store_eliminate_preserves_partial",
    "C46_load_after_atomic_refuted",
    "C46_store_before_atomic_refuted"
   ],
   "note": "Proved for programs without AtomicAdd, given sound analyses (stated as hypotheses about the points of runs). With AtomicAdd both passes are wrong, shown by the two _refuted theorems: the value analysis keeps what it knew of the address an AtomicAdd changes, and isInvisible takes AtomicAdd for an overwriting store. Not modelled: the inter-block part of LoadReduce, SimpleStoreEliminate, the analyses themselves (except dominance, C37)."
  },
  {
   "property": "C47",
   "status": "partial",
   "theorems": [
    "C47_distinct_no_overlap_partial",
    "C47_types_no_overlap",
    "C47_gep_moves",
    "C47_serves_loads_and_stores_partial",
    "C47_phi_with_undef_refuted",
    "C47_gep_of_trivial_gep_refuted",
    "C47_added_offset_refuted"
   ],
   "note": "Proved for runs in which getelementptrs stay inside the arrays they index and casts lead to parts of what the operand points to, for phis of pointers without constant operands and for getelementptrs not built on a getelementptr with the single index 0. The last two conditions and the one on added offsets cannot be dropped: the three _refuted theorems give functions and runs in which two equal pointers are called distinct. C47_serves_loads_and_stores_partial derives from it the aliasing half of the hypothesis okSep of C46."
  },
  {
   "property": "C48",
   "status": "partial",
   "theorems": [
    "C48_promotion_preserves",
    "C48_ends",
    "C48_ends_on_unreachable_cycles_refuted",
    "C48_address_arithmetic_refuted"
   ],
   "note": "Proved for all functions whose promoted variables are used only in loads, stores and escaping positions, whatever the bound of the recursion if the pass ends; C48_ends proves that it ends, with a result that does not depend on the bound, where every block can be reached. Both conditions are needed: C48_ends_on_unreachable_cycles_refuted gives a function with unreachable single-predecessor blocks on which useVarRecursive never returns, and C48_address_arithmetic_refuted one in which a store through a getelementptr of a promoted variable is missed (filterPromotable does not exclude it)."
  },
  {
   "property": "C49",
   "status": "partial",
   "theorems": [
    "C49_codeMove_preserves_partial",
    "C49_codeSink_preserves_partial",
    "C49_with_analysis_partial",
    "C49_same_code",
    "C49_hoisting_calls_refuted",
    "C49_sink_into_entry_refuted"
   ],
   "note": "Proved for every answer of the trip count estimate that calls unreachable blocks cold, and for exact dominance (C49_with_analysis_partial: with the analysis of C37). CodeMove moreover needs that there is no call of a function marked NoSideEffect and Stateless: such a call may divide by its argument, and hoisting it past its guard changes the program (C49_hoisting_calls_refuted). CodeSink needs that nothing branches to the first block, which the verifier does not check (C49_sink_into_entry_refuted). Not modelled: isUniform (CodeMove.cpp:40-48, loads of init-once globals in parallel loops), the estimation itself. CFGAnalysis.cpp:59 asserts in debug builds that nothing branches to the first block."
  },
  {
   "property": "C50",
   "status": "partial",
   "theorems": [
    "C50_branch2Select_preserves_partial",
    "C50_entry_refuted",
    "C50_select2Branch_refuted"
   ],
   "note": "Proved for Branch2Select, all functions the verifier accepts whose first block nothing branches to, and all meanings in which a select chooses and loading from a global variable or a stack slot does not fail (refinesSel). Without the condition on the first block it is false (C50_entry_refuted). Select2Branch moves a load behind the stores between it and the select (C50_select2Branch_refuted), so nothing is proved of it; that the targets have selects (isNativeSupported) is not modelled."
  },
  {
   "property": "C51",
   "status": "partial",
   "theorems": [
    "C51_phiMerge_preserves",
    "C51_phiMerge_ends",
    "C51_phiMerge_crash_refuted"
   ],
   "note": "Proved in full for functions without switches (C51_phiMerge_ends: the pass ends; C51_phiMerge_preserves: the behaviour and well-formedness are kept, and no block is left to merge). A switch to a block that would be merged makes the compiler read a null pointer (PhiMerge.cpp:116 takes the terminator for a BranchInst): C51_phiMerge_crash_refuted, so 'on every function' is false. The model removes the uses of the dead block's phis with it, as the pass does."
  },
  {
   "property": "C52",
   "status": "partial",
   "theorems": [
    "C52_tailStoreMerge_preserves_partial",
    "C52_entry_refuted"
   ],
   "note": "Proved for all functions the verifier accepts whose first block nothing branches to; without that condition it is false (C52_entry_refuted: the phi is put into the first block). Equality of addresses is equality of operands; types are not modelled (the type of the phi is that of one of the values). A store has a name in the model, and the pass is modelled for stores whose name is unused, as the IR gives them no result."
  },
  {
   "property": "C53",
   "status": "partial",
   "theorems": [
    "C53_tail_calls_preserve_partial",
    "C53_each_run_makes_progress",
    "C53_entry_recursion_never_returns",
    "C53_entry_cut_refuted",
    "C53_smax_crash_refuted"
   ],
   "note": "Proved for all functions the verifier accepts, whose first block has no predecessors and does not call the function, with a stack of any depth: returned calls, accumulators (add, and, or, xor, mul) and unused results. If the first block calls the function the pass cuts it off at the call even if something before it prints or ends the program: C53_entry_cut_refuted (the recursion itself never returns: C53_entry_recursion_never_returns). SMax/SMin are accepted as accumulators but crash the compiler: C53_smax_crash_refuted. Simplifications: 'used once, by a ret' and 'the call is used' are read as 'returned by this block'; the phis of the loop header are in another order; types are not modelled except for the return type."
  },
  {
   "property": "C54",
   "status": "partial",
   "theorems": [
    "C54_condProp_preserves_partial",
    "C54_entry_refuted"
   ],
   "note": "Proved for all functions the verifier accepts whose first block nothing branches to (CFGAnalysis.cpp:59 asserts it in debug builds); without that condition it is false (C54_entry_refuted: a dead block that branches to the first block). Types are modelled as far as needed: conditions have type i1, whose values are 0 and 1. The sets are lists; the theorem is for every order in which the hash tables are walked."
  },
  {
   "property": "C55",
   "status": "partial",
   "theorems": [
    "C55_returns_keep_partial",
    "C55_refines_partial",
    "C55_nothing_else",
    "C55_cut_iff",
    "C55_wf",
    "C55_wfs",
    "C55_all_return_same",
    "C55_idempotent",
    "C55_forever_refuted",
    "C55_exit_refuted"
   ],
   "note": "Every run that ends in a return is kept step for step, and a function whose defined runs all return is refined. That is the assumption TransformPass.cpp states where it adds the pass (O3 only); without it the pass changes defined programs: one that prints for ever (C55_forever_refuted), one whose only way on is a block that calls exit (C55_exit_refuted). C55_nothing_else bounds what then happens."
  },
  {
   "property": "C56",
   "status": "partial",
   "theorems": [
    "C56_first_block_stays",
    "C56_same_blocks",
    "C56_sorted",
    "C56_search_ends",
    "C56_same_runs_partial",
    "C56_refines_partial",
    "C56_wfs"
   ],
   "note": "Proved for all functions whose weights fit into 32 bits: 101 times the number of blocks, plus the number of cases of the largest switch, below 2^32 - 1000300 (some 42 million blocks). Beyond that the uint32_t weights wrap around and nothing keeps the first block first."
  },
  {
   "property": "C57",
   "status": "proved",
   "theorems": [
    "C57_one_block_keeps_behaviour",
    "C57_small_block_inlining_keeps_behaviour",
    "C57_entry_refuted",
    "C57_one_block_keeps_ssa",
    "C57_total_and_keeps_ssa"
   ],
   "note": "Proved for the whole pass on functions whose first block has no predecessors; that the look-ups of the pass do not fail also needs every block to be reachable. C57_entry_refuted is about functions outside that: one whose first block is a loop header and which the pass changes (a store before the first test of the loop is lost)."
  },
  {
   "property": "C58",
   "status": "proved",
   "theorems": [
    "C58_aux",
    "C58_keeps_exactly_the_used",
    "C58_nothing_dangles",
    "C58_no_failure"
   ],
   "note": "Proved for the whole pass; the listed types are structs (Module::add(Type*) asserts it), and a value of the invalid type makes the pass report an unsupported type."
  },
  {
   "property": "C59",
   "status": "proved",
   "theorems": [
    "C59_keeps_exactly_the_needed",
    "C59_nothing_dangles",
    "C59_external_stays"
   ],
   "note": "Proved for the whole pass; initial values of variables hold no references to globals in this IR."
  },
  {
   "property": "C60",
   "status": "proved",
   "theorems": [
    "C60_variable_keeps_its_bytes",
    "C60_module_keeps_its_bytes",
    "C60_no_zero_at_the_end"
   ],
   "note": "Proved for the whole pass; the emitted data is that of Lowering.cpp in little-endian order. Integers of 8 bytes are outside the statement: Lowering.cpp emits nothing for them."
  },
  {
   "property": "C61",
   "status": "proved",
   "theorems": [
    "C61_callees_first"
   ],
   "note": "Proved for the whole analysis given the functions that the call instructions name; reading those out of the instructions is not modelled. Every called function is assumed to be in the module."
  }
 ]
}