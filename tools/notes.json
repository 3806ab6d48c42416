{
 "C03": {
  "note": "udiv/urem/srem fully sound; sdiv is unsound in the code when the dividend range includes INT_MIN and the divisor range includes -1 (C03_sdiv_refuted); proved everywhere else (C03_sdiv_sound_partial)."
 },
 "C04": {
  "note": "all proved except abs on ranges containing INT_MIN and a non-negative value and isEmpty, both refuted with witnesses."
 },
 "C07": {
  "note": "162 integer rules of the simplifier modelled; value preservation proved for every rule outside two explicit lists and for whole runs at any depth; the listed rules are proved under a stated side condition and refuted without it."
 },
 "C08": {
  "note": "refinement without signed overflow proved for every rule outside the special list, at any depth; special rules partial + refuted; composition of two individually right rewrites is refuted (C08_composition_refuted)."
 },
 "C06": {
  "note": "all eleven rewrites of the pass modelled; nine preserve the value for every right range oracle; srem->urem needs constant divisor or non-negative dividend, product merging needs a product that fits; both unrestricted forms refuted with witnesses. The range analysis itself is an oracle here (its transfer functions are C01-C04)."
 },
 "C10": {
  "note": "expansion correct for every multiplier; a power of two always expands; the cost budget claim is refuted (20 with budget 2 costs 3) and multipliers above 2^62 hit undefined behaviour (refuted)."
 },
 "C12": {
  "note": "covers [beg,end) exactly; refuted for end near INT_MAX where the 32-bit index overflows."
 },
 "C13": {
  "note": "assumes the loop body terminates and parallelFor is not called from a body (nested use is outside the model)."
 },
 "C20": {
  "note": "no wrap-around of uintptr_t; the underlying allocator returns fresh disjoint blocks."
 },
 "C23": {
  "note": "tables of i8/i16/i32; shift by 64 (host UB) and out-of-bounds stores (compiler crash) refuted; i1/i64 element types not covered."
 },
 "C09": {
  "note": "folding agrees with evaluation for every well-typed expression of the modelled operators; truncation to boolean and select of +0/-0 are refuted with witnesses."
 },
 "C11": {
  "note": "each rewrite proved under its stated side conditions (the ones the code checks plus the ones it does not, named as hypotheses); each unchecked side condition is refuted with a concrete witness."
 },
 "C14": {
  "note": "transparent for every pure body when each argument pair maps to its own slot and the hash never repeats; negative arguments and slot collisions are refuted with witnesses."
 },
 "C26": {
  "note": "selection of the tuning entry refuted (a new loop inherits another loop's timings after eviction); the entry is fresh while the table is not full."
 },
 "C28": {
  "note": "jump-table dispatch proved for every key set; switch formation proved for chains whose blocks hold only the compare (partial) and refuted when a chain block has a store; edge facts proved for targets reached by one key and refuted for shared targets."
 },
 "C29": {
  "note": "multiplier selection, ARM quotient/remainder and RISC-V remainder proved for all inputs; RISC-V quotient proved on the low 32 bits always and on the whole register when the selected shift is non-zero; refuted for shift 0 (x/3 of a negative x leaves a zero-extended register that the emitted 64-bit compare misreads) and for a divisor 1<<31."
 },
 "C30": {
  "note": "branch-to-jump, dead-branch removal and zero simplification proved exact for every run; sign-extension removal and 32-bit widening proved (any hash order) for programs without a logical right shift by exactly 32 and without relaxable results used as a 64-bit address operand; both exclusions are refuted with concrete programs."
 },
 "C31": {
  "note": "each folding proved for blocks in SSA form (store, load and copy pairs), for really adjacent stack slots (zero pairs) and for constants no negative one of which is a right shift of another; every side condition the code does not check (register overwritten in between, non-adjacent stack slots, a twice-used load inside the copy window, logical shift of a negative constant) is refuted with a concrete block. Relocation addresses not modelled."
 },
 "C32": {
  "note": "every pass of genericPeepholeOpt and createIndirectCopy modelled over an abstract target; copies, spill-slot forwarding, instruction CSE, unused-instruction removal, overwritten-instruction removal (after register allocation) and SSA constant propagation proved without restriction on the program; deadInstElimination proved for functions without multi-result instructions and refuted with one; constant CSE and hoisting proved for constants that do not depend on their place, CSE also for blocks that do not reload a constant register; these exclusions refuted with concrete functions. The target's own scheduleModel.peepholeOpt is C30/C31."
 },
 "C15": {
  "note": "byte-level contents and tags for every sequence of stores, loads, allocations and frees; addresses are unbounded integers."
 },
 "C16": {
  "note": "covers the scratch-slot allocator of the interpreter for all nesting of calls."
 },
 "C21": {
  "note": "nothing is assumed about the hash function."
 },
 "C27": {
  "note": "registers are compared by identity; the copy opcode is abstract."
 },
 "C33": {
  "note": "Nine clean-up passes proved for every well-formed function, one at a time and in any sequence. ForwardBranch is proved with the target test repeated after each rewrite and refuted as written; UnreachableEliminate is proved when no call ends the program and refuted otherwise. Well-formedness covers unique results, closed edges and phi sources, not dominance or types."
 },
 "C34": {
  "note": "SimpleCSE, PhiEliminate (for any grouping), reduceConstantPhis, NoSideEffectEliminate and cleanupUnusedInsts proved for every well-formed SSA function, alone and in any sequence with GVN; dead-value removal is exact. Indirect calls (null dereference in the pass) and types are not modelled."
 },
 "C35": {
  "note": "Proved under the extra condition that no phi takes a value of unreachable code on an edge from reachable code (C35_no_unset_read_partial); the verifier does not check that condition and C35_no_unset_read_refuted exhibits an accepted function that reads an unset value. Dominance is a parameter required to be correct; C35_verifier_with_analysis_partial discharges it with the modelled analysis (C37); types are not modelled."
 },
 "C36": {
  "note": "GVN with numbering, leaders and hoisting proved for every well-formed SSA function given a correct dominator analysis; equal numbers are shown to mean equal values; the numbering recursion is shown to terminate. Hash buckets are left out. C36_gvn_with_analysis runs it on the modelled dominator analysis (C37)."
 },
 "C37": {
  "note": "Lengauer-Tarjan with path compression, the numbering of the tree, binary lifting and all queries proved exact for every graph and every iteration order. lca needs at most 2^21 blocks (its ancestor tables have 21 entries and are read unchecked). reversedBlocks(), which is unused, copies into a vector of size 0 and is not modelled."
 },
 "C38": {
  "note": "Termination and soundness (what is reported live is live) hold for all code. Exactness, intervals, intersections and dead flags are proved for code in which no block first mentions a register in an instruction that both defines and uses it, no instruction defines a register twice and no block is empty; without the first the claim is false (C38_tied_operand_refuted: operands are visited in order, the definition hides the use)."
 },
 "C39": {
  "note": "Colouring: complete (proper, never stuck, spill asked for exactly when a set of registers cannot be simplified). Allocation: proved whenever every class can be coloured, for every oracle of the queue and of the cost model and any usage information that covers what calls change. The insertion of spill code is C40. C39_tied_operand_refuted shows that the liveness defect of C38 makes the allocator produce a wrong program."
 },
 "C40": {
  "note": "Slot mode: proved if nothing the store is moved behind mentions the register (C40_store_placement_refuted shows what happens otherwise). Constant mode: complete. Argument mode: proved if every definition loads the argument; C40_spill_argument_refuted shows that a second definition is erased. Composition with colouring: the theorem takes the liveness facts of the spilled program as hypotheses (raInput) and recomputes all classes on the final program, where the code interleaves classes and rounds. The code copies the defining instruction of a constant after it erased it from its std::list (a read of freed memory; modelled as if the copy had been made before)."
 },
 "C41": {
  "note": "The ranks (328-352) are any order. preRASchedule returns immediately (disabled in the code) and is covered only in that its dependence graph is the same. Truthful flags are the hypothesis schedTarget; an operand that is both read and written is two operands. Cycle counters are natural numbers. The logarithms a division carries are at most 64 (otherwise a latency above 199 could make the scheduler give up). makeRegisterReady's .at(0) on a non-register operand is not modelled."
 },
 "C42": {
  "note": "Partial because five patterns are wrong for some operands; each is refuted with a block (SH1ADD..SH3ADD on 32-bit additions, XNOR on Bool, immediates whose low half is all ones in 64-bit code for ANDN/ORN/XNOR and for branches, select on (x ^ 1) != 0). The theorems assume no defect is met (cleanRound; it also excludes srliw by 0 of srli 32, which the patterns modelled here never produce). Legalization alone is proved without exceptions. Not modelled: floating point, memory and address patterns, division by constants (C29), the peephole passes between rounds (C30-C32), the second phase that may create blocks. Type I8/I16 arithmetic other than logic is excluded by the typing (the code has no patterns for it)."
 },
 "C43": {
  "note": "Hypothesis: a select does not write a register it still has to compare or copy (exOverwrite shows the need); SSA form gives it. Not modelled: Select_FPR_GPR, block probabilities, LoadImm64Complex is kept as the li pseudo instruction (the assembler expands it), the peephole passes run afterwards (C30-C32). val32 - lo overflows int for constants above 0x7ffff7ff; the model wraps, as compiled code does."
 },
 "C44": {
  "note": "Disjointness, offset gathering, pointer arithmetic and the emitted initial values (32-bit and smaller integers, floats, arrays of these) hold in full. Refuted with witnesses: structs have no tail padding, so array elements may be misaligned; the generated code multiplies 32-bit indices in 32 bits; GEPCombine and GEPDecompose wrap 32-bit sums and products; the initial value of a 64-bit global is not emitted. The _partial theorems exclude exactly these cases. Initial values of type double are reported as not implemented by the code. Sizes are unbounded integers (no size_t overflow); recursive struct types are not modelled."
 },
 "C45": {
  "note": "Proved for programs without element accesses to structs whose size is not a multiple of their alignment; for those the initial claim (natural alignment of the type) is wrong, shown by C45_alignment_sound_refuted. Assumed: answers of the range analysis (known zero bits) and the scalar evolution analysis, and that opaque pointers, casts and pointer additions fit the alignment of their type (otherwise undefined behaviour)."
 },
 "C46": {
  "note": "Proved for programs without AtomicAdd, given sound analyses (stated as hypotheses about the points of runs). With AtomicAdd both passes are wrong, shown by the two _refuted theorems: the value analysis keeps what it knew of the address an AtomicAdd changes, and isInvisible takes AtomicAdd for an overwriting store. Not modelled: the inter-block part of LoadReduce, SimpleStoreEliminate, the analyses themselves (except dominance, C37)."
 },
 "C47": {
  "note": "Proved for runs in which getelementptrs stay inside the arrays they index and casts lead to parts of what the operand points to, for phis of pointers without constant operands and for getelementptrs not built on a getelementptr with the single index 0. The last two conditions and the one on added offsets cannot be dropped: the three _refuted theorems give functions and runs in which two equal pointers are called distinct. C47_serves_loads_and_stores_partial derives from it the aliasing half of the hypothesis okSep of C46."
 },
 "C48": {
  "note": "Proved for all functions whose promoted variables are used only in loads, stores and escaping positions, whatever the bound of the recursion if the pass ends; C48_ends proves that it ends, with a result that does not depend on the bound, where every block can be reached. Both conditions are needed: C48_ends_on_unreachable_cycles_refuted gives a function with unreachable single-predecessor blocks on which useVarRecursive never returns, and C48_address_arithmetic_refuted one in which a store through a getelementptr of a promoted variable is missed (filterPromotable does not exclude it)."
 },
 "C49": {
  "note": "Proved for every answer of the trip count estimate that calls unreachable blocks cold, and for exact dominance (C49_with_analysis_partial: with the analysis of C37). CodeMove moreover needs that there is no call of a function marked NoSideEffect and Stateless: such a call may divide by its argument, and hoisting it past its guard changes the program (C49_hoisting_calls_refuted). CodeSink needs that nothing branches to the first block, which the verifier does not check (C49_sink_into_entry_refuted). Not modelled: isUniform (CodeMove.cpp:40-48, loads of init-once globals in parallel loops), the estimation itself. CFGAnalysis.cpp:59 asserts in debug builds that nothing branches to the first block."
 },
 "C50": {
  "note": "Proved for Branch2Select, all functions the verifier accepts whose first block nothing branches to, and all meanings in which a select chooses and loading from a global variable or a stack slot does not fail (refinesSel). Without the condition on the first block it is false (C50_entry_refuted). Select2Branch moves a load behind the stores between it and the select (C50_select2Branch_refuted), so nothing is proved of it; that the targets have selects (isNativeSupported) is not modelled."
 },
 "C51": {
  "note": "Proved in full for functions without switches (C51_phiMerge_ends: the pass ends; C51_phiMerge_preserves: the behaviour and well-formedness are kept, and no block is left to merge). A switch to a block that would be merged makes the compiler read a null pointer (PhiMerge.cpp:116 takes the terminator for a BranchInst): C51_phiMerge_crash_refuted, so 'on every function' is false. The model removes the uses of the dead block's phis with it, as the pass does."
 },
 "C52": {
  "note": "Proved for all functions the verifier accepts whose first block nothing branches to; without that condition it is false (C52_entry_refuted: the phi is put into the first block). Equality of addresses is equality of operands; types are not modelled (the type of the phi is that of one of the values). A store has a name in the model, and the pass is modelled for stores whose name is unused, as the IR gives them no result."
 },
 "C53": {
  "note": "Proved for all functions the verifier accepts, whose first block has no predecessors and does not call the function, with a stack of any depth: returned calls, accumulators (add, and, or, xor, mul) and unused results. If the first block calls the function the pass cuts it off at the call even if something before it prints or ends the program: C53_entry_cut_refuted (the recursion itself never returns: C53_entry_recursion_never_returns). SMax/SMin are accepted as accumulators but crash the compiler: C53_smax_crash_refuted. Simplifications: 'used once, by a ret' and 'the call is used' are read as 'returned by this block'; the phis of the loop header are in another order; types are not modelled except for the return type."
 },
 "C54": {
  "note": "Proved for all functions the verifier accepts whose first block nothing branches to (CFGAnalysis.cpp:59 asserts it in debug builds); without that condition it is false (C54_entry_refuted: a dead block that branches to the first block). Types are modelled as far as needed: conditions have type i1, whose values are 0 and 1. The sets are lists; the theorem is for every order in which the hash tables are walked."
 },
 "C55": {
  "note": "Every run that ends in a return is kept step for step, and a function whose defined runs all return is refined. That is the assumption TransformPass.cpp states where it adds the pass (O3 only); without it the pass changes defined programs: one that prints for ever (C55_forever_refuted), one whose only way on is a block that calls exit (C55_exit_refuted). C55_nothing_else bounds what then happens."
 },
 "C56": {
  "note": "Proved for all functions whose weights fit into 32 bits: 101 times the number of blocks, plus the number of cases of the largest switch, below 2^32 - 1000300 (some 42 million blocks). Beyond that the uint32_t weights wrap around and nothing keeps the first block first."
 },
 "C57": {
  "status": "proved",
  "note": "Proved for the whole pass on functions whose first block has no predecessors; that the look-ups of the pass do not fail also needs every block to be reachable. C57_entry_refuted is about functions outside that: one whose first block is a loop header and which the pass changes (a store before the first test of the loop is lost)."
 },
 "C58": {
  "note": "Proved for the whole pass; the listed types are structs (Module::add(Type*) asserts it), and a value of the invalid type makes the pass report an unsupported type."
 },
 "C59": {
  "note": "Proved for the whole pass; initial values of variables hold no references to globals in this IR."
 },
 "C60": {
  "note": "Proved for the whole pass; the emitted data is that of Lowering.cpp in little-endian order. Integers of 8 bytes are outside the statement: Lowering.cpp emits nothing for them."
 },
 "C61": {
  "note": "Proved for the whole analysis given the functions that the call instructions name; reading those out of the instructions is not modelled. Every called function is assumed to be in the module."
 }
}