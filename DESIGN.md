# Formal model of dtcxzyw/cmmc in Rocq (Coq 8.16.1)

## Conventions
* Files in `rocq/theories/`. A model file transcribes C++ functions; each definition cites file:lines of /repo and says
  where it simplifies. `*Props.v` files (or the last section of a file) hold the property theorems `Cnn_...`.
  `MANIFEST.json` maps properties to theorems.
* Machine integers are `Z` with explicit wrap. Undefined behaviour / assertion failure is a distinct outcome
  (`None`, `UB`), never a normal-looking value.
* When the code violates an English property, the failing instance is proved as `..._refuted` with a concrete witness,
  and the largest true restriction found is proved as `..._partial` or with the side condition visible in the statement.
* `..._witness` theorems (or `Example`s) show that the hypotheses of a theorem are met by a concrete non-trivial case and,
  for rewrites, that the rewrite fires.
* Choices that the C++ leaves to hash-map order, cost models, frequency estimates, allocators or schedules are universally
  quantified in the theorems.

## Trusted base
* Coq 8.16.1's kernel (coqc; vcheck also runs coqchk).
* `Print Assumptions` for each of the theorems listed in MANIFEST.json says "Closed under the global context": no
  axioms, neither ours nor the library's. (coqchk additionally lists `Coq.ssr.ssrunder.Under_rel.*`, module-type fields of
  the standard library's ssreflect support that some tactics' libraries load; no theorem depends on them.)
* The reading of the C++ source into the model, function by function as cited; the meaning given to machine instructions
  (Rv64.v, RvMachine.v from the RISC-V manual; GMir.v abstractly), to the IR (IR.v, ConstFold.v from the interpreter), to
  futexes and atomics (ParallelSched.v), to malloc (ArenaModel.v, Interning.v).

## What is modelled, per property
| id | files | what is modelled | proof |
|----|-------|------------------|-------|
| C01-C04 | IntRangeModel, IntRangeSpec, IntRangeProofs, IntRangeOps, IntRangeExact, IntRangeProps | Analysis/IntegerRange.{hpp,cpp}: record of 6 fields, every method, with and without assertions | `describes` as independent meaning; every helper of `sync` shown to keep exactly the described values; per-operation soundness; sdiv, abs, isEmpty refuted in corners |
| C05, C06 | RangeRules, RangeRulesProofs, RangeRulesProps | Transforms/Combine/RangeAwareArithReduce.cpp:40-255 (all rewrites, foldCmp) | value preservation for every right range oracle |
| C07, C08 | IR, PatternMatch, ArithRules, ArithTac, ArithSound1-3, ArithRefuted, ArithProps | Transforms/Combine/ArithmeticReduce.cpp:46-1358, 162 integer rules, and the matcher combinators | per-rule refinement, closed under contexts and iteration |
| C09 | ConstFold* | ConstantPropagation.cpp:64-264, ConstantValue.cpp:44-100, Interpreter.cpp:632-716,808-981 | folding = interpretation for all operands; integers, floats as opaque operations where the host does them |
| C10 | MulConst, MulConstProps | CodeGen/MultiplyByConstant.cpp:27-204 with its memo state | invariant on the memo, induction on the budget |
| C11 | Modulo, ModuloLoops | Transforms/ modular rewrites (sum merging, mulmod and addrec loops) | loop invariants |
| C12, C24, C26 | ParallelFor | Runtime/cmmc_sysy_rt.cpp:121-290 sequential part: splitting, tuning cache | arithmetic; invariants over histories |
| C13 | ParallelSched | Runtime/cmmc_sysy_rt.cpp:38-119,220-252: futexes, workers, spawn and join | invariant over all interleavings; sequential consistency |
| C14 | Memo | Runtime memo table and the instrumented function | refutation + conditional transparency |
| C15, C16 | MemModel, MemProofs, MemProps, MemStack | ExecutionEngine/Interpreter.cpp:83-429 | map reasoning, invariants over operation sequences |
| C17, C18 | StackLayout | CodeGen/StackAllocation.cpp:57-91,331-431 | induction on the object list |
| C19 | IntrusiveList | Support/IntrusiveList.hpp:124-232 | representation predicate over a shared heap |
| C20 | ArenaModel | Support/Arena.{cpp,hpp} | invariant |
| C21 | Interning | Support/StringFlyWeight.cpp | invariant; any hash |
| C22 | SccModel, SccProofs, SccProps | Support/Graph.cpp:19-50 | Tarjan invariant (after Chen, Cohen, Levy, Merz, Thery) |
| C23 | Lut, LutProofs, LutProps | Transforms/Combine/LUT2Expr.cpp:41-382 | induction on tables, blocks and the dominator tree |
| C25 | CmpModel | IR/Instruction.hpp:454-500 and the interpreter's compares | case analysis for all operands |
| C27 | PhiCopy | CodeGen/Lowering.cpp emitBranch | parallel-copy invariant |
| C28 | Switch | Branch2Switch.cpp, switch lowering, switch edge facts | case analysis, refutations |
| C29 | Rv64, Magic, DivConst | ISelInfo.cpp selectSDiv32ByConstant and the RISC-V/ARM patterns | error bound of the multiplier, all divisors |
| C30 | RvMachine, RvPeephole, RvRelax, RvProps | RISCVScheduleModel.cpp: branch2jump, removeDeadBranch, simplifyOpWithZero, relaxWInst, removeSExtW | simulation over arbitrary CFGs |
| C31 | RvFold, RvPair, RvCopy, RvFoldProps | RISCVScheduleModel.cpp: largeImmMaterialize, foldStoreZero, earlyFoldStore, earlyFoldLoad, earlyFoldDoubleWordCopy | block simulation on byte memory |
| C32 | GMir, GCopy, GCse, GDead, GConst, GProps | CodeGen/Peephole.cpp:38-760 (every generic pass) over an abstract target | version maps = value maps invariant per block; simulation for whole functions; "written before read" for the SSA passes |
| C33 | Sim, Ssa, SsaCfg, SsaMerge, SsaFwd, SsaFwd2, SsaWf, SsaProps | SSA IR (blocks, phis, terminators, opaque opcodes constrained by kind) with the interpreter's meaning; SimplifyBranch, MergeBranch, SimplifyPartialUnreachableBranch, UnreachableEliminate, NoReturnCallEliminate, BlockEliminate, BlockMerge, CombineBranch, ForwardBranch, UnifyReturn (Transforms/ControlFlow, Transforms/DCE) | simulation with any positive numbers of steps on both sides (Sim.v); structural well-formedness kept by every pass; refutations of ForwardBranch and UnreachableEliminate |
| C34 | SsaDom, SsaSub, SsaEq, SsaPhi, SsaCse, SsaDce, SsaValProps | SimpleCSE, PhiEliminate, reduceConstantPhis, NoSideEffectEliminate, cleanupUnusedInsts on the IR of C33 | dominance by paths; facts about available values as an invariant of runs (SsaDom Facts); substitution of equal values; phi groups by simultaneous replacement; removal by equality of environments off the removed names; SSA form kept |
| C35 | SsaVerify | Function::verify / Block::verify (unique results, closed edges, phi edges, order inside a block, dominance of operands) | induction on runs; reference dominance decision procedure for the examples; counterexample for unreachable sources |
| C36 | SsaIns, SsaGvn, SsaValProps | GVN.cpp: getValueNumber / getInstNumber, classes, leaders, hoisting of a clone to the lca block | congruence invariant of the number table by induction on numbers; insertion of a speculatable instruction; replacement of equal values; numbering terminates because operands of movable instructions are strictly earlier |
| C37 | DomDfs, DomLt, DomAlg, DomTree, DomProps | DominateAnalysis::run: depth-first search, union-find with path compression, semidominators, immediate dominators, numbering of the dominator tree, ancestor tables; dominate, reachable, parent, blocks, lca | the Lengauer-Tarjan theorems over an abstract depth-first tree; loop invariants of the three loops; induction over the tree for preorder segments; iteration orders are universally quantified; used to discharge the hypotheses of C33, C35, C36 |
| C38 | RaMir, RaLive, RaIv, RaCore, RaProps | calcLiveIntervals: uses and definitions per block, the data flow iteration, segments, dead flags; optimize, verify, intersectWith; calcCFG | liveness is the inductive path property `liveAt`; the iteration is a bounded monotone one (termination measure), its least solution is `liveAt`; per-register projection of the segment scan with an invariant over the instructions of a block |
| C39 | RaColor, RaAlloc, RaSim, RaMain, RaCore, RaProps | InterferenceGraph, simplification, selection with copy hints, the scan that records interferences with physical registers (calls, arguments, results, under-renamed registers), all classes, the renaming; spilling is C40 | degree and queue invariants; the order of removal bounds the excluded registers; a simulation in which every live register's value is found in its colour; machine semantics with truthful operand flags and call clobbers is specification |
| C40 | RaSpill, RaSpillSim, RaSpillProps | graphColoringAllocateImpl 608-738: which way a value is fetched (argument slot, constant, new slot), placement of reloads and stores around instructions with physical registers, erased definitions, the per-block reload flag | the block loop keeps: where the value is (register, slot); a simulation between states that differ in the spilled register and its slot; a register dead at the entry may hold anything |
| C41 | Sched, SchedTop, SchedSim, SchedModels, SchedProps | Scheduler.cpp: the dependence graph of postRAScheduleBlock, topDownScheduling with its busy-cycle limit, ScheduleState; all schedule classes of RISC-V and ARM | the graph orders every clashing pair (invariant over the scan); in-degree invariant of the list scheduler; non-clashing instructions commute, bubble-sort induction over the new order; bookings reach at most 70 cycles ahead, so 199 idle cycles are impossible |
| C42 | Isel, IselSem, IselStep, IselPat, IselLeg, IselRun, IselProps | RISCVISelInfo.cpp legalizeInst and helpers, the integer patterns of RISCV.yml, the backward pass of ISelInfo.cpp runISel with its definition and constant lookup | one replacement lemma per pattern on sign-extended 64-bit values, composition of replacements with fresh registers, induction over the backward pass in SSA blocks, then over passes; defects refuted by blocks |
| C43 | PreRa, PreRaProof, PreRaSim, PreRaProps | preRALegalizeFunc and preRALegalizeInst (selects and constants) on functions of blocks with fall-through | forward simulation with fresh labels and registers, exact arithmetic of lui/addiw/slli/zext.w |
| C44 | Addr, AddrProof, AddrInit, AddrProps | Type sizes/alignments/field offsets, GetElementPtr in the interpreter, gatherOffsets and Lowering, GEPCombine, GEPDecompose, PointerArithmeticCombine, initial values of globals | induction over types and index lists, arithmetic modulo 2^64, witnesses for the refuted parts |
| C45 | PtrAlign, PtrAlignProps | PointerAlignmentAnalysis: initial claims, worklist, rules for phi/select/getelementptr/cast/add | collecting semantics as least set of addresses, induction over it for loops, arithmetic of lowest bits, potential for termination |
| C46 | LdSt, LdStPts, LdStProof, LdStLoad, LdStDrop, LdStElim, LdStElimProof, LdStProps | SimpleValueAnalysis, LoadReduce (intra-block), StoreEliminate (isInvisible over blocks, self assigns) | points of runs inside blocks; the cache is true at every point; equal runs after substitution; removal by a simulation in which the worlds are equal or differ in one dead location, with the set of blocks the scan visited as the invariant |
| C47 | Alias, AliasPts, AliasLayout, AliasInv, AliasProof, AliasProps | AliasAnalysis (attributes, TBAA, getelementptr clusters, inheritance, isDistinct) | every attribute denotes a set of element paths of objects; invariant over the points of a run that a pointer with the attribute points into the set, kept by instructions, phis and frames; the sets of distinct attributes are disjoint; elements on unrelated paths do not overlap |
| C48 | M2R, M2RVal, M2RRel, M2RPriv, M2RRun, M2RSound, M2RSyn, M2RAlg, M2RTop, M2RTerm, M2RProps | ScalarMem2Reg (promotable allocs, useVar/useVarRecursive, incomplete phis, sealing, trivial phi removal, visiting) | the algorithm keeps an invariant (ghost phis with the operands it promised, a list of replacements each justified by a load or a trivial phi) and ends in a *solution*; adding the ghost phis keeps runs (simulation); at every point of a run the value the solution gives for a variable is what memory holds at its address, which nobody else knows (secrecy invariant); replacing operands by others of the same value keeps runs |
| C49 | SsaMove, CodeMotion, CodeMotionProps | CodeMove (which instructions leave a block, the target block, the moves), CodeSink (which instructions are taken into a branch target), Instruction::insertBefore between blocks | one move keeps runs if no use is left behind and the operands are there: simulation in which the two runs differ in the moved result only where it is not used; dominators of a block are in a line; induction over the instructions of a block and the blocks; the two assumptions the code does not check refuted by functions and runs. Trip counts and native support are arbitrary answers |
| C50 | Ifc, IfcProps | Branch2Select (canFold with the speculation of loads, the selects, the phis, the branch, blocks one after the other with the predecessors of before the pass), one step of Select2Branch (shouldExpand, the split, the moved operands) | simulation: the run of the old function from the test to the join, one or two blocks, against the two blocks of the new one; the side block runs without failing as its operands are there and its load is from a slot; values differ only where the side block defines them, and nothing outside reads them; Select2Branch is refuted by a program |
| C51 | PhiMg, PhiMergeProps | PhiMerge (the conditions on the block, its successor, its predecessors and the uses of its phis; redirected branches; the phis of the successor; the loop over the function; the crash on switches) | simulation: two blocks of the old run, predecessor and phi block, against one of the new, with the phis of the successor read one block earlier; the pass ends as each round removes a block; refuted for switches |
| C52 | TailStore, TailStoreProps | TailStoreMerge (the stores before the branches of all predecessors, the common address, the phi of the values, the new store, all blocks in order) | simulation: the block before the join and the join together, with the store at the end of the one or the start of the other; the address is available at the join since it dominates every predecessor; values differ only in names nothing uses; refuted for first blocks with predecessors |
| C53 | Rec, TailCall, TailCallProof, TailCallPass, TailCallProps | TailCallEliminate (both block patterns, the accumulator, the phis of arguments, accumulator and result, the leaves, the entry cut, the loop over the blocks) | a machine with a stack of frames for self-recursion (Rec.v); simulation between a stack of frames waiting at tail calls, with what they still have to combine, and one frame whose phis hold it; the accumulator is moved through the stack by associativity and commutativity; a measure decreases; refuted for entry blocks with a self-call and for min/max accumulators |
| C54 | CondProp, CondPropProof, CondPropSim, CondPropProps | ConditionalPropagation (the graph of the blocks, calcSCC of C22, the component graph with what is known on its edges, the queue with the merged and finalized sets, the replacement block by block) | the queue ends with every component taken and every set covered by the sets before it (invariant with the edges done; components are numbered in dependency order by C22); simulation in which what the set of the current block says holds in the registers: a known condition was computed in a component left behind, so it cannot change; refuted for first blocks with predecessors |
| C55 | InfElim, InfElimProps | InfiniteEliminate (predecessors of CFGAnalysis, backward search from the blocks that end in ret, cutting each other block and taking it out of the phis of its successors) | the search finds exactly the blocks that lead to a return (closure of the queue with an exact measure); a run that ends in ret never leaves them, and they are unchanged; invariant over the cut blocks for everything else; refuted for runs that do not return (output for ever, exit in a later block) |
| C56 | BlockSort, BlockSortProps | BlockSort (the queue with the 32-bit weights, the greatest weight for blocks that were not reached, the stable sort) | invariant of the queue: every weight but the first block's is at least 100 and below a bound that grows with the number of blocks reached, so nothing wraps and the first block has the least weight; a permutation that keeps the first block has the same steps |
| C57 | SmallInl, SmallInlProof, SmallInlProps, SmallInlSsa | SmallBlockInlining (the conditions on the block and its predecessors, the copies, the phis, one block after the other) | two steps of the run (a predecessor, then the block) match two steps of the new one: the copies make the values the instructions make, under new names; the environments agree on every name but those no other block reads; in a verified function no look-up fails and every operand of the result is available where it is read |
| C58 | UnusedTypes, UnusedTypesProps | UnusedTypeEliminate (the recursive search with its visited set, the early exits, the erasure) | the search is closed under parts by induction on the number of unseen types; the set of types left and the failure are functions of the visited set; specification: an inductive definition of the used types |
| C59 | GlobalElim | GlobalEliminate (the rounds, the colored functions, the early return, the erasure) | invariant: the unused set is the internal globals no colored function refers to, and colored functions are needed; a round without a change means every function is colored or unused; rounds are bounded by the number of functions; specification: an inductive definition of the needed globals |
| C60 | GlobalZero | GlobalZeroEliminate (the nested shortening, the dropped initial value, the changed flag) against the data that Lowering.cpp emits (expand: values, then zeros up to the size of the type) | induction on the type: an element whose bytes are all zero can be moved from the values to the zeros |
| C61 | CallOrder, SccModel, SccProofs, SccProps | CallGraphSCCAnalysis::run on top of calcSCC (C22): the graph of calls, the condensation, the queue; an arbitrary permutation stands for walking an unordered_set | loop invariant of the queue: the count of a component is the number of its callees that have not left the queue, and the queue has those with count zero |

## What is not modelled
The front end (parser, AST, SPL/SysY lowering), the IR passes not named above, register allocation, scheduling heuristics,
assembly printing, GPU/SPIR-V/TAC back ends, floating-point rewrite rules, the linker and the operating system. Hash
containers appear as lists with arbitrary order; pointers as abstract names; `uint32_t` counters as `nat` where the cited
comment says why no overflow can occur.
