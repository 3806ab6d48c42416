{"id": "C01", "title": "Integer-range addition, subtraction, multiplication, negation are sound over-approximations", "statement": "If a 32-bit run-time value x is described by range a and y by range b (signed interval, unsigned interval and known-bit masks all agree with the value), then the wrapped 32-bit results x+y, x-y, x*y and -x are described by a+b, a-b, a*b and a.neg().", "quantifier": "all 32-bit values x,y and all (2^256-ish) ranges a,b that describe them", "why_tests_cant": "The pair of ranges and the two values form an astronomically large space; unsoundness appears only in corner combinations of the three sub-domains.", "anchors": ["cmmc/Analysis/IntegerRange.cpp: operator+ operator- operator* neg sync"]}
{"id": "C02", "title": "Integer-range bitwise and shift transfer functions are sound", "statement": "If x is described by a and y by b then x&y, x|y, x^y are described by a&b, a|b, a^b; and for a shift amount y in [0,31], x<<y, x>>y logical and x>>y arithmetic are described by a.shl(b), a.lshr(b), a.ashr(b).", "quantifier": "all 32-bit values and all ranges describing them", "why_tests_cant": "Known-bit reasoning interacts with interval tightening in sync(); only a proof covers all mask/interval combinations.", "anchors": ["cmmc/Analysis/IntegerRange.cpp: operator& operator| operator^ shl lshr ashr"]}
{"id": "C03", "title": "Integer-range division and remainder transfer functions are sound", "statement": "If x is described by a, y by b and y is non-zero, then the truncated quotient/remainder (signed and unsigned, with INT_MIN/-1 wrapping as in the interpreter) are described by a.sdiv(b), a.udiv(b), a.srem(b), a.urem(b).", "quantifier": "all 32-bit values x, non-zero y and all ranges describing them", "why_tests_cant": "Failures need extreme endpoints (INT_MIN, -1) hidden inside wide intervals.", "anchors": ["cmmc/Analysis/IntegerRange.cpp: sdiv udiv srem urem"]}
{"id": "C04", "title": "Range lattice operations: sync, intersection, union, constants, min/max/abs are sound", "statement": "sync never discards a value the range described; intersectSet describes every value both arguments describe; unionSet every value either describes; IntegerRange(c) describes exactly c; inferConstant returns c only if c is the only possible value; intersectWith returns false only when no value is in both; smax/smin/abs over-approximate the operation.", "quantifier": "all ranges and 32-bit values", "why_tests_cant": "The domain of ranges cannot be enumerated.", "anchors": ["cmmc/Analysis/IntegerRange.cpp: sync bit2Unsigned unsigned2Bit signed2Bit unsigned2Signed signed2Unsigned intersectSet unionSet inferConstant inferSuffix intersectWith isEmpty smax smin abs"]}
{"id": "C05", "title": "Comparison folding from ranges never changes the outcome of a comparison", "statement": "When the range-aware pass replaces an integer comparison by a constant (or an equality by a disequality-free form), the constant is the value the comparison would have for every pair of operand values described by the ranges.", "quantifier": "all compare predicates, all operand ranges, all operand values described by them", "why_tests_cant": "Wrong folds only show for particular range shapes and operand values.", "anchors": ["cmmc/Transforms/Combine/RangeAwareArithReduce.cpp: foldCmp"]}
{"id": "C06", "title": "Range-aware strength reductions preserve the computed value", "statement": "Each rewrite performed because of range facts (signed remainder/division to unsigned, abs/min/max elimination, bound-check merging, modular add to select, modular product merging) yields the same 32-bit value as the original instruction for all operand values compatible with the ranges.", "quantifier": "all rewrites of the pass, all ranges, all operand values", "why_tests_cant": "Needs all values in the range, including values where facts are derived from the result instead of the operands.", "anchors": ["cmmc/Transforms/Combine/RangeAwareArithReduce.cpp: RangeAwareArithReduce::runOnFunction"]}
{"id": "C07", "title": "Algebraic simplification preserves integer results (wrapping machine semantics)", "statement": "For every integer rewrite rule in the arithmetic simplifier and every assignment of operands, the replacement evaluates to the same w-bit value as the original under the interpreter/machine two-complement wrapping semantics, and does not introduce a division trap.", "quantifier": "all rules, all operand values, all constants the rule accepts, all integer widths 8/16/32/64 the IR admits", "why_tests_cant": "About 150 rules each quantifying over 2^64+ inputs and constants.", "anchors": ["cmmc/Transforms/Combine/ArithmeticReduce.cpp: ArithmeticReduce::runOnBlock", "cmmc/Transforms/Util/PatternMatch.hpp"]}
{"id": "C08", "title": "Algebraic simplification is a refinement when signed overflow is undefined", "statement": "Rules that are not valid for wrapping arithmetic are still valid whenever the source expression evaluates without signed overflow or division error (C semantics).", "quantifier": "all rules that exploit undefined overflow, all operands without overflow", "why_tests_cant": "The side condition and values range over all inputs.", "anchors": ["cmmc/Transforms/Combine/ArithmeticReduce.cpp: ArithmeticReduce::runOnBlock"]}
{"id": "C09", "title": "Compile-time constant folding agrees with run-time evaluation", "statement": "When constant propagation folds an integer instruction (arithmetic, bitwise, shift, comparison, conversion, select) the folded constant is observationally the same w-bit value that the reference interpreter computes for that instruction on those operands, and folding is not performed where the interpreter would report a division by zero.", "quantifier": "all opcodes, widths and operand values", "why_tests_cant": "Quantifies over all operand values and stored representations of constants.", "anchors": ["cmmc/Transforms/Combine/ConstantPropagation.cpp: runOnBlock", "cmmc/ExecutionEngine/Interpreter.cpp: execute", "cmmc/IR/ConstantValue.cpp: ConstantInteger"]}
{"id": "C10", "title": "Multiplication by a constant is expanded into an equivalent shift/add/sub sequence", "statement": "For every multiplier constant for which an expansion is emitted and for every register value x, the emitted shift/add/sub sequence computes x*n modulo 2^w; the cost reported does not exceed the budget; shift amounts are legal; the search terminates; and memoised plans from earlier queries do not change correctness.", "quantifier": "all constants n, all x, all query histories of the memo table, all budgets", "why_tests_cant": "Plan search depends on an unbounded history through a memo table.", "anchors": ["cmmc/CodeGen/MultiplyByConstant.cpp"]}
{"id": "C11", "title": "Modular-arithmetic rewrites preserve remainders", "statement": "Merging of modular sums, mulmod loop replacement, add-recurrence-modulo folding and srem-to-select produce the value of the original loop/expression.", "quantifier": "all operands, moduli, loop trip counts", "why_tests_cant": "Trip counts and operands are unbounded; signs matter.", "anchors": ["cmmc/Transforms/Combine/ModuloOpt.cpp"]}
{"id": "C12", "title": "parallelFor executes every index exactly once", "statement": "For every begin/end and every number of worker threads the runtime splits [begin,end) into sub-ranges that are pairwise disjoint, non-empty, in order, and whose union is exactly [begin,end); each non-last split point is 4-aligned relative to begin.", "quantifier": "all begin,end (int32) and all thread counts", "why_tests_cant": "Overflow and rounding corner cases at all sizes.", "anchors": ["cmmc/Runtime/cmmc_sysy_rt.cpp: cmmcParallelFor"]}
{"id": "C13", "title": "parallelFor is a barrier: on return all chunks have run exactly once, for every schedule", "statement": "Under every interleaving of the caller and the worker threads with the futex-style ready/done handshakes, when parallelFor returns each dispatched chunk has been executed exactly once, none is still executing, no job is lost or duplicated, and the next call finds all workers idle.", "quantifier": "all interleavings, all sequences of parallelFor calls", "why_tests_cant": "Schedules are unbounded and not controllable from tests.", "anchors": ["cmmc/Runtime/cmmc_sysy_rt.cpp: Futex cmmcWorker cmmcParallelFor cmmcInitRuntime cmmcUninitRuntime"]}
{"id": "C14", "title": "Memoisation of pure functions is transparent", "statement": "A function to which the stateless-cache transformation has been applied returns for all argument pairs and all histories of earlier (including recursive) calls the value the untransformed function returns.", "quantifier": "all call histories, all arguments, all hash collisions", "why_tests_cant": "Errors need collision between particular arguments in particular histories.", "anchors": ["cmmc/Runtime/cmmc_sysy_rt.cpp: cmmcCacheLookup", "cmmc/Transforms/Misc/StatelessCache.cpp"]}
{"id": "C15", "title": "Interpreter memory: a load returns the last bytes stored there, and stores disturb nothing else", "statement": "After storing a value of any scalar type at an address inside a live readable/writable allocation, loading that type from that address yields the stored value (modulo the type width) and every byte outside the written interval is unchanged; accesses touching any byte without the required permission report a memory error.", "quantifier": "all memory states, addresses, sizes and values", "why_tests_cant": "Unbounded memory states.", "anchors": ["cmmc/ExecutionEngine/Interpreter.cpp: MemoryContext"]}
{"id": "C16", "title": "Interpreter memory: allocations are disjoint, aligned, and released exactly on return", "statement": "Every stack push / global materialisation returns an aligned address whose bytes overlap no live allocation; popping the pushed allocations of a frame in any order restores the stack pointer and permissions to the pre-frame state; accesses after release report an error.", "quantifier": "all sequences of allocations and releases", "why_tests_cant": "Unbounded histories.", "anchors": ["cmmc/ExecutionEngine/Interpreter.cpp: MemoryContext::stackPush stackPop getGlobalVarAddress"]}
{"id": "C17", "title": "Stack frame layout assigns disjoint, aligned slots", "statement": "After stack-object allocation every two stack objects of a function occupy disjoint byte ranges inside the frame, each at an offset satisfying its alignment, the outgoing-argument area is at the bottom, the frame size is a multiple of the stack alignment, and incoming-argument offsets are shifted by exactly the frame size.", "quantifier": "all sets of stack objects (sizes, alignments, kinds), all frames", "why_tests_cant": "Unbounded number of objects and sizes.", "anchors": ["cmmc/CodeGen/StackAllocation.cpp: allocateStackObjects"]}
{"id": "C18", "title": "Interval partitioning never shares a slot between overlapping live ranges", "statement": "Two intervals assigned to the same slot do not overlap; every interval gets a slot; the number of slots is the maximum overlap depth.", "quantifier": "all finite families of live intervals", "why_tests_cant": "Unbounded inputs; optimality is a universal statement.", "anchors": ["cmmc/CodeGen/StackAllocation.cpp: calcIntervalPartition"]}
{"id": "C19", "title": "The intrusive instruction list behaves as a sequence", "statement": "Any sequence of insert/push/pop/erase operations keeps the doubly linked list well formed (forward traversal is the reverse of backward traversal, length equals stored count) and has the effect of the same operation on a mathematical list.", "quantifier": "all operation sequences on all lists", "why_tests_cant": "Pointer-structure invariants over unbounded histories.", "anchors": ["cmmc/Support/IntrusiveList.hpp"]}
{"id": "C20", "title": "The arena allocator returns aligned, non-overlapping memory inside owned blocks", "statement": "Each allocation is inside a block owned by the arena, aligned as requested, and does not overlap any earlier allocation that has not been released.", "quantifier": "all sequences of allocation requests (sizes, alignments)", "why_tests_cant": "Unbounded sequences and sizes.", "anchors": ["cmmc/Support/Arena.cpp: Arena::allocate"]}
{"id": "C21", "title": "String interning is injective and stable", "statement": "Interning equal strings returns equal handles, different strings different handles, and a handle always resolves to the string it was created from no matter what is interned later.", "quantifier": "all strings and intern histories", "why_tests_cant": "Unbounded histories.", "anchors": ["cmmc/Support/StringFlyWeight.cpp"]}
{"id": "C22", "title": "Strongly connected components are computed exactly and in dependency order", "statement": "calcSCC returns for each node a component number such that two nodes have the same number iff each reaches the other, and components are numbered so that edges between different components go to smaller numbers.", "quantifier": "all finite directed graphs", "why_tests_cant": "Graphs are unbounded; Tarjan bookkeeping bugs hide in particular shapes.", "anchors": ["cmmc/Support/Graph.cpp: calcSCC"]}
{"id": "C23", "title": "Lookup-table-to-expression replacement preserves every table read", "statement": "When a constant integer table is recognised as constant / identity / shift / affine pattern, the replacement expression evaluated at each in-bounds index equals the table element.", "quantifier": "all tables (any length and contents) and all in-bounds indices", "why_tests_cant": "Tables and indices unbounded.", "anchors": ["cmmc/Transforms/Combine/LUT2Expr.cpp"]}
{"id": "C24", "title": "Thread-count tuning cache is safe for all histories", "statement": "The per-parallel-loop tuning cache never indexes out of its 16 entries, returns the entry of the requested key, never contains a valid key twice, and the chosen number of threads is always one the runtime supports.", "quantifier": "all sequences of loop invocations and timings", "why_tests_cant": "Unbounded history and arbitrary timings.", "anchors": ["cmmc/Runtime/cmmc_sysy_rt.cpp: selectEntry selectNumberOfThreads"]}
{"id": "C25", "title": "Inverting and reversing compare predicates is semantically exact", "statement": "The inverted predicate is the negation of the predicate on all operands; the reversed predicate with swapped operands is equivalent; double application is the identity (integers; floats including unordered).", "quantifier": "all predicates and operands, including NaN", "why_tests_cant": "Quantifies over all operands.", "anchors": ["cmmc/IR/Instruction.cpp: getInvertedOp getReversedOp"]}
{"id": "C26", "title": "Tuning data of a parallel loop comes from that loop only", "statement": "The timing samples and the thread-count decision used for a parallel loop (function, size) were recorded by calls of that loop, for every history of loops; in particular a loop that has never run starts without timings.", "quantifier": "all histories of parallelFor calls, any number of distinct loops", "why_tests_cant": "the failure needs more than 16 distinct loops with at least 100 calls each before it shows", "anchors": ["cmmc/Runtime/cmmc_sysy_rt.cpp:selectEntry", "cmmc/Runtime/cmmc_sysy_rt.cpp:selectNumberOfThreads"]}
{"id": "C27", "title": "Phi copies on an edge act as one parallel assignment", "statement": "When a branch to a block with phis is lowered, the emitted copy sequence leaves every phi register holding the value its incoming operand had before any copy was executed, whatever cycles and chains exist among the phi registers and whatever order the hash containers are iterated in; no register other than the phi registers and freshly created ones changes.", "quantifier": "all sets of distinct phi destinations, all sources (constants, other registers, phi registers in any cyclic arrangement), all machine states, all iteration orders", "why_tests_cant": "the swap and lost-copy problems depend on the cycle structure of the copies and on the iteration order of a hash map", "anchors": ["cmmc/CodeGen/Lowering.cpp:emitBranch"]}
{"id": "C28", "title": "Switches mean the branch chain they replace", "statement": "Turning a chain of equality tests into a switch, dispatching a switch through a jump table and using the key of a switch edge as a range fact never change which block is entered next nor the values observed there.", "quantifier": "all functions, chains, key sets (sparse or dense, negative), all selector values", "why_tests_cant": "the selector ranges over 2^32 values and the key set is arbitrary; side effects in chain blocks, shared targets and key extremes only show for particular programs", "anchors": ["cmmc/Transforms/ControlFlow/Branch2Switch.cpp", "cmmc/CodeGen/Lowering.cpp:lower(SwitchInst)", "cmmc/Analysis/IntegerRangeAnalysis.cpp"]}
{"id": "C29", "title": "Division and remainder by constants are exact after strength reduction", "statement": "For every 32-bit dividend and every non-zero 32-bit constant divisor, the shift / multiply-high / add sequence the RISC-V and ARM back ends emit in place of a division or remainder produces the truncated quotient (remainder), whatever the cost model decides; the result register is in the form later instructions expect (sign-extended on RV64).", "quantifier": "all 2^32 dividends times all non-zero 32-bit divisors, both targets, with and without the shift-fusing peepholes", "why_tests_cant": "2^64 cases; a wrong multiplier shows only at a few dividends near multiples of the divisor", "anchors": ["cmmc/CodeGen/ISelInfo.cpp:selectSDiv32ByConstant", "cmmc/Target/RISCV/RISCVISelInfo.cpp:buildMul64Imm", "cmmc/Target/RISCV/RISCV.yml:InstSDiv", "cmmc/Target/ARM/ARM.yml:InstSDiv", "cmmc/Target/ARM/ARMISelInfo.cpp:buildMulHiImm"]}
{"id": "C30", "title": "RISC-V peephole rewrites keep the program's behaviour", "statement": "Replacing branches on x0 by jumps, deleting repeated branches, simplifying operations on x0, dropping sign extensions of values that are already sign-extended and widening 32-bit instructions whose users only read the low half never change the control flow, the memory contents, the calls made or their arguments, for every execution of the function.", "quantifier": "all machine functions over the modelled instructions, all initial registers and memories, all numbers of steps, any iteration order of the hash maps used", "why_tests_cant": "the rewrites depend on which instructions define and use a register anywhere in the function and show only for operands with particular upper halves", "anchors": ["cmmc/Target/RISCV/RISCVScheduleModel.cpp:branch2jump", "cmmc/Target/RISCV/RISCVScheduleModel.cpp:removeDeadBranch", "cmmc/Target/RISCV/RISCVScheduleModel.cpp:simplifyOpWithZero", "cmmc/Target/RISCV/RISCVScheduleModel.cpp:relaxWInst", "cmmc/Target/RISCV/RISCVScheduleModel.cpp:removeSExtW"]}
{"id": "C31", "title": "RISC-V access folding and constant reuse keep memory and register contents", "statement": "Merging two word stores (or loads, or zero stores, or a two-word copy) into one double-word access, and materialising a constant from another one, leave the same bytes in memory, the same values in the program's registers and the same calls, for every block and every initial state.", "quantifier": "all basic blocks over the modelled instructions, all addresses and values, all alignment annotations", "why_tests_cant": "the failing patterns need particular offsets, redefinitions or interleaved loads, and particular constants", "anchors": ["cmmc/Target/RISCV/RISCVScheduleModel.cpp:largeImmMaterialize", "cmmc/Target/RISCV/RISCVScheduleModel.cpp:foldStoreZero", "cmmc/Target/RISCV/RISCVScheduleModel.cpp:earlyFoldStore", "cmmc/Target/RISCV/RISCVScheduleModel.cpp:earlyFoldLoad", "cmmc/Target/RISCV/RISCVScheduleModel.cpp:earlyFoldDoubleWordCopy"]}
{"id": "C32", "title": "Target-independent machine peepholes keep the program's behaviour", "statement": "Removing identity, indirect and repeated copies, forwarding spill-slot contents, eliminating repeated and unused instructions, propagating copied constants, sharing constants within and across blocks and hoisting them to the entry never change which calls are made with which arguments, the memory, the spill slots, the registers a caller can see, or the control flow of a machine function.", "quantifier": "all machine functions, all targets whose instruction flags are truthful, all initial states, all numbers of block transitions, any iteration order, legality test and frequency estimate", "why_tests_cant": "the rewrites depend on versions of registers along a block and on definitions anywhere in the function; a wrong version shows only for particular interleavings of redefinitions, calls and multi-result instructions", "anchors": ["cmmc/CodeGen/Peephole.cpp:genericPeepholeOpt", "cmmc/CodeGen/Peephole.cpp:removeIndirectCopy", "cmmc/CodeGen/Peephole.cpp:machineInstCSE", "cmmc/CodeGen/Peephole.cpp:removeUnusedInsts", "cmmc/CodeGen/Peephole.cpp:machineConstantHoist"]}
{"id": "C33", "title": "Control-flow clean-up keeps the behaviour of every function", "statement": "Folding branches on constants, merging branches with equal targets, dropping branches to unreachable code, cutting blocks after calls that do not return, removing unreachable blocks, merging blocks with their only successor, skipping forwarding blocks, forwarding repeated tests and unifying returns never change the returned value, the calls made and their arguments, the final memory, or whether the function returns, for any run without undefined behaviour; and every phi keeps exactly one incoming value per predecessor. They may be applied in any order, any number of times.", "quantifier": "all functions (any control-flow graph, loops, irreducible or unreachable parts, self loops, duplicated edges), all meanings of the opcodes, all arguments, all run lengths, all sequences of the passes", "why_tests_cant": "the failures need particular coincidences of edges (both arms of a branch meeting in one block, self loops, phis behind removed edges)", "anchors": ["cmmc/Transforms/ControlFlow/SimplifyBranch.cpp", "cmmc/Transforms/ControlFlow/MergeBranch.cpp", "cmmc/Transforms/ControlFlow/SimplifyPartialUnreachableBranch.cpp", "cmmc/Transforms/DCE/NoReturnCallEliminate.cpp", "cmmc/Transforms/DCE/BlockEliminate.cpp", "cmmc/Transforms/DCE/UnreachableEliminate.cpp", "cmmc/Transforms/ControlFlow/BlockMerge.cpp", "cmmc/Transforms/ControlFlow/CombineBranch.cpp", "cmmc/Transforms/ControlFlow/ForwardBranch.cpp", "cmmc/Transforms/ControlFlow/UnifyReturn.cpp"]}
{"id": "C34", "title": "Removing redundant and dead values keeps the behaviour of every function", "statement": "Common-subexpression elimination inside a block, elimination of redundant phis, folding of phis with one value, removal of values no effect depends on and the clean-up of unused instructions after every pass never change the returned value, the calls made and their arguments, the final memory, or whether the function returns; the result is again in SSA form (each operand computed before it is read). Dead-value removal keeps exactly what a store, an effectful call or a terminator needs.", "quantifier": "all well-formed SSA functions (any control-flow graph), all meanings of the opcodes, all arguments and memories, all run lengths, any grouping of phis into components, any order of blocks, any sequence of the passes", "why_tests_cant": "whether a value may replace another depends on dominance and on whole cycles of phis; wrong replacements only show on some paths and some iterations", "anchors": ["cmmc/Transforms/Merge/SimpleCSE.cpp", "cmmc/Transforms/DCE/PhiEliminate.cpp", "cmmc/Transforms/Combine/ConstantPropagation.cpp:reduceConstantPhis", "cmmc/Transforms/DCE/NoSideEffectEliminate.cpp", "cmmc/Transforms/TransformPass.cpp:cleanupUnusedInsts"]}
{"id": "C35", "title": "A function the IR verifier accepts never reads a value that was not computed", "statement": "If the verifier accepts a function then no run reaches an instruction, phi or terminator that reads an operand without a value, or a phi without an incoming value for the edge taken.", "quantifier": "all functions the verifier accepts, all paths through them, all arguments", "why_tests_cant": "the verifier inspects dominance once; the claim is about all runs of any length", "anchors": ["cmmc/IR/Function.cpp:verify", "cmmc/IR/Block.cpp:verify", "cmmc/Analysis/DominateAnalysis.cpp"]}
{"id": "C36", "title": "Global value numbering only merges equal values", "statement": "Values that get the same number are equal whenever both are available, in every run; replacing them by one leader, or by a copy hoisted to a common dominator, never changes the returned value, the calls made and their arguments, the final memory, or whether the function returns, and leaves the function in SSA form. The numbering itself always terminates.", "quantifier": "all well-formed SSA functions, all meanings of the opcodes, all arguments and memories, all frequency estimates and sets of native opcodes, any dominator analysis that answers correctly", "why_tests_cant": "equal numbers are an inductive property over expression graphs; hoisting moves code to paths that never ran it", "anchors": ["cmmc/Transforms/Merge/GVN.cpp"]}
{"id": "C37", "title": "The dominator analysis answers exactly", "statement": "dominate(a, b) is true exactly if both blocks are reachable and every path from the entry to b passes through a; reachable and blocks() list exactly the blocks some path reaches, a dominator before what it dominates, the entry first; parent is the closest strict dominator; lca is the lowest common dominator. The answers do not depend on the iteration order of the hash tables.", "quantifier": "all control-flow graphs (loops, irreducible graphs, unreachable blocks, duplicate edges), all iteration orders of the hash tables; for lca up to 2^21 blocks, the size of its ancestor tables", "why_tests_cant": "semidominators with path compression are correct only through an invariant over the whole depth-first search; wrong answers need particular cross edges and link orders", "anchors": ["cmmc/Analysis/DominateAnalysis.cpp:run", "cmmc/Analysis/DominateAnalysis.cpp:dominate", "cmmc/Analysis/DominateAnalysis.cpp:lca", "cmmc/Analysis/CFGAnalysis.cpp:run"]}
{"id": "C38", "title": "Liveness and live intervals of virtual registers are exact", "statement": "calcLiveIntervals always returns; a virtual register is reported live into (out of) a block exactly if some path from there reads it before writing it; its interval covers an instruction exactly if it is live before it, and the point after an instruction exactly if it is live there or just written; two intervals intersect exactly if both registers hold something at once; segments are ordered and apart; a use flagged as the last one is one.", "quantifier": "all machine functions (any control flow, any operand flags), all blocks, instructions and virtual registers", "why_tests_cant": "liveness is a least fixed point over all paths; a missed live range only shows where two registers later collide", "anchors": ["cmmc/CodeGen/LiveInterval.cpp:calcLiveIntervals", "cmmc/CodeGen/LiveInterval.cpp:optimize", "cmmc/CodeGen/LiveInterval.cpp:verify", "cmmc/CodeGen/LiveInterval.cpp:intersectWith", "cmmc/CodeGen/MIRCFGAnalysis.cpp:calcCFG"]}
{"id": "C39", "title": "Graph colouring register allocation keeps the behaviour", "statement": "The colouring gives every virtual register a register of its class, different ones to registers that interfere, and never runs out of registers once simplification succeeded; it asks for a spill exactly if some set of registers cannot be simplified. The allocated code does what the given code does: calls may change every register their callee may change, arguments and results in physical registers are kept until they are read, and no virtual register is left.", "quantifier": "all machine functions, register classes, allocation lists, callee register usages, all choices of the priority queue and the cost model, all register, slot and world contents, all run lengths", "why_tests_cant": "an interference that was missed corrupts a value only on the paths and for the colours that collide", "anchors": ["cmmc/CodeGen/GraphColoringRegisterAllocator.cpp:InterferenceGraph", "cmmc/CodeGen/GraphColoringRegisterAllocator.cpp:graphColoringAllocateImpl", "cmmc/CodeGen/GraphColoringRegisterAllocator.cpp:graphColoringAllocate"]}
{"id": "C40", "title": "Spill code keeps the behaviour", "statement": "When the allocator gives up a register, the code it inserts makes every use of that register read the value last written to it: from a stack slot of its own, from the slot in which an argument arrived, or by computing a constant again. After any number of registers were given up and the rest was coloured the program does what the given program did and no virtual register is left.", "quantifier": "all machine functions with any control flow, all registers given up, all placements of reloads and stores around instructions with physical registers, all register, slot and world contents, all run lengths", "why_tests_cant": "a reload that is missing or reads a slot too early shows only on the path between that definition and that use, and only under register pressure", "anchors": ["cmmc/CodeGen/GraphColoringRegisterAllocator.cpp:graphColoringAllocateImpl"]}
{"id": "C41", "title": "Instruction scheduling keeps the behaviour and always finishes", "statement": "The post-allocation scheduler outputs the instructions of a block in an order in which no two instructions with side effects are exchanged, nothing crosses a call or terminator, and every read of a register still sees the write it saw before; the scheduled program does what the given one did, for every ranking of the ready instructions and every machine model. With the machine models of RISC-V and ARM the scheduler never gives up with 'Failed to schedule instructions'.", "quantifier": "all machine functions, all orders in which ready instructions are tried, all accept/refuse behaviours of a schedule class, all register, slot and world contents, all run lengths; for completion: all blocks whose instructions use the schedule classes of the target", "why_tests_cant": "a missing dependence shows only if some latency makes that exchange attractive; the 200 idle cycle limit is reached only by unlucky combinations of long-latency instructions", "anchors": ["cmmc/CodeGen/Scheduler.cpp:topDownScheduling,postRAScheduleBlock,ScheduleState", "cmmc/Target/RISCV/RISCVScheduleModel.cpp:RISCVScheduleClass*", "cmmc/Target/ARM/ARMScheduleModel.cpp:ARMScheduleClass*"]}
{"id": "C42", "title": "RISC-V instruction selection keeps the meaning of integer code", "statement": "Legalization and the selection patterns replace generic integer instructions (arithmetic, logic, shifts, comparisons, selects, extensions, branches, constants) by RISC-V instructions that leave the same values in every register of the function, the same effects and the same branches taken; all 12-bit immediates, shift amounts and upper immediates that are produced can be encoded, and every register keeps a sign-extended value of its type.", "quantifier": "all blocks of well-typed generic instructions with anything in between, all register contents, all 64-bit immediates, all answers of the use counts and safety checks, any number of passes", "why_tests_cant": "patterns are correct only for some types and immediates; a wrong one shows at extreme operand values or for one constant in 2^32", "anchors": ["cmmc/Target/RISCV/RISCVISelInfo.cpp:legalizeInst,selectCompare,selectSFBArith", "cmmc/Target/RISCV/RISCV.yml:ISel patterns", "cmmc/CodeGen/ISelInfo.cpp:runISel"]}
{"id": "C43", "title": "RISC-V pre-allocation legalization keeps the meaning and leaves real instructions", "statement": "Before register allocation, conditional moves are expanded into branches over new blocks and constants into short instruction sequences; the function then finishes with the same results, shows the same effects in the same order and loops exactly when it did, every 64-bit constant is loaded exactly by at most three encodable instructions, no conditional-move or 32-bit-constant pseudo instruction is left, and the legalizer does not give up on what instruction selection hands it.", "quantifier": "all machine functions in SSA form (any number of blocks, jumps, fall-through, loops), all register contents, all 64-bit constants, all meanings of calls, memory accesses and terminators", "why_tests_cant": "constants must be exact for all 2^64 values, with carries between the upper and lower part; the expansion of several selects in one block inside loops gives unboundedly many control-flow shapes", "anchors": ["cmmc/CodeGen/ISelInfo.cpp:preRALegalizeFunc", "cmmc/Target/RISCV/RISCVISelInfo.cpp:preRALegalizeInst,emitImm"]}
{"id": "C44", "title": "Objects are laid out without overlap and every phase agrees on addresses", "statement": "Element and field accesses that stay in bounds give addresses inside the object, different scalars never overlap, and scalars of an aligned object are aligned; the interpreter, the offset analysis and the generated code compute the same address for every access; combining, splitting and rebuilding accesses keeps the address; initial values of globals put each number, and zeros where nothing is given, at exactly the address at which the program reads it, in the object file and in the interpreter.", "quantifier": "all types (integers, floats, pointers, nested arrays and structs), all index lists, all variable values, all base addresses, all nested initializers", "why_tests_cant": "wrong sizes and wrapping products show only for particular nestings of types and for index values near the limits", "anchors": ["cmmc/IR/Type.cpp:getSize,getAlignment,getFieldOffset", "cmmc/IR/Instruction.cpp:GetElementPtrInst", "cmmc/ExecutionEngine/Interpreter.cpp:GetElementPtr,storeValue", "cmmc/CodeGen/Lowering.cpp:GetElementPtr,global initializers", "cmmc/Transforms/Combine/GEPCombine.cpp", "cmmc/Transforms/Misc/GEPDecompose.cpp", "cmmc/Transforms/Combine/PointerArithmeticCombine.cpp"]}
{"id": "C45", "title": "Claimed pointer alignments hold in every execution", "statement": "The pointer alignment analysis, on which the code generator bases memory accesses, only claims powers of two that divide the address of that pointer in every execution, through loops, selects, casts and element accesses; and it always ends.", "quantifier": "all functions (any graph of pointer instructions, loops included), all executions of any length, all values of index variables that the range and induction-variable analyses allow, any stopping point of the analysis", "why_tests_cant": "a claim that is too strong is harmless until some iteration of some loop reaches the address that breaks it", "anchors": ["cmmc/Analysis/PointerAlignmentAnalysis.cpp:PointerAlignmentAnalysis::run", "cmmc/Analysis/PointerAlignmentAnalysis.cpp:PointerAlignmentAnalysisResult::lookup"]}
{"id": "C46", "title": "Removing redundant loads and stores does not change the program", "statement": "Whatever the value analysis of a block says a pointer points to is what a load through it would give at that moment; replacing loads by such values, removing stores that nobody can observe (overwritten, or to the function's own stack, over any control flow) and removing stores of what is there already leave the returned value, the visible memory, the visible calls and termination unchanged.", "quantifier": "all functions and control-flow graphs, all executions of any length, all memories (any world type obeying the load/store laws), any sound answers of the alias, base, leak, address space and dominance analyses", "why_tests_cant": "a store is removed wrongly only if some path, through any number of blocks and iterations, reads the location before it is overwritten", "anchors": ["cmmc/Analysis/SimpleValueAnalysis.cpp:next,getLastValue", "cmmc/Transforms/Combine/LoadReduce.cpp:runBlock", "cmmc/Transforms/DCE/StoreEliminate.cpp:StoreEliminate"]}
{"id": "C47", "title": "Pointers the alias analysis calls distinct never overlap", "statement": "If the alias analysis answers that two pointers are distinct, then at no moment of any execution at which both are available do the elements they point to have a byte in common; so the optimizations that exchange or remove memory accesses on its word act on separate memory.", "quantifier": "all functions and control-flow graphs, all pairs of pointers, all executions of any length and all points in them, all object layouts (nested arrays and structs), all orders in which facts are passed along the inheritance graph", "why_tests_cant": "two pointers that are distinct in the first iterations of a loop may meet in a later one; type-based and index-based reasoning has to hold for all nestings of types", "anchors": ["cmmc/Analysis/AliasAnalysis.cpp:AliasAnalysis::run,divide,TBAAQuery", "cmmc/Analysis/AliasAnalysis.cpp:AliasAnalysisResult::isDistinct,inheritFrom"]}
{"id": "C48", "title": "Promoting local variables to values does not change the program", "statement": "The pass that turns local scalar variables into values (building SSA form on the fly, with incomplete phis in loops and removal of trivial phis) keeps the returned value, the output, the final memory and termination of the function: every read of a promoted variable gets the value that was last stored to it on the path actually taken, or an undefined value if there was none.", "quantifier": "all well-formed functions and control-flow graphs (irreducible ones included), all visiting orders of the blocks, all executions of any length, all memories obeying the load, store and freshness laws, any identity of constants, any depth of phi removal", "why_tests_cant": "a wrong or missing phi operand shows only on one path through loops and joins; the algorithm patches unfinished phis later, so its result depends on the order of the blocks and on the whole graph", "anchors": ["cmmc/Transforms/Combine/ScalarMem2Reg.cpp:ScalarMem2RegContext::useVar,useVarRecursive,addPhiOperands,tryRemoveTrivalPhi,sealBlock,runOnFunction", "cmmc/Transforms/Combine/ScalarMem2Reg.cpp:filterPromotable,run"]}
{"id": "C49", "title": "Moving code out of loops and into branches does not change the program", "statement": "Moving a computation to an earlier block that is run less often, or down into the only branch that needs it, leaves the returned value, the output and termination unchanged, never makes a program fail that did not fail before, never separates a value from its uses, and loses or duplicates no instruction.", "quantifier": "all well-formed functions and control-flow graphs, all trip count estimates and target tables, all operator meanings, all executions of any length", "why_tests_cant": "a computation moved above the test that guards it, or below a use on a path nobody thought of, goes wrong only for the inputs that take that path", "anchors": ["cmmc/Transforms/Misc/CodeMove.cpp:CodeMove::run", "cmmc/Transforms/Misc/CodeSink.cpp:CodeSink::run", "cmmc/Transforms/Util/BlockUtil.cpp:isMovableExpr,isNoSideEffectExpr", "cmmc/IR/Instruction.cpp:insertBefore"]}
{"id": "C50", "title": "Turning branches into selects and selects into branches does not change the program", "statement": "Computing both sides of a short branch and choosing between them, or computing an expensive operand only where it is chosen, leaves the returned value, the output and termination unchanged and never makes a program fail that did not fail before.", "quantifier": "all well-formed functions and control-flow graphs, all operator meanings, all memory contents, all executions of any length", "why_tests_cant": "code that is now run although its branch was not taken, or later than before, goes wrong only for the inputs and memory contents that make it fail or change its operands in between", "anchors": ["cmmc/Transforms/ControlFlow/Branch2Select.cpp:Branch2Select::run,canFold", "cmmc/Transforms/ControlFlow/Select2Branch.cpp:Select2Branch::run,shouldExpand", "cmmc/Transforms/Util/BlockUtil.cpp:splitBlock,fixPhiNode"]}
{"id": "C51", "title": "Removing blocks that only pass values on does not change the program", "statement": "Merging a block that only chooses between values by the way it was reached into the block behind it leaves the returned value, the output and termination unchanged, every choice depends on the same way as before, and the pass ends, with no such block left, on every function.", "quantifier": "all well-formed functions and control-flow graphs (loops and irreducible ones included), all operator meanings, all executions of any length, any number of merged blocks", "why_tests_cant": "a choice that takes the value of the wrong way goes wrong only on one path through nested joins", "anchors": ["cmmc/Transforms/ControlFlow/PhiMerge.cpp:PhiMerge::run", "cmmc/Transforms/Util/BlockUtil.cpp:resetTarget", "cmmc/IR/Instruction.cpp:PhiInst::removeSource,addIncoming"]}
{"id": "C52", "title": "Sharing a store at the end of several branches does not change the program", "statement": "When all ways to a block end in a store to the same address, doing the store once in that block, of the value chosen by the way taken, leaves the returned value, the output, the final memory and termination unchanged: on every path the same value is stored once, before anything can read it.", "quantifier": "all well-formed functions and control-flow graphs, all operator and memory meanings (stores that fail or end the program included), all executions of any length, any number of shared stores", "why_tests_cant": "a store that is lost, doubled or done with the value of another way goes wrong only on one path through the joins", "anchors": ["cmmc/Transforms/Merge/TailStoreMerge.cpp:TailStoreMerge::run"]}
{"id": "C53", "title": "Turning tail calls into a loop does not change the program", "statement": "Replacing a call of the function by itself whose result is returned, returned after being combined by an associative and commutative operator, or not used before something else is returned, by a jump to the start of the function leaves the returned value, the output and termination of every call unchanged, however deep the recursion is, and the pass can be repeated only finitely often.", "quantifier": "all well-formed functions and control-flow graphs, all argument values, all recursion depths (infinite ones included), all meanings of the other calls and operators, all executions of any length", "why_tests_cant": "an accumulator that is combined one time too few or too many, or a result that is lost, goes wrong only at particular recursion depths and on particular ways out", "anchors": ["cmmc/Transforms/ControlFlow/TailCallEliminate.cpp:TailCallEliminate::run,eliminateCall,handleBlock,getLastRecursiveCall,getIdentity"]}
{"id": "C54", "title": "Using what a branch tells about its condition does not change the program", "statement": "Replacing a condition by true or false where every way from outside the loop or block has passed a branch that decided it leaves the returned value, the output and termination unchanged, and the pass ends on every function.", "quantifier": "all well-formed functions and control-flow graphs (irreducible loops included), every order of the hash tables, all operator meanings, all executions of any length", "why_tests_cant": "a condition that is taken as known on one way too many goes wrong only on one path through joins and loops", "anchors": ["cmmc/Transforms/Combine/ConditionalPropagation.cpp:ConditionalPropagation::run,ConditionSet::merge,finalize", "cmmc/IR/Instruction.cpp:UserList::replaceWithInBlock"]}
{"id": "C55", "title": "Cutting off blocks that cannot return keeps every run that returns", "statement": "Ending in unreachable the blocks from which no return can be reached leaves every call that returns as it was: the same value, the same output; the blocks concerned are exactly those from which no return can be reached, a run that does not return behaves as before up to them, and a second run of the pass changes nothing.", "quantifier": "all well-formed functions and control-flow graphs, all operator meanings, all executions of any length, terminating or not", "why_tests_cant": "a search that misses one edge cuts off a block that only particular inputs come to", "anchors": ["cmmc/Transforms/DCE/InfiniteEliminate.cpp:InfiniteEliminate::run", "cmmc/Analysis/CFGAnalysis.cpp:CFGAnalysis::run"]}
{"id": "C56", "title": "Sorting the blocks does not change the function", "statement": "Sorting the blocks of a function, which the front end does to every function it emits and the optimizer repeats, keeps every block as it is and the first block first, so that every run is step for step the run before; the blocks come in the order of their weights, and functions that pass the verifier still do.", "quantifier": "all well-formed functions, control-flow graphs and orders of blocks, all operator meanings, all executions of any length", "why_tests_cant": "if any block came to be sorted before the first one the function would start in the wrong place, and the weights depend on the whole graph", "anchors": ["cmmc/Transforms/Misc/BlockSort.cpp:sortBlocks,BlockSort::run", "cmmc/Frontend/EmitIR.cpp:sortBlocks"]}
{"id": "C57", "title": "Copying small blocks into their predecessors is invisible", "statement": "Where the optimizer moves the instructions of a small block into the blocks that branch to it, once for each of them, with phis in the block for the results that are used elsewhere, the function calls the same things with the same arguments, returns the same result and leaves the same memory, and its structure stays well-formed: names are unique, branches have targets, phis have the right predecessors. On a function that passes the verifier the pass does not fail and its result passes the verifier.", "quantifier": "all well-formed functions whose first block is not a branch target, all operator meanings, all executions of any length", "why_tests_cant": "the copies read each other, the phis of the block and values of the block from an earlier trip round a loop, and a result may be used anywhere below", "anchors": ["cmmc/Transforms/Misc/SmallBlockInlining.cpp:SmallBlockInlining::run", "cmmc/Transforms/Util/BlockUtil.cpp:hasCall"]}
{"id": "C58", "title": "The module keeps exactly the struct types that are used", "statement": "When the optimizer drops unused types, the module's list of struct types loses those that no value of the module has as its type or as a part of its type, however deeply nested or recursive, and no others; the order stays, nothing that a kept type is made of is dropped, the search ends, and the pass says that it changed something exactly if a type was dropped.", "quantifier": "all finite type graphs, recursive or not, all lists of types and all orders in which the values of a module are visited", "why_tests_cant": "a recursive type can make the search loop or stop early, and a dropped type is only missed by a program that declares it through another one", "anchors": ["cmmc/Transforms/DCE/UnusedTypeEliminate.cpp:UnusedTypeEliminate::run"]}
{"id": "C59", "title": "Only internal functions and variables that nothing needs are dropped", "statement": "When the optimizer drops unused globals, the module loses exactly the internal functions and variables that cannot be reached from an external one through the operands of functions, so that even internal functions which only call each other go; the order stays, no function that is left refers to something dropped, the rounds end, and the pass says that it changed something exactly if something was dropped.", "quantifier": "all modules: any number of functions and variables in any order, any references between them, recursive or not", "why_tests_cant": "whether a global is needed depends on chains of references of any length and the result must not depend on the order of the globals", "anchors": ["cmmc/Transforms/DCE/GlobalEliminate.cpp:GlobalEliminate::run"]}
{"id": "C60", "title": "Dropping the zeros at the end of initial values keeps the data", "statement": "Where the optimizer shortens the initial values of global arrays by the zeros at their ends, at every level of nested arrays, or drops an initial value that is all zero, the variable starts with the same bytes in the emitted program; what is left still fits the type of the variable, no zero and no empty array is left at the end, and if the pass says that it changed nothing then it changed nothing.", "quantifier": "all modules, all nested arrays of integers of 1, 2 or 4 bytes and of floats, of any sizes and depths, fully or partly initialized", "why_tests_cant": "inner arrays that were shortened must still take their full room, and the elements after them must not move", "anchors": ["cmmc/Transforms/Misc/GlobalZeroEliminate.cpp:GlobalZeroEliminate::run,clear", "cmmc/CodeGen/Lowering.cpp:lowerToMachineModule"]}
{"id": "C61", "title": "The call-graph order puts callees before callers", "statement": "The order of functions that the call-graph analysis hands to interprocedural passes has every function of the module exactly once, and a function comes after each function it calls, unless that function calls it back, directly or through others.", "quantifier": "all modules, all call graphs with self calls and cycles, whatever the order in which hash sets are walked", "why_tests_cant": "the condensation and the queue that orders it must agree on every graph, not only on the few call graphs of a test suite", "anchors": ["cmmc/Analysis/CallGraphSCC.cpp:CallGraphSCCAnalysis::run", "cmmc/Support/Graph.cpp:calcSCC"]}
