p("C26","Tuning data of a parallel loop comes from that loop only",
  "The timing samples and the thread-count decision used for a parallel loop (function, size) were recorded by calls of that loop, for every history of loops; in particular a loop that has never run starts without timings.",
  "all histories of parallelFor calls, any number of distinct loops",
  "the failure needs more than 16 distinct loops with at least 100 calls each before it shows",
  ["cmmc/Runtime/cmmc_sysy_rt.cpp:selectEntry","cmmc/Runtime/cmmc_sysy_rt.cpp:selectNumberOfThreads"])

p("C27","Phi copies on an edge act as one parallel assignment",
  "When a branch to a block with phis is lowered, the emitted copy sequence leaves every phi register holding the value its incoming operand had before any copy was executed, whatever cycles and chains exist among the phi registers and whatever order the hash containers are iterated in; no register other than the phi registers and freshly created ones changes.",
  "all sets of distinct phi destinations, all sources (constants, other registers, phi registers in any cyclic arrangement), all machine states, all iteration orders",
  "the swap and lost-copy problems depend on the cycle structure of the copies and on the iteration order of a hash map",
  ["cmmc/CodeGen/Lowering.cpp:emitBranch"])
p("C28","Switches mean the branch chain they replace",
  "Turning a chain of equality tests into a switch, dispatching a switch through a jump table and using the key of a switch edge as a range fact never change which block is entered next nor the values observed there.",
  "all functions, chains, key sets (sparse or dense, negative), all selector values",
  "the selector ranges over 2^32 values and the key set is arbitrary; side effects in chain blocks, shared targets and key extremes only show for particular programs",
  ["cmmc/Transforms/ControlFlow/Branch2Switch.cpp","cmmc/CodeGen/Lowering.cpp:lower(SwitchInst)","cmmc/Analysis/IntegerRangeAnalysis.cpp"])

p("C29","Division and remainder by constants are exact after strength reduction",
  "For every 32-bit dividend and every non-zero 32-bit constant divisor, the shift / multiply-high / add sequence the RISC-V and ARM back ends emit in place of a division or remainder produces the truncated quotient (remainder), whatever the cost model decides; the result register is in the form later instructions expect (sign-extended on RV64).",
  "all 2^32 dividends times all non-zero 32-bit divisors, both targets, with and without the shift-fusing peepholes",
  "2^64 cases; a wrong multiplier shows only at a few dividends near multiples of the divisor",
  ["cmmc/CodeGen/ISelInfo.cpp:selectSDiv32ByConstant","cmmc/Target/RISCV/RISCVISelInfo.cpp:buildMul64Imm","cmmc/Target/RISCV/RISCV.yml:InstSDiv","cmmc/Target/ARM/ARM.yml:InstSDiv","cmmc/Target/ARM/ARMISelInfo.cpp:buildMulHiImm"])

p("C30","RISC-V peephole rewrites keep the program's behaviour",
  "Replacing branches on x0 by jumps, deleting repeated branches, simplifying operations on x0, dropping sign extensions of values that are already sign-extended and widening 32-bit instructions whose users only read the low half never change the control flow, the memory contents, the calls made or their arguments, for every execution of the function.",
  "all machine functions over the modelled instructions, all initial registers and memories, all numbers of steps, any iteration order of the hash maps used",
  "the rewrites depend on which instructions define and use a register anywhere in the function and show only for operands with particular upper halves",
  ["cmmc/Target/RISCV/RISCVScheduleModel.cpp:branch2jump","cmmc/Target/RISCV/RISCVScheduleModel.cpp:removeDeadBranch","cmmc/Target/RISCV/RISCVScheduleModel.cpp:simplifyOpWithZero","cmmc/Target/RISCV/RISCVScheduleModel.cpp:relaxWInst","cmmc/Target/RISCV/RISCVScheduleModel.cpp:removeSExtW"])

p("C31","RISC-V access folding and constant reuse keep memory and register contents",
  "Merging two word stores (or loads, or zero stores, or a two-word copy) into one double-word access, and materialising a constant from another one, leave the same bytes in memory, the same values in the program's registers and the same calls, for every block and every initial state.",
  "all basic blocks over the modelled instructions, all addresses and values, all alignment annotations",
  "the failing patterns need particular offsets, redefinitions or interleaved loads, and particular constants",
  ["cmmc/Target/RISCV/RISCVScheduleModel.cpp:largeImmMaterialize","cmmc/Target/RISCV/RISCVScheduleModel.cpp:foldStoreZero","cmmc/Target/RISCV/RISCVScheduleModel.cpp:earlyFoldStore","cmmc/Target/RISCV/RISCVScheduleModel.cpp:earlyFoldLoad","cmmc/Target/RISCV/RISCVScheduleModel.cpp:earlyFoldDoubleWordCopy"])

p("C32","Target-independent machine peepholes keep the program's behaviour",
  "Removing identity, indirect and repeated copies, forwarding spill-slot contents, eliminating repeated and unused instructions, propagating copied constants, sharing constants within and across blocks and hoisting them to the entry never change which calls are made with which arguments, the memory, the spill slots, the registers a caller can see, or the control flow of a machine function.",
  "all machine functions, all targets whose instruction flags are truthful, all initial states, all numbers of block transitions, any iteration order, legality test and frequency estimate",
  "the rewrites depend on versions of registers along a block and on definitions anywhere in the function; a wrong version shows only for particular interleavings of redefinitions, calls and multi-result instructions",
  ["cmmc/CodeGen/Peephole.cpp:genericPeepholeOpt","cmmc/CodeGen/Peephole.cpp:removeIndirectCopy","cmmc/CodeGen/Peephole.cpp:machineInstCSE","cmmc/CodeGen/Peephole.cpp:removeUnusedInsts","cmmc/CodeGen/Peephole.cpp:machineConstantHoist"])

p("C33","Control-flow clean-up keeps the behaviour of every function",
  "Folding branches on constants, merging branches with equal targets, dropping branches to unreachable code, cutting blocks after calls that do not return, removing unreachable blocks, merging blocks with their only successor, skipping forwarding blocks, forwarding repeated tests and unifying returns never change the returned value, the calls made and their arguments, the final memory, or whether the function returns, for any run without undefined behaviour; and every phi keeps exactly one incoming value per predecessor. They may be applied in any order, any number of times.",
  "all functions (any control-flow graph, loops, irreducible or unreachable parts, self loops, duplicated edges), all meanings of the opcodes, all arguments, all run lengths, all sequences of the passes",
  "the failures need particular coincidences of edges (both arms of a branch meeting in one block, self loops, phis behind removed edges)",
  ["cmmc/Transforms/ControlFlow/SimplifyBranch.cpp","cmmc/Transforms/ControlFlow/MergeBranch.cpp","cmmc/Transforms/ControlFlow/SimplifyPartialUnreachableBranch.cpp","cmmc/Transforms/DCE/NoReturnCallEliminate.cpp","cmmc/Transforms/DCE/BlockEliminate.cpp","cmmc/Transforms/DCE/UnreachableEliminate.cpp","cmmc/Transforms/ControlFlow/BlockMerge.cpp","cmmc/Transforms/ControlFlow/CombineBranch.cpp","cmmc/Transforms/ControlFlow/ForwardBranch.cpp","cmmc/Transforms/ControlFlow/UnifyReturn.cpp"])

p("C34","Removing redundant and dead values keeps the behaviour of every function",
  "Common-subexpression elimination inside a block, elimination of redundant phis, folding of phis with one value, removal of values no effect depends on and the clean-up of unused instructions after every pass never change the returned value, the calls made and their arguments, the final memory, or whether the function returns; the result is again in SSA form (each operand computed before it is read). Dead-value removal keeps exactly what a store, an effectful call or a terminator needs.",
  "all well-formed SSA functions (any control-flow graph), all meanings of the opcodes, all arguments and memories, all run lengths, any grouping of phis into components, any order of blocks, any sequence of the passes",
  "whether a value may replace another depends on dominance and on whole cycles of phis; wrong replacements only show on some paths and some iterations",
  ["cmmc/Transforms/Merge/SimpleCSE.cpp","cmmc/Transforms/DCE/PhiEliminate.cpp","cmmc/Transforms/Combine/ConstantPropagation.cpp:reduceConstantPhis","cmmc/Transforms/DCE/NoSideEffectEliminate.cpp","cmmc/Transforms/TransformPass.cpp:cleanupUnusedInsts"])

p("C35","A function the IR verifier accepts never reads a value that was not computed",
  "If the verifier accepts a function then no run reaches an instruction, phi or terminator that reads an operand without a value, or a phi without an incoming value for the edge taken.",
  "all functions the verifier accepts, all paths through them, all arguments",
  "the verifier inspects dominance once; the claim is about all runs of any length",
  ["cmmc/IR/Function.cpp:verify","cmmc/IR/Block.cpp:verify","cmmc/Analysis/DominateAnalysis.cpp"])

p("C36","Global value numbering only merges equal values",
  "Values that get the same number are equal whenever both are available, in every run; replacing them by one leader, or by a copy hoisted to a common dominator, never changes the returned value, the calls made and their arguments, the final memory, or whether the function returns, and leaves the function in SSA form. The numbering itself always terminates.",
  "all well-formed SSA functions, all meanings of the opcodes, all arguments and memories, all frequency estimates and sets of native opcodes, any dominator analysis that answers correctly",
  "equal numbers are an inductive property over expression graphs; hoisting moves code to paths that never ran it",
  ["cmmc/Transforms/Merge/GVN.cpp"])

p("C37","The dominator analysis answers exactly",
  "dominate(a, b) is true exactly if both blocks are reachable and every path from the entry to b passes through a; reachable and blocks() list exactly the blocks some path reaches, a dominator before what it dominates, the entry first; parent is the closest strict dominator; lca is the lowest common dominator. The answers do not depend on the iteration order of the hash tables.",
  "all control-flow graphs (loops, irreducible graphs, unreachable blocks, duplicate edges), all iteration orders of the hash tables; for lca up to 2^21 blocks, the size of its ancestor tables",
  "semidominators with path compression are correct only through an invariant over the whole depth-first search; wrong answers need particular cross edges and link orders",
  ["cmmc/Analysis/DominateAnalysis.cpp:run","cmmc/Analysis/DominateAnalysis.cpp:dominate","cmmc/Analysis/DominateAnalysis.cpp:lca","cmmc/Analysis/CFGAnalysis.cpp:run"])

p("C38","Liveness and live intervals of virtual registers are exact",
  "calcLiveIntervals always returns; a virtual register is reported live into (out of) a block exactly if some path from there reads it before writing it; its interval covers an instruction exactly if it is live before it, and the point after an instruction exactly if it is live there or just written; two intervals intersect exactly if both registers hold something at once; segments are ordered and apart; a use flagged as the last one is one.",
  "all machine functions (any control flow, any operand flags), all blocks, instructions and virtual registers",
  "liveness is a least fixed point over all paths; a missed live range only shows where two registers later collide",
  ["cmmc/CodeGen/LiveInterval.cpp:calcLiveIntervals","cmmc/CodeGen/LiveInterval.cpp:optimize","cmmc/CodeGen/LiveInterval.cpp:verify","cmmc/CodeGen/LiveInterval.cpp:intersectWith","cmmc/CodeGen/MIRCFGAnalysis.cpp:calcCFG"])

p("C39","Graph colouring register allocation keeps the behaviour",
  "The colouring gives every virtual register a register of its class, different ones to registers that interfere, and never runs out of registers once simplification succeeded; it asks for a spill exactly if some set of registers cannot be simplified. The allocated code does what the given code does: calls may change every register their callee may change, arguments and results in physical registers are kept until they are read, and no virtual register is left.",
  "all machine functions, register classes, allocation lists, callee register usages, all choices of the priority queue and the cost model, all register, slot and world contents, all run lengths",
  "an interference that was missed corrupts a value only on the paths and for the colours that collide",
  ["cmmc/CodeGen/GraphColoringRegisterAllocator.cpp:InterferenceGraph","cmmc/CodeGen/GraphColoringRegisterAllocator.cpp:graphColoringAllocateImpl","cmmc/CodeGen/GraphColoringRegisterAllocator.cpp:graphColoringAllocate"])

p("C40","Spill code keeps the behaviour",
  "When the allocator gives up a register, the code it inserts makes every use of that register read the value last written to it: from a stack slot of its own, from the slot in which an argument arrived, or by computing a constant again. After any number of registers were given up and the rest was coloured the program does what the given program did and no virtual register is left.",
  "all machine functions with any control flow, all registers given up, all placements of reloads and stores around instructions with physical registers, all register, slot and world contents, all run lengths",
  "a reload that is missing or reads a slot too early shows only on the path between that definition and that use, and only under register pressure",
  ["cmmc/CodeGen/GraphColoringRegisterAllocator.cpp:graphColoringAllocateImpl"])
p("C41","Instruction scheduling keeps the behaviour and always finishes",
  "The post-allocation scheduler outputs the instructions of a block in an order in which no two instructions with side effects are exchanged, nothing crosses a call or terminator, and every read of a register still sees the write it saw before; the scheduled program does what the given one did, for every ranking of the ready instructions and every machine model. With the machine models of RISC-V and ARM the scheduler never gives up with 'Failed to schedule instructions'.",
  "all machine functions, all orders in which ready instructions are tried, all accept/refuse behaviours of a schedule class, all register, slot and world contents, all run lengths; for completion: all blocks whose instructions use the schedule classes of the target",
  "a missing dependence shows only if some latency makes that exchange attractive; the 200 idle cycle limit is reached only by unlucky combinations of long-latency instructions",
  ["cmmc/CodeGen/Scheduler.cpp:topDownScheduling,postRAScheduleBlock,ScheduleState","cmmc/Target/RISCV/RISCVScheduleModel.cpp:RISCVScheduleClass*","cmmc/Target/ARM/ARMScheduleModel.cpp:ARMScheduleClass*"])

p("C42","RISC-V instruction selection keeps the meaning of integer code",
  "Legalization and the selection patterns replace generic integer instructions (arithmetic, logic, shifts, comparisons, selects, extensions, branches, constants) by RISC-V instructions that leave the same values in every register of the function, the same effects and the same branches taken; all 12-bit immediates, shift amounts and upper immediates that are produced can be encoded, and every register keeps a sign-extended value of its type.",
  "all blocks of well-typed generic instructions with anything in between, all register contents, all 64-bit immediates, all answers of the use counts and safety checks, any number of passes",
  "patterns are correct only for some types and immediates; a wrong one shows at extreme operand values or for one constant in 2^32",
  ["cmmc/Target/RISCV/RISCVISelInfo.cpp:legalizeInst,selectCompare,selectSFBArith","cmmc/Target/RISCV/RISCV.yml:ISel patterns","cmmc/CodeGen/ISelInfo.cpp:runISel"])
p("C43","RISC-V pre-allocation legalization keeps the meaning and leaves real instructions",
  "Before register allocation, conditional moves are expanded into branches over new blocks and constants into short instruction sequences; the function then finishes with the same results, shows the same effects in the same order and loops exactly when it did, every 64-bit constant is loaded exactly by at most three encodable instructions, no conditional-move or 32-bit-constant pseudo instruction is left, and the legalizer does not give up on what instruction selection hands it.",
  "all machine functions in SSA form (any number of blocks, jumps, fall-through, loops), all register contents, all 64-bit constants, all meanings of calls, memory accesses and terminators",
  "constants must be exact for all 2^64 values, with carries between the upper and lower part; the expansion of several selects in one block inside loops gives unboundedly many control-flow shapes",
  ["cmmc/CodeGen/ISelInfo.cpp:preRALegalizeFunc","cmmc/Target/RISCV/RISCVISelInfo.cpp:preRALegalizeInst,emitImm"])
p("C44","Objects are laid out without overlap and every phase agrees on addresses",
  "Element and field accesses that stay in bounds give addresses inside the object, different scalars never overlap, and scalars of an aligned object are aligned; the interpreter, the offset analysis and the generated code compute the same address for every access; combining, splitting and rebuilding accesses keeps the address; initial values of globals put each number, and zeros where nothing is given, at exactly the address at which the program reads it, in the object file and in the interpreter.",
  "all types (integers, floats, pointers, nested arrays and structs), all index lists, all variable values, all base addresses, all nested initializers",
  "wrong sizes and wrapping products show only for particular nestings of types and for index values near the limits",
  ["cmmc/IR/Type.cpp:getSize,getAlignment,getFieldOffset","cmmc/IR/Instruction.cpp:GetElementPtrInst","cmmc/ExecutionEngine/Interpreter.cpp:GetElementPtr,storeValue","cmmc/CodeGen/Lowering.cpp:GetElementPtr,global initializers","cmmc/Transforms/Combine/GEPCombine.cpp","cmmc/Transforms/Misc/GEPDecompose.cpp","cmmc/Transforms/Combine/PointerArithmeticCombine.cpp"])
p("C45","Claimed pointer alignments hold in every execution",
  "The pointer alignment analysis, on which the code generator bases memory accesses, only claims powers of two that divide the address of that pointer in every execution, through loops, selects, casts and element accesses; and it always ends.",
  "all functions (any graph of pointer instructions, loops included), all executions of any length, all values of index variables that the range and induction-variable analyses allow, any stopping point of the analysis",
  "a claim that is too strong is harmless until some iteration of some loop reaches the address that breaks it",
  ["cmmc/Analysis/PointerAlignmentAnalysis.cpp:PointerAlignmentAnalysis::run","cmmc/Analysis/PointerAlignmentAnalysis.cpp:PointerAlignmentAnalysisResult::lookup"])
p("C46","Removing redundant loads and stores does not change the program",
  "Whatever the value analysis of a block says a pointer points to is what a load through it would give at that moment; replacing loads by such values, removing stores that nobody can observe (overwritten, or to the function's own stack, over any control flow) and removing stores of what is there already leave the returned value, the visible memory, the visible calls and termination unchanged.",
  "all functions and control-flow graphs, all executions of any length, all memories (any world type obeying the load/store laws), any sound answers of the alias, base, leak, address space and dominance analyses",
  "a store is removed wrongly only if some path, through any number of blocks and iterations, reads the location before it is overwritten",
  ["cmmc/Analysis/SimpleValueAnalysis.cpp:next,getLastValue","cmmc/Transforms/Combine/LoadReduce.cpp:runBlock","cmmc/Transforms/DCE/StoreEliminate.cpp:StoreEliminate"])
p("C47","Pointers the alias analysis calls distinct never overlap",
  "If the alias analysis answers that two pointers are distinct, then at no moment of any execution at which both are available do the elements they point to have a byte in common; so the optimizations that exchange or remove memory accesses on its word act on separate memory.",
  "all functions and control-flow graphs, all pairs of pointers, all executions of any length and all points in them, all object layouts (nested arrays and structs), all orders in which facts are passed along the inheritance graph",
  "two pointers that are distinct in the first iterations of a loop may meet in a later one; type-based and index-based reasoning has to hold for all nestings of types",
  ["cmmc/Analysis/AliasAnalysis.cpp:AliasAnalysis::run,divide,TBAAQuery","cmmc/Analysis/AliasAnalysis.cpp:AliasAnalysisResult::isDistinct,inheritFrom"])
p("C48","Promoting local variables to values does not change the program",
  "The pass that turns local scalar variables into values (building SSA form on the fly, with incomplete phis in loops and removal of trivial phis) keeps the returned value, the output, the final memory and termination of the function: every read of a promoted variable gets the value that was last stored to it on the path actually taken, or an undefined value if there was none.",
  "all well-formed functions and control-flow graphs (irreducible ones included), all visiting orders of the blocks, all executions of any length, all memories obeying the load, store and freshness laws, any identity of constants, any depth of phi removal",
  "a wrong or missing phi operand shows only on one path through loops and joins; the algorithm patches unfinished phis later, so its result depends on the order of the blocks and on the whole graph",
  ["cmmc/Transforms/Combine/ScalarMem2Reg.cpp:ScalarMem2RegContext::useVar,useVarRecursive,addPhiOperands,tryRemoveTrivalPhi,sealBlock,runOnFunction","cmmc/Transforms/Combine/ScalarMem2Reg.cpp:filterPromotable,run"])
p("C49","Moving code out of loops and into branches does not change the program",
  "Moving a computation to an earlier block that is run less often, or down into the only branch that needs it, leaves the returned value, the output and termination unchanged, never makes a program fail that did not fail before, never separates a value from its uses, and loses or duplicates no instruction.",
  "all well-formed functions and control-flow graphs, all trip count estimates and target tables, all operator meanings, all executions of any length",
  "a computation moved above the test that guards it, or below a use on a path nobody thought of, goes wrong only for the inputs that take that path",
  ["cmmc/Transforms/Misc/CodeMove.cpp:CodeMove::run","cmmc/Transforms/Misc/CodeSink.cpp:CodeSink::run","cmmc/Transforms/Util/BlockUtil.cpp:isMovableExpr,isNoSideEffectExpr","cmmc/IR/Instruction.cpp:insertBefore"])
p("C50","Turning branches into selects and selects into branches does not change the program",
  "Computing both sides of a short branch and choosing between them, or computing an expensive operand only where it is chosen, leaves the returned value, the output and termination unchanged and never makes a program fail that did not fail before.",
  "all well-formed functions and control-flow graphs, all operator meanings, all memory contents, all executions of any length",
  "code that is now run although its branch was not taken, or later than before, goes wrong only for the inputs and memory contents that make it fail or change its operands in between",
  ["cmmc/Transforms/ControlFlow/Branch2Select.cpp:Branch2Select::run,canFold","cmmc/Transforms/ControlFlow/Select2Branch.cpp:Select2Branch::run,shouldExpand","cmmc/Transforms/Util/BlockUtil.cpp:splitBlock,fixPhiNode"])
p("C51","Removing blocks that only pass values on does not change the program",
  "Merging a block that only chooses between values by the way it was reached into the block behind it leaves the returned value, the output and termination unchanged, every choice depends on the same way as before, and the pass ends, with no such block left, on every function.",
  "all well-formed functions and control-flow graphs (loops and irreducible ones included), all operator meanings, all executions of any length, any number of merged blocks",
  "a choice that takes the value of the wrong way goes wrong only on one path through nested joins",
  ["cmmc/Transforms/ControlFlow/PhiMerge.cpp:PhiMerge::run","cmmc/Transforms/Util/BlockUtil.cpp:resetTarget","cmmc/IR/Instruction.cpp:PhiInst::removeSource,addIncoming"])
p("C52","Sharing a store at the end of several branches does not change the program",
  "When all ways to a block end in a store to the same address, doing the store once in that block, of the value chosen by the way taken, leaves the returned value, the output, the final memory and termination unchanged: on every path the same value is stored once, before anything can read it.",
  "all well-formed functions and control-flow graphs, all operator and memory meanings (stores that fail or end the program included), all executions of any length, any number of shared stores",
  "a store that is lost, doubled or done with the value of another way goes wrong only on one path through the joins",
  ["cmmc/Transforms/Merge/TailStoreMerge.cpp:TailStoreMerge::run"])
p("C53","Turning tail calls into a loop does not change the program",
  "Replacing a call of the function by itself whose result is returned, returned after being combined by an associative and commutative operator, or not used before something else is returned, by a jump to the start of the function leaves the returned value, the output and termination of every call unchanged, however deep the recursion is, and the pass can be repeated only finitely often.",
  "all well-formed functions and control-flow graphs, all argument values, all recursion depths (infinite ones included), all meanings of the other calls and operators, all executions of any length",
  "an accumulator that is combined one time too few or too many, or a result that is lost, goes wrong only at particular recursion depths and on particular ways out",
  ["cmmc/Transforms/ControlFlow/TailCallEliminate.cpp:TailCallEliminate::run,eliminateCall,handleBlock,getLastRecursiveCall,getIdentity"])
p("C54","Using what a branch tells about its condition does not change the program",
  "Replacing a condition by true or false where every way from outside the loop or block has passed a branch that decided it leaves the returned value, the output and termination unchanged, and the pass ends on every function.",
  "all well-formed functions and control-flow graphs (irreducible loops included), every order of the hash tables, all operator meanings, all executions of any length",
  "a condition that is taken as known on one way too many goes wrong only on one path through joins and loops",
  ["cmmc/Transforms/Combine/ConditionalPropagation.cpp:ConditionalPropagation::run,ConditionSet::merge,finalize","cmmc/IR/Instruction.cpp:UserList::replaceWithInBlock"])
p("C55","Cutting off blocks that cannot return keeps every run that returns",
  "Ending in unreachable the blocks from which no return can be reached leaves every call that returns as it was: the same value, the same output; the blocks concerned are exactly those from which no return can be reached, a run that does not return behaves as before up to them, and a second run of the pass changes nothing.",
  "all well-formed functions and control-flow graphs, all operator meanings, all executions of any length, terminating or not",
  "a search that misses one edge cuts off a block that only particular inputs come to",
  ["cmmc/Transforms/DCE/InfiniteEliminate.cpp:InfiniteEliminate::run","cmmc/Analysis/CFGAnalysis.cpp:CFGAnalysis::run"])
p("C56","Sorting the blocks does not change the function",
  "Sorting the blocks of a function, which the front end does to every function it emits and the optimizer repeats, keeps every block as it is and the first block first, so that every run is step for step the run before; the blocks come in the order of their weights, and functions that pass the verifier still do.",
  "all well-formed functions, control-flow graphs and orders of blocks, all operator meanings, all executions of any length",
  "if any block came to be sorted before the first one the function would start in the wrong place, and the weights depend on the whole graph",
  ["cmmc/Transforms/Misc/BlockSort.cpp:sortBlocks,BlockSort::run","cmmc/Frontend/EmitIR.cpp:sortBlocks"])
p("C57","Copying small blocks into their predecessors is invisible",
  "Where the optimizer moves the instructions of a small block into the blocks that branch to it, once for each of them, with phis in the block for the results that are used elsewhere, the function calls the same things with the same arguments, returns the same result and leaves the same memory, and its structure stays well-formed: names are unique, branches have targets, phis have the right predecessors. On a function that passes the verifier the pass does not fail and its result passes the verifier.",
  "all well-formed functions whose first block is not a branch target, all operator meanings, all executions of any length",
  "the copies read each other, the phis of the block and values of the block from an earlier trip round a loop, and a result may be used anywhere below",
  ["cmmc/Transforms/Misc/SmallBlockInlining.cpp:SmallBlockInlining::run","cmmc/Transforms/Util/BlockUtil.cpp:hasCall"])
p("C58","The module keeps exactly the struct types that are used",
  "When the optimizer drops unused types, the module's list of struct types loses those that no value of the module has as its type or as a part of its type, however deeply nested or recursive, and no others; the order stays, nothing that a kept type is made of is dropped, the search ends, and the pass says that it changed something exactly if a type was dropped.",
  "all finite type graphs, recursive or not, all lists of types and all orders in which the values of a module are visited",
  "a recursive type can make the search loop or stop early, and a dropped type is only missed by a program that declares it through another one",
  ["cmmc/Transforms/DCE/UnusedTypeEliminate.cpp:UnusedTypeEliminate::run"])
p("C59","Only internal functions and variables that nothing needs are dropped",
  "When the optimizer drops unused globals, the module loses exactly the internal functions and variables that cannot be reached from an external one through the operands of functions, so that even internal functions which only call each other go; the order stays, no function that is left refers to something dropped, the rounds end, and the pass says that it changed something exactly if something was dropped.",
  "all modules: any number of functions and variables in any order, any references between them, recursive or not",
  "whether a global is needed depends on chains of references of any length and the result must not depend on the order of the globals",
  ["cmmc/Transforms/DCE/GlobalEliminate.cpp:GlobalEliminate::run"])
p("C60","Dropping the zeros at the end of initial values keeps the data",
  "Where the optimizer shortens the initial values of global arrays by the zeros at their ends, at every level of nested arrays, or drops an initial value that is all zero, the variable starts with the same bytes in the emitted program; what is left still fits the type of the variable, no zero and no empty array is left at the end, and if the pass says that it changed nothing then it changed nothing.",
  "all modules, all nested arrays of integers of 1, 2 or 4 bytes and of floats, of any sizes and depths, fully or partly initialized",
  "inner arrays that were shortened must still take their full room, and the elements after them must not move",
  ["cmmc/Transforms/Misc/GlobalZeroEliminate.cpp:GlobalZeroEliminate::run,clear","cmmc/CodeGen/Lowering.cpp:lowerToMachineModule"])
p("C61","The call-graph order puts callees before callers",
  "The order of functions that the call-graph analysis hands to interprocedural passes has every function of the module exactly once, and a function comes after each function it calls, unless that function calls it back, directly or through others.",
  "all modules, all call graphs with self calls and cycles, whatever the order in which hash sets are walked",
  "the condensation and the queue that orders it must agree on every graph, not only on the few call graphs of a test suite",
  ["cmmc/Analysis/CallGraphSCC.cpp:CallGraphSCCAnalysis::run","cmmc/Support/Graph.cpp:calcSCC"])
