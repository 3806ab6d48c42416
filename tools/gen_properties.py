#!/usr/bin/env python3
# Regenerates /verif/properties.jsonl (kept as a script only for readability of long strings).
import json,os
P=[]
def p(id,title,statement,quantifier,why,anchors):
    P.append(dict(id=id,title=title,statement=statement,quantifier=quantifier,why_tests_cant=why,anchors=anchors))
IR='cmmc/Analysis/IntegerRange.cpp'
p('C01','Integer-range addition, subtraction, multiplication, negation are sound over-approximations',
  'If a 32-bit run-time value x is described by range a and y by range b (signed interval, unsigned interval and known-bit masks all agree with the value), then the wrapped 32-bit results x+y, x-y, x*y and -x are described by a+b, a-b, a*b and a.neg().',
  'all 32-bit values x,y and all (2^256-ish) ranges a,b that describe them',
  'The pair of ranges and the two values form an astronomically large space; unsoundness appears only in corner combinations of the three sub-domains.',
  [IR+': operator+ operator- operator* neg sync'])
p('C02','Integer-range bitwise and shift transfer functions are sound',
  'If x is described by a and y by b then x&y, x|y, x^y are described by a&b, a|b, a^b; and for a shift amount y in [0,31], x<<y, x>>y logical and x>>y arithmetic are described by a.shl(b), a.lshr(b), a.ashr(b).',
  'all 32-bit values and all ranges describing them',
  'Known-bit reasoning interacts with interval tightening in sync(); only a proof covers all mask/interval combinations.',
  [IR+': operator& operator| operator^ shl lshr ashr'])
p('C03','Integer-range division and remainder transfer functions are sound',
  'If x is described by a, y by b and y is non-zero, then the truncated quotient/remainder (signed and unsigned, with INT_MIN/-1 wrapping as in the interpreter) are described by a.sdiv(b), a.udiv(b), a.srem(b), a.urem(b).',
  'all 32-bit values x, non-zero y and all ranges describing them',
  'Failures need extreme endpoints (INT_MIN, -1) hidden inside wide intervals.',
  [IR+': sdiv udiv srem urem'])
p('C04','Range lattice operations: sync, intersection, union, constants, min/max/abs are sound',
  'sync never discards a value the range described; intersectSet describes every value both arguments describe; unionSet every value either describes; IntegerRange(c) describes exactly c; inferConstant returns c only if c is the only possible value; intersectWith returns false only when no value is in both; smax/smin/abs over-approximate the operation.',
  'all ranges and 32-bit values',
  'The domain of ranges cannot be enumerated.',
  [IR+': sync bit2Unsigned unsigned2Bit signed2Bit unsigned2Signed signed2Unsigned intersectSet unionSet inferConstant inferSuffix intersectWith isEmpty smax smin abs'])
p('C05','Comparison folding from ranges never changes the outcome of a comparison',
  'When the range-aware pass replaces an integer comparison by a constant (or an equality by a disequality-free form), the constant is the value the comparison would have for every pair of operand values described by the ranges.',
  'all compare predicates, all operand ranges, all operand values described by them',
  'Wrong folds only show for particular range shapes and operand values.',
  ['cmmc/Transforms/Combine/RangeAwareArithReduce.cpp: foldCmp'])
p('C06','Range-aware strength reductions preserve the computed value',
  'Each rewrite performed because of range facts (signed remainder/division to unsigned, abs/min/max elimination, bound-check merging, modular add to select, modular product merging) yields the same 32-bit value as the original instruction for all operand values compatible with the ranges.',
  'all rewrites of the pass, all ranges, all operand values',
  'Needs all values in the range, including values where facts are derived from the result instead of the operands.',
  ['cmmc/Transforms/Combine/RangeAwareArithReduce.cpp: RangeAwareArithReduce::runOnFunction'])
p('C07','Algebraic simplification preserves integer results (wrapping machine semantics)',
  'For every integer rewrite rule in the arithmetic simplifier and every assignment of operands, the replacement evaluates to the same w-bit value as the original under the interpreter/machine two-complement wrapping semantics, and does not introduce a division trap.',
  'all rules, all operand values, all constants the rule accepts, all integer widths 8/16/32/64 the IR admits',
  'About 150 rules each quantifying over 2^64+ inputs and constants.',
  ['cmmc/Transforms/Combine/ArithmeticReduce.cpp: ArithmeticReduce::runOnBlock','cmmc/Transforms/Util/PatternMatch.hpp'])
p('C08','Algebraic simplification is a refinement when signed overflow is undefined',
  'Rules that are not valid for wrapping arithmetic are still valid whenever the source expression evaluates without signed overflow or division error (C semantics).',
  'all rules that exploit undefined overflow, all operands without overflow',
  'The side condition and values range over all inputs.',
  ['cmmc/Transforms/Combine/ArithmeticReduce.cpp: ArithmeticReduce::runOnBlock'])
p('C09','Compile-time constant folding agrees with run-time evaluation',
  'When constant propagation folds an integer instruction (arithmetic, bitwise, shift, comparison, conversion, select) the folded constant is observationally the same w-bit value that the reference interpreter computes for that instruction on those operands, and folding is not performed where the interpreter would report a division by zero.',
  'all opcodes, widths and operand values',
  'Quantifies over all operand values and stored representations of constants.',
  ['cmmc/Transforms/Combine/ConstantPropagation.cpp: runOnBlock','cmmc/ExecutionEngine/Interpreter.cpp: execute','cmmc/IR/ConstantValue.cpp: ConstantInteger'])
p('C10','Multiplication by a constant is expanded into an equivalent shift/add/sub sequence',
  'For every multiplier constant for which an expansion is emitted and for every register value x, the emitted shift/add/sub sequence computes x*n modulo 2^w; the cost reported does not exceed the budget; shift amounts are legal; the search terminates; and memoised plans from earlier queries do not change correctness.',
  'all constants n, all x, all query histories of the memo table, all budgets',
  'Plan search depends on an unbounded history through a memo table.',
  ['cmmc/CodeGen/MultiplyByConstant.cpp'])
p('C11','Modular-arithmetic rewrites preserve remainders',
  'Merging of modular sums, mulmod loop replacement, add-recurrence-modulo folding and srem-to-select produce the value of the original loop/expression.',
  'all operands, moduli, loop trip counts',
  'Trip counts and operands are unbounded; signs matter.',
  ['cmmc/Transforms/Combine/ModuloOpt.cpp'])
p('C12','parallelFor executes every index exactly once',
  'For every begin/end and every number of worker threads the runtime splits [begin,end) into sub-ranges that are pairwise disjoint, non-empty, in order, and whose union is exactly [begin,end); each non-last split point is 4-aligned relative to begin.',
  'all begin,end (int32) and all thread counts',
  'Overflow and rounding corner cases at all sizes.',
  ['cmmc/Runtime/cmmc_sysy_rt.cpp: cmmcParallelFor'])
p('C13','parallelFor is a barrier: on return all chunks have run exactly once, for every schedule',
  'Under every interleaving of the caller and the worker threads with the futex-style ready/done handshakes, when parallelFor returns each dispatched chunk has been executed exactly once, none is still executing, no job is lost or duplicated, and the next call finds all workers idle.',
  'all interleavings, all sequences of parallelFor calls',
  'Schedules are unbounded and not controllable from tests.',
  ['cmmc/Runtime/cmmc_sysy_rt.cpp: Futex cmmcWorker cmmcParallelFor cmmcInitRuntime cmmcUninitRuntime'])
p('C14','Memoisation of pure functions is transparent',
  'A function to which the stateless-cache transformation has been applied returns for all argument pairs and all histories of earlier (including recursive) calls the value the untransformed function returns.',
  'all call histories, all arguments, all hash collisions',
  'Errors need collision between particular arguments in particular histories.',
  ['cmmc/Runtime/cmmc_sysy_rt.cpp: cmmcCacheLookup','cmmc/Transforms/Misc/StatelessCache.cpp'])
p('C15','Interpreter memory: a load returns the last bytes stored there, and stores disturb nothing else',
  'After storing a value of any scalar type at an address inside a live readable/writable allocation, loading that type from that address yields the stored value (modulo the type width) and every byte outside the written interval is unchanged; accesses touching any byte without the required permission report a memory error.',
  'all memory states, addresses, sizes and values',
  'Unbounded memory states.',
  ['cmmc/ExecutionEngine/Interpreter.cpp: MemoryContext'])
p('C16','Interpreter memory: allocations are disjoint, aligned, and released exactly on return',
  'Every stack push / global materialisation returns an aligned address whose bytes overlap no live allocation; popping the pushed allocations of a frame in any order restores the stack pointer and permissions to the pre-frame state; accesses after release report an error.',
  'all sequences of allocations and releases',
  'Unbounded histories.',
  ['cmmc/ExecutionEngine/Interpreter.cpp: MemoryContext::stackPush stackPop getGlobalVarAddress'])
p('C17','Stack frame layout assigns disjoint, aligned slots',
  'After stack-object allocation every two stack objects of a function occupy disjoint byte ranges inside the frame, each at an offset satisfying its alignment, the outgoing-argument area is at the bottom, the frame size is a multiple of the stack alignment, and incoming-argument offsets are shifted by exactly the frame size.',
  'all sets of stack objects (sizes, alignments, kinds), all frames',
  'Unbounded number of objects and sizes.',
  ['cmmc/CodeGen/StackAllocation.cpp: allocateStackObjects'])
p('C18','Interval partitioning never shares a slot between overlapping live ranges',
  'Two intervals assigned to the same slot do not overlap; every interval gets a slot; the number of slots is the maximum overlap depth.',
  'all finite families of live intervals',
  'Unbounded inputs; optimality is a universal statement.',
  ['cmmc/CodeGen/StackAllocation.cpp: calcIntervalPartition'])
p('C19','The intrusive instruction list behaves as a sequence',
  'Any sequence of insert/push/pop/erase operations keeps the doubly linked list well formed (forward traversal is the reverse of backward traversal, length equals stored count) and has the effect of the same operation on a mathematical list.',
  'all operation sequences on all lists',
  'Pointer-structure invariants over unbounded histories.',
  ['cmmc/Support/IntrusiveList.hpp'])
p('C20','The arena allocator returns aligned, non-overlapping memory inside owned blocks',
  'Each allocation is inside a block owned by the arena, aligned as requested, and does not overlap any earlier allocation that has not been released.',
  'all sequences of allocation requests (sizes, alignments)',
  'Unbounded sequences and sizes.',
  ['cmmc/Support/Arena.cpp: Arena::allocate'])
p('C21','String interning is injective and stable',
  'Interning equal strings returns equal handles, different strings different handles, and a handle always resolves to the string it was created from no matter what is interned later.',
  'all strings and intern histories',
  'Unbounded histories.',
  ['cmmc/Support/StringFlyWeight.cpp'])
p('C22','Strongly connected components are computed exactly and in dependency order',
  'calcSCC returns for each node a component number such that two nodes have the same number iff each reaches the other, and components are numbered so that edges between different components go to smaller numbers.',
  'all finite directed graphs',
  'Graphs are unbounded; Tarjan bookkeeping bugs hide in particular shapes.',
  ['cmmc/Support/Graph.cpp: calcSCC'])
p('C23','Lookup-table-to-expression replacement preserves every table read',
  'When a constant integer table is recognised as constant / identity / shift / affine pattern, the replacement expression evaluated at each in-bounds index equals the table element.',
  'all tables (any length and contents) and all in-bounds indices',
  'Tables and indices unbounded.',
  ['cmmc/Transforms/Combine/LUT2Expr.cpp'])
p('C24','Thread-count tuning cache is safe for all histories',
  'The per-parallel-loop tuning cache never indexes out of its 16 entries, returns the entry of the requested key, never contains a valid key twice, and the chosen number of threads is always one the runtime supports.',
  'all sequences of loop invocations and timings',
  'Unbounded history and arbitrary timings.',
  ['cmmc/Runtime/cmmc_sysy_rt.cpp: selectEntry selectNumberOfThreads'])
p('C25','Inverting and reversing compare predicates is semantically exact',
  'The inverted predicate is the negation of the predicate on all operands; the reversed predicate with swapped operands is equivalent; double application is the identity (integers; floats including unordered).',
  'all predicates and operands, including NaN',
  'Quantifies over all operands.',
  ['cmmc/IR/Instruction.cpp: getInvertedOp getReversedOp'])
out=os.path.join(os.path.dirname(os.path.abspath(__file__)),'..','properties.jsonl')
extra=os.path.join(os.path.dirname(os.path.abspath(__file__)),'more_properties.py')
if os.path.exists(extra): exec(open(extra).read())
with open(out,'w') as f:
    for x in P: f.write(json.dumps(x)+'\n')
