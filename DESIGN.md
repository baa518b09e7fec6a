# Formal model of exaloop/codon in Rocq

Sources are read as text from /repo; nothing is built or run. Each directory of
`rocq/theories` holds one topic, usually as `Model.v` (the code, with file:line
citations), `Spec.v` (the property in independent terms), `Proofs.v` and
`Properties.v` (final theorems, examples showing the hypotheses are met, and
`Print Assumptions`).

## Plan per property

- **C01 Dict behaves as a finite map** - Model khash buckets, 2-bit flags, keys, values, all dict operations over an arbitrary hash; refinement to an association map by induction over histories.
- **C02 Dict operations always terminate and never leave the table** - Same model; probe loops are fuelled, a theorem shows fuel is never exhausted because triangular probing visits every bucket and one bucket is always empty.
- **C03 Set operators compute the set-theoretic result** - Set model on the same table; each operator compared to membership.
- **C04 In-place set updates agree with the operators** - Same; symmetric_difference_update is expected to be refuted.
- **C05 list behaves as a mutable sequence** - List = (array of capacity cap, len); refinement to a list of the first len cells; out-of-bounds is a distinct outcome.
- **C06 list slices follow Python's slice semantics** - Slice operations as in the code with memmove steps, compared with Python's selection of positions.
- **C07 Slice normalisation is always in bounds** - Integer model of adjust_indices, lia/nia.
- **C08 range is consistent** - range over Z with explicit 64-bit wrap.
- **C09 deque behaves as a double-ended queue** - Ring buffer refinement to list.
- **C10 A bounded deque never exceeds maxlen** - Same model, bound theorem / refutation.
- **C11 heapq operations keep the heap invariant** - Array heap model, heap invariant by index induction.
- **C12 nsmallest, nlargest and merge** - Built on C11.
- **C13 bisect finds the insertion point** - Loop invariants.
- **C14 Insertion sort is a stable sort** - Array model, loop invariants.
- **C15 Heap sort sorts** - idem.
- **C16 Quicksort sorts** - idem.
- **C17 pdqsort (the default sort) sorts and is memory safe** - idem, with out-of-bounds outcome.
- **C18 Timsort sorts** - idem.
- **C19 sorted with a key is stable** - witness by computation.
- **C20 Constant folding agrees with run-time evaluation** - Integer rules over Z with wrap, UB as outcome.
- **C21 Algebraic folding preserves effects** - Small effectful expression language.
- **C22 Canonicalisation preserves meaning** - idem.
- **C23 Dead-code elimination preserves behaviour** - Small structured IR with big-step semantics.
- **C24 Constant propagation reads the right value** - CFG semantics, worklist analysis, soundness by path induction.
- **C25 Dominator analysis is exact** - Graph model, fixpoint = dominance by paths.
- **C26 Passes never see stale or missing analyses** - State machine model of PassManager, invariant over operation histories.
- **C27 Type unification is sound** - Heap of type nodes, unify with levels, idempotent solved form.
- **C28 Failed unification can be rolled back** - Log replay lemma.
- **C29 Generalise then instantiate** - Structural induction.
- **C30 Call arguments are bound as in Python** - reorderNamedArgs as a function; compared with a declarative binding spec.
- **C31 Class method resolution order is C3** - mergeC3 as a function on lists.
- **C32 Python-style integer division** - Z with wrap.
- **C33 String escaping round-trips** - byte lists.
- **C34 list-concatenation fusion preserves meaning** - list model + slices.
- **C35 Assigning to existing keys while iterating a dict** - table model of C01 with the iterator's position; witness by computation.
- **C36 Dict arithmetic rewriting preserves meaning** - both sides as programs over the table model.
- **C37 The control-flow graph covers every execution** - the graph builder as a function on trees; a nondeterministic semantics of the trees; mutual induction on runs with an invariant relating a run to paths in the graph.
- **C38 Dates are the days of the Gregorian calendar** - datetime.codon with wrapping integers; the specification counts days by an inductive `next_day`; ordinals by induction on the count, the inverse by arithmetic over the 400-year cycle.
- **C39 Arithmetic on dates, instants and durations is exact** - packed values and their normalisation; the specification is one number of microseconds per instant. Durations are false near 2^53 and 2^63: partial with refutations.
- **C40 ISO week dates** - against the Thursday rule.
- **C41 ISO texts of dates and times round-trip** - texts as lists of bytes; round trip of the digit printer and parser.
- **C42 Searching in strings** - the block search of algorithms/strings.codon with its masks and unrolled rests, against positions of occurrences. `rfind` with patterns of two bytes or more is partial with refutations (one unrolled copy has the wrong sign); `startswith` and `endswith` with negative bounds too.
- **C43 Splitting, joining, replacing and stripping** - loops as fuelled functions, buffers with their capacity; specifications are relations between a text and its pieces. `rsplit` and `rpartition` inherit the restriction of `rfind`.
- **C44 Comparison, slices and padding of strings** - against lexicographic order, the slice specification of C07 and list functions. Repetition is false for negative numbers: partial.
- **C45 repr of a string reads back** - composition with the parser's `unescape` of C33.
- **C46 Scheduling order of the event loop** - a state machine of the loop: queue nodes, timers, futures, tasks, coroutines; user code is an arbitrary table of bodies. The linked list refines a list of work; induction over runs with an invariant on all reachable states.
- **C47 Timers of the event loop** - the array heap refines a multiset of deadlines; a turn pops exactly the due ones, sorted.
- **C48 Futures are set once, their callbacks run in order** - an extension order on states (outcomes are kept, callbacks only grow or get queued), proved for every step.
- **C49 Tasks are resumed once, when what they await is done** - a token invariant: every work item is in exactly one place (queue, callbacks of a future, timer, running). Partial: programs that cancel tasks or stop the loop are excluded, since the claim is false for them (refuted).
- **C50 gather collects results in order** - an invariant for every gather: each gathered future has one callback coroutine, which is registered, queued, running or has run; the counter is the number of futures whose callback has not succeeded. Partial: the future that `gather` returned is completed by the loop only, no task is cancelled. A cancelled future leaves its element uninitialised (refuted).
- **C51 Combinatoric iterators enumerate exactly** - the loops on index lists of itertools.codon:271-690, with bounds-checked accesses; each loop is an odometer: one step leads to the lexicographic successor, so the run from the first selection enumerates the sorted list of all of them; counting by the recurrences of the enumerations.
- **C52 Iterator adaptors yield what they promise** - generators are coroutine handles with a state (suspended with values to come, finished, destroyed); resuming a finished one is undefined. Each adaptor is a fold over the source; the values are stated by positions, and what remains of the source is part of the result.
- **C53 zip, zip_longest and tee** - zip works on a heap of handles so that arguments can coincide; rounds by induction. For tee the invariant says that the deque of a copy holds what the source yielded and the copy has not.
- **C54 try/except/else/finally run as in Python** - `Exc/Spec.v` is a big-step semantics of statements with Python's try. `Exc/Model.v` generates the labelled blocks llvisitor.cpp emits (landing pad clauses of all enclosing tries, selector routing, catch depth, flag/loop/return slots, finally switch) and runs them. `C54_try_partial`: a covered function that ends in the semantics ends in the machine with the same ending and data, without undefined behaviour (simulation by induction on the execution, invariant on the slots). `C54_diverges_partial`: one that does not end never stops. `C54_only_partial`: whatever ending the machine reaches is the one Python prescribes. Partial because the full statement is refuted: the `C54_*_refuted` theorems give functions outside the covered class that run wrongly. The class (`covered`) excludes returns and nested tries in handlers/else of a try with finally, raising there if that try is nested, and tries, returns, break and continue out of the finally of a nested try.
- **C55 Variables of a function behave as in Python** - `Scope/Spec.v` is an interpreter of Python functions over one environment, with fuel. `Scope/Model.v` is the scoping pass for one name (list of bindings, dominance, hoisted declarations, update/used/undef-check annotations), the type checker's use of the annotations (one variable per new binding or declaration, flags) and a run of the result over per-variable storage. Proof: the pass is an event machine (`Events`), a per-name static analysis (`Flow`) implies the simulation (`Sim`), an invariant of the pass over the prefix read so far (`Path`, `Items`, `Pass`) gives facts on the annotations (`claims`) from which the analysis succeeds (`Link`); `Trail` has the shape of the events of a tree. `C55_sound_partial`: the run equals Python's, or stops with a NameError after printing a prefix; `C55_exact_partial`: equal runs when every name assigned in a loop is also assigned before it in the text; `C55_initialised_partial`: never uninitialised storage; `C55_accepted_partial`: accepted if every name is assigned in the text before it is read. Partial because the full statements are refuted (`C55_*_refuted`); the covered class excludes walruses nested in two optional operands, walruses in optional operands of a while condition, and walruses in the right-hand side of an assignment to the same name.
- **C56 Reshaping, flattening, copying and transposing arrays keeps the elements** - `Nd/Spec.v`: coordinates inside a shape, their C and F enumerations, the shape a request means. `Nd/Model.v`: memory as blocks of cells by byte offset, arrays as (block, offset, item size, shape, strides), and the functions of ndarray.codon and util.codon on them. Proof: byte offsets of an array in C/F order as lists (`Grid`), copying loops as lists of stores (`Copy`), the group matching of `_attempt_reshape_nocopy` by induction over the groups with the offsets of each group equal to a line (`Reshape`), then the operations (`Views`). Partial: order 'F' with more than six axes, sizes asked for beyond 2^63, negative axes in a list and the order argument with a tuple shape are refuted.
- **C57 Basic indexing of arrays selects and assigns exactly the elements that the index denotes** - `Nd/Spec.v`: what an index tuple denotes (`spread` fills in the ellipsis, `sel_shape`, `sel_from` with Python's slice positions, `sel_ok`). `Nd/IndexModel.v`: the helper functions of indexing.codon one by one. Proof (`Nd/Index.v`): the expansions equal `spread`, then induction over items and axes for offset, shape and strides; assignments as lists of stores in different cells. Partial: an array assigned to overlapping elements of itself is refuted.
- **C58 Arrays broadcast to the unique common shape, each element repeated as prescribed** - `Nd/Spec.v`: `broadcasts` relates shapes to their common shape counted from the end; `pick` is the operand's coordinate. `Nd/IndexModel.v`: the functions of routines.codon. Proof: an invariant of the merge over the arguments (each extent is 1 or agreed so far), uniqueness of the common shape from the relation alone, induction over strides for the views.
- **C59 Element-wise operators compute each element of the broadcast result, and in-place operators change only their target** - `Nd/LoopModel.v`: `_loop` with its broadcast modes, the reordering of axes, allocation of results and the line loops. Proof (`Nd/Loop.v`, `Nd/LoopAll.v`): whatever order is chosen, the loop is a fold of the callback over a permutation of all coordinates; results are in new memory, so the fold computes each element independently. Partial: in-place operators need an operand that broadcasts to the target and does not overlap it; both gaps are refuted.
- **C60 Universal functions fill exactly the selected elements of their result** - `Nd/UfuncModel.v`: the two `__call__` methods with out and where, the vectorised loops with L lanes as batches of loads and stores, `empty_like`. Proof (`Nd/Ufunc.v`): a batch equals single steps if no step reads what another writes; every way of walking the elements is a permutation of all coordinates. Partial: the vectorised loops are proved for operands of the shape of the result with non-zero strides, or few elements; the other cases are refuted.
- **C61 A boolean array as index selects, or assigns to, exactly the true positions** - `Nd/MaskModel.v`: the counting loop, both reading and both writing loops over cells. Proof (`Nd/Mask.v`): induction over the visited cells; every walk is a permutation of the grid. Partial for writing: the item must be adjacent in memory and not overlap the array; otherwise refuted.
- **C62 A parallel for loop runs every iteration exactly once and leaves the last iteration's values** - `Par/LoopModel.v`: the three loop templates as loops over wrapping 64-bit arithmetic, with the runtime's answers as a parameter; `Par/LoopSpec.v` states what the runtime promises (contracts) and `C62_runtime` shows LLVM's algorithms meet it for every number of threads. Proof: each thread's trace is the image of its iteration numbers (induction over the loop; `Par/Loop.v`), the union is a permutation of the range (`Par/LoopTeam.v`); collapse by mixed-radix digits (`Par/LoopCollapse.v`). Partial: ranges near the ends of int64, bodies that assign the loop variable, and inner bounds that depend on outer variables are refuted.
- **C63 Reductions in a parallel loop give the sequential result** - `Par/ReductionModel.v`: the analysis that finds reductions, the table of initial values, and combination as a relation (any pairwise merge or commit in any order). Proof: an accumulating body is s |-> op s (G i) by induction over expressions and statements; then a general theorem on commutative monoids restricted to a domain (in64), by induction over the combination (`Par/Reduction.v`). Partial: bodies the analysis takes for reductions although they are not, those it misses, and float, bool and Int[N] initial values are refuted by witnesses.
- **C64 match statements, loop else clauses and loops over tuples run as in Python** - `Desugar/DesugarSpec.v`: a source language with these constructs and its Python meaning; `Desugar/DesugarModel.v`: the rewriting into a language of plain loops, flags and tests. Proof: patterns by induction over patterns (`DesugarPat.v`: a pattern that does not match is quiet, one that matches reaches the suite with its bindings), then a simulation by mutual induction over statements and cases for every bound on rounds, tracking which flags a break clears (`DesugarSim.v`). Partial: break or continue in a case for an outer loop, break in an else clause inside a loop with else, else on tuple loops, guards on alternatives that read captures, and captures of failed patterns are refuted.
- **C65 SortedList holds exactly what was added, in order** - Model sublists and maxima as sequences with Python index rules; invariant: maxima are the last elements, the concatenation is sorted, sizes are bounded. Each operation is computed at a split of the sublists; add-only histories are compared with the stable sort of the live values.
- **C66 Unpickling gives back what was pickled; truncated pickles are refused** - `Pickle/PickleModel.v` gives a universe of types `ty` with their values `den t`, memory images of atomic values (little endian, alignment padding), the chunked raw reads and writes, and `pickle t`/`unpickle t` by recursion on the type; hash tables are the tables of `Dict/Model.v`, written as raw memory when keys and values are atomic and item by item otherwise. `PickleSpec.v` says which values exist (`valid`) and when two are equal (`same`). Proof by induction on the type of `codes`: the decoder inverts the encoding in front of any further bytes and raises on every proper prefix. Raw tables: flag words come back modulo 2^32, live slots unchanged, so the table invariant of C01 holds of the loaded table and its entries are the same.
- **C67 A pickled numpy array is loaded with every element in its place** - `Pickle/NdPickleModel.v` models npio.codon:2459-2492 on the arrays of `Nd/Model.v` with the element types of `PickleModel.v`. Proof with the `codes` relation of C66 and the offset lemmas of C12-C14 (`contig_c`, `contig_f`, `offs_mk`, `foffs_mk`). The full statement is false in two cases, refuted with concrete arrays; the theorem covers all the others and is therefore named `_partial`.
- **C68 Removing bounds checks in loops never changes an array access** - `Nd/ElideModel.v` models the symbolic test of indexing.cpp on linear terms, the counting loop with its wrapping counter, and the checked and unchecked address. `Nd/Elide.v` proves that `simplify` keeps value and coefficients and leaves one term per key, from which a passed test bounds the index, provided the index moves up with the loop variable and lengths count non-negatively. The code tests neither, so the full statement is refuted by seven concrete loops and the theorem is named `_partial`.
- **C69 sum, any and all of a generator are unchanged by optimisation** - `Gen/GenModel.v`: generator bodies as statements over an arbitrary state, executed to trees that are done or suspended at a yield; the consumers and the two transformations of generator.cpp. `Gen/GenProofs.v` proves by induction on bodies that executing the transformed body is the same as running the consumer on the tree (for every loop bound). Three conditions on yields inside try statements are needed; each is shown necessary by a refutation, so the theorems are named `_partial`.
- **C70 Moving an array expression to its use keeps its value** - Flow/Forward.v models the checks (reaching definitions of C24, the scan of a path and the search over paths) and the grafting of expressions. Flow/ForwardSpec.v gives runs of items over variables, arrays and a lock-step run without the deleted assignments. `C70_forward_variable`: the reads are right on every path. `C70_forward_no_effects`: no side effect is moved. `C70_forward_value_partial`: the value is kept when source and destination share a block, chains have length one and nothing changes the arrays while the rest of the destination is evaluated. Four refutations show these conditions are needed; `C70_applies` instantiates the theorem. What is missing from the full statement is false of the code.
- **C71 Fused array expressions compute the element-wise result** - Nd/FusionModel.v models the generated code for an expression tree: the fused loop, the sequential evaluation with its reuse and freeing of temporaries, the run-time choice, and the repeated passes over the tree with an arbitrary fusion decision. Use of a freed block is undefined. Nd/FusionSpec.v defines the meaning of an expression as a relation (shape and element function) by nested broadcasting. `C71_meaning`: the meaning is unique and exists exactly if all shapes broadcast together. `C71_fused`, `C71_sequential_partial`, `C71_optimized_partial`: each way to evaluate gives the meaning or ValueError. `C71_same_partial`: all fusion decisions agree. Missing in the partial ones: arrays with an empty axis, and binary functions with a vectorised loop of arrays of different shapes; both are false of the code (`C71_empty_refuted`, `C71_vectorized_refuted`). `C71_applies` evaluates a concrete expression under each decision, `C71_applies_vectorized` one with a vectorised binary function.
- **C72 Loops over ranges and lists run the body for each element in order** - Loops/ForModel.v models the generator loop, the counting loop, the generators of ranges and lists and the rewriting, over an arbitrary state with bodies and arguments that are relations. Loops/ForSpec.v defines running a body for each element of a list, the elements of a range over unbounded integers, and Python's list loop. `C72_lowered`: the rewriting preserves every execution. `C72_range_elements`: the elements exist and are unique. `C72_range_partial`: a range loop runs the body for these elements; missing: the value after the last element is no int64, where the code is wrong (`C72_overflow_refuted`). `C72_list_partial`: a list loop is Python's; missing: bodies that change the list's length or storage, where the code differs (`C72_list_shrinking_refuted`, `C72_list_growing_refuted`). `C72_applies` and `C72_list_applies` run concrete loops.
- **C73 Counter and defaultdict** - Counter on the hash tables of C01: each operation's table refines a list of entries, whose counts are compared with the arithmetic on all keys. `_del_non_positives` is run bucket by bucket on the table it deletes from; the other loops by induction on the other counter's items. most_common through C11 (heaps) and C18 (sort). `&` is refuted (elements of `a` missing from `b` stay) and proved where every key with a positive count in `a` has an entry in `b`; `==` is refuted for entries with count 0; `c += c` is refuted (table rearranged while iterating).
- **C74 Random numbers** - Random/Model.v has the generator over a checked list of 624 words and the consumers over any source of words; Random/Spec.v has the MT19937 recurrence as a sliding window. The refill is proved to advance the window by 624 words by an invariant on the two loops; each draw is then the next tempered word. getrandbits is bitwise arithmetic; randbelow is an induction on the number of rejected draws; the shuffle is a composition of exchanges proved injective and surjective on orders by induction; the two methods of sample keep a permutation invariant. Rounding of floats is exact integer arithmetic. randrange is partial: it treats a stop of 0 as missing, overflows for wide ranges and rounds the number of values (refuted with witnesses).
- **C75 Integer functions, min and max** - Num/ArithModel.v has the loops function by function over Ir/Num.v's division; Euclid's loop is bounded by halving every two steps; powers by induction on the bits of the exponent; min and max by an invariant on the items seen. Products in pow(x, n, m) overflow for large m, and abs of the smallest int is negative (refuted).
- **C76 Integers as texts** - Num/TextModel.v has the two division loops over a buffer of exactly the computed size and the steps of int._from_str over a text whose reads are checked; numerals are specified by an inductive relation; writing by induction on the number, reading by the shape of the text. Five inputs refute the full statement.
- **C77 Modules are initialised once, at their first import** - Mods/Spec.v is a small language with functions and modules and the Python meaning of import; Mods/Model.v is the walk of the type checker with the flags loadedAtToplevel and the generated guarded calls. Lockstep of the generated with the source program: invariant that the modules flagged are exactly those loaded so far at the top level, ghost stamps for the flags at the time a function was realised. Two witnesses refute the full statement.
- **C78 Compressed files are read line by line without loss** - Files/Model.v has the two _getline loops over a buffer of cells with checked accesses, gzgets, strlen and realloc; lines are specified by the relation splits. Induction on the rest of the line, cut at the buffer's end; induction on the lines. Zero bytes and lines of 2^30 bytes refute the full statement for gzip.
- **C79 Matching, splitting and replacing with regular expressions** - Re/Spec.v describes a pattern by the preferred match at each position and defines Python's succession of matches as an inductive relation; Re/Model.v has the loop of _match and _split. Induction on the distance to the end, then on the list of matches. Two patterns refute the full statement about finditer.
- **C80 Replacement templates of regular expressions** - Re/TemplateSpec.v reads a template from left to right in one pass, as an inductive relation; Re/TemplateModel.v has the two passes of the code, pieces first and escapes after. Induction on the reading, with an arbitrary rest, so that the refusal of bad escapes follows from the same lemma. Four templates refute the full statement.
- **C81 Reading command lines** - Getopt/Spec.v is a grammar of command lines as inductive relations; Getopt/Model.v has the functions of getopt.codon. Each helper is shown equivalent to its relation, then induction on the reading (completeness) and on the loop (soundness). Three command lines refute agreement with Python's getopt.
- **C82 Adding, printing and writing strings** - Fuse/Spec.v gives a semantics of string expressions and of print and write statements with state, streams and exceptions; everything else is an arbitrary computation. Fuse/Model.v has the replacements as the passes make them, applicable anywhere and in any order. Congruence of the semantics and induction on the chain of additions. Five programs refute the full statement.
- **C83 Unpacking assignments** - Unpack/Spec.v gives Python's meaning of unpacking on variables and shared lists. Unpack/Model.v has the rewriting into simple assignments with temporaries, and their execution. Mutual induction on targets, with the invariant that what is still to be read has not changed. Five programs refute the full statement.

## Trusted base

- Coq 8.16.1's kernel (including `vm_compute`, used to evaluate closed terms in examples and witnesses).
- Each final theorem is followed by `Print Assumptions`; every one answers
  "Closed under the global context": no axiom is used by any theorem, neither
  ours nor the standard library's.
- `vcheck` lists seven standard-library constants as axioms, all of the form
  `Coq.ssr.ssrunder.Under_rel.*`. They are parameters of a module type that the
  standard library loads with `ssreflect`-based files; no theorem depends on them.
- Only the standard library is imported. Floats use `SpecFloat` (the executable
  definition of IEEE 754 in the standard library), not primitive floats.
- The correspondence between the model and /repo: each definition cites the
  lines it models and says where it simplifies. This is reading, not proof.

Conventions shared by all models: a modelled function is total and returns
`res A`: `Ok a`, `Raise e` (a Codon exception), `Undef` (undefined behaviour in
the generated or the C++ code: access outside a block, signed overflow in C++,
a null dereference) or `NoFuel` (a loop that ran longer than its bound). A
theorem that concludes `Ok` therefore also states memory safety and termination.
64-bit integers are `Z` with explicit wrapping (`w64`).

## What is modelled, and what is not

| Directory | Code | Not modelled |
| --- | --- | --- |
| `Sort` | stdlib/algorithms/{insertionsort,heapsort,qsort,pdqsort,timsort}.codon, `list.sort`, `sorted` | key functions with effects; allocation failure |
| `List` | list.codon, slice.codon, range.codon, codon/cir/transform/pythonic/list.cpp | `__str__`, pickling, comparison operators, the Python bridge |
| `Dict` | khash.codon, dict.codon, set.codon, codon/cir/transform/pythonic/dict.cpp | `__str__`, pickling; hash and equality are parameters |
| `Deque` | `deque` in stdlib/collections.codon | `__contains__`, `__copy__`, `__str__`; Counter, defaultdict, namedtuple |
| `Heap` | heapq.codon, bisect.codon | generators are lists; `merge` is modelled with all its inputs available |
| `Ir` | codon/cir/transform/folding/{rule.h,const_fold.cpp}, cleanup/{canonical,dead_code}.cpp, analyze/module/side_effect.cpp, magic methods of int, float and bool | strings; calls of user functions are opaque effects; integer widths other than 64; pattern matching on custom operators |
| `Flow` | analyze/dataflow/{cfg,dominator,reaching}.cpp, transform/folding/const_prop.cpp (local variables) | pipelines, schedules of parallel loops, capture analysis, propagation of global variables and tuples |
| `Pass` | transform/{manager,pass}.{h,cpp} | what individual passes do: arbitrary |
| `Parser` | `mergeC3`, `reorderNamedArgs` and its callers' argument evaluation, escapes and static names | parsing itself, generic arguments of base classes, overload selection |
| `Datetime` | stdlib/datetime.codon: timedelta, date, time, datetime and their helpers | the clock, struct_time, repr, ctime, float arguments, float multiplication and division of timedelta |
| `Str` | stdlib/internal/str.codon, stdlib/internal/types/{str,strbuf}.codon, stdlib/algorithms/strings.codon: comparison, search, split, join, replace, strip, padding, slices, repr | case mapping and character classes, conversions to numbers, format, pickling, hash |
| `Async` | stdlib/asyncio.codon: EventLoop, Handle, TimerHandle, Future, Task, gather; codon/cir/transform/lowering/await.cpp | threads and locks (one thread; double locking is undefined), `close`, `nan` deadlines, messages, custom `__await__`, asynchronous generators, `sleep`, `wait_for` |
| `Itertools` | stdlib/itertools.codon (all of it), stdlib/internal/builtin.codon (zip), stdlib/internal/types/generator.codon (handles), for-loops over generators (llvisitor.cpp) | static tuple typing of zip, the values count yields for floats; infinite sources are read through their finite prefixes |
| `Exc` | codon/cir/llvm/llvisitor.cpp TryCatchFlow, While, If, Break, Continue, Return, Throw, call/invoke and the clause selection of runtime/exc.cpp | coroutines, DisableExceptions, foreign exceptions, breaks naming an outer loop, the two-phase search of the unwinder (an exception nobody catches ends the program before any finally block runs), stack traces |
| `Scope` | codon/parser/visitors/scoping/scoping.cpp (findDominatingBinding, visitName, switchToUpdate, conditional blocks, loops), typecheck assign.cpp, access.cpp, typecheck.cpp (SuiteStmt), cond.cpp, loops.cpp as far as they act on the annotations | parameters, nested functions and captures, classes, try, with, match, del, global/nonlocal, comprehensions, loop else, tuple unpacking, types of the variables |
| `Nd` | stdlib/numpy/ndarray.codon (record, `_contig`, transpose, swapaxes, reshape, ravel, flatten, copy), util.codon (strides, multirange, fmultirange, sort_by_stride, axes) | element types and reinterpretation, `astype` to another type, allocation failure, overflow of strides, `resize`, `view(dtype)` |
| `Nd` (Index*) | stdlib/numpy/indexing.codon (basic `__getitem__`, `__setitem__`), routines.codon (broadcast_shapes, broadcast_to, broadcast_arrays, np.broadcast) | index arrays, lists and nested sequences as assigned values, conversions of element types |
| `Nd` (Loop*) | stdlib/numpy/ndarray.codon (`_loop`, operators) | conversions of element types, fused expressions, parallel loops |
| `Nd` (Ufunc*) | stdlib/numpy/ufunc.codon (`__call__` of one and two arguments, vectorised loops), codon/runtime/numpy/loops.cpp (UnaryLoop, BinaryLoop) | reduce, accumulate, outer, at; element type promotion; differences between vector and scalar versions of a function |
| `Nd` (Mask*) | stdlib/numpy/indexing.codon `_getset_bool` for masks with as many axes as the array | masks with fewer axes, masks inside tuples; conversion of assigned values |
| `Par` (Loop*) | stdlib/openmp.codon `_static_init`, `_dynamic_next`, the static, static chunked and dynamic loop templates, `_range_len`; codon/cir/transform/parallel/openmp.cpp template choice, private copies and last-value stores, `collapseLoop`; schedule.cpp codes | task loops over generators, GPU loops, `ordered` regions, fork/join and the OpenMP runtime itself (assumed to meet the contracts in `Par/LoopSpec.v`), effects of bodies on objects |
| `Par` (Reduction*) | codon/cir/transform/parallel/openmp.cpp `Reduction::getInitial`, `ReductionIdentifier` (`extractAssociativeOpChain`, `getReductionFromCall`, `handle`), private copies and combination | code generation of atomic operations, rounding in float sums and products, task-loop reductions |
| `Desugar` | codon/parser/visitors/typecheck/cond.cpp `visit(MatchStmt)`, `transformPattern`; loops.cpp break, continue, while/for with else, `transformStaticForLoop` | `__match__` on user types, expression patterns other than string literals, effects and errors in expressions, static tuple kinds other than heterogeneous tuples, typing (isinstance is decided on values) |
| `Heap` (sorted list) | stdlib/sortedlist.codon, all methods (bisect from C13) | the list operations underneath (C05); `_offset` (never read); the class has no remove, index or contains, so `_delete` is reachable only from other code |
| `Pickle` | stdlib/pickle.codon 1-272, internal.codon 156-168 (tuples and classes) | zlib itself (the stream is its bytes), write errors, ndarray pickling, pickling of pointers and Optional, cyclic objects (the code does not support them) |
| `Pickle/NdPickle*` | numpy/npio.codon 2459-2492 | object identity of the loaded array, dtypes outside the pickle universe |
| `Nd/Elide*` | cir/transform/numpy/indexing.cpp (all but the reaching-definition queries 290-333, 350-392); llvisitor.cpp 2658-2700; fusion.codon 807-813; util.codon 222-228 | overflow of the int64 coefficients of the test itself; reaching definitions (C24) |
| `Gen` | cir/transform/pythonic/generator.cpp; builtin.codon 183-193, 252-300 (generators); llvisitor.cpp 2600-2656 (what a for loop does) | type conversion of the start value, `yield` expressions (the pass gives up), final yields of coroutines |
| `Flow` (forwarding) | codon/cir/transform/numpy/forward.cpp; numpy.cpp:760-762, 855-880 | recognition of expressions (numpy.cpp:253-696), connected components and cycles of forwardings, the cost model; the side effect analysis (a parameter `effect`) |
| `Nd` (fusion) | codon/cir/transform/numpy/expr.cpp:461-988, numpy.cpp:739-789; stdlib/numpy/fusion.codon:56-146 | the cost model and getBroadcastInfo (an arbitrary decision); transposes and matrix products (leaves); casts (part of the operations); the evaluation order of leaves; `_free` of an array that does not start at its allocation |
| `Loops` (for) | codon/cir/transform/lowering/imperative.cpp:63-143; codon/cir/llvm/llvisitor.cpp:2600-2702; stdlib/internal/types/range.codon:11-26,70-81; collections/list.codon:193-199 | parallel loops (see `Par`); generators other than those of ranges and lists |
| `Dict` (counters) | collections.codon:146-430: Counter and defaultdict | deepcopy, repr, pickling, keyword constructors |
| `Random` | `stdlib/random.codon` generator, seeding with an int, getrandbits, random, randrange, randint, choice, shuffle, sample, choices without weights | continuous distributions, choices with weights, seeding from the clock, how sample chooses between its two methods (both are proved) |
| `Num` (Arith) | integer functions of `stdlib/math.codon`; `pow`, `sum`, `min`, `max` of `builtin.codon` | the same functions on floats and other numbers; fsum |
| `Num` (Text) | `_int_format`, `bin`, `oct`, `hex`, `int._from_str` of `builtin.codon` | `fast_float::from_chars` is taken to follow `std::from_chars`; float and complex texts; `str(int)` (the fmt library) |
| `Mods` | `visit(ImportStmt*)` and `transformNewImport` of `import.cpp`, the order of realisation in `infer.cpp` | names, types, exceptions, C and Python imports, the standard library's own modules; a function has one realisation; a delayed call is a mark in the program |
| `Files` | `gzFile` and `bzFile` of `internal/file.codon`: `_getline`, `_gets`, `_iter`, `_iter_trim_newline`, `read()` | zlib and libbz2 are taken to deliver the text up to the damage and to report it at the next read; `gzgets` follows its documentation; opening, writing, seeking, `read(n)`, plain files (`getline` of libc); files of several bzip2 streams |
| `Re` | `Pattern._match`, `finditer`, `findall`, `_split`, `split`, `sub`, `subn` of `re.codon` | RE2 itself (an arbitrary function from positions to preferred matches, searched from the left); compilation of patterns, the cache, flags |
| `Re` (Template*) | `Match._split`, `Match._unescape`, `Match.expand` of `re.codon` | the lookup of a group by number or name (an arbitrary function), overflow of `int` in a group number |
| `Getopt` | all of `getopt.codon` | the texts of the errors; `os.environ` is one bit |
| `Fuse` | `pythonic/str.cpp`, `pythonic/io.cpp` | the intermediate representation itself (expressions and statements as inductive types), `flush`, arguments of `print` that are not strings, errors of the streams; threads printing at the same time |
| `Unpack` | `unpackAssignment` in `typecheck/assign.cpp` | attribute targets `x.a` (like `x[i]`, without the bounds check), types, `__getitem__` of user classes; evaluation of the right-hand side itself |
| `Types` | parser/ast/types/{link,class,static,type}.cpp | traits, function types, unions, `__NTuple__`, `unrealized_type` |

The rest of the compiler (LLVM generation, JIT, GPU, the parser, most of the
type checker) and of the standard library (files, regular expressions,
numpy, threading) is outside the model.

## Findings

Places where the natural statement is false of the code. Each is a theorem
named `..._refuted` with a concrete witness unless marked (noted).

Containers
- `set.symmetric_difference_update` computes `a - b` (C04). `set.pop` on an empty set raises ValueError, not KeyError (noted).
- `l.extend(l)`, `l[:] = l` and `l *= n` with an overflowing size read outside the list or loop (C05, C06); steps near 2^63 overflow (C06); ranges whose span does not fit 64 bits are inconsistent (C08).
- A `deque` with `maxlen = 2^k - 1` (0, 1, 3, 7, ...) holds one element too many (C10); a negative maxlen means unbounded (noted).
- `sorted(..., key=...)` is not stable: timsort reverses runs with ties, and `reverse=True` reverses ties (C19). pdqsort reads outside the array when `<` is not asymmetric (C17).
- Assigning to existing keys while iterating a dict can rehash the table: an entry is skipped and another is visited twice (C35).
- The dict arithmetic rewriting changes evaluation order and exceptions for effectful operands (C36).

Optimiser
- `x * 0` drops calls in `x`; `0 // x` drops ZeroDivisionError (C21); `1 != nan` is folded to the wrong value (C20, C22); folding overflows signed integers and shifts by 64 or more in the compiler (C20); `-2^63 // -1` is undefined in generated code (C32).
- Dead code elimination removes endless loops without effects (C23).
- Fused list addition disagrees for `a[1:0] + b` and for operands that change the summands (C34).
- Dominators are missed next to the unreachable update block of counted loops (C25).
- An analysis that others require cannot be disabled; members of a pass group see results from before the group (C26).
- The control flow graph misses executions (C37): while conditions that branch or are in a try and assign a variable; code after `break`; counted loops whose bounds read the variable, or raise in a try; iterators that raise in a try; `finally` with branches left by `break`. Constant propagation then replaces reads by wrong constants.
- `SingleConstantCommutativeRule` with a new value returns the old one; `SetLiteralAttribute` and `ListLiteralAttribute` share an attribute number; the caller's status becomes unknown in side_effect.cpp's `set(v, s, s)` (noted).

Front end
- A literal type unifies with its class, so success does not mean equality; hidden generics allow cyclic types and lose their levels; a dry run can accept what unification rejects and the reverse (C27, C29).
- `f(args=1)` for `def f(*args)` drops the argument; an extra positional argument overwrites a captured variable; `**kwargs` is sorted by name; names are read after later side effects (C30).
- Bytes 0-6, 14 and 15 are escaped with one hexadecimal digit and garbled when a hexadecimal digit follows; two static strings can share a name (C33).

Standard library
- `timedelta`: `a // b` goes through a float, so divmod is wrong above 2^53; `%` wraps for divisors above 2^62 and is undefined for zero; `timedelta // int` truncates toward zero; microseconds above 2^53 lose precision in the constructor; sums wrap silently (C39).
- `time.fromisoformat` accepts "12:34:56:123456" and "12.345" (C41); it drops a time zone suffix, and `replace(year=-1)` keeps the field instead of raising (noted).
- `rfind`, `rindex`, `rpartition` and `rsplit` with a pattern of two bytes or more miss occurrences and read outside the string: one of the sixteen unrolled copies says `i + 10` for `i - 10` (C42, C43). `"hello world".rfind("zz")` reads outside.
- `startswith` and `endswith` with negative bounds read outside the string or answer wrongly (C42). `s.strip("")` strips white space (noted).
- `s * n` with a negative n makes a string with a negative length (C44). `center` puts the odd byte on the right where CPython may put it on the left; `isprintable` accepts DEL (noted).
- `loop.stop()` throws away the next work item (C46). `Handle.cancel` after the callback ran raises ValueError when other work waits (C46). A timer cancelled after it expired still runs its callback (C47).
- Cancelling a task that waits for a plain future, then completing the future, resumes a coroutine that has ended; so does a task that cancels itself (C49). A task that lets the CancelledError of an awaited future escape stays pending forever (C49). SystemExit and AssertionError leave the loop marked as running, so it can never run again (C49).
- `call_soon_threadsafe` takes the lock of the loop twice; `call_at` treats its argument as a delay (noted).
- `gather` of a future that gets cancelled completes with a tuple whose element was never written, instead of raising CancelledError (C50).
- **islice consumes one element too many** (itertools.codon:112-122). `islice(it, k)` resumes `it` a (k+1)-th time before it notices that it has enough, so the element at position k is lost: reading batches of two from 1..6 gives 1, 2 and then 4, 5 (`C52_islice_consumes_refuted`, `C52_batches_refuted`).
- **islice with a start destroys its source** (itertools.codon:124-168). Its last loop is a `zip`, which destroys its arguments; a loop that reaches the end destroys its generator as well. Continuing to read the iterator, as Python allows, is undefined behaviour.
- **zip(it, it) is undefined** (internal/builtin.codon:195-208). All arguments are resumed before any value is read, so both columns hold the later value, and the end resumes a finished coroutine or destroys it twice (`C53_zip_same_refuted`, for every iterator).
- **zip_longest without fillvalue stops at a row of Nones** (itertools.codon:248-269), so Optional elements may be lost (`C53_zip_longest_optional_refuted`).
- **groupby with a key unequal to itself** (NaN) yields an empty group first (`C52_groupby_refuted`).
- **Int[N](UInt[M]) with N > M sign-extends** (internal/types/intn.codon:56-63): the unsigned value's top bit is copied, so Int[16](u8(200)) is -56 (read in the source, not modelled).
- **return in an except clause skips finally** (`C54_return_in_except_refuted`): `try: raise E() / except E: return 5 / finally: f()` returns 5 without running `f()`: visit(ReturnInstr) only looks at the tries whose body it is in, not at the pending finally blocks of handlers.
- **raise in an except clause of a nested try with finally** (`C54_raise_in_except_refuted`): the handler of the outer try that names the new exception is passed by; without a finally on the outer try control runs into `unreachable` (undefined behaviour).
- **try inside a nested finally loses the pending exception** (`C54_try_in_finally_refuted`): the inner try shares the flag slot of the outermost try and overwrites it.
- **break out of a nested finally revives the dropped exception** (`C54_break_in_finally_refuted`); **return in a nested finally is dropped** when two tries enclose it (`C54_return_in_finally_refuted`).
- **try inside an except clause**: leaving it by exception or return skips the outer finally (`C54_try_in_except_refuted`).
- **a name first assigned in a branch inside a loop loses its value every iteration** (`C55_exact_in_loops_refuted`): `while i < 2: { if i == 0: x = 7 }; print(x); i += 1` raises NameError in the second round. The declaration and `x.__used__ = False` are put at the start of the loop's body, so they run again every iteration.
- **nested optional operands read uninitialised storage** (`C55_initialised_refuted`): `c and ((d and (x := 5)) or x)` with d false. The search for a suite to put the declaration in (`for (si = commonScope; si-- > 0; si--)`) decrements twice, skips the function's own block, so there is neither declaration nor check.
- **walrus in an optional operand of a while condition is refused** (`C55_accepted_refuted`): `while a and (x := 5): print(x)` is rejected with a local-reference error: the declaration is put in front of the body, after the condition.
- **`reshape` with a tuple ignores `order`** (`C56_reshape_tuple_order_refuted`): `a.reshape((2, 4), order='F')` and `np.reshape(a, (2, 4), 'F')` reshape in C order.
- **reshape accepts shapes whose size overflows** (`C56_reshape_overflow_refuted`): an empty array reshaped to (2**32, 2**32) succeeds, and its elements are outside any memory.
- **flatten/ravel/tobytes in order 'F' are wrong beyond six axes** (`C56_flatten_7d_refuted`): `fmultirange` appends the first index at the end; elements outside the array are read.
- **`transpose` with a list does not normalise negative axes before looking for duplicates** (`C56_transpose_list_refuted`): `a.transpose([0, -2])` of a 3x2 array is accepted and gives a 3x3 view reaching outside the array.
- **Assigning an array to overlapping elements of itself reads what was just written** (`C57_overlap_refuted`): `a[1:] = a[:-1]` copies the first element over all of them; NumPy copies as if through a buffer.
- **`broadcast_to` accepts negative extents** (`C58_negative_refuted`): `np.broadcast_to(x, (-3,))` of a one-element array gives an array of shape (-3,).
- **In-place operators accept an operand that does not broadcast to the target** (`C59_inplace_shape_refuted`): `a += b` with shapes (1,) and (3,) adds all three elements of b to a's one element; NumPy raises ValueError. `_iop_elemwise` broadcasts all operands, including the target.
- **In-place operators read overwritten elements of overlapping operands** (`C59_inplace_overlap_refuted`): `a[1:] += a[:-1]` gives running sums; NumPy uses the old values.
- **`np.add(x, y, out=z)` does not check y's shape** (`C60_out_shape_refuted`): with shapes (3,), (5,), (3,) y[0] is added to every element; NumPy raises ValueError.
- **Vectorised functions do not broadcast one-element arrays** (`C60_vector_broadcast_refuted`): `np.hypot(x, y)` with shapes (1,) and (2,) reads the memory after x.
- **Vectorised functions of one argument fill only part of a larger out** (`C60_vector_out_refuted`): `_apply_vectorized_loop_unary` broadcasts the argument to its own shape instead of out's.
- **Vectorised functions of a number and an array use previous results as the number** (`C60_vector_scalar_refuted`, `C60_vector_column_refuted`): in `BinaryLoop` the buffer with the repeated first operand is overwritten by the results, so `np.hypot(3.0, y)` is wrong from the second vector on, and likewise a column with a matrix.
- **`where` is ignored when the argument is a number** (`C60_where_number_refuted`).
- **`a[mask] = b[::2]` assigns the wrong elements** (`C61_stride_refuted`): the item is read through `data[k]`, ignoring its stride.
- **`a[mask] = a[:3]` reads elements already overwritten** (`C61_overlap_refuted`).
- **`a[mask]` of an array without axes is a view** (`C61_scalar_copy_refuted`); in NumPy it is a copy.
- **Parallel loops near the end of int64 run values outside the range** (`C62_overflow_refuted`): the chunked template adds `stride * step` past the end before testing; `@par(chunk_size=1) for i in range(2**63-4, 2**63-1)` on two threads wraps to -2**63 and goes on.
- **A large step makes the static schedule drop iterations** (`C62_overflow_step_refuted`): the end of the last part is `start + n*step`, which can wrap although every element fits.
- **Assigning the loop variable in a parallel body skips iterations** (`C62_loop_variable_refuted`): the body gets a pointer to the template's own loop variable; the sequential loop keeps its counter apart.
- **Conditionally assigned variables lose their value** (`C62_conditional_refuted`): only the thread that ran the last iteration stores its private copy; `if a[i] == x: found = i` in a @par loop usually leaves the old value, with no diagnostic.
- **`collapse` evaluates inner bounds before the loop** (`C62_collapse_refuted`): triangular nests run the wrong combinations, with no diagnostic.
- **Parallel max over negative floats is wrong** (`C63_float_max_refuted`): private copies start at `numeric_limits<double>::min()`, the smallest positive normal number; the maximum of negative floats comes out as 2.2e-308. Likewise float32.
- **Parallel min over infinities is wrong** (`C63_float_min_refuted`): private copies start at the largest finite float, not infinity.
- **`ok &= test` on bool in a parallel loop always gives False** (`C63_bool_and_refuted`), and products of `Int[N]`, `complex` or other types are always 0 (`C63_product_refuted`): for types other than int and float the initial value is `T()` whatever the operation.
- **Statements wrongly taken for reductions** (`C63_twice_refuted`, `C63_assignment_refuted`, `C63_condition_refuted`): `s = s + s`, a further plain assignment of s, or a condition that reads s do not stop the analysis.
- **Reductions silently missed** (`C63_missed_refuted`): `s -= x`, `min(min(s, x), y)` and mixed kinds fall back to keeping one thread's copy, with no diagnostic.
- **`+` on strings and lists depends on the order of the threads** (`C63_order_refuted`): a reduction is inferred for any type with `__add__`, commutative or not.
- **break inside a match case leaves the match, not the loop** (`C64_break_in_case_refuted`): match becomes `while True: ...; break`, and user breaks bind to it.
- **continue inside a match case hangs** (`C64_continue_in_case_refuted`): it restarts the match loop for ever.
- **break in the else clause of an inner loop does not count for the outer loop's else** (`C64_break_in_else_refuted`): the else clause is transformed while the inner loop is still on the loop stack, so the wrong flag is cleared.
- **The else clause of a loop over a heterogeneous tuple is dropped** (`C64_tuple_else_refuted`), with no diagnostic.
- **Alternatives with a guard are retried** (`C64_guard_refuted`): `case (x, _) | (_, x) if x == 2` matches (1, 2); Python tries the guard only for the first alternative that matches.
- **Captured variables are assigned by patterns that fail** (`C64_capture_refuted`).
- C65: `SortedList` has no public operation that removes an element: `_delete` is correct for every position of a sublist, but nothing in the class calls it. Positions below zero are not supported by it (after merging it would expand a different sublist), and nothing checks for them.
- C66: a count read from a corrupted (not truncated) file is trusted: `List.__unpickle__` allocates and reads what the stored length says; nothing validates table fields of a raw dict. The theorems speak of files that were written by pickle, whole or truncated.
- C67 (`C67_fortran_strings_refuted`): pickling an array of a non-atomic dtype (str, lists, ...) that is Fortran- but not C-contiguous writes the elements in C order and a flag saying Fortran order; loading fills memory in file order and wraps it in Fortran order, so elements come back permuted (2x3 array of str: element [1,0] is loaded with the value of [0,1]).
- C67 (`C67_padded_slice_refuted`): pickling a non-contiguous array whose dtype is an atomic tuple with padding, such as Tuple[bool, int], writes the fields one after another (9 bytes per element) but loading reads whole padded elements (16 bytes): the load fails with IOError, or takes bytes of the next object in the file as elements.
- C68 (`C68_other_length_refuted`): the test ignores array lengths whatever their sign (indexing.cpp:100-103 comments "len is never negative"), so in a function with local arrays `for i in range(len(b)): a[i]` loses its bounds check and reads or writes beyond `a` when `b` is longer.
- C68 (`C68_descending_index_refuted`, `C68_constant_index_refuted`, `C68_last_element_refuted`): the test assumes that the index grows with the loop variable. `for i in range(0, 3): a[len(a) - i]` and `a[len(a)]` in any loop lose their check although they are out of bounds, and `a[-1]` in a descending loop reads the memory before the array instead of the last element.
- C68 (`C68_negative_index_refuted`): the correct program `for i in range(len(a)): a[i - len(a)]` reads the memory before the array, since -len(a) is taken to be non-negative.
- C68 (`C68_size_len_refuted`): `b.size` and `len(b)` are taken to be the same number also for arrays with several dimensions.
- C68 (`C68_wrapping_counter_refuted`): a loop counter that overflows wraps around to a value below the start of the range; an access whose check was removed then uses it as index.
- C69 (`C69_finally_refuted`): any() or all() of a generator that stops early inside `try: yield ... finally: ...` runs the finally clause in release builds only; without the optimisation the abandoned generator is never resumed, so its finally clause never runs (in Python it runs when the generator is closed).
- C69 (`C69_except_refuted`): after the optimisation, an exception raised by the consumer (by `__bool__` of a yielded value, or by the addition in sum) is caught by except clauses of the generator around the yield.
- C69 (`C69_late_yield_refuted`): sum() of a generator with `try: return ... finally: yield 5` loses the 5 after the optimisation, since the accumulator is read before the finally clause runs.
- `C70_other_block_assign_refuted`, `C70_other_block_effect_refuted`: the search over paths (forward.cpp:143-146) goes on only with successors that are already in the path (the condition is inverted), so when the use is in another block than the assignment nothing is checked: `x = a + b; if c: a = b; return x * a` computes `(a + b) * a` with the new `a`, and `if c: g(a)` with a `g` that changes its argument is missed as well.
- `C70_chain_refuted`: a chain of forwardings checks each link only against the variables of its own expression: `x = a + b; y = x * c; a = b; return y + b` computes `((a + b) * c) + b` with the new `a`.
- `C70_later_leaf_refuted`: the check stops at the leaf, but the forwarded expression is evaluated after all leaves: `x = a + b; return x * g(a)` with a `g` that changes its argument.
- `C71_empty_refuted`: `_broadcast` (fusion.codon:63-88) takes the larger of two extents, so an empty axis against one of extent 1 gives 1. `-a + b` with shapes (0,) and (1,) then returns one uninitialised element instead of an empty array when it is evaluated sequentially.
- `C71_vectorized_refuted`: `_apply_vectorized_loop_binary` uses an operand's stride even if its extent is 1, so `np.hypot(a, b) + 1` with shapes (1,) and (3,) reads past `a`.
- `C72_overflow_refuted`: a range loop adds the step before it compares, so `range(2**63 - 2, 2**63 - 1, 2)` overflows after its only element and goes on with negative values.
- `C72_list_shrinking_refuted`, `C72_list_growing_refuted`: `List.__iter__` reads the length and the pointer once. A body that removes elements still visits them, and one that appends does not visit the new ones, unlike in Python.
- `Counter.__iand__` only visits the keys of the other counter: `Counter('a') & Counter('b')` is `Counter({'a': 1})`, not empty (C73_and_refuted).
- `c += c` on a counter iterates over the table it updates; an increment of a present key may rearrange the table, so elements may be met again: `c = Counter([4, 5, 6]); c += c` gives 4 the count 4 (C73_add_self_refuted).
- `==` on counters distinguishes a count of 0 from a missing element, unlike Python 3.10+ (C73_eq_refuted).
- C74: `random.randint(-5, -1)` always raises ValueError and `random.randrange(5, 0)` returns a number from 0 to 4: a stop of 0 is taken for a missing argument (`C74_randint_refuted`, `C74_randrange_empty_refuted`). `randrange(-2**62, 2**62)` raises because the width overflows (`C74_randrange_wide_refuted`). With a step and more than 2**53 values the count is rounded to a float and the stop itself can be returned (`C74_randrange_rounded_refuted`).
- C75: `pow(x, n, m)` overflows for |m| above about 3.04e9 and gives a wrong remainder (`C75_power_modulo_refuted`). `gcd(-2**63, 6)` is -2 and `gcd(-2**63, 2**63-1)` divides the smallest int by -1 with `-numerics=py` (`C75_gcd_refuted`); `lcm` wraps silently (`C75_lcm_refuted`).
- C76: `int("0x5", 16)` looks at the byte after the end of the text (`s.ptr[3]` where `s.ptr[2]` is meant, builtin.codon:448), so `int(hex(5), 16)` depends on what lies there; `int("0x-1f", 16)` is -31; `int("+5")` and `int("0", 0)` are ValueErrors; `int(hex(-2**63), 16)` is a ValueError (`C76_read_refuted`).
- C76: with `-numerics=py`, `bin`, `oct` and `hex` of a negative number do not return, because `b //= base` stays at -1 (`C76_write_refuted`).
- C77: `if cond: import foo` at the top level followed by `import foo` (also in a function) never initialises foo if cond is false: the later import is dropped, because `loadedAtToplevel` is computed with `ctx->scope.size() == 1`, and `TypeContext::scope` is never extended after the constructor (ctx.cpp:29) (`C77_conditional_refuted`).
- C77: a function whose call is realised in a later iteration of type inference loses its import of a module imported further down at the top level, and runs before that module is initialised (`C77_late_refuted`).
- C78: a zero byte in a gzip file: a line starting with it makes `_getline` read `buf[-1]`; one inside a line makes the rest of that line disappear, because the length is taken with `strlen` (`C78_gz_zero_refuted`).
- C78: after a line of 2^30 bytes the rest of a gzip file is dropped silently: the buffer has 2^31 bytes and `i32(self.sz - offset)` is negative (`C78_gz_long_refuted`).
- C79: `re.sub("$", "!", "ab")` is `"ab!!"`, and every empty match found at a later position than the search started from is reported twice (`elif posx == spans[0][1]` compares with the start of the search and not of the match, re.codon:393) (`C79_empty_refuted`).
- C79: after an empty match a longer match at the same place is not looked for: `re.findall("|a", "a")` misses "a" (`C79_alternative_refuted`).
- C80: `_unescape` reads up to four octal digits (`k - i <= 4`, re.codon:266): the template `\0123` gives "S" and not a newline and "3" (`C80_octal_refuted`).
- C80: a backslash before a quote is dropped, Python keeps it (`C80_quote_refuted`).
- C80: a backslash at the end and octal numbers beyond `\377` are accepted, the latter cut to a byte; Python raises (`C80_accepts_refuted`).
- C81: `--name=` takes the next argument where Python takes an empty one (getopt.codon:83 tests `optarg == ""`) (`C81_empty_refuted`).
- C81: `--flag=` is accepted for an option without argument (`C81_flag_refuted`).
- C81: `getopt` does not stop at the first operand as Python's `getopt` does; it is `gnu_getopt` (`C81_stops_refuted`).
- C82: nested calls of a user's function named `__add__` taking and returning strings are replaced by `str.cat` (str.cpp:30 tests the name only) (`C82_user_refuted`).
- C82: `print(a + b + c, sep=f())` does not call `f` (io.cpp:47) (`C82_separator_refuted`).
- C82: `print(str.cat(["a", "b"]))` prints the list, and `file.write(str.cat(l))` writes the text of the list (`C82_items_refuted`).
- C82: `file.write(str.cat())` on a closed file does not raise (`C82_closed_refuted`).
- C82: `optimizeWrite` reads the first two arguments of any call of a function named `write`, also if there are fewer (io.cpp:60-63) (`C82_arguments_refuted`).
- C83: too many items are dropped silently: `a, b = [1, 2, 3]` (`C83_extra_items_refuted`; in general `C83_extra_items_dropped`); too few raise IndexError, not ValueError, after the first targets have been assigned (`C83_too_few_items`).
- C83: `a, *b, c = [1]` is accepted and gives `a == c == 1` (`C83_starred_too_few_refuted`).
- C83: a variable on the right is not copied: `s, t = s` with `s = "ab"` raises IndexError (assign.cpp:121) (`C83_named_on_both_sides_refuted`).
- C83: `l[1], l[0] = l` with `l = [1, 2]` leaves `[1, 1]`, in Python `[2, 1]` (`C83_storing_into_unpacked_list_refuted`).
- C83: unpacking a dictionary looks up the keys 0, 1, ... instead of giving the keys (`C83_dictionary_refuted`).
