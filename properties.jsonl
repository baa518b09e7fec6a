{"id": "C01", "title": "Dict behaves as a finite map", "statement": "Starting from an empty dict, after any sequence of d[k]=v, del d[k], d.clear(), resize and growth, `k in d`, d[k], d.get, len(d) and iteration give exactly what the sequence of updates means for a mathematical finite map: the last value stored under an equal key and not since deleted, each key once.", "quantifier": "every finite history of dict operations, every key type with an equality and a hash that respects it, every hash function (including constant and adversarial ones)", "why_tests_cant": "The table state depends on the whole history (tombstones, growth, in-place rehash) and on every hash function; tests reach a handful of histories with the stock hashes.", "anchors": ["stdlib/internal/types/collections/dict.codon:Dict", "stdlib/internal/khash.codon"]}
{"id": "C02", "title": "Dict operations always terminate and never leave the table", "statement": "Every lookup, insert, delete and rehash of a dict terminates and reads or writes only buckets inside the allocated arrays.", "quantifier": "every reachable dict state, every key, every hash function", "why_tests_cant": "An unbounded probe loop is only exposed by particular collisions with particular tombstone patterns.", "anchors": ["stdlib/internal/types/collections/dict.codon:_kh_get,_kh_put,_kh_resize"]}
{"id": "C03", "title": "Set operators compute the set-theoretic result", "statement": "a|b, a&b, a-b, a^b, issubset, issuperset, isdisjoint, ==, add, discard, remove and pop give the mathematical result on the sets of elements.", "quantifier": "all pairs of sets reachable by any history, all hash functions", "why_tests_cant": "Quantifies over all pairs of sets, all layouts of the two tables.", "anchors": ["stdlib/internal/types/collections/set.codon:Set"]}
{"id": "C04", "title": "In-place set updates agree with the operators", "statement": "a.update(b), a.intersection_update(b), a.difference_update(b) and a.symmetric_difference_update(b) leave in a exactly the elements of a|b, a&b, a-b and a^b.", "quantifier": "all pairs of sets", "why_tests_cant": "Quantifies over all pairs of sets.", "anchors": ["stdlib/internal/types/collections/set.codon:update,difference_update,symmetric_difference_update"]}
{"id": "C05", "title": "list behaves as a mutable sequence", "statement": "append, insert, pop, del, item assignment, extend, +=, *=, +, *, remove, index, count, reverse, clear and copy act on a list as the corresponding operation on a mathematical sequence, whatever the capacity of the backing array, and never access memory outside it.", "quantifier": "every history of list operations and every element value", "why_tests_cant": "The backing array and capacity depend on the whole history.", "anchors": ["stdlib/internal/types/collections/list.codon:List"]}
{"id": "C06", "title": "list slices follow Python's slice semantics", "statement": "l[a:b:c], l[a:b:c]=v and del l[a:b:c] read, replace and delete exactly the positions Python's slice denotes, and raise exactly when Python does.", "quantifier": "all lists, all integer or absent start/stop/step, all right-hand sides, including the list itself", "why_tests_cant": "Combinations of signs, bounds, steps and lengths are unbounded.", "anchors": ["stdlib/internal/types/collections/list.codon:__getitem__,__setitem__,__delitem__,_assign_slice", "stdlib/internal/types/slice.codon"]}
{"id": "C07", "title": "Slice normalisation is always in bounds", "statement": "Normalising a slice against a length yields start, stop, step and count such that start+k*step is a valid index for every k below the count, and the count is the number of positions Python's slice selects.", "quantifier": "all lengths, starts, stops, non-zero steps", "why_tests_cant": "Unbounded integers.", "anchors": ["stdlib/internal/types/slice.codon:Slice.adjust_indices"]}
{"id": "C08", "title": "range is consistent", "statement": "For a range, len, indexing, membership, index, iteration, reversal and slicing all describe the same arithmetic progression.", "quantifier": "all start, stop, non-zero step in 64-bit integers", "why_tests_cant": "64-bit arithmetic space; overflow corner cases are not enumerable.", "anchors": ["stdlib/internal/types/range.codon:range"]}
{"id": "C09", "title": "deque behaves as a double-ended queue", "statement": "append, appendleft, pop, popleft, clear, indexing (positive and negative), len, truth value and iteration act on a deque as on a mathematical sequence, for a deque built empty or from any iterable; IndexError is raised exactly when the sequence has no such element.", "quantifier": "every history of operations on an unbounded deque", "why_tests_cant": "The ring buffer's head, tail and capacity depend on the whole history.", "anchors": ["stdlib/collections.codon:deque"]}
{"id": "C10", "title": "A bounded deque never exceeds maxlen", "statement": "After any history a deque created with maxlen=m holds at most m elements, namely the most recent ones in order.", "quantifier": "every m >= 0 and every history", "why_tests_cant": "Depends on the relation between m, the capacity and the history.", "anchors": ["stdlib/collections.codon:deque"]}
{"id": "C11", "title": "heapq operations keep the heap invariant", "statement": "heappush, heappop, heapreplace, heappushpop and heapify keep the heap invariant and the multiset of elements, and heappop/heapreplace/heappushpop return a minimum.", "quantifier": "all heaps of all sizes, all totally preordered element types", "why_tests_cant": "Quantifies over all heap shapes.", "anchors": ["stdlib/heapq.codon"]}
{"id": "C12", "title": "nsmallest, nlargest and merge", "statement": "heapq.nsmallest(n,it)/nlargest(n,it) equal the first n items of the stably sorted iterable (ascending/descending) and merge of sorted iterables is the sorted concatenation.", "quantifier": "all iterables, all n, all total preorders with ties", "why_tests_cant": "Quantifies over all inputs with ties.", "anchors": ["stdlib/heapq.codon:nsmallest,nlargest,merge"]}
{"id": "C13", "title": "bisect finds the insertion point", "statement": "bisect_left/bisect_right return the unique position splitting a sorted list into elements < x / >= x (<= x / > x), and insort keeps the list sorted.", "quantifier": "all sorted lists, all x, all lo/hi windows", "why_tests_cant": "Unbounded lists.", "anchors": ["stdlib/bisect.codon"]}
{"id": "C14", "title": "Insertion sort is a stable sort", "statement": "insertion_sort returns a sorted, stable permutation of its input and touches nothing outside the range it was given.", "quantifier": "all lists, all keys under a total preorder", "why_tests_cant": "Unbounded lists.", "anchors": ["stdlib/algorithms/insertionsort.codon"]}
{"id": "C15", "title": "Heap sort sorts", "statement": "heap_sort returns a sorted permutation of its input.", "quantifier": "all lists, all total preorders", "why_tests_cant": "Unbounded lists.", "anchors": ["stdlib/algorithms/heapsort.codon"]}
{"id": "C16", "title": "Quicksort sorts", "statement": "qsort returns a sorted permutation of its input and terminates.", "quantifier": "all lists, all total preorders", "why_tests_cant": "Unbounded lists; the pivot selection depends on global indices.", "anchors": ["stdlib/algorithms/qsort.codon"]}
{"id": "C17", "title": "pdqsort (the default sort) sorts and is memory safe", "statement": "sorted(l)/l.sort() with the pattern-defeating quicksort returns a sorted permutation of its input, terminates, and its unguarded scans never leave the array.", "quantifier": "all lists, all total preorders; memory safety for every asymmetric comparison", "why_tests_cant": "The unguarded loops rely on invariants about neighbouring elements established by earlier recursive calls.", "anchors": ["stdlib/algorithms/pdqsort.codon"]}
{"id": "C18", "title": "Timsort sorts", "statement": "tim_sort returns a sorted permutation of its input.", "quantifier": "all lists, all total preorders", "why_tests_cant": "Run stack and galloping depend on data in unbounded ways.", "anchors": ["stdlib/algorithms/timsort.codon"]}
{"id": "C19", "title": "sorted with a key is stable", "statement": "sorted(l,key=f) keeps elements with equal keys in their original order (Python's guarantee), also with reverse=True.", "quantifier": "all lists and key functions", "why_tests_cant": "Unbounded lists with ties.", "anchors": ["stdlib/algorithms/timsort.codon:_count_run", "stdlib/internal/sort.codon"]}
{"id": "C20", "title": "Constant folding agrees with run-time evaluation", "statement": "When the optimiser replaces an operation on constants by a constant, the constant is the value the generated code would have computed, and folding itself never executes undefined behaviour.", "quantifier": "all operators, all 64-bit integer / float / bool operands, both numerics modes", "why_tests_cant": "2^128 operand pairs per operator.", "anchors": ["codon/cir/transform/folding/const_fold.cpp", "stdlib/internal/types/int.codon"]}
{"id": "C21", "title": "Algebraic folding preserves effects", "statement": "Replacing x*0, 0*x, 0//x, x+0, x*1, ... by a simpler expression preserves value, exceptions and side effects of evaluating x.", "quantifier": "all expressions x and program states", "why_tests_cant": "Arbitrary sub-expressions.", "anchors": ["codon/cir/transform/folding/const_fold.cpp"]}
{"id": "C22", "title": "Canonicalisation preserves meaning", "statement": "Reassociating/reordering integer sums and products, flipping comparisons, distributing and turning subtraction of constants into addition preserve the value (mod 2^64) and the order of side effects.", "quantifier": "all expressions and states", "why_tests_cant": "Arbitrary nesting.", "anchors": ["codon/cir/transform/cleanup/canonical.cpp"]}
{"id": "C23", "title": "Dead-code elimination preserves behaviour", "statement": "Removing pure statements and resolving constant branches leaves every observable behaviour of the program unchanged.", "quantifier": "all programs, all inputs", "why_tests_cant": "All programs.", "anchors": ["codon/cir/transform/cleanup/dead_code.cpp", "codon/cir/analyze/module/side_effect.cpp"]}
{"id": "C24", "title": "Constant propagation reads the right value", "statement": "A variable read is replaced by a constant only if every execution reaching that read finds that constant in the variable.", "quantifier": "all programs and all paths through their control flow graph", "why_tests_cant": "Unbounded number of paths.", "anchors": ["codon/cir/transform/folding/const_prop.cpp", "codon/cir/analyze/dataflow/reaching.cpp", "codon/cir/analyze/dataflow/cfg.cpp"]}
{"id": "C25", "title": "Dominator analysis is exact", "statement": "isDominator(a,b) holds exactly when every path from the entry to b goes through a.", "quantifier": "all control-flow graphs", "why_tests_cant": "Unbounded graphs and paths.", "anchors": ["codon/cir/analyze/dataflow/dominator.cpp"]}
{"id": "C26", "title": "Passes never see stale or missing analyses", "statement": "Whenever a pass or analysis runs, every analysis it requires has a result, computed no earlier than the last pass that invalidates it or anything it depends on.", "quantifier": "all registrations and pipelines, all invalidation sets", "why_tests_cant": "All orders of registration and dependency graphs.", "anchors": ["codon/cir/transform/manager.cpp"]}
{"id": "C27", "title": "Type unification is sound", "statement": "When unification of two types succeeds, both types become the same type under the resulting links, and no cyclic type is ever created.", "quantifier": "all type terms and all previous link states", "why_tests_cant": "Unbounded terms and sharing.", "anchors": ["codon/parser/ast/types/link.cpp", "codon/parser/ast/types/class.cpp"]}
{"id": "C28", "title": "Failed unification can be rolled back", "statement": "After undoing a unification attempt every type is exactly what it was before.", "quantifier": "all type terms and link states", "why_tests_cant": "All states.", "anchors": ["codon/parser/ast/types/type.cpp:Type::Unification::undo"]}
{"id": "C29", "title": "Generalise then instantiate", "statement": "Instantiating a generalised type gives a fresh copy that shares no generalised variable with the original and has the same shape; variables bound in outer scopes are never generalised.", "quantifier": "all types and levels", "why_tests_cant": "All terms.", "anchors": ["codon/parser/ast/types/link.cpp:generalize,instantiate"]}
{"id": "C30", "title": "Call arguments are bound as in Python", "statement": "A call binds positional, keyword, *args and **kwargs arguments to parameters exactly as Python does, and is rejected exactly when Python raises TypeError.", "quantifier": "all signatures and all argument lists", "why_tests_cant": "Unbounded signatures.", "anchors": ["codon/parser/visitors/typecheck/typecheck.cpp:reorderNamedArgs"]}
{"id": "C31", "title": "Class method resolution order is C3", "statement": "The MRO computed for a class keeps every parent's order and the local order of bases, contains each class once, and fails exactly when no such order exists.", "quantifier": "all inheritance graphs", "why_tests_cant": "Unbounded hierarchies.", "anchors": ["codon/parser/cache.cpp:mergeC3"]}
{"id": "C32", "title": "Python-style integer division", "statement": "In Python-numerics mode // rounds toward minus infinity, % takes the divisor's sign, divmod is consistent, and division by zero raises.", "quantifier": "all 64-bit operands", "why_tests_cant": "2^128 pairs.", "anchors": ["stdlib/internal/pynumerics.codon", "stdlib/internal/types/int.codon"]}
{"id": "C33", "title": "String escaping round-trips", "statement": "unescape(escape(s)) == s for every byte string.", "quantifier": "all byte strings", "why_tests_cant": "Unbounded strings.", "anchors": ["codon/parser/common.cpp:escape,unescape"]}
{"id": "C34", "title": "list-concatenation fusion preserves meaning", "statement": "The optimiser's fused form of l1 + l2 + ... produces the same list as evaluating the additions one by one.", "quantifier": "all operand lists, slices and literals", "why_tests_cant": "All operands.", "anchors": ["codon/cir/transform/pythonic/list.cpp", "stdlib/internal/types/collections/list.codon:_list_add_opt_slice_append"]}
{"id": "C35", "title": "Assigning to existing keys while iterating a dict", "statement": "A loop `for k, v in d.items(): d[k] = f(k, v)` visits every entry of d exactly once and leaves every key with f applied once.", "quantifier": "every dict reachable by any history, every function f", "why_tests_cant": "Whether an assignment rehashes the table under the iterator depends on the whole history of insertions and deletions.", "anchors": ["stdlib/internal/types/collections/dict.codon:items,_kh_put"]}
{"id": "C36", "title": "Dict arithmetic rewriting preserves meaning", "statement": "`d[k] = d[k] op x` and `d[k] = d.get(k, c) op x` leave the same dict and raise the same exceptions whether or not the optimizer rewrites them into a single table operation.", "quantifier": "every dict, key, default, operand expression and operator", "why_tests_cant": "Quantifies over all dict states and all operators and operands, including raising and side-effecting ones.", "anchors": ["codon/cir/transform/pythonic/dict.cpp:DictArithmeticOptimization", "stdlib/internal/types/collections/dict.codon:__dict_do_op__,__dict_do_op_throws__"]}
{"id": "C37", "title": "The control-flow graph covers every execution", "statement": "For every function, at every read of a local variable in every execution, the assignment that last wrote the variable is among the definitions the compiler's reaching-definition analysis reports for that read (or it reports an unknown value), so replacing a read by a propagated constant never changes what the function computes.", "quantifier": "every function body built from the structured control flow (if, while, for, counted for, try/except/else/finally, ternary, break, continue, return, raise), every path and every exception", "why_tests_cant": "Quantifies over all functions and all interleavings of branches, loop iterations and exceptions; a missing edge only shows for particular nestings.", "anchors": ["codon/cir/analyze/dataflow/cfg.cpp:CFVisitor", "codon/cir/analyze/dataflow/cfg.h:CFVisitor,CFGraph", "codon/cir/analyze/dataflow/reaching.cpp:RDInspector", "codon/cir/transform/folding/const_prop.cpp:ConstPropPass"]}
{"id": "C38", "title": "Dates are the days of the Gregorian calendar", "statement": "`date(y, m, d)` succeeds exactly for the days of the proleptic Gregorian calendar of years 1 to 9999 and keeps its fields; `toordinal` counts the days from 0001-01-01; `fromordinal` inverts it and rejects every other number; `weekday` advances by one each day; the comparison operators order dates as the calendar does.", "quantifier": "every triple of 64-bit integers, every pair of dates, every ordinal", "why_tests_cant": "There are 3.6 million dates and 2^192 constructor arguments; century, leap and month boundaries interact.", "anchors": ["stdlib/datetime.codon:date,_ymd2ord,_ord2ymd,_is_leap,_days_in_month,_check_date_args"]}
{"id": "C39", "title": "Arithmetic on dates, instants and durations is exact", "statement": "Adding a timedelta to a date or datetime moves it by exactly that many days or microseconds, or raises OverflowError outside years 1 to 9999; subtracting inverts adding; differences are exact; comparisons of times and datetimes are the order in time; a timedelta's days, seconds and microseconds are the floor decomposition of its length, its constructor sums its arguments exactly, and q, r = divmod(a, b) satisfies a == q*b + r with r between 0 and b.", "quantifier": "every date, datetime, time and timedelta", "why_tests_cant": "Quantifies over 2^64 durations and all instants; carries between microseconds, seconds, minutes, hours, days, months and years interact.", "anchors": ["stdlib/datetime.codon:timedelta,date.__add__,date.__sub__,datetime.__add__,datetime.__sub__,time.__lt__,_normalize_datetime,_normalize_date"]}
{"id": "C40", "title": "ISO week dates", "statement": "`isocalendar` returns the ISO 8601 week date: the week belongs to the year of its Thursday, is numbered by it, and Monday is day 1; `fromisocalendar` returns the unique date with a given week date and raises ValueError when there is none in range.", "quantifier": "every date and every (year, week, day) triple", "why_tests_cant": "Years with 53 weeks and weeks shared between years occur irregularly over the 400-year cycle.", "anchors": ["stdlib/datetime.codon:date.isocalendar,date.fromisocalendar,_iso_week1_monday,IsoCalendarDate"]}
{"id": "C41", "title": "ISO texts of dates and times round-trip", "statement": "`fromisoformat(x.isoformat())` is x for every date, time and datetime; the text has the documented fixed layout with zero-padded decimal fields, and distinct values have distinct texts.", "quantifier": "every date, time and datetime, every separator", "why_tests_cant": "Quantifies over every value, including fractions with leading zeros.", "anchors": ["stdlib/datetime.codon:date.isoformat,date.fromisoformat,time.isoformat,time.fromisoformat,datetime.isoformat,datetime.fromisoformat,_parse_hh_mm_ss_ff,_parse_digits"]}
{"id": "C42", "title": "Searching in strings", "statement": "`find`, `rfind`, `index`, `rindex`, `in`, `count`, `startswith` and `endswith` answer exactly about the occurrences of the pattern in the window given by start and end (Python's rules for negative and large bounds), and never read outside the string.", "quantifier": "every text, every pattern including the empty one, every pair of bounds", "why_tests_cant": "The search works on blocks of sixteen bytes with an unrolled rest, so behaviour depends on lengths modulo 16 and on where candidates fall.", "anchors": ["stdlib/algorithms/strings.codon:forward_find,backward_find,count,count_with_max", "stdlib/internal/str.codon:str.find,str.rfind,str.index,str.rindex,str.count,str.startswith,str.endswith,str.__contains__,str._correct_indices"]}
{"id": "C43", "title": "Splitting, joining, replacing and stripping", "statement": "`split` and `rsplit` (with a separator or by white space, with a limit), `splitlines`, `partition` and `rpartition` cut a text exactly where Python does; `join` puts pieces together and undoes split; `replace` equals joining the pieces with the new text, whatever specialised algorithm is chosen; `strip` removes exactly the given bytes at the ends.", "quantifier": "every text, separator, limit, replacement and set of bytes", "why_tests_cant": "`replace` selects one of eight algorithms by lengths; correctness depends on buffer lengths computed in a separate pass.", "anchors": ["stdlib/internal/str.codon:str.split,str.rsplit,str.splitlines,str.partition,str.rpartition,str.join,str.replace,str._replace,str.lstrip,str.rstrip,str.strip", "stdlib/internal/types/str.codon:str.cat", "stdlib/internal/types/strbuf.codon:strbuf"]}
{"id": "C44", "title": "Comparison, slices and padding of strings", "statement": "The comparison operators are the lexicographic order on bytes, a strict total order that agrees with ==; indexing, slicing, concatenation and repetition follow Python; `ljust`, `rjust`, `center`, `zfill`, `expandtabs` and `translate` produce the documented text and fill exactly the buffer they allocate.", "quantifier": "every pair of texts, index, slice, width, tab size and table", "why_tests_cant": "Quantifies over all texts and 64-bit arguments; buffer sizes are computed separately from what is written.", "anchors": ["stdlib/internal/str.codon:str.__lt__,str._cmp,str.__getitem__,str.__mul__,str.ljust,str.rjust,str.center,str.zfill,str.expandtabs,str.translate,str._build", "stdlib/internal/types/str.codon:str.__eq__,str.__add__"]}
{"id": "C45", "title": "repr of a string reads back", "statement": "`repr(s)` is a string literal in printable ASCII with balanced quotes that the Codon parser reads back as s; different strings have different representations.", "quantifier": "every string of bytes", "why_tests_cant": "Every combination of quotes, backslashes, control and non-ASCII bytes next to each other.", "anchors": ["stdlib/internal/str.codon:str.__repr__", "codon/parser/common.cpp:unescape", "codon/parser/peg/grammar.peg:STR,CHAR"]}
{"id": "C46", "title": "Scheduling order of the event loop", "statement": "Callbacks passed to `call_soon` and tasks run one at a time, in the order they were scheduled, each exactly once, unless their handle is cancelled before they run; cancelling a handle removes exactly its callback.", "quantifier": "every program of callbacks, tasks, timers, futures and gathers, every interleaving of API calls outside and inside the loop, every sequence of clock readings", "why_tests_cant": "The queue is a mutable doubly linked list edited by every API call; the order must hold after every history.", "anchors": ["stdlib/asyncio.codon:EventLoop.call_soon,EventLoop._step,EventLoop._work_enqueue,EventLoop._work_dequeue,EventLoop._cancel,Handle.cancel"]}
{"id": "C47", "title": "Timers of the event loop", "statement": "A callback passed to `call_later` is queued in the first turn of the loop at or after its deadline and never before; timers that expire in one turn are queued in the order of their deadlines; a cancelled timer never queues its callback.", "quantifier": "every number of timers, every deadline, every order of insertion and cancellation, every sequence of clock readings", "why_tests_cant": "The timers are a binary heap in a growing array; the order depends on all earlier insertions.", "anchors": ["stdlib/asyncio.codon:EventLoop.call_later,EventLoop._enqueue_timers,EventLoop._timers_push,EventLoop._timers_pop,TimerHandle.cancel"]}
{"id": "C48", "title": "Futures are set once, their callbacks run in order", "statement": "A future is pending, then has one outcome forever; setting it again raises InvalidStateError and changes nothing; all callbacks added before are queued in the order they were added when it gets its outcome, and a callback added later is queued at once.", "quantifier": "every program and history", "why_tests_cant": "Any interleaving of setters, callbacks and cancellations.", "anchors": ["stdlib/asyncio.codon:Future.set_result,Future.set_exception,Future.cancel,Future.result,Future.add_done_callback,Future._schedule_callbacks"]}
{"id": "C49", "title": "Tasks are resumed once, when what they await is done", "statement": "A task is started once; when it awaits a future it is suspended until the future is done, then queued exactly once, and the `await` answers the outcome of the future; no task is lost; the value its body returns or the exception it raises is the outcome of the task; the loop never resumes a coroutine that has ended.", "quantifier": "every program, history and sequence of clock readings", "why_tests_cant": "A lost or doubled wake-up depends on the interleaving of tasks, futures and cancellations.", "anchors": ["stdlib/asyncio.codon:create_task,EventLoop._step,_wait_on,Task.cancel,_cancel_checkpoint", "codon/cir/transform/lowering/await.cpp"]}
{"id": "C50", "title": "gather collects results in order", "statement": "The future returned by `gather(a, b, ...)` completes with the tuple of the results in the order of the arguments once all are done, whatever order they finish in; if one fails it holds the exception of one that failed; it stays pending as long as one is pending and none has failed; without arguments it is the empty tuple at once.", "quantifier": "every program, number of gathered futures, nesting, repetition and completion order", "why_tests_cant": "Every interleaving of completions, callbacks, timers and other gathers over the same futures.", "anchors": ["stdlib/asyncio.codon:gather,GatherCallback,CancelCallback"]}
{"id": "C51", "title": "Combinatoric iterators enumerate exactly", "statement": "combinations(pool, r), combinations_with_replacement(pool, r), permutations(pool, r) and product(*pools) yield every selection of positions of their kind exactly once, in lexicographic order of positions, as many as the binomial, multiset, falling-factorial and product formulas say, and then end; a negative r raises ValueError.", "quantifier": "every pool (with repeated elements too), every r and every number of pools", "why_tests_cant": "The number of selections explodes; a skipped or doubled one can depend on any combination of pool size and r.", "anchors": ["stdlib/itertools.codon:combinations,combinations_with_replacement,permutations,product"]}
{"id": "C52", "title": "Iterator adaptors yield what they promise", "statement": "count, cycle, repeat, accumulate, chain, compress, dropwhile, takewhile, filterfalse, starmap, groupby and islice yield exactly the elements their definition says, in order; negative islice bounds raise ValueError; what is left of the source can still be read.", "quantifier": "every source, predicate, function, key and bounds", "why_tests_cant": "All lengths, bounds and positions, and how a source is used afterwards.", "anchors": ["stdlib/itertools.codon:count,cycle,repeat,accumulate,chain,compress,dropwhile,filterfalse,groupby,islice,starmap,takewhile"]}
{"id": "C53", "title": "zip, zip_longest and tee", "statement": "zip yields rows up to the shortest iterable, zip_longest up to the longest with the missing places filled; the copies made by tee each yield the whole source, in whatever order they are advanced.", "quantifier": "every number of iterables, all their lengths, every order of advancing the copies", "why_tests_cant": "All interleavings of the copies and all relations between the lengths.", "anchors": ["stdlib/itertools.codon:zip_longest,tee", "stdlib/internal/builtin.codon:zip"]}
{"id": "C54", "title": "try/except/else/finally run as in Python", "statement": "In a function built from try statements, loops, conditions, break, continue, return and raising calls, the first matching except clause of the innermost try that has one handles an exception, else runs when the body finished, every finally runs exactly once on every way out, and afterwards the pending return, break, continue or exception goes on unless the finally block itself leaves. A function that does not end in Python does not stop either.", "quantifier": "every function, every nesting, every exception type relation, every initial data", "why_tests_cant": "The ways of leaving multiply with the nesting depth; the generated code keeps a flag, a depth, a return value and a loop number per outermost try that any path may leave stale.", "anchors": ["codon/cir/llvm/llvisitor.cpp:visit(TryCatchFlow),visit(BreakInstr),visit(ContinueInstr),visit(ReturnInstr),visit(ThrowInstr),call", "codon/runtime/exc.cpp:seq_personality", "test/core/exceptions.codon"]}
{"id": "C55", "title": "Variables of a function behave as in Python", "statement": "In a function made of assignments, walrus expressions, conditions, while and for loops, break, continue and return, every read of a variable gets the value last assigned to that name, whichever branches and iterations ran, and raises NameError if none was assigned; storage that was never written is never read; a function that assigns every name somewhere before it reads it is accepted.", "quantifier": "every such function, every truth value and iteration behaviour of its data, every moment of every run, also of runs that do not end", "why_tests_cant": "The compiler merges and hoists bindings by comparing the blocks they are in; the combinations of branches, loops and operands that decide which variable an occurrence means, and whether a check is needed, are unbounded.", "anchors": ["codon/parser/visitors/scoping/scoping.cpp:findDominatingBinding,visitName,switchToUpdate,visit(IfStmt),visit(WhileStmt),visit(ForStmt)", "codon/parser/visitors/typecheck/assign.cpp:transformAssignment,transformUpdate", "codon/parser/visitors/typecheck/typecheck.cpp:visit(SuiteStmt)", "codon/parser/visitors/typecheck/access.cpp:visit(IdExpr)"]}
{"id": "C56", "title": "Reshaping, flattening, copying and transposing arrays keeps the elements", "statement": "For NumPy arrays: reshape yields the requested shape (one unknown extent filled in) with the same elements in the chosen order, as a view of the array's own elements or as new memory, and raises ValueError exactly if no such shape exists; flatten and ravel yield all elements in the chosen order; copy yields an equal array in new memory; transpose and swapaxes yield views whose elements are the array's with indices permuted; no other array changes; the contiguity flags say exactly whether the elements are adjacent in C or Fortran order.", "quantifier": "every array (any number of axes, extents, strides including zero and negative ones), every memory contents, every requested shape, order and axes", "why_tests_cant": "Whether a reshape can be a view depends on arithmetic relations between all extents and strides; the combinations of axes, strides and requests are unbounded.", "anchors": ["stdlib/numpy/ndarray.codon:_contig,transpose,swapaxes,reshape,_fix_unknown_dimension,_attempt_reshape_nocopy,_contiguous,_fcontiguous,ravel,flatten,astype", "stdlib/numpy/util.codon:strides,multirange,fmultirange,sort_by_stride,normalize_axis_index,has_duplicate"]}
{"id": "C57", "title": "Basic indexing of arrays selects and assigns exactly the elements that the index denotes", "statement": "For a NumPy array indexed by a tuple of integers, slices, newaxis and an ellipsis: reading yields the selected element if no axis is left, else a view that shares the selected elements, with the shape that NumPy prescribes; IndexError or ValueError is raised exactly if an integer is out of range or a step is zero; more indices than axes or two ellipses are rejected; assigning a number changes exactly the selected elements; assigning an array changes exactly the selected elements to its broadcast elements, or raises ValueError exactly if it does not broadcast.", "quantifier": "every array (any axes, extents up to 2^62, strides), every memory, every index tuple with 64-bit numbers, every assigned number or array", "why_tests_cant": "The combination of negative indices, clamped slices, steps, ellipsis and newaxis over any number of axes and strides is unbounded, and an assignment must leave every other cell unchanged.", "anchors": ["stdlib/numpy/indexing.codon:_multiindex,_keep_axes,_base_offset,_new_shape,_new_strides,_expand_ellipsis,_expand_remainder,_expand_newaxis,_assign_one,_getset", "stdlib/numpy/util.codon:normalize_index"]}
{"id": "C58", "title": "Arrays broadcast to the unique common shape, each element repeated as prescribed", "statement": "broadcast_shapes returns the unique shape that all shapes broadcast to, and raises ValueError exactly if there is none or an extent is negative; broadcast_to and broadcast_arrays return views of the common shape in which each coordinate refers to the operand's element with extents of one repeated, and raise ValueError exactly if the shapes do not broadcast; iterating over np.broadcast yields the tuples of elements in C order of the common shape.", "quantifier": "every number of shapes and arrays, any number of axes, extents (including 0 and 1), strides and memory contents", "why_tests_cant": "Broadcasting compares axes from the end over any number of operands of different lengths, and extents 0 and 1 interact; the combinations are unbounded.", "anchors": ["stdlib/numpy/routines.codon:broadcast_shapes,broadcast_to,broadcast_arrays,_broadcast", "stdlib/numpy/util.codon:index_to_coords"]}
{"id": "C59", "title": "Element-wise operators compute each element of the broadcast result, and in-place operators change only their target", "statement": "For NumPy arrays a and b, a op b and the reflected operator return a new array of the common broadcast shape whose element at each coordinate is op of the operands' elements there, changing nothing else, and raise ValueError exactly if the shapes do not broadcast; operators with a number and unary operators likewise keep the shape; in-place operators replace each element of the target by op of its old value and the operand's element, and change no other cell.", "quantifier": "every operator function, every pair of arrays with any axes, extents (including 0 and 1), strides (including negative, zero and permuted), every memory", "why_tests_cant": "The loop reorders axes by stride and splits contiguous inner lines depending on all strides of all operands; the combinations of layouts and broadcasts are unbounded.", "anchors": ["stdlib/numpy/ndarray.codon:_op_elemwise,_rop_elemwise,_iop_elemwise,_op_unary", "stdlib/numpy/ndarray.codon:_loop (reorder_loops, broadcast_args, alloc_array)", "stdlib/numpy/util.codon:tuple_perm,tuple_perm_inv"]}
{"id": "C60", "title": "Universal functions fill exactly the selected elements of their result", "statement": "A universal function of one or two arguments returns a number for 0-d arguments, and otherwise fills a new array of the broadcast shape, or the array given as out, so that each element selected by where is the function of the arguments' elements at that coordinate; elements not selected and all other memory stay unchanged; ValueError is raised if an argument does not broadcast to out, or a mask does not broadcast to the result. Functions with vectorised loops give the same elements for every layout, size and number of lanes.", "quantifier": "every function, every array with any axes, extents and strides, every out, every mask, every number of vector lanes, every memory", "why_tests_cant": "Which loop runs depends on layouts, shapes and element counts relative to the number of lanes of the machine; the bugs found appear only for some sizes and layouts.", "anchors": ["stdlib/numpy/ufunc.codon:UnaryUFunc.__call__,BinaryUFunc.__call__,_apply_vectorized_loop_unary,_apply_vectorized_loop_binary", "codon/runtime/numpy/loops.cpp:UnaryLoop,BinaryLoop", "stdlib/numpy/routines.codon:empty_like", "stdlib/numpy/util.codon:broadcast,tuple_delete,tuple_insert"]}
{"id": "C61", "title": "A boolean array as index selects, or assigns to, exactly the true positions", "statement": "a[mask] is a new array of the elements of a at the positions where mask is true, last axis fastest, and nothing else changes; a[mask] = x assigns to these positions, in this order, the elements of x (or the only one), and changes nothing else. IndexError is raised if the shapes differ and ValueError if the number of elements does not fit.", "quantifier": "every array and mask of any number of axes, extents, layouts and strides, every mask contents, every item, every memory", "why_tests_cant": "The code has separate loops per layout and counts the true values in another order than it copies them; every combination of layouts and contents has to agree.", "anchors": ["stdlib/numpy/indexing.codon:_getset_bool,_bool_idx_num_true"]}
{"id": "C62", "title": "A parallel for loop runs every iteration exactly once and leaves the last iteration's values", "statement": "For @par loops over a range, whatever the schedule, chunk size and number of threads, the loop body runs exactly once for every element of the range and for nothing else. A variable of the enclosing function that every iteration assigns has, after the loop, the value the last iteration gives it. collapse=k runs the body once for every combination of loop variables the nested loops have.", "quantifier": "every range (start, stop, step), every loop body, every number of threads, every chunk size, every division of the iterations among threads the OpenMP runtime may choose, every order in which threads request chunks", "why_tests_cant": "A test sees a few divisions chosen by one machine's runtime; missing or repeated iterations depend on how start, stop, step, chunk and the number of threads line up and on the arithmetic near the ends.", "anchors": ["stdlib/openmp.codon:_static_init,_static_loop_outline_template,_static_chunked_loop_outline_template,_dynamic_loop_outline_template,_range_len", "codon/cir/transform/parallel/openmp.cpp:ImperativeLoopTemplateReplacer,collapseLoop,OpenMPPass::handle", "codon/cir/transform/parallel/schedule.cpp:getScheduleCode"]}
{"id": "C63", "title": "Reductions in a parallel loop give the sequential result", "statement": "If every assignment of an enclosing int variable s in a @par loop combines s, once, by one of + * & | ^ min max with values that do not depend on s, the loop leaves in s exactly what the sequential loop leaves, however iterations are divided among threads and in whatever order partial results are combined. The same holds for a user-defined type whose addition is associative and commutative with T() neutral.", "quantifier": "every loop body of accumulating statements and conditions, every list of iterations and initial value of s, every number of threads and division of iterations, every order and grouping in which partial results are combined", "why_tests_cant": "The division and the combination order are chosen by the runtime and differ from run to run; a wrong neutral element or a wrongly recognised statement shows only for some divisions and values.", "anchors": ["codon/cir/transform/parallel/openmp.cpp:Reduction::getInitial,generateNonAtomicReduction,ReductionIdentifier,makeReductionFunc,LoopTemplateReplacer"]}
{"id": "C64", "title": "match statements, loop else clauses and loops over tuples run as in Python", "statement": "A match statement runs exactly the first case whose pattern matches and whose guard holds, with the pattern's variables bound to the parts of the value they stand for. The else clause of a loop runs exactly when the loop was not left by break. A loop over a tuple of various types runs its body once per item, in order, and break and continue act on it as on other loops. Programs built from these in any nesting end with the same outcome and variables as in Python.", "quantifier": "every nesting of match statements, loops, loop else clauses, break, continue, return; every pattern and value; every initial state; every number of loop rounds", "why_tests_cant": "These constructs are rewritten to plain loops with flags; whether a break reaches the right loop depends on the nesting, and patterns nest without bound.", "anchors": ["codon/parser/visitors/typecheck/cond.cpp:visit(MatchStmt),transformPattern", "codon/parser/visitors/typecheck/loops.cpp:visit(BreakStmt),visit(ContinueStmt),visit(WhileStmt),visit(ForStmt),transformStaticForLoop"]}
{"id": "C65", "title": "SortedList holds exactly what was added, in order", "statement": "After any sequence of add and clear on a SortedList, iterating gives the values added since the last clear in ascending order, equal values in the order they were added; len, truth value and left agree with that sequence (left raises IndexError when it is empty). However sublists are split and merged, every sublist keeps between one and twice the load factor elements, and an internal deletion removes exactly the element at its position.", "quantifier": "every element type with a strict weak order, every load factor of at least one, every history of operations", "why_tests_cant": "sublists split only after thousands of insertions and merge only for particular size patterns; the maxima cache must stay right in all of them", "anchors": ["stdlib/sortedlist.codon: SortedList.add, clear, left, _expand, _delete, __iter__, __len__, __bool__", "stdlib/bisect.codon: bisect_right, insort_right"]}
{"id": "C66", "title": "Unpickling gives back what was pickled; truncated pickles are refused", "statement": "pickle.load of what pickle.dump wrote returns an equal value (the identical value when no dict or set is involved; a dict with the same items, whose every lookup answers alike; a set with the same elements) and consumes exactly the bytes written, so several values can be stored one after another. If the stored bytes are cut off anywhere before the end, loading raises an error instead of returning a value.", "quantifier": "all types built from int, bool, fixed-width numbers, str, List, tuples, Dict and Set, nested arbitrarily; all values of them, every reachable hash-table layout, every content of uninitialised table slots; all trailing bytes and all truncation points", "why_tests_cant": "Types nest without bound, hash tables reach unboundedly many layouts (deleted and never-written slots are dumped as raw memory), and a truncation can fall at any byte of any value.", "anchors": ["stdlib/pickle.codon: _write_raw, _read_raw, _write, _read, int/bool/byte/float/str/List/Dict/Set __pickle__ and __unpickle__, dump, load", "stdlib/internal/internal.codon: pickle, unpickle (tuples and classes)", "stdlib/internal/gc.codon: sizeof, atomic"]}
{"id": "C67", "title": "A pickled numpy array is loaded with every element in its place", "statement": "pickle.load of a pickled ndarray returns an array of the same shape that holds, at every coordinate, an element equal to the one the dumped array held there, whatever the memory layout of the dumped array (slice, transpose, reversed axes, Fortran order); it consumes exactly the bytes written, leaves other arrays alone, and raises on a truncated file.", "quantifier": "all element types of the pickle universe, all shapes and strides, all contents of memory, all trailing bytes and truncation points", "why_tests_cant": "Layouts range over all shapes and strides of any rank, and which code path is taken on each side depends on contiguity and on the element type.", "anchors": ["stdlib/numpy/npio.codon: ndarray.__pickle__, ndarray.__unpickle__", "stdlib/numpy/ndarray.codon: _contig", "stdlib/pickle.codon: _write_raw, _read_raw"]}
{"id": "C68", "title": "Removing bounds checks in loops never changes an array access", "statement": "When the optimiser removes the bounds check of an access a[e] to a one-dimensional array inside a for loop over range(...), then in every iteration of the loop a[e] would have passed the check, and the element accessed without the check is the one that the index denotes.", "quantifier": "all loops over a range, all index and bound expressions, all values of the variables, all array lengths, all iterations", "why_tests_cant": "The decision is symbolic and the accesses it must justify range over all run-time lengths and iterations; an unsound decision shows up only as a silent out-of-bounds access for particular lengths.", "anchors": ["codon/cir/transform/numpy/indexing.cpp: parse, simplify, checkTotal, lessCheck, replaceLoopVariable, canElideBoundsCheck, NumPyBoundsCheckElisionPass", "codon/cir/llvm/llvisitor.cpp: visit(ImperativeForFlow)", "stdlib/numpy/fusion.codon: _array1d_get_nocheck, _array1d_set_nocheck", "stdlib/numpy/util.codon: normalize_index"]}
{"id": "C69", "title": "sum, any and all of a generator are unchanged by optimisation", "statement": "sum(g(...), start), any(g(...)) and all(g(...)) of a call of a generator function have the same value, leave the same effects behind and raise the same exceptions after the generator has been turned into a function that accumulates or returns instead of yielding; the value is the fold of the yielded values, or whether one (all) of them is true.", "quantifier": "all generator bodies (loops, conditionals, try/except/finally, return), all effects of their expressions, all yielded types with their truth test and addition, all states and start values", "why_tests_cant": "Generator bodies are arbitrary programs, and the consumer's early exit and its exceptions interact with every construct that can enclose a yield.", "anchors": ["codon/cir/transform/pythonic/generator.cpp: GeneratorSumTransformer, GeneratorAnyAllTransformer, genToSum, genToAnyAll", "stdlib/internal/builtin.codon: sum, any, all", "codon/cir/llvm/llvisitor.cpp: visit(ForFlow)"]}
{"id": "C70", "title": "Moving an array expression to its use keeps its value", "statement": "When the NumPy optimisation moves an array expression assigned to a variable into the expression that reads the variable, and removes the assignment, then the combined expression has the value the program gave before: the read saw this assignment on every path, no other read saw it, and no variable or array that the moved expression uses changes in between.", "quantifier": "all functions, control flow graphs, runs, operations and array contents", "why_tests_cant": "Whether the moved expression still sees the same variables and arrays depends on all paths and side effects between assignment and use.", "anchors": ["codon/cir/transform/numpy/forward.cpp:canForwardExpression", "codon/cir/transform/numpy/forward.cpp:canForwardVariable", "codon/cir/transform/numpy/forward.cpp:canForwardExpressionAlongPath", "codon/cir/transform/numpy/forward.cpp:OkToForwardPast", "codon/cir/transform/numpy/numpy.cpp:NumPyFusionPass::visit"]}
{"id": "C71", "title": "Fused array expressions compute the element-wise result", "statement": "When an array expression of several operators and element-wise functions is compiled into one fused loop, into a sequence of loops that reuse temporary arrays, or into a run-time choice of the two, the result has the broadcast shape of all operands and every element is the expression applied to the operands' elements. If the shapes do not broadcast, ValueError is raised. The operands keep their contents, and no freed memory is used or freed again.", "quantifier": "all expressions, shapes, layouts, element values, temporaries and fusion decisions", "why_tests_cant": "The reuse and freeing of temporaries depends on types, ranks and run-time shapes at every node, and on which subexpressions the cost model fuses.", "anchors": ["codon/cir/transform/numpy/expr.cpp:NumPyExpr::codegenFusedEval", "codon/cir/transform/numpy/expr.cpp:NumPyExpr::codegenSequentialEval", "codon/cir/transform/numpy/expr.cpp:NumPyExpr::codegenBroadcasts", "codon/cir/transform/numpy/expr.cpp:NumPyExpr::codegenScalarExpr", "codon/cir/transform/numpy/numpy.cpp:optimizeHelper", "stdlib/numpy/fusion.codon:_broadcast", "stdlib/numpy/fusion.codon:_create", "stdlib/numpy/fusion.codon:_free"]}
{"id": "C72", "title": "Loops over ranges and lists run the body for each element in order", "statement": "`for i in range(...)` evaluates its arguments once from left to right, raises ValueError for step 0, and runs the body once for each element of the range in order; `for x in l` does so for each element of the list. break ends the loop, continue goes on with the next element, and return or an exception leaves it. Replacing the loop by a counting loop in optimised builds changes none of this.", "quantifier": "all bounds and steps, lists, loop bodies with arbitrary effects, and ways for the body to end", "why_tests_cant": "The body is arbitrary code that may change the list, and the bounds range over all 64-bit integers, where the counter may overflow.", "anchors": ["codon/cir/transform/lowering/imperative.cpp:ImperativeForFlowLowering::handle", "codon/cir/llvm/llvisitor.cpp:LLVMVisitor::visit(const ForFlow *)", "codon/cir/llvm/llvisitor.cpp:LLVMVisitor::visit(const ImperativeForFlow *)", "stdlib/internal/types/range.codon:range.__iter__", "stdlib/internal/types/collections/list.codon:List.__iter__"]}
{"id": "C73", "title": "Counter and defaultdict", "statement": "Counter(xs) has for every element the number of its occurrences; c[k] is the count, 0 for a missing element; update/subtract add and subtract counts (modulo 2^64); a+b, a-b, a|b, a&b have the sum, difference, maximum and minimum of the counts where it is positive and no entry elsewhere; +a and -a keep the positive and the negated negative counts; total() is the sum; elements() repeats each element as often as its count says; a == b iff the counts are the same; most_common(n) gives n items with the largest counts, the largest first; del of a missing element is no error. d[k] of a defaultdict gives the stored value or stores and gives the default, and d[k] op= x stores the operator's result.", "quantifier": "all key types with a lawful equality and hash, all counters (any hash-table layout reached by any history) of up to 2^60 entries, all sequences and all n", "why_tests_cant": "Depends on the order of buckets, deleted slots and resizes; the operators change the table they iterate over (or delete from it while iterating); the heap in most_common needs ties, every n and every order.", "anchors": ["stdlib/collections.codon: Counter.__init__, update, subtract, most_common, elements, total, __getitem__, __delitem__, __eq__, __iadd__, __isub__, __iand__, __ior__, __add__, __sub__, __and__, __or__, __pos__, __neg__, _del_non_positives, defaultdict.__getitem__, __missing__, __dict_do_op_throws__", "stdlib/internal/types/collections/dict.codon: increment, items", "stdlib/heapq.codon: heapify, heapreplace"]}
{"id": "C74", "title": "Random numbers", "statement": "After seeding with any int the words drawn are the MT19937 sequence of the state, tempered, for ever, without reading outside the state; seeding does not depend on what was drawn before and never gives the zero state. getrandbits(k) gives each value below 2^k for the same number of words; random() is in [0, 1); randrange gives a value of the range and refuses an empty one; choice gives an element; shuffle gives a permutation, and each order of distinct items comes from exactly one sequence of equally likely picks; sample gives k items at different positions; choices gives items of the population.", "quantifier": "all seeds, all states of 624 words and positions, all numbers of draws, all sources of 32-bit words, all ranges, lists, sample sizes", "why_tests_cant": "The results are random: a test sees one sequence of draws; refills of the state, rejected draws, rounding of the products and the boundaries of 64-bit ranges depend on values that tests practically never draw.", "anchors": ["stdlib/random.codon: RandomGenerator.genrand_int32, genrand_res53, init_u32, init_array, init_int, Random.seed, getrandbits, bit_length, _randbelow_with_getrandbits, randrange, randint, choice, shuffle, sample, choices"]}
{"id": "C75", "title": "Integer functions, min and max", "statement": "x ** n and pow(x, n) are the power modulo 2^64; pow(x, n, m) is the remainder of the power; gcd and lcm of any number of arguments are the greatest common divisor and the least common multiple; factorial(x) is x! for 0 <= x <= 20 and refuses other arguments; sum and prod of integers are exact modulo 2^64; min and max give the first item whose key is the least or greatest, of an iterable or of arguments, the default for an empty iterable and an error without one.", "quantifier": "all ints, all numbers of arguments, all lists, all totally preordered key types, both division modes", "why_tests_cant": "Results wrap modulo 2^64 and intermediate products overflow for large values only; ties and every number of arguments matter for min and max.", "anchors": ["stdlib/math.codon: factorial, _gcd2, gcd, lcm, prod", "stdlib/internal/builtin.codon: pow, sum, min, max", "stdlib/internal/types/int.codon: __abs__, __mod__, __floordiv__, _ipow", "stdlib/internal/pynumerics.codon: _divmod_int_int"]}
{"id": "C76", "title": "Integers as texts", "statement": "bin, oct and hex write the sign, the prefix and the digits of the magnitude without zeros in front, for every int. int(text, base) reads every literal of the base whose value fits in an int, with optional sign, prefix and surrounding white space, raises ValueError for any other text, never reads outside the text, and reads back what bin, oct and hex write; base 0 takes the base from the prefix.", "quantifier": "all ints, all byte strings, all bases, both division modes", "why_tests_cant": "Texts are unbounded and the boundary cases (shortest text with a prefix, extreme values, signs at every position) interact; an out-of-bounds read of one byte is invisible to a test.", "anchors": ["stdlib/internal/builtin.codon: _int_format, bin, oct, hex, int._from_str", "codon/runtime/lib.cpp: seq_int_from_str"]}
{"id": "C77", "title": "Modules are initialised once, at their first import", "statement": "The body of a module runs when the first import of it is reached during execution and never again, wherever the import stands: at the top level, in a function, under a condition or in another module, also if modules import each other in a cycle.", "quantifier": "all sets of functions and modules, all main programs, all outcomes of the conditions, all execution lengths", "why_tests_cant": "Whether an import may be dropped depends on the order in which the type checker meets functions and modules, on the import graph and on the path taken at run time.", "anchors": ["codon/parser/visitors/typecheck/import.cpp: TypecheckVisitor::visit(ImportStmt), transformNewImport", "codon/parser/visitors/typecheck/infer.cpp: inferTypes, realizeFunc", "codon/parser/visitors/typecheck/ctx.cpp: TypeContext", "codon/parser/cache.h: Module::loadedAtToplevel"]}
{"id": "C78", "title": "Compressed files are read line by line without loss", "statement": "Looping over a gzip or bzip2 file gives each line of the decompressed text once and in order, and read() gives the whole text; a damaged file gives the complete lines before the damage and then an IOError, never a silent end. No memory outside the line buffer is touched, whatever the length of the lines.", "quantifier": "all texts, all line lengths, damage after any prefix", "why_tests_cant": "The buffer doubles at lengths that depend on all lines read before, and the failing cases (zero bytes, lines of a gigabyte, damage inside a line) are unbounded in number.", "anchors": ["stdlib/internal/file.codon: gzFile._getline, gzFile._iter, gzFile._iter_trim_newline, gzFile.read, bzFile._getline, bzFile._gets, bzFile._iter, bzFile.read"]}
{"id": "C79", "title": "Matching, splitting and replacing with regular expressions", "statement": "finditer and findall give the successive matches of a pattern as Python does: each the leftmost after the previous one, none twice; they always come to an end. split gives the texts between the matches with the groups in between, subn replaces at most count matches and counts them, and replacing each match by itself gives the text back.", "quantifier": "all patterns (described by their preferred match at each position), all texts, all start and end positions, all counts", "why_tests_cant": "Patterns and texts are unbounded; the failures are tied to empty matches at particular places.", "anchors": ["stdlib/re.codon: Pattern._match, finditer, findall, _split, split, subn, sub", "codon/runtime/re.cpp: seq_re_match"]}
{"id": "C80", "title": "Replacement templates of regular expressions", "statement": "Match.expand, and so sub with a text as replacement, reads a template as Python does: backslash escapes and octal numbers become bytes, \\1, \\12 and \\g<name> become the text of the group or nothing if it took no part, other bytes stay; an unknown escape is refused wherever it stands.", "quantifier": "all templates, all groups", "why_tests_cant": "Templates are unbounded, and how a digit is read depends on what follows it.", "anchors": ["stdlib/re.codon: Match._split, Match._unescape, Match.expand"]}
{"id": "C81", "title": "Reading command lines", "statement": "getopt returns exactly the options and operands that the declared short and long options define: letters may be clustered, an argument is attached or the next one, a long option may be abbreviated to a unique beginning, everything after -- is an operand; any other command line raises an error.", "quantifier": "all lists of arguments, all declared options", "why_tests_cant": "Argument lists and declarations are unbounded; the meaning of one argument depends on all declarations and on the arguments before it.", "anchors": ["stdlib/getopt.codon: getopt, do_longs, long_has_args, do_shorts, short_has_arg"]}
{"id": "C82", "title": "Adding, printing and writing strings", "statement": "Joining chains of string additions into one call, and printing or writing the pieces of a joined string one by one, leaves what a program prints and writes, its other effects and their order, and its exceptions as they were.", "quantifier": "all programs of additions, print and write calls around arbitrary other computations, all initial states, every order in which the compiler visits the calls", "why_tests_cant": "The rewriting applies to unboundedly many shapes of programs; it is wrong only for particular ones.", "anchors": ["codon/cir/transform/pythonic/str.cpp: StrAdditionOptimization", "codon/cir/transform/pythonic/io.cpp: IOCatOptimization", "stdlib/internal/types/str.codon: str.cat, str.__add__", "stdlib/internal/builtin.codon: print", "stdlib/internal/file.codon: File.write, __file_write_gen__"]}
{"id": "C83", "title": "Unpacking assignments", "statement": "An assignment to several targets at once, nested and starred ones included, gives each target its item of the value on the right, in order, as Python does: all items are taken before the first target changes, and a wrong number of items raises ValueError.", "quantifier": "all targets (any nesting, any number, at most one star per level), all right-hand sides, all values of variables and contents of lists, shared or not", "why_tests_cant": "Targets nest to any depth and lists may be shared in any way between the two sides; the rewriting goes wrong only for some of these.", "anchors": ["codon/parser/visitors/typecheck/assign.cpp: TypecheckVisitor::unpackAssignment", "stdlib/internal/types/collections/list.codon: List.__getitem__, List.as_list"]}
