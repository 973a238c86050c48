{"id": "C01", "title": "Sort is safe for every comparator", "statement": "xsort.Sort(data, less) always returns (no infinite loop, no index-out-of-range panic) and leaves data holding a permutation of its original elements, whatever the comparator answers - including comparators that are inconsistent, random or stateful.", "quantifier": "every slice length and contents, every comparator modelled as an arbitrary state transformer answering true/false", "why_tests_cant": "The set of comparators and inputs is infinite and the interesting paths (heapsort fallback, pattern breaking, partial insertion sort) are only reached by adversarial answers.", "anchors": ["xsort/sort.go:Sort", "xsort/sort_any.go:pdqsortLessFunc,partitionLessFunc,partitionEqualLessFunc,heapSortLessFunc,breakPatternsLessFunc,partialInsertionSortLessFunc"]}
{"id": "C02", "title": "Sort sorts", "statement": "If less is a strict weak order, after xsort.Sort(data, less) no element is less than an element placed before it, and the result is a permutation of the input.", "quantifier": "every slice, every strict weak order, every comparator that answers according to it (with arbitrary side effects)", "why_tests_cant": "Random tests reach only some of the pivot/limit/partition paths and only small inputs.", "anchors": ["xsort/sort.go:Sort", "xsort/sort_any.go:pdqsortLessFunc"]}
{"id": "C03", "title": "SortOrdered sorts totally ordered types and is safe for NaN", "statement": "xsort.SortOrdered(data) terminates without panicking and permutes data for every ordered element type, including floats containing NaN; when the element order is total (integers, strings, NaN-free floats) the result is sorted ascending.", "quantifier": "every slice and every pair of primitive < and >= answers (which for NaN are not complements)", "why_tests_cant": "NaN placements and pivot choices combine in unboundedly many ways.", "anchors": ["xsort/sort.go:SortOrdered", "xsort/sort_ordered.go:pdqsortOrdered"]}
{"id": "C04", "title": "Stable is safe for every comparator", "statement": "xsort.Stable(data, less) always returns without panicking and permutes data, whatever the comparator answers.", "quantifier": "every slice, every comparator (arbitrary state transformer)", "why_tests_cant": "symMerge/rotate index arithmetic must stay in bounds for all block sizes and all answers.", "anchors": ["xsort/sort.go:Stable,StableOrdered", "xsort/sort_any.go:stableLessFunc,symMergeLessFunc,rotateLessFunc"]}
{"id": "C05", "title": "Stable sorts and is stable", "statement": "If less is a strict weak order, xsort.Stable(data, less) (and StableOrdered for the natural order) produces a sorted permutation in which equivalent elements keep their original relative order.", "quantifier": "every slice, every strict weak order", "why_tests_cant": "Stability must hold for all inputs and lengths; the in-place rotation merge has many boundary cases.", "anchors": ["xsort/sort.go:Stable,StableOrdered", "xsort/sort_any.go:stableLessFunc,symMergeLessFunc"]}
{"id": "C06", "title": "Sort recursion depth is logarithmic", "statement": "xsort.Sort on n elements never nests more than log2(n)+1 recursive calls, for any comparator; symMerge inside Stable never nests more than log2(n)+1 calls either.", "quantifier": "every slice length and every comparator", "why_tests_cant": "Stack use must be bounded for adversarial inputs, not sampled ones.", "anchors": ["xsort/sort_any.go:pdqsortLessFunc,symMergeLessFunc"]}
{"id": "C07", "title": "Sort makes O(n log n) comparisons in the worst case", "statement": "There is a constant C such that xsort.Sort on n elements with any strict weak order calls less at most C * n * (log2(n)+1) times.", "quantifier": "every slice, every strict weak order", "why_tests_cant": "Worst cases of quicksort are adversarial; benchmarks only sample.", "anchors": ["xsort/sort_any.go:pdqsortLessFunc,heapSortLessFunc,choosePivotLessFunc"]}
{"id": "C08", "title": "LowerBound finds the first element not less than the value", "statement": "On a range partitioned by comp(., value), algo.LowerBound* returns the first position whose element is not less than value (last if none), never panics, modifies nothing and calls comp at most floor(log2(n))+1 times.", "quantifier": "every valid range of every lawful random-access iterator (slice or reversed), every value and comparator", "why_tests_cant": "All lengths/positions/comparators; off-by-one errors hide at boundaries.", "anchors": ["algo/binary_search.go:LowerBound,LowerBoundAny,LowerBoundIterators", "ds/iter/funcs.go:Distance"]}
{"id": "C09", "title": "UpperBound finds the first element greater than the value", "statement": "On a range partitioned by comp(value, .), algo.UpperBound* returns the first position whose element is greater than value (last if none), never panics, modifies nothing and calls comp at most floor(log2(n))+1 times.", "quantifier": "every valid range, value and comparator", "why_tests_cant": "All lengths/positions/comparators.", "anchors": ["algo/binary_search.go:UpperBound,UpperBoundAny,UpperBoundIterators"]}
{"id": "C10", "title": "Binary search rejects reversed ranges", "statement": "algo.LowerBound*/UpperBound* panic if last precedes first, and for first == last return first without calling the comparator.", "quantifier": "every pair of iterators of the same slice", "why_tests_cant": "Ranges over all positions.", "anchors": ["algo/binary_search.go:LowerBoundIterators,UpperBoundIterators"]}
{"id": "C11", "title": "IsSortedUntil / IsSorted", "statement": "algo.IsSortedUntil* returns the first position whose element compares less than its predecessor (last if none) without panicking or modifying anything; algo.IsSorted* is true iff no such position exists, which for a strict weak order is the same as the whole range being pairwise sorted.", "quantifier": "every valid forward range and comparator", "why_tests_cant": "All ranges, including empty and one-element ones.", "anchors": ["algo/is_sorted.go:IsSortedUntilIterators,IsSortedIterators,IsSorted,IsSortedUntil"]}
{"id": "C12", "title": "Reverse reverses in place", "statement": "algo.Reverse(first, last) reverses exactly the elements of [first,last), changes nothing else, and never panics on a valid range, for forward and reverse iterators.", "quantifier": "every valid range", "why_tests_cant": "Odd/even/empty lengths and iterators over sub-ranges in unbounded combination.", "anchors": ["algo/generic.go:Reverse,Swap"]}
{"id": "C13", "title": "Swap and FillN", "statement": "algo.Swap(a,b) exchanges the two elements (no-op when a equals b) and nothing else; algo.FillN(first,count,value) writes value at the count positions from first, returns the position after them, leaves every other element unchanged, and does nothing for count <= 0.", "quantifier": "every pair of positions, every count that fits in the range", "why_tests_cant": "All positions and counts.", "anchors": ["algo/generic.go:Swap", "algo/fill.go:FillN"]}
{"id": "C14", "title": "NextPermutation produces the lexicographic successor", "statement": "When algo.NextPermutation* returns true, the range holds a permutation of its previous contents that is lexicographically greater, and no permutation of the elements lies strictly between the two; elements outside the range are untouched and it never panics.", "quantifier": "every valid range, every strict weak order", "why_tests_cant": "n! arrangements with duplicates for every n.", "anchors": ["algo/next_permutation.go:NextPermutationIterators,NextPermutation,NextPermutationAny"]}
{"id": "C15", "title": "NextPermutation wraps around exactly at the last permutation", "statement": "algo.NextPermutation* returns false iff the range was non-increasing (no greater permutation exists) and then leaves it sorted non-decreasing.", "quantifier": "every valid range, every strict weak order", "why_tests_cant": "n! arrangements for every n.", "anchors": ["algo/next_permutation.go:NextPermutationIterators"]}
{"id": "C16", "title": "NextPermutation loop enumerates every permutation exactly once", "statement": "Starting from a sorted range, calling algo.NextPermutation until it returns false visits every distinct arrangement of the elements exactly once, in increasing lexicographic order.", "quantifier": "every range over a totally ordered type", "why_tests_cant": "Factorially many arrangements for every length.", "anchors": ["algo/next_permutation.go:NextPermutation"]}
{"id": "C17", "title": "Reverse iterators present the reversed sequence", "statement": "For any lawful bidirectional/random iterator, iter.ConstReverse/Reverse/ConstReverseRandom/ReverseRandom give a lawful iterator over the reversed sequence (Next/Prev/Add/Pos/Get/Set/Equal), and Slice.ReverseRange / ReverseSubRange denote the reversed elements.", "quantifier": "every sequence, every position, every underlying lawful iterator (including already reversed ones)", "why_tests_cant": "All positions and nestings.", "anchors": ["ds/iter/reverse.go", "ds/xslice/slice.go:RBegin,REnd,ReverseRange,ReverseSubRange"]}
{"id": "C18", "title": "ReverseRandomRange reverses a range", "statement": "iter.ReverseRandomRange(r) denotes the elements of r in reverse order.", "quantifier": "every valid range", "why_tests_cant": "All ranges; note the expected outcome is a refutation.", "anchors": ["ds/iter/range.go:ReverseRandomRange"]}
{"id": "C19", "title": "Slice iterators are bounds-safe", "statement": "An xslice.Iterator reachable from IteratorAt/Begin/End by Next/Prev/Add always stays in [0, Len]; each move panics exactly when it would leave that interval, Get/Set panic exactly at End, and Equal panics exactly for iterators of slices with different backing pointers.", "quantifier": "every slice and every sequence of iterator operations", "why_tests_cant": "Unbounded sequences of moves.", "anchors": ["ds/xslice/iterator.go", "ds/xslice/slice.go:IteratorAt,Begin,End"]}
{"id": "C20", "title": "Insert inserts", "statement": "xslice.Insert / Slice.InsertAt / Slice.Insert(it) give a slice equal to the old elements with value placed at index i, panic exactly when i is outside [0,len], and the iterator returned by Slice.Insert points at the inserted value in the new slice.", "quantifier": "every slice (any backing array, spare capacity and offset), index, value and append growth policy", "why_tests_cant": "In-place versus reallocating paths and every index.", "anchors": ["ds/xslice/ops.go:Insert", "ds/xslice/slice.go:InsertAt,Insert"]}
{"id": "C21", "title": "Delete and UnorderedDelete delete", "statement": "xslice.Delete removes exactly element i keeping order; UnorderedDelete removes exactly element i moving the last element into its place; DeleteLast removes the last; each panics exactly when the index is outside [0,len).", "quantifier": "every slice, index", "why_tests_cant": "All indices including first/last/only element.", "anchors": ["ds/xslice/ops.go:Delete,UnorderedDelete,DeleteLast"]}
{"id": "C22", "title": "In-place slice operations touch only their own window", "statement": "Insert/Delete/UnorderedDelete/Append on a slice never write to memory outside the slice's own [0,cap) window, and writes beyond len happen only at index len when spare capacity exists.", "quantifier": "every heap with arbitrarily aliased slices", "why_tests_cant": "Aliasing configurations are unbounded.", "anchors": ["ds/xslice/ops.go", "ds/xslice/slice.go:Append,AppendMany"]}
{"id": "C23", "title": "Copy and Reversed return independent slices", "statement": "xslice.Copy(s) / s.Reversed() return the same / reversed elements in freshly allocated memory: no later write through either slice is visible through the other, and the source is unchanged.", "quantifier": "every slice and every later write", "why_tests_cant": "Independence is about all later writes.", "anchors": ["ds/xslice/slice.go:Copy,Reversed"]}
{"id": "C24", "title": "Inserter iterators", "statement": "Writing v1..vn through iter.Append appends them in order; through iter.Prepend to a ring prepends them (last written first); through iter.Insert(pos) inserts them in order before pos; FillN through these inserts count copies.", "quantifier": "every sequence of writes, every container contents and position", "why_tests_cant": "Unbounded sequences; reallocation in the middle of the sequence.", "anchors": ["ds/iter/inserter.go", "algo/fill.go:FillN", "ds/xslice/slice.go:Insert,Append"]}
{"id": "C25", "title": "xslice.NewLenCap honours len and cap", "statement": "xslice.NewLenCap(len, cap) returns a zeroed slice of length len and capacity at least cap.", "quantifier": "every 0 <= len <= cap", "why_tests_cant": "All len/cap pairs; note the expected outcome is a refutation for len <> cap.", "anchors": ["ds/xslice/slice.go:NewLenCap"]}
{"id": "C26", "title": "Ring behaves like a double-ended queue", "statement": "Any sequence of Append/Push/Prepend/Pop/DeleteFirst/DeleteLast/First/Last/At/Set/Len/Empty/ToSlice on an xring.Ring made by any constructor gives exactly the results of a plain list deque; the operations panic exactly on empty/out-of-range access and a recovered panic leaves the ring unchanged.", "quantifier": "every constructor and every finite sequence of operations", "why_tests_cant": "Wrap-around, growth and shrink interleave in unboundedly many histories.", "anchors": ["ds/xring/ring.go"]}
{"id": "C27", "title": "Ring capacity stays proportional to its length", "statement": "In every state reachable from New/Of/Copy, Len <= Cap and Cap <= max(1024, 8*Len+15) (memory is returned after deletions), and each Append/Prepend reallocates only when full.", "quantifier": "every finite sequence of operations", "why_tests_cant": "A history property; tests check single thresholds.", "anchors": ["ds/xring/ring.go:checkGrowth,checkShrink,Cap"]}
{"id": "C28", "title": "Ring does not retain deleted elements", "statement": "Every slot of the ring's buffer that does not hold a live element is the zero value, so deleted elements become garbage.", "quantifier": "every finite sequence of operations from New/Of/Copy/NewLen", "why_tests_cant": "A history property about unobservable slots.", "anchors": ["ds/xring/ring.go:DeleteFirst,DeleteLast,checkGrowth,checkShrink"]}
{"id": "C29", "title": "xring.NewLenCap preallocates", "statement": "xring.NewLenCap(len, cap).Cap() is at least cap.", "quantifier": "every len <= cap", "why_tests_cant": "All pairs; note the expected outcome is a refutation for len < cap.", "anchors": ["ds/xring/ring.go:NewLenCap,Cap"]}
{"id": "C30", "title": "Map/Set enumeration is exact", "statement": "xmap.Keys/Values/Entries (and Map/Set methods) return every entry of the map exactly once in some order; Set Add/TryAdd/Delete/TryDelete/Has/Len behave like a mathematical set. Delete of a map removes the entries of that key and no others.", "quantifier": "every map, every iteration order, every operation sequence", "why_tests_cant": "Iteration order is nondeterministic; histories are unbounded.", "anchors": ["ds/xmap/ops.go:Keys,Values,Entries", "ds/xmap/set.go", "ds/xmap/map.go"]}
{"id": "C31", "title": "Clear empties a map", "statement": "xmap.Clear(m) leaves m empty.", "quantifier": "every map and key type", "why_tests_cant": "All contents; fails for keys that are not equal to themselves (NaN), so the full statement is refuted and holds for reflexive keys.", "anchors": ["ds/xmap/ops.go:Clear"]}
{"id": "C32", "title": "ArrayMap behaves like a map", "statement": "After any sequence of Set/Delete/Clear, ArrayMap.TryGet/Has/Get return the latest value set for the key and not deleted since, Len is the number of distinct keys present, and At(0..Len-1) enumerates each entry exactly once.", "quantifier": "every finite sequence of operations", "why_tests_cant": "A history property; note the expected outcome is a refutation.", "anchors": ["ds/xmap/arraymap.go"]}
{"id": "C33", "title": "Custom behaves like a map for any hash function", "statement": "After any sequence of Set/Delete on xmap.Custom, Get returns the latest value set for an equal key and not deleted since; Set returns true iff the key was absent; Delete returns true iff it was present - for every hash function compatible with equality.", "quantifier": "every finite operation sequence, every hash function and equality", "why_tests_cant": "Collisions are rare in tests; note the expected outcome is a refutation under collisions.", "anchors": ["ds/xmap/custom.go"]}
{"id": "C34", "title": "Sharded behaves like one map when used sequentially", "statement": "For any shard count >= 1, seed and hash function compatible with key equality, any sequence of Set/TrySet/TryGet/Get/Has/GetOrSetDefault/GetOrSetFactory/Delete/Len/Empty/Keys/Values/Entries/ToMap/Clear on xmap.Sharded gives the results of a single map; NewShardedCustom panics iff shards <= 0.", "quantifier": "every shard count, hash function, seed and operation sequence", "why_tests_cant": "Hash/shard layouts and histories are unbounded.", "anchors": ["ds/xmap/sharded.go"]}
{"id": "C35", "title": "Sharded single-key operations are linearizable", "statement": "Under any interleaving of any number of goroutines, Set/TrySet/TryGet/Has/Delete/GetOrSetDefault/GetOrSetFactory on xmap.Sharded are linearizable: they appear to take effect atomically between call and return on one abstract map.", "quantifier": "every number of goroutines, every program of operations, every schedule", "why_tests_cant": "Schedules cannot be enumerated by tests.", "anchors": ["ds/xmap/sharded.go:Set,TrySet,TryGet,Has,Delete,GetOrSetDefault,GetOrSetFactory"]}
{"id": "C36", "title": "GetOrSetFactory runs the factory at most once per missing key", "statement": "If several goroutines concurrently call GetOrSetFactory for the same key and nobody deletes or clears it, at most one factory is run to its end and all calls that return return the same value; a factory is invoked only when the key is absent. (A factory that panics stores nothing, and the next call tries its own.)", "quantifier": "every schedule, number of goroutines, key", "why_tests_cant": "Races between the unlocked check and the locked re-check are schedule dependent.", "anchors": ["ds/xmap/sharded.go:GetOrSetFactory"]}
{"id": "C37", "title": "Sharded is free of data races", "statement": "No two goroutines access the same shard's map at the same time with one of them writing.", "quantifier": "every schedule and mix of operations", "why_tests_cant": "Needs all schedules; fails for Clear (writes under a read lock), so the full statement is refuted and holds without Clear.", "anchors": ["ds/xmap/sharded.go:Clear"]}
{"id": "C38", "title": "Sharded never deadlocks on its own", "statement": "If callbacks do not call back into the map, then in every reachable state either all goroutines are finished or some goroutine can take a step, and all locks are free when all are finished.", "quantifier": "every schedule and operation mix", "why_tests_cant": "Deadlocks are schedule dependent.", "anchors": ["ds/xmap/sharded.go"]}
{"id": "C39", "title": "Sharded.Len is an atomic snapshot", "statement": "Sharded.Len() returns the size the map had at some instant during the call.", "quantifier": "every schedule", "why_tests_cant": "Needs all schedules; note the expected outcome is a refutation (shards are counted one at a time), exact when no concurrent writes.", "anchors": ["ds/xmap/sharded.go:Len"]}
{"id": "C40", "title": "Stream pipelines compute the list pipeline", "statement": "For any finite source and any sequence of Map/Filter/Skip/Limit/Peek builder calls, Slice() returns exactly the source elements transformed by the corresponding list operations in order (map, filter, drop n, take n, identity).", "quantifier": "every finite source, every sequence of builder operations with pure callbacks", "why_tests_cant": "Skip is pushed to the source in some orders and not others; all orders must agree.", "anchors": ["stream/stream.go:Next,Map,Filter,Skip,Limit,Peek,Slice"]}
{"id": "C41", "title": "Terminal operations agree with the elements", "statement": "Collect visits, Count counts, Reduce folds left, All/Any/None quantify, First returns the first (panics if none) of exactly the pipeline's elements, in order.", "quantifier": "every finite pipeline and every callback", "why_tests_cant": "All pipelines and callbacks.", "anchors": ["stream/stream.go:Collect,All,Any,None,Count,First,Reduce,String"]}
{"id": "C42", "title": "Short-circuiting terminals leave the rest of the stream", "statement": "First, Any and All consume exactly the elements up to and including the deciding one; the remaining elements are still delivered by later calls.", "quantifier": "every finite pipeline and predicate", "why_tests_cant": "All positions of the deciding element.", "anchors": ["stream/stream.go:Any,All,First"]}
{"id": "C43", "title": "End of stream is sticky", "statement": "Once Next has returned ok=false it returns the zero value and false forever, and the source is never pulled again.", "quantifier": "every stream and every later number of calls", "why_tests_cant": "A history property.", "anchors": ["stream/stream.go:Next,clear"]}
{"id": "C44", "title": "Range yields the arithmetic progression", "statement": "stream.Range(start,end,step) yields start, start+step, ... up to and including end, then ends; RangeN(n) yields 0..n-1; IntegerSequence never ends.", "quantifier": "every integer type (bit width, signedness), start, end and non-zero step", "why_tests_cant": "Overflow boundaries of every integer type; refuted when end is the type's extreme value or for RangeN of an unsigned 0, proved when end+step is representable.", "anchors": ["stream/source.go:Range,RangeN,IntegerSequence,intSource"]}
{"id": "C45", "title": "Limit bounds consumption of infinite sources", "statement": "Limit(n) over an infinite source terminates after n elements and pulls only n elements from the source.", "quantifier": "every n and every infinite generator", "why_tests_cant": "All n; the exact number of pulls is n+1, so the statement about pulls is refuted and the termination part proved.", "anchors": ["stream/stream.go:Limit,Next", "stream/source.go:Generator"]}
{"id": "C46", "title": "Callbacks run element by element in pipeline order", "statement": "With effectful callbacks, each pulled element passes through the stages in order before the next is pulled, and stages after a rejecting stage are not invoked for it.", "quantifier": "every pipeline of stateful callbacks and every source", "why_tests_cant": "Effect orders over all pipelines.", "anchors": ["stream/stream.go:Next"]}
{"id": "C47", "title": "Peek observes every element that flows past it", "statement": "A Peek callback sees every element produced by the stages before it, whatever follows it.", "quantifier": "every pipeline", "why_tests_cant": "Depends on what follows: a later Skip is pushed to the source and bypasses Peek, so the statement is refuted.", "anchors": ["stream/stream.go:Peek,Skip"]}
{"id": "C48", "title": "Type-changing Map composes", "statement": "stream.Map(s,f) yields f applied to the elements of s, and skipping on it equals skipping on s, for any nesting of streams.", "quantifier": "every nesting depth and pipeline", "why_tests_cant": "Unbounded nesting.", "anchors": ["stream/stream.go:Map,typeTransformerStream,SkipNext"]}
{"id": "C49", "title": "Sources enumerate and skip exactly", "statement": "OfSlice/Of/OfRange/OfIterators/BoundedGenerate/Generate/New(source) deliver exactly the underlying elements, and Skip(n) drops exactly min(n, remaining) of them. Making a stream reads no element; iterators of slices that start at different cells are refused.", "quantifier": "every source, every n >= 0", "why_tests_cant": "n near MaxInt overflows in the slice source (refuted there); all positions otherwise.", "anchors": ["stream/source.go:sliceSource,iteratorSource,Generator,BoundedGenerator"]}
{"id": "C50", "title": "Predicate combinators mean their logical connectives", "statement": "Or(fns) is true iff some fn is; And(fns) is true iff every fn is; Not(fns) is true iff no fn is; Neg negates; IsEqAny/IsNeqAny test membership.", "quantifier": "every list of predicates and every value", "why_tests_cant": "All lists; And is implemented like Or, so the And part is refuted.", "anchors": ["xfn/predicate.go:Or,And,Not,Predicate.Or,Predicate.And,Neg,IsEqAny,IsNeqAny"]}
{"id": "C51", "title": "HasPrefix / HasSuffix", "statement": "xfn.HasPrefix(p)(v) is true iff v = p + rest for some rest, HasSuffix(s)(v) iff v = rest + s; same for the byte variants; they never panic.", "quantifier": "every pair of strings", "why_tests_cant": "All lengths including longer needles.", "anchors": ["xfn/predicate.go:HasPrefix,HasSuffix,HasPrefixBytes,HasSuffixBytes"]}
{"id": "C52", "title": "LessFloat is a strict weak order on all floats", "statement": "xfn.LessFloat is irreflexive, transitive and has transitive incomparability on all float values with NaN smallest, so sorting with it is well defined; plain Less is not when NaN is present.", "quantifier": "every triple of floats", "why_tests_cant": "2^192 triples.", "anchors": ["xfn/predicate.go:LessFloat,Less"]}
{"id": "C53", "title": "Bind routes arguments correctly", "statement": "A function made by xfn.Bind from a function src that is not variadic calls src with bound values (converted) at their positions, placeholder Pk replaced by the k-th call argument, and the remaining parameters filled in order from the call arguments after the highest placeholder; calls do not influence each other.", "quantifier": "every signature of a non-variadic src, every dest signature, argument list and sequence of calls", "why_tests_cant": "All signatures and placeholder layouts.", "anchors": ["xfn/bind.go:Bind"]}
{"id": "C54", "title": "Bind rejects ill-typed bindings and accepted ones are well-typed", "statement": "Bind panics exactly when an output type differs, there are too many arguments, a placeholder is out of range or has the wrong type, a value is not convertible, or inputs are missing or mismatched; otherwise every later call passes src arguments of exactly its parameter types.", "quantifier": "every signature and argument list", "why_tests_cant": "All signatures; fails for variadic src functions (refuted there).", "anchors": ["xfn/bind.go:Bind"]}
{"id": "C55", "title": "Min, Max and FullComparatorOf", "statement": "xmath.Min/Max return one of their arguments, a lower/upper bound of both; FullComparatorOf is negative/zero/positive as a<b, a=b, a>b - for totally ordered types.", "quantifier": "every pair of values", "why_tests_cant": "All values; NaN excluded.", "anchors": ["xmath/number.go", "xfn/comparator.go:FullComparatorOf"]}
{"id": "C56", "title": "xhash.Uint64 never collides", "statement": "xhash.Uint64 is a bijection on 64-bit words: distinct inputs have distinct hashes.", "quantifier": "all 2^64 inputs", "why_tests_cant": "2^128 pairs.", "anchors": ["xhash/fast64.go:Uint64,rrmxmx"]}
{"id": "C57", "title": "Uint64Seed and the incremental hash are injective in every word", "statement": "xhash.Uint64Seed(v,seed) is injective in v for fixed seed and in seed for fixed v; hence two WriteUint64 sequences of the same length differing in exactly one word always have different Sum64.", "quantifier": "all words, all sequence lengths and positions", "why_tests_cant": "Unbounded sequences of 64-bit words.", "anchors": ["xhash/fast64.go:Uint64Seed,WriteUint64,Sum64"]}
{"id": "C58", "title": "Incremental64.Write hashes exactly the bytes of p", "statement": "Incremental64.Write(p) never panics, returns len(p), and the resulting state depends only on the previous state and the bytes p[0:len(p)].", "quantifier": "every byte slice with any length, offset and spare capacity", "why_tests_cant": "All lengths/capacities; refuted when len(p) is not a multiple of 8, proved otherwise.", "anchors": ["xhash/fast64.go:Write"]}
{"id": "C59", "title": "Little-endian encoding round-trips", "statement": "Decoding the 8 bytes written for a word gives the word back, and Sum(b) is b followed by the 8 little-endian bytes of Sum64; b is unchanged.", "quantifier": "all 2^64 words, every prefix b", "why_tests_cant": "2^64 words.", "anchors": ["xhash/binary.go", "xhash/fast64.go:Sum"]}
{"id": "C60", "title": "xhash.Uint64/Uint64Seed equal XXH3 of the 8 bytes", "statement": "xhash.Uint64(v) (Uint64Seed(v,seed)) equals the XXH3 64-bit hash of the 8-byte string formed by the high half then the low half of v, little-endian each.", "quantifier": "all v and seeds", "why_tests_cant": "2^128 pairs; unit test samples 6000.", "anchors": ["xhash/fast64.go:Uint64,Uint64Seed"]}
{"id": "C61", "title": "RNG.Read always fills its argument and never fails", "statement": "secrand.RNG.Read(b) returns len(b),nil and never panics, for any sequence of calls with any lengths, any legal buffer size and rounds.", "quantifier": "every seed, nonce, buffer size >= 64, rounds, call sequence", "why_tests_cant": "Unbounded histories of reads of any size across refills.", "anchors": ["secrand/rng.go:Read,NewRNGCustom"]}
{"id": "C62", "title": "RNG erases what it has handed out", "statement": "After any sequence of reads, no byte already returned to a caller is still stored in the part of the internal buffer already consumed: it is all zero (backtracking resistance).", "quantifier": "every history of Read/Uint64 calls", "why_tests_cant": "A history property about internal memory.", "anchors": ["secrand/rng.go:Read,Uint64,copyAndErase,erase"]}
{"id": "C63", "title": "Small reads give a stream independent of chunking", "statement": "As long as no single Read exceeds the internal buffer, the concatenated output does not depend on how it is split into Read calls (as the documentation of Read suggests).", "quantifier": "every seed and every two splittings of the same total length", "why_tests_cant": "All splittings; a read straddling a refill re-mixes already delivered bytes, so the statement is refuted and holds when reads do not straddle refills.", "anchors": ["secrand/rng.go:Read"]}
{"id": "C64", "title": "Uint64 and Int63 agree with Read", "statement": "RNG.Uint64 equals the little-endian value of the 8 bytes the next Read would return and leaves the same state; Int63 is its low 63 bits, hence non-negative. Seed panics and leaves the generator as it was.", "quantifier": "every reachable RNG state", "why_tests_cant": "All buffer positions including the last 7 bytes.", "anchors": ["secrand/rng.go:Uint64,Int63,toUint64,Seed"]}
{"id": "C65", "title": "NewRNGCustom validates its parameters", "statement": "NewRNGCustom panics iff bufsize < 64 or rounds is not 8, 12 or 20; otherwise the RNG starts with bufsize fresh bytes. NewRNGFromSeed and NewRNGFromSeedNonce start with 1024 bytes of ChaCha12 for the given seed and nonce.", "quantifier": "every bufsize and rounds", "why_tests_cant": "All integers; the doc comment says 32, the code 64.", "anchors": ["secrand/rng.go:NewRNGCustom"]}
{"id": "C66", "title": "Read output depends on the previous contents of b only in the large case", "statement": "For len(b) small enough to be served from the buffer (after at most one reseed) the result of Read does not depend on b's previous contents; for larger b the result is the previous contents xored with key stream.", "quantifier": "every state and every b", "why_tests_cant": "All contents; the doc comment claims xoring always happens.", "anchors": ["secrand/rng.go:Read"]}
{"id": "C67", "title": "atomic.Value is linearizable", "statement": "Load/Store/Swap on atomic.Value are linearizable as an atomic register initially zero, and a CompareAndSwap that returns true took effect atomically with the value equal to old; a CompareAndSwap that returns false changed nothing.", "quantifier": "every number of goroutines, every program, every schedule", "why_tests_cant": "Schedules cannot be enumerated.", "anchors": ["atomic/value.go:Load,Store,Swap,CompareAndSwap"]}
{"id": "C68", "title": "CompareAndSwap fails only if the value differs", "statement": "If atomic.Value.CompareAndSwap(old,new) returns false, the value differed from old at some instant during the call (as the code comment claims).", "quantifier": "every schedule", "why_tests_cant": "Needs a specific interleaving: a concurrent Store of an equal value makes it fail spuriously, so the statement is refuted.", "anchors": ["atomic/value.go:CompareAndSwap"]}
{"id": "C69", "title": "Synchronized gives mutual exclusion", "statement": "Between Lock and Unlock on xsync.Synchronized no other goroutine is between its own Lock and Unlock; hence read-modify-write sequences under the lock lose no update. RWSynchronized allows many readers or one writer.", "quantifier": "every schedule and number of goroutines", "why_tests_cant": "Schedules.", "anchors": ["xsync/synchronized.go"]}
{"id": "C70", "title": "Pooled generators are never shared", "statement": "xrand/secrand package-level functions use a generator taken from the pool and returned afterwards: no two goroutines use the same generator at the same time.", "quantifier": "every schedule and number of goroutines", "why_tests_cant": "Schedules.", "anchors": ["secrand/pool.go", "xrand/pool.go", "secrand/secrand.go", "xrand/xrand.go"]}
{"id": "C71", "title": "xsync.Pool.Get returns what was put or made by New", "statement": "xsync.Pool[T].Get returns a *T previously Put and not handed out since, or a fresh one from New; on an empty pool without New it returns nil.", "quantifier": "every history", "why_tests_cant": "Histories; refuted for the empty pool without New (type assertion panics).", "anchors": ["xsync/pool.go"]}
{"id": "C72", "title": "Ring reallocations cost amortised O(1) per call", "statement": "Over any history of calls on an xring.Ring, the total number of elements copied by reallocations (growth and shrink) is at most the initial length plus a constant (9) times the number of calls - alternating growth and shrink cannot thrash.", "quantifier": "every constructor and every finite sequence of operations", "why_tests_cant": "An amortised bound over all histories; benchmarks only sample some.", "anchors": ["ds/xring/ring.go:checkGrowth,checkShrink"]}
{"id": "C73", "title": "Seeding from a reader takes exactly the seed", "statement": "NewRNGFromReader(r) consumes exactly 32 bytes of r, in whatever pieces r delivers them, and returns the generator seeded with them; it panics if r ends before that.", "quantifier": "every reader that delivers at least one byte per call until its end, every way of cutting the bytes into pieces", "why_tests_cant": "All ways in which a reader may cut its data, including data delivered together with io.EOF.", "anchors": ["secrand/rng.go:NewRNGFromReader,mustRead"]}
{"id": "C74", "title": "NewRNG calls get distinct pieces of the master stream", "statement": "Whatever the schedule, concurrent NewRNG calls are seeded as if they ran one after the other: the i-th gets the i-th 32 bytes that the master generator delivers, and no two get the same ones.", "quantifier": "every number of goroutines and every schedule", "why_tests_cant": "Schedules; reading the master generator takes several steps.", "anchors": ["secrand/rng.go:NewRNG", "xrand/pool.go:newRng"]}
{"id": "C75", "title": "atomic.Ptr is a linearizable pointer variable", "statement": "Every concurrent history of Load, Store, Swap and CompareAndSwap on an atomic.Ptr[T] is linearizable as a plain pointer variable; CompareAndSwap(old,new) returns true exactly when the pointer is old at that moment and then leaves new, every call finishes in one step, and of any number of goroutines that race to replace nil exactly one wins.", "quantifier": "every number of goroutines, every schedule and all pointers", "why_tests_cant": "Schedules.", "anchors": ["atomic/ptr.go"]}
{"id": "C76", "title": "xrand.Crypto numbers are the bytes read", "statement": "Crypto.Uint64 is the number made of the 8 bytes read from crypto/rand (so uniform bytes give uniform numbers), Int63 its low 63 bits (never negative); both panic exactly when the read fails, and Seed has no effect.", "quantifier": "all bytes, all failures", "why_tests_cant": "2^64 possible reads.", "anchors": ["xrand/crypto.go"]}
{"id": "C77", "title": "Bounded random numbers are in range and unbiased", "statement": "Int63n(n), Int31n(n) and Intn(n) of xrand and secrand panic exactly when n <= 0, and otherwise return a number in [0,n) whatever the generator delivers; of the words the generator may deliver, equally many lead to each result, rejected words have no influence on the result, and less than half of all words are rejected. Uint32, Int31, Int and Int63 use one word each and stay in their range.", "quantifier": "every n, every generator of 63-bit words and every state of it", "why_tests_cant": "A bias is invisible to sampling for most n, and there are 2^63 words per call.", "anchors": ["xrand/xrand.go:Int63n,Int31n,Intn,Uint32,Int31,Int", "secrand/secrand.go"]}
{"id": "C78", "title": "Perm and Shuffle give every order, each in exactly one way", "statement": "Perm(n) returns a permutation of 0..n-1 and Shuffle(n,swap) calls swap(i,j) with 0 <= j <= i for i = n-1 down to 1, for every generator; with the draws uniform, every one of the n! orders comes from exactly one vector of draws. Perm panics exactly for n < 0, and so does Shuffle.", "quantifier": "every n, every generator, every swap function, every permutation", "why_tests_cant": "n! orders; an off-by-one in a bound gives plausible looking but biased orders.", "anchors": ["xrand/xrand.go:Perm,Shuffle", "secrand/secrand.go:Perm,Shuffle"]}
{"id": "C79", "title": "Read is a byte stream and floats are below 1", "statement": "Read fills its whole argument with seven bytes per word of the generator, lowest first; the bytes do not depend on how reads are cut. Float64 and Float32 return numbers of 53 and 24 bits in [0,1), never 1: the next word over 2^63, rounded to the nearest float; words that would give 1 are passed over.", "quantifier": "every generator, all lengths and ways of cutting, every word", "why_tests_cant": "All splits; the words that round to 1 have probability 2^-54.", "anchors": ["xrand/xrand.go:Read,Float64,Float32", "secrand/secrand.go:Read,Float64,Float32"]}
{"id": "C80", "title": "Stable makes O(n log n) comparisons whatever the comparator answers", "statement": "Stable calls the comparator at most 3*n*(floor(log2 n)+1) + 19*n times on a slice of n elements, for every comparator, including inconsistent, random and stateful ones.", "quantifier": "every slice of every length, every comparator with any internal state", "why_tests_cant": "A worst case bound over all inputs and comparators.", "anchors": ["xsort/sort.go:Stable", "xsort/sort_any.go:stableLessFunc,symMergeLessFunc,insertionSortLessFunc"]}
{"id": "C81", "title": "Sort is linear on data that is already in order", "statement": "Sort leaves already sorted data unchanged - equivalent elements keep their places although Sort is not stable - after at most n+11 comparisons; strictly descending data of at least 50 elements is reversed after exactly n+11 comparisons.", "quantifier": "every sorted or strictly descending slice of every length, every comparator that answers by the order", "why_tests_cant": "Ranges over all sorted slices; the pattern detection has many thresholds.", "anchors": ["xsort/sort.go:Sort", "xsort/sort_any.go:pdqsortLessFunc,choosePivotLessFunc,partialInsertionSortLessFunc,reverseRangeLessFunc"]}
{"id": "C82", "title": "Arithmetic functions wrap, divide and add up as the operators do", "statement": "For every integer type, Plus/Minus/Mult(rhs)(lhs) and PlusOp/MultOp(lhs,rhs) are lhs op rhs wrapped into the type; Minus(y) undoes Plus(y) even on overflow; Div/Mod/DivOp/ModOp panic exactly for a zero divisor and otherwise give the truncated quotient and the remainder with the sign of the dividend (min/-1 wraps to min). Reducing a stream of integers with PlusOp or MultOp gives the exact sum or product wrapped once, whatever the order and however often it overflows on the way; reducing strings concatenates them in order; float + and * commute for all operands, but float sums depend on the order.", "quantifier": "every integer width and signedness, all operands, all streams, all floats", "why_tests_cant": "2^128 operand pairs per operator, all streams and orders.", "anchors": ["xfn/arithmetic.go", "stream/stream.go:Reduce"]}
{"id": "C83", "title": "Equal values hash alike", "statement": "Values that are == (structs, arrays, interfaces, floats, strings, ...) get the same hash from every function of hasher, for every seed and at any time; +0 and -0 are alike, blank fields do not count. Hashing panics exactly if an interface inside the value holds something uncomparable; only values with a NaN inside are not equal to themselves, and a NaN gets a hash as random as the runtime's random number. All the functions and methods agree with each other, by value or by pointer. Hence NewSharded's default hasher meets what Sharded needs to be linearizable.", "quantifier": "all values of all comparable types, all seeds, every hash of raw memory", "why_tests_cant": "All pairs of values of an open ended universe of types.", "anchors": ["hasher/hasher.go", "hasher/runtime_go118.go", "ds/xmap/sharded.go:NewSharded"]}
{"id": "C84", "title": "Callbacks of Sharded may call the map", "statement": "A function passed to GetOrSetFactory, Iterate, IterateShards or IterateShardsReadOnly may itself call methods of the map: the outer call still returns once the function does.", "quantifier": "every number of shards, hash, key and schedule; all callbacks, which call any methods, with callbacks of their own, depending on earlier results", "why_tests_cant": "Ranges over all nested callbacks and all schedules; tests rarely call back into the map, and a deadlock may need a third goroutine at the right moment.", "anchors": ["ds/xmap/sharded.go:GetOrSetFactory,Iterate,IterateShards,IterateShardsReadOnly"]}
{"id": "C85", "title": "A panic on an unhashable key leaves Sharded usable", "statement": "Calling a method with a key that cannot be hashed (an interface holding a slice) panics; a goroutine that recovers from it, and all others, can go on using the map: no later call waits for ever.", "quantifier": "every number of shards, every hasher, all methods with a key, all later calls by any goroutine, all schedules", "why_tests_cant": "The hang shows only in later calls, and depends on the number of shards, which by default depends on the machine.", "anchors": ["ds/xmap/sharded.go:GetShard,Set,TrySet,TryGet,Has,Delete,GetOrSetFactory,GetOrSetDefault"]}
{"id": "C86", "title": "A panicking comparator loses no element", "statement": "If the comparator given to Sort or Stable panics, the slice is left holding exactly the elements it held before, in some order; the sorts never panic of their own accord. Every time the comparator is called, its arguments are elements of the slice and the slice, if the comparator looks at it, holds all its elements. If the sort returns, the slice is sorted, whether or not the comparator looked at the slice.", "quantifier": "every slice, every comparator (with state, looking at the slice, panicking at any call)", "why_tests_cant": "The panic may come at any of the comparisons, of every input.", "anchors": ["xsort/sort.go:Sort,Stable", "xsort/sort_any.go"]}
{"id": "C87", "title": "Reads of a whole Sharded map are weakly consistent", "statement": "Len, Empty, Keys, Values, Entries, ToMap, Iterate and IterateShardsReadOnly, running while other goroutines read and write the map by key, tell of no key twice, of every key that was in the map during the whole call, and of no entry that was not in the map at some moment of the call. If nothing changes during the call they tell exactly the map.", "quantifier": "every number of shards, every hash, every set of goroutines and calls by key, every schedule", "why_tests_cant": "Which entries are seen depends on where the writes fall between the visits to the shards.", "anchors": ["ds/xmap/sharded.go:Len,Empty,Keys,Values,Entries,ToMap,Iterate,IterateShardsReadOnly"]}
{"id": "C88", "title": "A ring in shared memory", "statement": "A ring made from any slice of any array, or by any other constructor, answers like a deque as long as other code does not write into the ring's memory: slices returned by ToSlice show the elements, pointers returned by AtRef point to theirs. The ring writes only to its own memory (the slice given to Of or OfSlice, or memory of its own) and to the slice given to ToSlice; slices returned by ToSlice never change because of later calls. A pointer from AtRef stays with its element until Cap() changes; after that it points outside the ring.", "quantifier": "every memory, every slice (with spare capacity, sharing its array with others), every history of calls and of writes by other code outside the ring, every growth policy of append", "why_tests_cant": "Sharing shows only for particular capacities, wrap positions and orders of calls.", "anchors": ["ds/xring/ring.go"]}
{"id": "C89", "title": "ToSlice takes any destination", "statement": "Ring.ToSlice(s) returns the ring's elements and leaves the ring unchanged, whichever slice s is.", "quantifier": "every ring, every history, every slice, also one that shares memory with the ring", "why_tests_cant": "Depends on where the elements wrap in the buffer and where s lies.", "anchors": ["ds/xring/ring.go:ToSlice,OfSlice"]}
{"id": "C90", "title": "An assigned Ring is a ring of its own", "statement": "After r2 := r (Ring is a struct, and New, Of and the others return it by value) calls on r do not change what r2 holds.", "quantifier": "every ring, every history before and after the assignment", "why_tests_cant": "Depends on whether and when the ring reallocates.", "anchors": ["ds/xring/ring.go:Ring"]}
{"id": "C91", "title": "A comparator that writes to the slice does no harm to the sort", "statement": "xsort.Sort and xsort.Stable with a comparator that writes to the slice it is sorting (and may also look at it, panic, or answer at random) never go out of range, never hang, and stop only by returning or with the comparator's own panic. Between two calls of the comparator they only rearrange what the slice holds, so no element is lost, doubled or made up except by the comparator's own writes; each call is asked about two elements the slice holds at that time. Sort makes at most 19 n^2 calls, Stable at most 3 n (log2 n + 1) + 19 n, and calls nest no deeper than floor(log2 n) + 1.", "quantifier": "every element type, slice, comparator with any state and any writes, every pattern of panics", "why_tests_cant": "The comparator can change the data between any two steps; no finite set of such comparators covers the interleavings.", "anchors": ["xsort/sort.go:Sort,Stable", "xsort/sort_any.go"]}
{"id": "C92", "title": "Ranges, their parts and their lengths", "statement": "For every range between two iterators of one sequence, walking from Begin to End reads the elements between; iter.Distance and iter.RangeDistance give their number (negative when End comes before Begin); iter.SubRange(r, i, j) walks elements i to j of the range, at any depth of nesting, for forward and reverse iterators. SubRange counts from the beginning of the range and panics exactly when the part leaves the slice (not when it leaves the range); Distance refuses iterators of different slices. The dummy iterator denotes the empty range and ignores all it is told.", "quantifier": "every element type, every lawful random-access iterator, every range and pair of bounds", "why_tests_cant": "Bounds, directions and nestings combine without limit.", "anchors": ["ds/iter/range.go:SubRange,RangeDistance", "ds/iter/funcs.go:Distance", "ds/iter/dummy.go:DummyIterator"]}
{"id": "C93", "title": "The plain methods of Slice", "statement": "Len, Empty, At, First and Last tell the elements and panic exactly outside them; Set changes one element, visible through every slice that shows the same memory and through no other; Sub(i, j) shows elements i to j in the same memory, may extend up to the capacity, and panics beyond.", "quantifier": "every memory, every slice of it (with spare capacity, sharing its array with others), every index and value", "why_tests_cant": "Sharing and capacities combine without limit.", "anchors": ["ds/xslice/slice.go:Len,Cap,Empty,Sub,At,Set,First,Last"]}
{"id": "C94", "title": "Searching and permuting are safe with every comparator", "statement": "With a comparator that is not an order, answers at random, or panics, LowerBound, UpperBound, IsSortedUntil and IsSorted change no element, return a position inside the range or let the comparator's panic through, and make at most floor(log2 n) + 1 (the searches) or n - 1 (the others) calls. NextPermutation leaves a permutation of the range and everything else alone; if the comparator panics, no element has moved.", "quantifier": "every element type, lawful iterator, range, value, and comparator with any state that does not write to the elements", "why_tests_cant": "A comparator can be wrong in unboundedly many ways, at any call.", "anchors": ["algo/binary_search.go", "algo/is_sorted.go", "algo/next_permutation.go"]}
{"id": "C95", "title": "Incremental64 can be fed in pieces like any hash.Hash64", "statement": "As for every hash.Hash, the sum depends only on the bytes written since the last Reset, not on how they were cut into Write calls (so io.Copy, bufio and fmt.Fprint can feed it). Sum appends Size() bytes, the little-endian Sum64, and hashers whose states differ have different sums; after Reset a hasher behaves like a new one.", "quantifier": "every sequence of writes of whole 8-byte blocks, every way of cutting it, every state", "why_tests_cant": "There are exponentially many ways to cut an input.", "anchors": ["xhash/fast64.go:Write,Sum,Sum64,Reset,Size,BlockSize"]}
{"id": "C96", "title": "Bind's panic names the first problem", "statement": "When xfn.Bind refuses, its panic message describes the first problem, in the order: kind of src, kind of Dest, number of results, results from the left, number of arguments, arguments from the left, missing parameters, remaining parameters from the left; with the ordinal positions (in English: 1st, 2nd, 3rd, 4th, ..., 11th), types and counts concerned. P(i) is placeholder number i for every i >= 1 and panics for every other i.", "quantifier": "every src, Dest and argument list, every type universe", "why_tests_cant": "Signatures and argument lists have any length and problems combine.", "anchors": ["xfn/bind.go:Bind,_ith,P,Placeholder"]}
{"id": "C97", "title": "Iterator offsets and distances with 64-bit ints", "statement": "Add(d) on a slice iterator or a reverse of one goes to the exact position p + d (p - d) when the slice has it and otherwise panics, for every int d, including those where the sum or the negation overflows; Distance and RangeDistance are exact. The iterators are lawful random-access iterators with these ints.", "quantifier": "every slice of up to math.MaxInt elements, every position, every int offset", "why_tests_cant": "There are 2^64 offsets for each position.", "anchors": ["ds/xslice/iterator.go:Advance,Inc,Dec", "ds/iter/reverse.go:Add,Pos", "ds/iter/funcs.go:Distance", "ds/iter/range.go:RangeDistance"]}
{"id": "C98", "title": "Rings with 64-bit ints", "statement": "With wrapping 64-bit ints and bounded memory, a ring of any element type answers every history like a deque, except that adding an element may panic when the memory for the new buffer cannot be had, and then the ring is unchanged. No index or capacity computation overflows.", "quantifier": "every element type and size, every initial length, every history", "why_tests_cant": "Overflow shows only at sizes no test reaches.", "anchors": ["ds/xring/ring.go:checkGrowth,checkShrink,Append,Prepend,AtRef,Last"]}
{"id": "C99", "title": "A recovered panic costs a stream one element", "statement": "When a Map, Filter or Peek callback panics during Next and the program recovers, the stream stays usable: every further Next goes on with the element after, and the calls together tell, in order, one result or panic for each element, then the end for ever. An element on which a callback panics counts for the Limits and Skips before that callback and not for those after it; all the elements that come are those of the pipeline that filters such elements out at that stage.", "quantifier": "every source that delivers a finite list, every sequence of builder calls, every partial callback, every number of calls of Next", "why_tests_cant": "Callbacks may panic on any subset of the elements at any stage.", "anchors": ["stream/stream.go:Next,Map,Filter,Skip,Limit,Peek"]}
{"id": "C100", "title": "Unequal values hash alike only if raw hashes collide", "statement": "Two values of the same type (their interfaces holding the same types) that are not == and contain no NaN have different hashes from every function of hasher under the same seed, unless two pieces of memory hashed on the way, or the seeds they are hashed with, differ and have the same raw hash: every part that takes part in == reaches the hash, in its place, and +0 and -0 are the only different bits that count as equal. The dynamic type of an interface does not reach the hash.", "quantifier": "all pairs of values of all comparable types, all seeds, every 64-bit hash of raw memory", "why_tests_cant": "All pairs of values of an open ended universe of types.", "anchors": ["hasher/hasher.go", "hasher/runtime_go118.go"]}
{"id": "C101", "title": "A Slice variable behaves like a list", "statement": "Over every history of Append, AppendMany, InsertAt, Delete, DeleteLast, UnorderedDelete and Set on an xslice.Slice variable, the calls that panic are exactly those whose index is outside the list, a call that panics changes nothing, and the elements are those of the list; slices in other memory never change.", "quantifier": "every element type, start slice, growth policy of append, and history", "why_tests_cant": "Histories are unbounded and cross reallocations at points that depend on capacities.", "anchors": ["ds/xslice/slice.go:Append,AppendMany,Delete,DeleteLast,UnorderedDelete,InsertAt,Set", "ds/xslice/ops.go"]}
{"id": "C102", "title": "Iterators kept while their slice changes", "statement": "An iterator taken from a Slice and kept while the slice is appended to, inserted into and deleted from acts, at its position, on the elements the slice has then (Get, Set, Insert, Equal with new iterators), or panics; it never acts on anything else unnoticed.", "quantifier": "every slice, iterator and history of changes", "why_tests_cant": "Whether an iterator is still good depends on capacities and the whole history since it was taken.", "anchors": ["ds/xslice/iterator.go:Get,Set,Equal,Inc", "ds/xslice/slice.go:Insert,checkIterator", "ds/xslice/ops.go:ReferenceEqual"]}
{"id": "C103", "title": "Compare-and-swap loops on atomic.Value lose no update", "statement": "If goroutines use an atomic.Value only through loops `for { x := v.Load(); if v.CompareAndSwap(x, f(x)) { break } }`, then once all have returned the values replaced by the successful updates are the start value x, f(x), f(f(x)), ..., each exactly once (so they serve as unique tickets), and the Value holds the next one. An update fails only if the value changed since it was called.", "quantifier": "every type where == is identity, every f, every number of goroutines, every schedule", "why_tests_cant": "Lost updates need particular interleavings of unboundedly many goroutines.", "anchors": ["atomic/value.go:Load,CompareAndSwap"]}
{"id": "C104", "title": "The sorts with 64-bit ints", "statement": "Computing indices with wrapping 64-bit ints makes no difference to Sort and SortOrdered on slices of at most 2^62 elements, nor to Stable and StableOrdered up to 2^61: same result, same elements left behind and same comparator calls as with unbounded integers, for every comparator. So they are safe for every comparator and sort (stably) for every strict weak order on real machines.", "quantifier": "all slices up to these lengths, all comparators, also stateful, panicking or writing ones", "why_tests_cant": "Overflow shows only on inputs no test can build.", "anchors": ["xsort/sort_any.go", "xsort/sort_ordered.go", "xsort/sort.go"]}
{"id": "C105", "title": "A Slice kept sorted is a sorted multiset", "statement": "A Slice that is sorted by a strict weak order stays so when elements are added by s.Insert(algo.UpperBoundAny(s.Range(), v, less), v), removed by s.Delete at the position of algo.LowerBoundAny if the element there is equivalent, and looked up the same way: no call panics, every lookup is right, an added element comes after its equivalents, a removal takes the first equivalent, and nothing else changes.", "quantifier": "every element type, strict weak order, sorted start slice, growth policy of append, history of additions, removals and lookups", "why_tests_cant": "Histories are unbounded; the iterators found must belong to the slice the variable holds at that moment, across reallocations.", "anchors": ["algo/binary_search.go", "ds/xslice/slice.go:Insert,Delete,Range", "ds/xslice/iterator.go"]}
{"id": "C106", "title": "The sorts take O(n log n) and O(n log\u00b2 n) time in the worst case", "statement": "Counting every pass of a loop, every recursive call, every call of the comparator and every exchange of two elements as one step: Sort and SortOrdered take O(n log n) steps on every slice for every strict weak order, and O(n) on sorted data; whatever the comparator answers, Sort takes no more than ten steps per call of the comparator (plus four), and Stable and StableOrdered take at most 70 n (log2 n + 1)^2 + 3 steps.", "quantifier": "all slices, all strict weak orders (Sort), all comparators (Stable; the bound per comparison)", "why_tests_cant": "Worst cases of an adaptive sort are adversarial inputs; measuring some inputs bounds nothing.", "anchors": ["xsort/sort.go: Sort, SortOrdered, Stable, StableOrdered", "xsort/sort_any.go: pdqsortLessFunc, stableLessFunc, symMergeLessFunc, rotateLessFunc", "xsort/sort_ordered.go"]}
{"id": "C107", "title": "Exchanges through atomic.Value and atomic.Ptr lose and duplicate nothing", "statement": "If goroutines use a Value or Ptr only through Load, Swap and CompareAndSwap (no Store), then once every call has returned, the values taken out (what each Swap returned, and the old value of each CompareAndSwap that returned true) together with the value still held are exactly, counted with multiplicity, the first value together with the values put in (the argument of each Swap, the new value of each CompareAndSwap that returned true).", "quantifier": "every type, first value, number of goroutines, calls and interleaving (with CompareAndSwap on Value: types whose == is identity)", "why_tests_cant": "the concurrent swap test sums the results of one run of 10000 goroutines; a lost or doubled hand-over may need an interleaving that no run shows", "anchors": ["atomic/value.go: Value.Load, Value.Swap, Value.CompareAndSwap", "atomic/ptr.go: Ptr.Load, Ptr.Swap, Ptr.CompareAndSwap"]}
{"id": "C108", "title": "Sharded behaves like one Go map for every key type", "statement": "Used by one goroutine, a Sharded map answers every call as one Go map would after the same calls, also for keys such as floats, where +0 and -0 are equal and a NaN is not equal to itself: +0 and -0 are one entry whose key is the one last set, every Set of a NaN adds an entry that no lookup finds and no Delete removes, and Len, Keys, Values, Entries, ToMap and Iterate tell all entries once. It needs only that the hash function gives equal keys the same hash; the hash of a NaN may be different at every call. IterateShards is included when its callback goes through the entries of the map it is given, deleting and changing some.", "quantifier": "all numbers of shards, all symmetric and transitive key equalities, all hash functions that agree with them, all random hashes of NaNs, all sequences of calls, all iteration orders", "why_tests_cant": "depends on how equal keys that are not identical and keys that are not equal to themselves are spread over the shards, which the runtime decides with random numbers", "anchors": ["ds/xmap/sharded.go: Sharded, GetShard, IterateShards, Entries, ToMap, Len", "hasher/hasher.go: Of, HashSeed"]}
{"id": "C109", "title": "Seen one key at a time, every call of Sharded is atomic", "statement": "While any number of goroutines use a Sharded map, for every key x each call - the single-key calls, IterateShards with a callback that goes through the entries it is given (deleting some, giving new values to others), and the calls that look at the whole map (Len, Empty, Keys, Values, Entries, ToMap, Iterate, IterateShardsReadOnly) - takes effect on the entry of x at one instant between its call and its return, and its answer tells of x exactly what that entry was at that instant (once if it was there, not at all if not). This holds also beside Clear as far as accesses to a shard's map pointer are atomic. Across keys IterateShards, Clear and the looks are not atomic.", "quantifier": "every key type with any partial equivalence as == and a hash that respects it, every key equal to itself, every number of shards, every set of goroutines, calls and interleaving of their instructions", "why_tests_cant": "The number of interleavings of lock operations and map accesses of several goroutines is unbounded; a stress test sees few of them.", "anchors": ["ds/xmap/sharded.go: Sharded.IterateShards, Sharded.Clear, Sharded.Iterate, Sharded.Entries, Sharded.Keys, Sharded.Set, Sharded.TryGet, Sharded.GetOrSetFactory"]}
{"id": "C110", "title": "A callback may call Next on its own stream", "statement": "A Map, Filter or Peek callback may call Next on the stream it belongs to: nothing panics, and stages such as Limit count the elements taken this way.", "quantifier": "every source, every sequence of stages, every callback code (reads, writes, nested calls of Next to any depth) and any number of calls", "why_tests_cant": "A test tries one nesting; whether a nested call that reaches the end leaves the outer call in trouble depends on all stages behind the callback.", "anchors": ["stream/stream.go: Stream.Next, Stream.clear, Stream.empty, Stream.Limit"]}
{"id": "C111", "title": "A stream over a slice reads each element when its turn comes", "statement": "OfSlice(a) (and Of(a...), and OfIterators over the Begin and End of an xslice) does not copy a: an element is read when the stream pulls it. So Collect on a stream with Filter, Map and Peek stages does exactly what a range loop over a would do: callbacks that write to later elements see their own writes, and appending to the slice variable does not make the stream longer. Collecting into the front of the same slice (b := a[:0]; Collect(b.Append)) is safe for every pipeline: b gets what the pipeline gives for the original elements, also if a stage panics on the way, and no other memory changes.", "quantifier": "all slices anywhere in memory, all pipelines (all stages for the in-place part), all callbacks including ones that write to the slice or panic", "why_tests_cant": "The tests stream over literals that nobody writes to; whether a write comes before or after the read depends on the pipeline and on where in the slice it is.", "anchors": ["stream/conv.go: OfSlice, Of", "stream/source.go: sliceSource, iteratorSource, OfIterators", "stream/stream.go: Next, Collect", "ds/xslice/slice.go: Append"]}
{"id": "C112", "title": "Sort is linear on data with few different elements", "statement": "If the elements fall into k kinds (elements of a kind being equivalent under less), xsort.Sort and xsort.SortOrdered make at most C * n * k comparisons and take at most C * n * k + C steps, for one constant C: sorting n elements with a bounded number of different keys is linear, whatever their arrangement.", "quantifier": "every element type, strict weak order, slice, number of kinds and comparator state", "why_tests_cant": "Benchmarks sample a few arrangements of a few keys; that no arrangement defeats the treatment of equal elements is a statement about all of them.", "anchors": ["xsort/sort_any.go: pdqsortLessFunc, partitionEqualLessFunc", "xsort/sort_ordered.go: pdqsortOrdered", "xsort/sort.go: Sort, SortOrdered"]}
{"id": "C113", "title": "NextPermutation takes constant amortised comparisons on different elements", "statement": "Calling NextPermutation k times in a row on a range of n elements of which no two are equivalent under a strict weak order, starting from any arrangement and going on past the last one, calls the comparator at most 4k + 2n times in all. The loop that starts from the sorted arrangement and runs until NextPermutation returns false visits every permutation once and calls the comparator at most four times per permutation visited, although a single call may need about n + log n of them.", "quantifier": "Every lawful random-access iterator range at any place in its sequence, every strict weak order, every arrangement of pairwise different elements, every number of consecutive calls.", "why_tests_cant": "The bound is about sums over all n! arrangements and over runs of any length; tests run a handful of elements and do not count calls.", "anchors": ["algo/next_permutation.go: NextPermutationIterators, NextPermutationAny", "algo/is_sorted.go: IsSortedUntilIterators", "algo/binary_search.go: UpperBoundIterators"]}
{"id": "C114", "title": "IsSortedUntil and IsSorted compare neighbours once each, from the front, and stop at the first drop", "statement": "IsSortedUntil and IsSorted call the comparator exactly with (second, first), (third, second), and so on, the later element first, and stop after the first call that answers true; if none does they make one call for each pair of neighbours. They make no other call and change nothing.", "quantifier": "Every lawful forward iterator range, every comparator function (no order needed), every sequence of elements.", "why_tests_cant": "Which calls are made, and with which argument first, is seen only by the comparator; tests use pure comparators and small slices.", "anchors": ["algo/is_sorted.go: IsSortedUntilIterators, IsSortedIterators, IsSortedUntilAny, IsSortedAny"]}
{"id": "C115", "title": "diehard_gen in its counting modes writes every 64-bit word once before it repeats", "statement": "With -uint64 or -uint64_seed the program writes 64-bit words, least significant byte first, such that word i and word j are equal exactly when i and j are congruent modulo 2^64: every 64-bit value occurs, and none occurs twice before all have occurred. With -incr64 the words also come round in one cycle that includes the first word, of some length at most 2^64. The output after more rounds extends the output after fewer.", "quantifier": "Every mode, every number of rounds (also beyond 2^64), every pair of positions.", "why_tests_cant": "The claim is about more than 2^64 words; a run of the program cannot reach it.", "anchors": ["xhash/diehard_gen/main.go: main", "xhash/xhash.go: Uint64, Uint64Seed"]}
{"id": "C116", "title": "dieharder_test writes the generator's stream, and with -raw only its first 2022 bytes", "statement": "Started with a 64-bit seed, the program seeds the generator with the number's eight bytes, low byte first, and 24 zero bytes. Without -raw it writes exactly the byte stream of the generator, for as long as it runs. With -raw it writes the same pages, except that at every page end that falls inside a 499-byte read what was left of the page is xored into the next page: the first 2022 bytes are the same as without -raw, and bytes 2022 to 2047 are the xor of the stream's bytes there and 1024 places before.", "quantifier": "Every seed, every 8-byte nonce, every keystream function with byte values (ChaCha among them), every number of rounds.", "why_tests_cant": "The output is endless, and where the two modes part company depends on the page size and the read size together; comparing a few bytes shows no difference.", "anchors": ["secrand/dieharder_test/main.go: main", "secrand/rng.go: NewRNGFromSeed, Read, Uint64"]}
{"id": "C117", "title": "Map and Set variables are references, and nil ones are empty", "statement": "xmap.Map and xmap.Set values are references: an entry added, replaced or deleted through one variable is seen at once through every variable that was assigned from it (also by Map() and Raw()) and through no other; NewMap and NewSet give a map nobody else refers to. A nil Map or Set answers Has, Len, Keys, Values, Entries and indexing like an empty one, and Delete, TryDelete and Clear do nothing to it. A statement panics exactly when its key cannot be hashed or when it would add an entry to a nil map, and then it changes nothing.", "quantifier": "Every program of such statements over any number of variables, every key type without NaN, every iteration order.", "why_tests_cant": "Which variables share a map depends on the whole history of assignments; tests look at one or two variables.", "anchors": ["ds/xmap/map.go: Map", "ds/xmap/set.go: Set", "ds/xmap/ops.go: Entries, Keys, Values, Delete, Clear"]}
{"id": "C118", "title": "A panic on an unhashable key leaves an ArrayMap as it was", "statement": "When a call on an xmap.ArrayMap whose key type is an interface panics because its key cannot be hashed, and the panic is recovered, the map is as before the call.", "quantifier": "Every state of the map, every call and every unhashable key.", "why_tests_cant": "The damage shows only in later calls with other keys.", "anchors": ["ds/xmap/arraymap.go: Set, Delete, Has, TryGet, Get"]}
{"id": "C119", "title": "Elements deleted from a Slice are gone", "statement": "After Delete, DeleteLast or UnorderedDelete on an xslice.Slice, no operation on the slice shows the deleted elements, so they can also be collected as garbage: between its length and its capacity a slice holds zero values only, if it did before.", "quantifier": "Every slice, every history of Append, AppendMany, InsertAt, Delete, DeleteLast, UnorderedDelete and Set, every growth rule of append.", "why_tests_cant": "What lies beyond the length is not looked at by a test that checks the elements; it depends on the whole history.", "anchors": ["ds/xslice/ops.go: Delete, DeleteLast, UnorderedDelete, Insert", "ds/xslice/slice.go: Append, AppendMany, InsertAt, Delete, DeleteLast, UnorderedDelete, Sub, Cap"]}
{"id": "C120", "title": "Holding the lock of a shard freezes its keys", "statement": "A goroutine may lock a shard itself, with m.GetShard(key).RLock() or Lock(). While any goroutine stays inside RLock, no entry of that shard changes: all lookups of its keys that are begun and return meanwhile, by whichever goroutine, answer from one and the same map, and calls that would have to change it do not return. Inside Lock no call for these keys returns. While all shards are held for reading, Len, Empty, Keys, Values and Entries are those of one and the same map. The holder of an RLock can look up keys like everybody else.", "quantifier": "Any number of goroutines running any programs of method calls and of locks and unlocks of shards, every schedule, every key type, hash function and number of shards.", "why_tests_cant": "A violation needs a writer that gets in between two lookups; tests see few of the schedules.", "anchors": ["ds/xmap/sharded.go: GetShard, Shard, all methods"]}
{"id": "C121", "title": "The sorts see elements only through the comparator", "statement": "How Sort and Stable move elements depends on the length of the slice and the comparator's answers, and on nothing else. Two slices of the same length, of whatever types, whose comparators answer alike for the same positions are rearranged in the same way with the same calls of the comparator. Sorting f(x) for every x of a slice gives the same as sorting the slice by f(x) and then taking f of each element. This holds for comparators with a state, and for ones that panic or write to the slice. SortOrdered and StableOrdered do exactly what Sort and Stable do with <, unless the slice has NaNs.", "quantifier": "All element types, slices, functions f, relations between elements, comparators and comparator states.", "why_tests_cant": "A dependence on something else (an address, a random seed, a second copy of the code that differs) shows only on particular inputs and lengths; Sort takes different paths from length 13, 50 and on.", "anchors": ["xsort/sort.go: Sort, Stable, SortOrdered, StableOrdered", "xsort/sort_any.go", "xsort/sort_ordered.go"]}
{"id": "C122", "title": "Goroutines that lock shards in one order all finish", "statement": "Goroutines may lock shards of a Sharded themselves (GetShard(key).Lock(), RLock() and the unlocks) and call its methods while they hold some. Fix any order of the shards. If every goroutine locks a shard, or calls a method for a key, only when that shard comes after all those it holds, calls the methods over the whole map only while it holds none, and unlocks all it has locked, in whatever order, then no schedule makes any of them wait for ever: all of them end, and then every shard is unlocked. Without the order two goroutines can wait for each other.", "quantifier": "All orders of the shards, numbers of shards and of goroutines, programs that keep to the order (including ones that choose what to do next by what they read), and schedules.", "why_tests_cant": "Whether goroutines wait for each other depends on the schedule, on which keys share a shard, and on writers that wait to lock (a waiting writer keeps out readers too).", "anchors": ["ds/xmap/sharded.go: Shard, GetShard, Sharded", "sync.RWMutex"]}
{"id": "C123", "title": "What Custom asks of its hash and equality functions", "statement": "Every Get, Set and Delete on an xmap.Custom made by NewCustom calls the hash function once, with its key, before anything else. It calls the equality function only if an entry is stored under that hash, and then once, with the stored key first and its own key second. If one of the two functions panics, the map is as before the call and the next call works. Otherwise the call does what the two answers say: with no entry under the hash, or one with an equal key, it behaves as a map; with another key there it changes nothing (C33). This holds for functions that keep a state and answer differently from call to call.", "quantifier": "All key and value types, sequences of calls, hash and equality functions, with any state and panicking whenever they like.", "why_tests_cant": "Which calls panic, and what the functions answer, is up to the caller; a test fixes one pair of functions.", "anchors": ["ds/xmap/custom.go: Custom, NewCustom, Get, Set, Delete"]}
{"id": "C124", "title": "NextPermutation with the order turned round goes back", "statement": "There is no PrevPermutation; NextPermutationAny with the comparator's arguments swapped takes its place. After NextPermutation with a strict weak order, NextPermutation with the swapped comparator gives the same answer (true, or false on wrapping round) and puts back the range as it was before both calls. If the comparator does not distinguish some elements, those may have changed places with each other.", "quantifier": "All ranges of all iterator types that obey the iterator laws, strict weak orders, and comparators with side effects.", "why_tests_cant": "The number of permutations grows beyond testing, and with equal elements the successor skips many of them.", "anchors": ["algo/next_permutation.go: NextPermutationIterators, NextPermutationAny"]}
{"id": "C125", "title": "Binding in two steps is binding at once", "statement": "If f is bound to a function g, and g is bound in turn to a function h (f and g not variadic), then f can be bound directly to the type of h, with bind arguments obtained by replacing each placeholder of the first step (and each parameter the first step leaves over) by what the second step says about that parameter of g: its value, its placeholder, or the next input. The function so bound passes to f, on every call, exactly what h passes to it through g.", "quantifier": "All function signatures, types, bind arguments of both steps accepted by Bind, conversions of reflect, and call arguments.", "why_tests_cant": "The combinations of placeholders, values and left-over parameters in two steps are unbounded in number, and each has its own routing.", "anchors": ["xfn/bind.go: Bind"]}
{"id": "C126", "title": "The JSON of a Sharded map is that of one map", "statement": "MarshalJSON of a Sharded map gives the bytes, error or panic that json.Marshal gives for one Go map after the same calls, whatever the number of shards and the hash. While other goroutines use the map by key, it encodes a map that has no entry that was not there at some moment of the call, and every key that was there all the time. MarshalJSON and MarshalText methods of keys and values may themselves use the map: all goroutines finish.", "quantifier": "Every key type, number of shards, hash, encoder that does not show the order of iteration, history, schedule and set of goroutines; methods of keys and values that make any calls (with callbacks that leave the map alone).", "why_tests_cant": "The order of the entries, the distribution over shards and the schedule vary without bound; a deadlock would need a writer at the right moment.", "anchors": ["ds/xmap/sharded.go: Sharded.MarshalJSON, Sharded.ToMap"]}
{"id": "C127", "title": "A callback may add stages to its own stream", "statement": "A Map, Filter or Peek callback may call Map, Filter, Peek, Skip and Limit of the stream it belongs to. The new stages come last and are for the elements taken from the source after that; the element on its way goes through the stages that were there when it was taken. Skip and Limit go on counting, also when the stages no longer fit in the memory they were in. So a Filter callback that calls Limit(0) and returns true makes the current element the last.", "quantifier": "Every source, every callback that reads and writes variables and adds stages, depending on anything, every sequence of calls of Next and of the builder methods, and every choice of lengths by append.", "why_tests_cant": "The number of stages grows without bound while the loop over them runs, and whether the memory moves depends on it.", "anchors": ["stream/stream.go: Stream.Next, Stream.Map, Stream.Filter, Stream.Skip, Stream.Limit, Stream.Peek, New"]}
{"id": "C128", "title": "atomic.Value and atomic.Ptr publish and do not race", "statement": "In the sense of the Go memory model: the plain accesses that the methods of an atomic.Value make do not race with each other, and what a goroutine does before it calls Store, Swap or CompareAndSwap with a value happens before what another does after a Load or Swap returned that value or a CompareAndSwap found it. The same holds for an atomic.Ptr.", "quantifier": "Every value type and equality, every number of goroutines, every sequence of calls by each and every interleaving of the atomic and plain accesses they consist of.", "why_tests_cant": "Happens-before is a relation on whole executions; the race detector reports only what one schedule shows, and on strongly ordered hardware a missing edge has no effect.", "anchors": ["atomic/value.go: Value.Load, Value.Store, Value.Swap, Value.CompareAndSwap, NewValue", "atomic/ptr.go: Ptr.Load, Ptr.Store, Ptr.Swap, Ptr.CompareAndSwap"]}
{"id": "C129", "title": "Locks order what goroutines do with a Sharded and a Synchronized", "statement": "In the sense of the Go memory model: as long as nobody calls Clear, the accesses that the methods of a Sharded make to its maps do not race, and what a goroutine does before it puts an entry there happens before what another does after any method showed it that entry, its key or its value, or that its key is there. The accesses to the value of a Synchronized or RWSynchronized through the pointers of Lock and RLock do not race.", "quantifier": "Every key type, equality, hash and number of shards, every number of goroutines, every sequence of calls by each (for a Synchronized: every sequence of reads and writes under the lock) and every interleaving of the accesses and the steps of the locks.", "why_tests_cant": "Happens-before is a relation on whole executions; the race detector reports only what one schedule shows.", "anchors": ["ds/xmap/sharded.go: Sharded.Set, Sharded.TrySet, Sharded.Get, Sharded.TryGet, Sharded.GetOrSetDefault, Sharded.GetOrSetFactory, Sharded.Has, Sharded.Delete, Sharded.Keys, Sharded.Values, Sharded.Entries, Sharded.ToMap, Sharded.Iterate, Sharded.IterateShards, Sharded.IterateShardsReadOnly", "xsync/synchronized.go: Synchronized.Lock, Synchronized.Unlock, RWSynchronized.Lock, RWSynchronized.Unlock, RWSynchronized.RLock, RWSynchronized.RUnlock"]}
{"id": "C130", "title": "Limit counts whatever callbacks do with the stream", "statement": "Limit(n) lets at most n elements through in all, whatever the callbacks of the stream do with it: they may add stages to it and call Next on it, and the elements they take count too.", "quantifier": "Every source, every pipeline with a Limit in it, every callback that adds stages and calls Next any number of times, nested or not, every way append chooses capacities, and every sequence of calls from outside.", "why_tests_cant": "Nested calls and reallocations of the list of stages can meet in any order; it takes a certain number of stages for a reallocation to happen.", "anchors": ["stream/stream.go: Stream.Next, Stream.Limit, Stream.Skip, Stream.Filter, Stream.Map, Stream.Peek, New"]}
{"id": "C131", "title": "Several Synchronized values used together", "statement": "Goroutines that use several values, each in a Synchronized or RWSynchronized of its own, and that lock everything they use before they unlock anything take effect one at a time: each returns what it would return alone at some moment between its call and its return, and what each preserves when run alone is preserved. In particular money moved between accounts is not lost and every audit of all accounts returns the money there is. If they also lock in one order, all of them come to an end.", "quantifier": "Any number of values and of goroutines, all sequences of Lock, Unlock, RLock, RUnlock, reads and writes that lock before they unlock, may depend on what is read and unlock in any order, and every schedule.", "why_tests_cant": "Which locks are held by whom when depends on the schedule; deadlocks and torn reads over several values show only in rare ones.", "anchors": ["xsync/synchronized.go: Synchronized.Lock, Synchronized.Unlock, RWSynchronized.Lock, RWSynchronized.Unlock, RWSynchronized.RLock, RWSynchronized.RUnlock"]}
{"id": "C132", "title": "No random word is handed out twice", "statement": "The words that goroutines draw through the package-level functions of xrand and secrand, or through Get and Put, are the streams of the generators in the pool: from each generator every word is handed out once, in order, whatever goroutines draw it, although nothing locks a generator; generator number g is seeded with number g of the master generator; while one call uses a generator nobody else changes it. All calls return.", "quantifier": "Any number of goroutines and calls, callbacks that use the package themselves (Shuffle), panics, every behaviour of sync.Pool (any element, dropped elements, misses), every schedule, every kind of generator.", "why_tests_cant": "A draw is a read and a write without a lock; only if two goroutines hold one generator at once, in a certain schedule, does a word come out twice.", "anchors": ["xrand/pool.go: Get, Put, newRng", "secrand/pool.go: Get, Put", "secrand/rng.go: NewRNG", "xrand/xrand.go", "secrand/secrand.go"]}
{"id": "C133", "title": "Several streams over one source share out its elements", "statement": "Several streams can be made of one Source (New(src), also with a *Stream as src) and used in turn, in any way. Every element taken from the source goes to exactly one of them, the others are still there, and each stream does what it would do alone over the elements it got: its pipeline of them, then the end. So New(src).Limit(n).Slice(), called again and again, gives the source in pages of n elements.", "quantifier": "Every source that delivers a list, any number of streams, all interleavings of calls of Next and of the builder methods on them, callbacks whose answers depend on the element only (they may panic), every page size and number of pages.", "why_tests_cant": "A test tries a few streams in one order; who gets which element depends on every call of every stream and on what their filters answer.", "anchors": ["stream/stream.go: New, Next, Skip, Limit, SkipNext, Slice", "stream/source.go: sliceSource"]}
{"id": "C134", "title": "A ring in a Synchronized is a queue for goroutines", "statement": "Goroutines that share a Ring in a Synchronized or RWSynchronized and call one method per Lock (with deferred Unlock; methods that only look may use RLock) have a concurrent deque: the calls take effect one at a time, each between its call and its return, with the results and panics of a list deque. Used with Push and Pop it is a FIFO queue: the values popped and then those left are the initial ones and then those pushed, in order, none lost or doubled; if Push(x) returned before Push(y) was called and y was popped, x was popped.", "quantifier": "Every number of goroutines, every interleaving of the lock operations and the accesses to the ring, every initial ring, all sequences of method calls, with panics.", "why_tests_cant": "A test sees a few schedules of a few goroutines; a lost or doubled element needs one particular interleaving with the growth or wrap-around of the buffer.", "anchors": ["xsync/synchronized.go: Synchronized.Lock, Synchronized.Unlock, RWSynchronized.Lock, RWSynchronized.Unlock, RWSynchronized.RLock, RWSynchronized.RUnlock", "ds/xring/ring.go: Ring.Push, Ring.Append, Ring.Prepend, Ring.Pop, Ring.DeleteFirst, Ring.DeleteLast, Ring.First, Ring.Last, Ring.At, Ring.Set, Ring.Len, Ring.Empty, Ring.ToSlice"]}
{"id": "C135", "title": "TrySet on a Sharded elects one winner and makes a key a lock", "statement": "If nobody deletes or overwrites a key, at most one of all the TrySet, GetOrSetDefault and GetOrSetFactory calls on it, by any goroutines, reports that it put the key there, and every call that tells a value of the key tells the winner's. If only a goroutine that put the key there deletes or overwrites it, the key is a lock: at every moment at most one goroutine has it, its own lookups return what it wrote last, and a TrySet returns false only if, during the call, somebody has the key or is just taking it or giving it back.", "quantifier": "Every number of goroutines, every schedule, every hash compatible with key equality and number of shards, all other methods beside except Clear and IterateShards; every key that is equal to itself.", "why_tests_cant": "A double winner needs two goroutines between the look and the write at once; a test hardly meets that schedule, and a spurious failure even less.", "anchors": ["ds/xmap/sharded.go: Sharded.TrySet, Sharded.GetOrSetDefault, Sharded.GetOrSetFactory, Sharded.Set, Sharded.Delete, Sharded.TryGet, Sharded.Get, Sharded.Has"]}
{"id": "C136", "title": "The comparison functions say what the operators mean", "statement": "xfn.Equal, NotEqual, Less, LessEq, Greater and GreaterEq compare integers as numbers, strings in dictionary order of their bytes, and floats as the numbers they stand for, with both zeros equal and everything but NotEqual false as soon as one side is NaN; IsLess, IsLessEq, IsGreater and IsGreaterEq made from r say the same of their argument and r. GreaterEq is the negation of Less and LessEq that of Greater, for floats exactly when neither side is NaN. Sorting by Greater gives a descending slice; LessEq and GreaterEq are not strict orders.", "quantifier": "Every pair of integers, of strings, and of floats of every format, with NaN, infinities, signed zeros and subnormals; every slice to be sorted.", "why_tests_cant": "All pairs of 64-bit floats and all strings; the encoding of floats is compared, so the order of the numbers has to be shown for all exponents and mantissas.", "anchors": ["xfn/predicate.go: Equal, NotEqual, Less, LessEq, Greater, GreaterEq, IsLess, IsLessEq, IsGreater, IsGreaterEq"]}
