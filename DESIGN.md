# Formal model of ndkimhao/go-xtd in Rocq (Coq 8.16.1)

The Go sources in /repo were read as text; nothing was built or run.  Every
definition of the model carries a comment citing the file and lines it models,
and says there what it simplifies.

## Layout (rocq/theories)

For each area `X`:

* `X_Model.v`  executable Gallina model of the Go code (no proofs)
* `X_Spec.v`   small specification vocabulary, independent of the model (where needed)
* `X_Proofs.v`, `X_*.v` lemmas
* `X_Props.v`  only the property theorems with short proofs, each with
  `Print Assumptions` and a non-vacuity `Example` beside it

Shared: `Base.v` (panic/divergence outcome, int-indexed lists, Hoare triples),
`Arr.v` (arrays), `Exn.v` (state and panic monad), `Callback.v` (the same with panicking callbacks), `Lin.v` (linearizability),
`GoMap.v` (Go maps), `GoSlice.v` (heap of arrays).

## Modelling conventions

* A Go computation is a function into `outcome A := Ok a | Panic msg | Diverge`.
  A Go panic (explicit or run-time: index out of range, nil dereference) is
  `Panic msg`; `Diverge` is only produced by exhausted fuel, and every theorem
  that says "returns" says the outcome is `Ok`.
* Loops are recursion on explicit fuel.  The fuel given at the entry point is a
  function of the input; theorems exclude `Diverge`, so the fuel is enough.
  Where a loop need not end (redraws of random numbers) the theorem holds for
  every fuel.
* `int` is `Z` without overflow unless overflow can be reached by a user
  (stream ranges and skips, arithmetic functions, hashes, RNG words): there the
  wrap is explicit.  Lengths and indices are far below 2^63 on real machines;
  for slice iterators, rings and the sorts second models with wrapping 64-bit
  ints (`Int_*`) are proved to agree with the first ones, with explicit bounds.
  Indices are bounds-checked by the model (`Panic "index out of range"`).
* In-place code threads the slice contents as state.  Where aliasing matters
  (xslice) slices are headers (array id, offset, len, cap) into a heap of arrays.
* User callbacks are arbitrary functions; where their effects matter they are
  state transformers over an arbitrary state type, and may panic.
* Maps are association lists with an arbitrary boolean key equality, so that
  keys unequal to themselves (NaN) are covered; iteration order is an arbitrary
  permutation chosen by an oracle argument.
* Goroutines are labelled transition systems over explicit atomic steps; the
  theorems quantify over all reachable states / all traces.  Atomicity units
  are: one lock/unlock, one shared-memory access, one sync/atomic call.
* Wrong programs: each theorem was tried against edited models; the record is
  `seeded/LOG.jsonl`.  In its `failed` lists, `File.name` is the lemma at which
  the rebuild stopped.  `blocks: T` says that theorem T could not be rebuilt,
  because its file depends on a file that failed; it does not say that T itself
  was tried.  A failure can also come from a proof script that depends on
  the shape of the code, or from an edit that changes a definition's arguments.
  The last 110 or so attempts were screened for the latter and redone where
  needed (see their notes); the earlier ones were not.  An attempt also counts as failed when the edit changed the
  arguments of a definition, so that a statement no longer type-checks, or when
  only a proof script no longer fits.  The attempts from `NewLen (xring)` on were
  screened for the former, and those found are marked and were repeated with the
  arguments kept; the earlier ones were not screened.

## Properties: what is modelled, how it is proved

"proved" means the property holds as written in properties.jsonl.  "partial" means it is
false of the code as written: a `_refuted` theorem gives a concrete execution that breaks it,
and the other theorems say what does hold.  No property was left out as not expressible.

| id | property | status | theorems in | model and proof |
|---|---|---|---|---|
| C01 | Sort is safe for every comparator | proved | XSort_Props | pdqsort family of xsort transcribed once over answers `lt`/`ge` of a comparator that is an arbitrary state transformer (sort_any.go: ge = not lt; sort_ordered.go: independent). Hoare triples over (slice, comparator state): the range outside is untouched, the range inside is permuted, no panic; fuel is shown to suffice for every answer the comparator gives. |
| C02 | Sort sorts | proved | XSort_Props | Same model. Partition and heap invariants give sortedness for every strict weak order. |
| C03 | SortOrdered sorts totally ordered types and is safe for NaN | proved | XSort_Props | Ordered instance with `<` and `>=` as two unrelated operators (NaN) for safety, and total order for sortedness. |
| C04 | Stable is safe for every comparator | proved | XSort_Props | insertion blocks, symMerge, rotate, swapRange with an arbitrary comparator; permutation and termination by induction on fuel bounded by the range size. |
| C05 | Stable sorts and is stable | proved | XSort_Props | Stability: the subsequence of every equivalence class is kept by each step; sortedness by the symMerge invariant. |
| C06 | Sort recursion depth is logarithmic | proved | XSort_Props | The recursion takes an explicit stack budget; pdqsort recurses into the smaller side only, so log2 n + 1 suffices. |
| C07 | Sort makes O(n log n) comparisons in the worst case | proved | XSort_Props | Comparisons counted beside the comparator state; potential argument with bad-partition budget and heapsort fallback. |
| C08 | LowerBound finds the first element not less than the value | proved | Algo_Props | algo over an abstract iterator record with laws (representation predicate), instantiated to slices and reversed slices; loop invariant of the halving search, with a count of the calls. |
| C09 | UpperBound finds the first element greater than the value | proved | Algo_Props | algo over an abstract iterator record with laws (representation predicate), instantiated to slices and reversed slices; loop invariant of the halving search, with a count of the calls. |
| C10 | Binary search rejects reversed ranges | proved | Algo_Props | algo over an abstract iterator record with laws (representation predicate), instantiated to slices and reversed slices; loop invariant of the halving search, with a count of the calls. |
| C100 | Unequal values hash alike only if raw hashes collide | proved | Hasher_Props | Mutual induction over pairs of values of the same type, for two seeds: equal results give equal seeds and equal values or name the two raw hashes that collide; multiplication by the odd constant and xor are injective on 64 bits; the bytes of a float determine it. |
| C101 | A Slice variable behaves like a list | proved | XSlice_Hist_Props | One call is a change of the live and spare parts of the array of the slice, a move to a new array, or nothing; induction over the history. |
| C102 | Iterators kept while their slice changes | partial | XSlice_Hist_Props | While the length never exceeds the capacity the slice keeps its array and pointer, and the window of the iterator is cut out of the same memory; the first time it does, the slice leaves for a new array and no later call touches the old one. Two witnesses for the refutation. |
| C103 | Compare-and-swap loops on atomic.Value lose no update | proved | Value_Loop_Props | Corollary of the linearizability of Value: in the order of effects the successful updates form a chain; the second part from the invariant of a CompareAndSwap that is on track to succeed. |
| C104 | The sorts with 64-bit ints | proved | Int_Sort_Props | Both programs run in lock step (a relational logic for the state monad): every index computed stays between -1 and three times the length, by ranges for the results of each function. |
| C105 | A Slice kept sorted is a sorted multiset | proved | XSlice_Sorted_Props | Slice iterators beside the slice variable are lawful random access iterators, so the search theorems give the position; the theorems on Insert and Delete give the elements; induction over the history. |
| C106 | The sorts take O(n log n) and O(n log² n) time in the worst case | proved | XSort_Timed_Props | A model with a clock in the state, shown to do the same as XSort_Model. Sort: a credit (ten times the comparisons minus the time) never ends more than four below its start, because partitioning compares every element of the range; then C07 and C81. Stable: halving the range of symMerge, linear work per level, log n rounds of merging. |
| C107 | Exchanges through atomic.Value and atomic.Ptr lose and duplicate nothing | proved | Value_Handover_Props | from the linearization of C67 and C75: in the order of the effects each exchange takes out what the one before put in; permutation by induction over that order |
| C108 | Sharded behaves like one Go map for every key type | proved | Hasher_Props, Sharded_Keys_Props | Refinement: the shards together are a permutation of one Go map; Set and Delete commute with the permutation because equal keys share a shard. Float keys as an instance. |
| C109 | Seen one key at a time, every call of Sharded is atomic | proved | Sharded_PerKey_Props | Forward simulation: a call takes effect at the instruction that accesses the shard of x; well-formedness and placement of the keys are invariants of every shard. |
| C11 | IsSortedUntil / IsSorted | proved | Algo_Props | algo over an abstract iterator record with laws (representation predicate), instantiated to slices and reversed slices; induction over the walk, one comparison per step. |
| C110 | A callback may call Next on its own stream | partial | Stream_Reent_Props | Stream_Reent_*: callbacks are coinductive code trees run by a mutual interpreter with Next; invariants by induction on the fuel. |
| C111 | A stream over a slice reads each element when its turn comes | proved | Stream_Live_Props | Stream_Live_Model puts the slice into the shared heap (GoSlice); simulation between the stream over the live slice and over the fixed list, with the invariant that the write position never passes the read position |
| C112 | Sort is linear on data with few different elements | proved | XSort_Distinct_Props | XSort_Distinct: along every path of calls the number of kinds still possible plus the number of kinds above the left neighbour drops at each partition, so if 2k is below the bit length of n the limit never runs out and every element takes part in at most 2k+1 partitions; otherwise the bound of C07 is already below C * n * k. |
| C113 | NextPermutation takes constant amortised comparisons on different elements | proved | Algo_Props3 | potential argument: the number of elements greater than all that follow them drops by all but two of the elements that a call inspects; the exact number of calls of the reverse scan comes from the refined loop lemma of IsSortedUntil. |
| C114 | IsSortedUntil and IsSorted compare neighbours once each, from the front, and stop at the first drop | proved | Algo_Props3 | induction on the loop, with the list of calls written down as the pairs of neighbours. |
| C115 | diehard_gen in its counting modes writes every 64-bit word once before it repeats | proved | Gen_Props | the mixing functions are permutations of the 64-bit words (C37 and neighbours), so the counter's period carries over; a permutation's orbit returns to its start. |
| C116 | dieharder_test writes the generator's stream, and with -raw only its first 2022 bytes | proved | Gen_Props | the word loop is the sequence of aligned 8-byte reads of C62; for -raw, induction over the rounds with the page that is being read and the position in it. |
| C117 | Map and Set variables are references, and nil ones are empty | proved | MapRef_Props | heap of map objects with variables that refer to them; representation invariant relating each object to the statement that made it; induction over the program. |
| C118 | A panic on an unhashable key leaves an ArrayMap as it was | partial | ArrayMap_Hash_Props | ArrayMap modelled again with a hashing step at every use of the index map, in the order of the code; symbolic execution. |
| C119 | Elements deleted from a Slice are gone | partial | XSlice_Spare_Props | view of the array of a slice as cells before, live, spare and after; each operation executed symbolically on it; induction over the history. |
| C12 | Reverse reverses in place | proved | Algo_Props | algo over an abstract iterator record with laws (representation predicate), instantiated to slices and reversed slices; invariant: mirrored outer parts, untouched middle. |
| C120 | Holding the lock of a shard freezes its keys | partial | Sharded_Outer_Props | goroutine programs with explicit locks over the instructions of the Sharded model; invariant counting the holds of each goroutine; what every instruction can read while shards are frozen, followed back to the start of the call. |
| C121 | The sorts see elements only through the comparator | proved | XSort_Param_Props | a relation between runs on two slices with related elements is kept by every function of the sorts (induction on fuel); positions are related to the elements they hold. |
| C122 | Goroutines that lock shards in one order all finish | proved | Sharded_Order_Props | the goroutines are compiled, instruction for instruction, into the programs of the re-entrance model (simulation both ways); the lock-order argument there, extended to unlocks in any order: whoever keeps a goroutine out of a shard waits, if at all, for a later shard. |
| C123 | What Custom asks of its hash and equality functions | proved | XMap_Calls_Props | a state monad in which the functions' state, the map and the log of calls survive panics; case analysis of each call, then induction on the calls, with the invariant that there is no overflow map. |
| C124 | NextPermutation with the order turned round goes back | proved | Algo_Back_Props | both calls give lexicographic successors (C14), the second in the reversed order; nothing lies between; at the last permutation both reverse the range. |
| C125 | Binding in two steps is binding at once | proved | XFn_Twice_Props | the argument a parameter gets is determined by what the bind arguments say at its index (C53); substituting the second step in the first keeps types and routing. |
| C126 | The JSON of a Sharded map is that of one map | proved | Sharded_JSON_Props | MarshalJSON is ToMap followed by the encoder: corollaries of C108, C87 and C38 for ToMap; the encoder runs after the last lock is released. |
| C127 | A callback may add stages to its own stream | proved | Stream_Grow_Props | A model of s.ops down to the arrays behind it, where range holds the slice taken at its start and s.ops[i] = x writes to the present one, against a plain list of stages, by simulation: arrays are only written behind what is there or at the position reached. |
| C128 | atomic.Value and atomic.Ptr publish and do not race | proved | Ptr_HB_Props, Value_HB_Props | Executions that record every memory access, the same as those of the interleaving model; invariant: the cell pointed to was written before the last atomic write, by the goroutine that made it, after the call that brought the value. |
| C129 | Locks order what goroutines do with a Sharded and a Synchronized | proved | Sharded_HB_Props, Sync_HB_Props | Executions that record every access and lock step, the same as those of the interleaving models, keep to a locking discipline; by an invariant on who has seen an access, such executions have no race; entries are read after the write that stored them. |
| C13 | Swap and FillN | proved | Algo_Props | algo over an abstract iterator record with laws (representation predicate), instantiated to slices and reversed slices; frame lemmas of Set. |
| C130 | Limit counts whatever callbacks do with the stream | partial | Stream_Both_Props | Model of callbacks that do both, down to the arrays behind s.ops; an invariant on the array with the Limit, its counter and the calls so far, by induction on fuel over the mutual recursion of Next, its loops and the callbacks; concrete executions for the refutations. |
| C131 | Several Synchronized values used together | proved | Sync_Multi_Props | Forward simulation: a client takes effect at its first unlock; until then what it would do alone is what it does from here with its own writes, afterwards what it has left to write is already in the sequential state. Termination by induction on the rank of the object waited for. |
| C132 | No random word is handed out twice | proved | Pool_Gen_Props | Small-step model with the states of all generators and of the master, in which drawing takes two steps; invariant: every generator is in the pool once or held by one running call, and its state is the one after the words drawn so far. Termination by a measure on the running calls; whoever has the master's lock can go on. |
| C133 | Several streams over one source share out its elements | partial | Stream_Share_Props | The state has all streams and one state of the source. Every call takes some elements off the front of the list that the source delivers, and behaves the same over any list that begins with these (and is used up if the source is); by induction the calls of one stream behave the same over its share. The list pipeline is then C40 for the share. Pages by induction on the limit and the number of pages. |
| C134 | A ring in a Synchronized is a queue for goroutines | proved | Sync_Ring_Props | Composes the linearizability of the lock (C69) with the refinement of the ring to a list (C26): the order of C69 is a run of the list deque, call by call. The FIFO consequences by induction on that run; the real-time order from the fact that what took effect in a part of the history is a prefix of the order. |
| C135 | TrySet on a Sharded elects one winner and makes a key a lock | proved | Sharded_KeyLock_Props | From the linearization of C35, for every history: an invariant relates the holder told from the calls and returns, the calls that took effect but did not return, and the value of the key in the abstract map; a taken key is present and taken by one. |
| C136 | The comparison functions say what the operators mean | proved | XFn_Compare_Props | Each function over a record of the six operators. Floats: a valid float is an integer multiple of the smallest one, and comparing exponents first and mantissas second compares these integers. Strings: induction on both. |
| C14 | NextPermutation produces the lexicographic successor | proved | Algo_Props | algo over an abstract iterator record with laws (representation predicate), instantiated to slices and reversed slices; the longest non-increasing tail argument gives the lexicographic successor. |
| C15 | NextPermutation wraps around exactly at the last permutation | proved | Algo_Props | algo over an abstract iterator record with laws (representation predicate), instantiated to slices and reversed slices; the longest non-increasing tail argument gives the lexicographic successor. |
| C16 | NextPermutation loop enumerates every permutation exactly once | proved | Algo_Props | Iterating the successor: the permutations form a finite chain under lexicographic order, counted by an independent list of permutations. |
| C17 | Reverse iterators present the reversed sequence | proved | XSlice_Props | Each of the four wrappers satisfies the iterator laws for the reversed sequence, so the law composes with itself. |
| C18 | ReverseRandomRange reverses a range | partial | XSlice_Props | Refuted by a two element range and, in general, for every non-empty range. |
| C19 | Slice iterators are bounds-safe | proved | XSlice_Props | Slice iterators with bounds checks; Panic exactly outside. |
| C20 | Insert inserts | proved | XSlice_Props | Slices are headers (array, offset, len, cap) in a heap of arrays; growth policy arbitrary; frame lemmas about every other array and index. |
| C21 | Delete and UnorderedDelete delete | proved | XSlice_Props | Slices are headers (array, offset, len, cap) in a heap of arrays; growth policy arbitrary; frame lemmas about every other array and index. |
| C22 | In-place slice operations touch only their own window | proved | XSlice_Props | Slices are headers (array, offset, len, cap) in a heap of arrays; growth policy arbitrary; frame lemmas about every other array and index. |
| C23 | Copy and Reversed return independent slices | proved | XSlice_Props | Slices are headers (array, offset, len, cap) in a heap of arrays; growth policy arbitrary; frame lemmas about every other array and index. |
| C24 | Inserter iterators | proved | XSlice_Props | Slices are headers (array, offset, len, cap) in a heap of arrays; growth policy arbitrary; frame lemmas about every other array and index. |
| C25 | xslice.NewLenCap honours len and cap | partial | XSlice_Props | Slices are headers (array, offset, len, cap) in a heap of arrays; growth policy arbitrary; frame lemmas about every other array and index. |
| C26 | Ring behaves like a double-ended queue | proved | XRing_Props | Ring = buffer, begin, len as in xring.go; abstraction function to a list; invariant by induction over call histories. |
| C27 | Ring capacity stays proportional to its length | proved | XRing_Props | Ring = buffer, begin, len as in xring.go; abstraction function to a list; invariant by induction over call histories. |
| C28 | Ring does not retain deleted elements | proved | XRing_Props | Ring = buffer, begin, len as in xring.go; abstraction function to a list; invariant by induction over call histories. |
| C29 | xring.NewLenCap preallocates | partial | XRing_Props | Ring = buffer, begin, len as in xring.go; abstraction function to a list; invariant by induction over call histories. |
| C30 | Map/Set enumeration is exact | proved | XMap_Props | Go maps as association lists with arbitrary boolean ==; range order is any permutation. |
| C31 | Clear empties a map | partial | XMap_Props | Go maps as association lists with arbitrary boolean ==; range order is any permutation. |
| C32 | ArrayMap behaves like a map | partial | XMap_Props | ArrayMap/Custom over the Go map model; counterexamples by computation; refinement to a partial function under the stated restriction, by induction over histories. |
| C33 | Custom behaves like a map for any hash function | partial | XMap_Overflow_Props, XMap_Props | ArrayMap/Custom over the Go map model; counterexamples by computation; refinement to a partial function under the stated restriction, by induction over histories. |
| C34 | Sharded behaves like one map when used sequentially | proved | Sharded_Props | Sequential semantics of the methods run to completion; refinement to one partial function by induction over histories. |
| C35 | Sharded single-key operations are linearizable | proved | Sharded_Props | Sharded as a transition system: one lock step or one map access per step, sync.RWMutex with writer preference, any number of goroutines; linearization point inside the critical section, forward simulation to an atomic map (Lin.v: definition of linearizability independent of Sharded). |
| C36 | GetOrSetFactory runs the factory at most once per missing key | proved | Sharded_Props | Sharded as a transition system: one lock step or one map access per step, sync.RWMutex with writer preference, any number of goroutines; invariant: the factory count of a key is one exactly when the key is present. |
| C37 | Sharded is free of data races | partial | Sharded_Props | Sharded as a transition system: one lock step or one map access per step, sync.RWMutex with writer preference, any number of goroutines; accesses are labelled and two conflicting ones enabled together are a race; lock-ownership invariant. |
| C38 | Sharded never deadlocks on its own | proved | Sharded_Props, Sharded_Reent_Props | Sharded as a transition system: one lock step or one map access per step, sync.RWMutex with writer preference, any number of goroutines; progress: some goroutine can step unless all returned, and a measure bounds the steps. |
| C39 | Sharded.Len is an atomic snapshot | partial | Sharded_Props, Sharded_Props2 | Sharded as a transition system: one lock step or one map access per step, sync.RWMutex with writer preference, any number of goroutines; counterexample by computation; between the sizes at call and return when writes go one way; in general by C87. |
| C40 | Stream pipelines compute the list pipeline | partial | Stream_Props | Stream, its op list, Next, Skip and the terminals transcribed, callbacks are state transformers that may panic; refinement to list functions by induction on the elements delivered. |
| C41 | Terminal operations agree with the elements | proved | Stream_Props | Stream, its op list, Next, Skip and the terminals transcribed, callbacks are state transformers that may panic; refinement to list functions by induction on the elements delivered. |
| C42 | Short-circuiting terminals leave the rest of the stream | proved | Stream_Props | Stream, its op list, Next, Skip and the terminals transcribed, callbacks are state transformers that may panic; refinement to list functions by induction on the elements delivered. |
| C43 | End of stream is sticky | proved | Stream_Props | Stream, its op list, Next, Skip and the terminals transcribed, callbacks are state transformers that may panic; refinement to list functions by induction on the elements delivered. |
| C44 | Range yields the arithmetic progression | partial | Stream_Props | Integer sources over types of width w with explicit wrap. |
| C45 | Limit bounds consumption of infinite sources | partial | Stream_Exact_Props, Stream_Props | Stream, its op list, Next, Skip and the terminals transcribed, callbacks are state transformers that may panic; a source that counts pulls. |
| C46 | Callbacks run element by element in pipeline order | proved | Stream_Props | Stream, its op list, Next, Skip and the terminals transcribed, callbacks are state transformers that may panic; refinement to list functions by induction on the elements delivered. |
| C47 | Peek observes every element that flows past it | partial | Stream_Exact_Props, Stream_Props | Stream, its op list, Next, Skip and the terminals transcribed, callbacks are state transformers that may panic; refinement to list functions by induction on the elements delivered. |
| C48 | Type-changing Map composes | proved | Stream_Nested_Props, Stream_Props | Stream, its op list, Next, Skip and the terminals transcribed, callbacks are state transformers that may panic; refinement to list functions by induction on the elements delivered. |
| C49 | Sources enumerate and skip exactly | partial | Stream_Live_Props, Stream_Props | Every source against the list it stands for; explicit int overflow. |
| C50 | Predicate combinators mean their logical connectives | partial | XFn_Props | Direct transcription; predicates are state transformers where evaluation order matters. |
| C51 | HasPrefix / HasSuffix | proved | XFn_Props | Direct transcription; predicates are state transformers where evaluation order matters. |
| C52 | LessFloat is a strict weak order on all floats | proved | XFn_Props | Coq.Floats.SpecFloat values (NaN, infinities, signed zeros, subnormals); case analysis. |
| C53 | Bind routes arguments correctly | proved | XFn_Props | reflect modelled by types and values with Convert/Call as documented; loops of Bind transcribed. |
| C54 | Bind rejects ill-typed bindings and accepted ones are well-typed | partial | XFn_Props | reflect modelled by types and values with Convert/Call as documented; loops of Bind transcribed. |
| C55 | Min, Max and FullComparatorOf | proved | XFn_Props | Direct transcription; predicates are state transformers where evaluation order matters. |
| C56 | xhash.Uint64 never collides | proved | XHash_Props | Words are N with explicit mod 2^64; explicit inverse of each mixing step (odd multiplication, xor-shift, rotations). |
| C57 | Uint64Seed and the incremental hash are injective in every word | proved | XHash_Props | Words are N with explicit mod 2^64; explicit inverse of each mixing step (odd multiplication, xor-shift, rotations). |
| C58 | Incremental64.Write hashes exactly the bytes of p | partial | XHash_Props | Bytes and unaligned 8-byte loads over a buffer with capacity beyond len. |
| C59 | Little-endian encoding round-trips | proved | XHash_Props | Bytes and unaligned 8-byte loads over a buffer with capacity beyond len. |
| C60 | xhash.Uint64/Uint64Seed equal XXH3 of the 8 bytes | proved | XHash_Props | XXH3_len_4to8 and XXH64 avalanche written down from the public algorithm; equality by computation on symbolic words. |
| C61 | RNG.Read always fills its argument and never fails | proved | Secrand_Props | RNG state machine of rng.go over an arbitrary cipher; invariant by induction over calls. |
| C62 | RNG erases what it has handed out | proved | Secrand_Props | RNG state machine of rng.go over an arbitrary cipher; invariant by induction over calls. |
| C63 | Small reads give a stream independent of chunking | partial | Secrand_Props, Secrand_Props2 | Counterexample computed with ChaCha8/12/20 itself written in Coq; positive part over an arbitrary cipher, by induction over the reads with the page and the position in it. |
| C64 | Uint64 and Int63 agree with Read | proved | Secrand_Props | RNG state machine of rng.go over an arbitrary cipher; invariant by induction over calls. |
| C65 | NewRNGCustom validates its parameters | proved | Secrand_Props | RNG state machine of rng.go over an arbitrary cipher; invariant by induction over calls. |
| C66 | Read output depends on the previous contents of b only in the large case | proved | Secrand_Props | RNG state machine of rng.go over an arbitrary cipher; invariant by induction over calls. |
| C67 | atomic.Value is linearizable | proved | Value_Props | Value as a cell holding a pointer to an immutable box, one atomic instruction per step; forward simulation to a register (Lin.v). |
| C68 | CompareAndSwap fails only if the value differs | partial | Value_Props | Counterexample execution by computation; partial results by invariant over the executions: the pointer changes while the value does not only by a Store or Swap of that value. |
| C69 | Synchronized gives mutual exclusion | proved | Sync_Live_Props, Sync_Props | Synchronized/RWSynchronized over modelled mutexes; ownership invariant; defer on panic. Liveness (C69_all_return): progress of some goroutine in every reachable state and a well-founded measure per goroutine give that every schedule without new calls ends with everybody outside. |
| C70 | Pooled generators are never shared | proved | Pool_Props | sync.Pool by its documented behaviour (may drop, may keep); goroutines interleaved; ownership invariant. |
| C71 | xsync.Pool.Get returns what was put or made by New | partial | Pool_Props | sync.Pool by its documented behaviour (may drop, may keep); goroutines interleaved; ownership invariant. |
| C72 | Ring reallocations cost amortised O(1) per call | proved | XRing_Props | Potential function over histories: total elements moved by reallocation is at most linear in the number of calls. |
| C73 | Seeding from a reader takes exactly the seed | proved | Secrand_Props | io.ReadFull over an arbitrary reader with progress. |
| C74 | NewRNG calls get distinct pieces of the master stream | proved | Pool_Props | sync.Pool by its documented behaviour (may drop, may keep); goroutines interleaved; ownership invariant. |
| C75 | atomic.Ptr is a linearizable pointer variable | proved | Ptr_Props | Ptr over one pointer cell; forward simulation. |
| C76 | xrand.Crypto numbers are the bytes read | proved | Rand_Props | crypto.go over an arbitrary reader of eight bytes. |
| C77 | Bounded random numbers are in range and unbiased | proved | Rand_Props | math/rand of Go 1.18 transcribed over an arbitrary 63-bit source; counting arguments (each outcome has the same number of words, each order one vector of draws). |
| C78 | Perm and Shuffle give every order, each in exactly one way | proved | Rand_Props | math/rand of Go 1.18 transcribed over an arbitrary 63-bit source; counting arguments (each outcome has the same number of words, each order one vector of draws). |
| C79 | Read is a byte stream and floats are below 1 | proved | Rand_Props | math/rand of Go 1.18 transcribed over an arbitrary 63-bit source; counting arguments (each outcome has the same number of words, each order one vector of draws). |
| C80 | Stable makes O(n log n) comparisons whatever the comparator answers | proved | XSort_Props2 | Comparison counter beside the comparator state; symMerge recurrence 3n - log2 n - 3. |
| C81 | Sort is linear on data that is already in order | proved | XSort_Props2 | Run of pdqsort on ordered data followed exactly: partialInsertionSort finds nothing to move. |
| C82 | Arithmetic functions wrap, divide and add up as the operators do | proved | XFn_Arith_Props | Two's complement words of any width; SpecFloat arithmetic for floats. |
| C83 | Equal values hash alike | proved | Hasher_Props | Hash functions of runtime/alg.go over a universe of values (ints, floats, strings, interfaces, arrays, structs); induction on the type. |
| C84 | Callbacks of Sharded may call the map | partial | Sharded_Reent_Props | Methods in continuation-passing style so that callbacks are code trees that call the map again; lock-order ranking gives termination on every schedule; deadlocks by computation with a sound checker. |
| C85 | A panic on an unhashable key leaves Sharded usable | partial | Sharded_Reent_Props | Same system with a hash and key equality that may panic; leaked locks as an invariant of the stuck states. |
| C86 | A panicking comparator loses no element | proved | XSort_Props3 | Same model; a panic keeps the state. Structural induction: every step is a swap or a call of the comparator. |
| C87 | Reads of a whole Sharded map are weakly consistent | proved | Sharded_Moments_Props, Sharded_Props2 | Sharded as a transition system: one lock step or one map access per step, sync.RWMutex with writer preference, any number of goroutines; each of these calls looks at each shard once, so it does what it would do alone on a map put together from the shards as they were at moments of the call; the moments are prefixes of one linearization (that of C35) and each key lives in one shard.  C87_moments: induction over the stretch of execution collects what each read saw and when. |
| C88 | A ring in shared memory | proved | XRing_Heap_Props | Ring over a heap of arrays; every operation refines XRing_Model on the elements of the buffer slice, with a frame (cells that may change) that composes over histories. |
| C89 | ToSlice takes any destination | partial | XRing_Dest_Props, XRing_Heap_Props | Same model; concrete histories for the refutations, the frame of append for the rest. |
| C90 | An assigned Ring is a ring of its own | partial | XRing_Copy_Props, XRing_Heap_Props | Same model: the old ring value in the memory after calls on the new one. The start index is followed round the buffer through the whole history; slots without element hold zero, so the copy shows the slot of the current ring at the shifted index. |
| C91 | A comparator that writes to the slice does no harm to the sort | proved | XSort_Props4 | Simulation: the run on map c l (l distinct labels, c their contents) is matched step by step by a run on the labels with a comparator that keeps c in its state and does not write, so that the earlier theorems apply; one parametricity lemma (XSort_Rel) gives the simulation, the chain of calls, and that a panic only cuts the run short. Comparison bounds by a potential. |
| C92 | Ranges, their parts and their lengths | proved | XSlice_Props2 | Walking lemma of Algo_Proofs for any lawful iterator; a part of a part is a part; the slice case by computation with the bounds checks. |
| C93 | The plain methods of Slice | proved | XSlice_Props2 | Directly from the heap model: a slice is a view of an array, cells outside the written one are unchanged. |
| C94 | Searching and permuting are safe with every comparator | proved | Algo_Props2 | A Hoare-style predicate (calm: elements unchanged, at most k comparisons, result or comparator panic) with rules for bind and compare; induction on the loops; for NextPermutation the only writes are the swap and the reversal, which come after the last comparison. |
| C95 | Incremental64 can be fed in pieces like any hash.Hash64 | partial | XHash_Props2 | Write of whole blocks is a fold of WriteUint64 over the length and the words; a list of writes is a fold over all of them; injectivity of the step (C57) separates the results. The cut with an empty Write is refuted for every input, because the first step has no fixed point at the initial state. |
| C96 | Bind's panic names the first problem | partial | XFn_Bind_Props | A relation first_problem says what is wrong first and how it is worded; each loop of Bind is shown to stop there with that text, and every binding has a first problem or is accepted, so the texts agree in both directions. |
| C97 | Iterator offsets and distances with 64-bit ints | proved | Int_Props | Wrapping is the identity on ints; position plus offset overflows only upwards, to a negative number, which the bounds check refuses; negating the least int gives itself, and adding it to any position is refused as well. |
| C98 | Rings with 64-bit ints | partial | Int_Props | Memory bounds the capacity, so five times the capacity is an int and every wrapped computation equals the unbounded one: the step is the same or make refuses; then the refinement of C01. The failing history is computed symbolically. |
| C99 | A recovered panic costs a stream one element | proved | Stream_Panic_Props | The loop over the stages with partial callbacks is one element through a list of stages (a result, a rejection, the end or the panic, and the stages with their counters moved); this equals list functions on items; induction on the calls, then on the builder calls up to Skips the source takes. |

## Which code is modelled

| package | file | modelled | in |
|---|---|---|---|
| xsort | sort_any.go, sort_ordered.go, sort.go | everything | XSort_Model, Int_Sort_Model (64-bit ints), XSort_Timed_Model (with a clock) |
| algo | binary_search.go, is_sorted.go, generic.go, fill.go, next_permutation.go | everything | Algo_Model |
| ds/iter | funcs.go, range.go, reverse.go, inserter.go, iterator.go | everything | Iter_Model, Iter_Spec, XSlice_Model, Int_Iter_Model (64-bit ints) |
| ds/iter | dummy.go | everything | Iter_Model |
| ds/xslice | slice.go, ops.go, iterator.go | everything | XSlice_Model, GoSlice, Int_Iter_Model (iterators with 64-bit ints) |
| ds/xring | ring.go | everything | XRing_Model (own buffer), XRing_Heap_Model (buffer in shared memory), Int_Ring_Model (64-bit ints, bounded memory) |
| ds/xmap | map.go, ops.go, set.go, arraymap.go, custom.go | everything; an Entry, and `NewEntry`, is a pair | XMap_Model, MapRef_Model, ArrayMap_Hash_Model |
| ds/xmap | sharded.go | everything; encoding/json is a parameter of MarshalJSON | Sharded_Model, Sharded_Reent_Model, Sharded_JSON_Model, Sharded_HB_Model (with happens-before) |
| stream | source.go, stream.go, conv.go, collector.go | everything; `VoidConsumer`, which does nothing, has no definition of its own | Stream_Model, Stream_Reent_Model (callbacks that call Next), Stream_Grow_Model (callbacks that add stages), Stream_Both_Model (both), Stream_Live_Model (slices in shared memory) |
| xfn | predicate.go, comparator.go, arithmetic.go | everything but `Predicate.F`, a conversion | XFn_Model, XFn_Compare_Model, XFn_Arith_Model |
| xfn | bind.go | everything, with the message texts; names of types are parameters | XFn_Bind_Model |
| xmath | number.go | everything | XFn_Model |
| xhash | binary.go, fast64.go | everything | XHash_Model |
| xhash, secrand | diehard_gen/main.go, dieharder_test/main.go | everything but flags, strconv and the errors of os.Stdout | Gen_Model |
| xhash | xxh3.go | no: renamings of functions of zeebo/xxh3 | |
| hasher | hasher.go, runtime_go118.go | the functions, and the hash functions of the Go runtime they reach; reading the function pointer out of the map type by unsafe is not | Hasher_Model |
| secrand | rng.go, pool.go, secrand.go | everything; ChaCha of aead/chacha20 is an arbitrary cipher in the positive theorems and is written out for the counterexample | Secrand_Model, Pool_Model, Rand_Model |
| xrand | crypto.go, pool.go, xrand.go | everything, with the parts of math/rand they use | Rand_Model, Pool_Model, Pool_Gen_Model (with the states of the generators) |
| atomic | value.go, ptr.go | everything | Value_Model, Ptr_Model, Value_HB_Model and Ptr_HB_Model (with happens-before) |
| atomic | atomic.go | no: renamings of go.uber.org/atomic | |
| xsync | pool.go, synchronized.go | everything, over documented sync.Mutex, sync.RWMutex, sync.Pool | Sync_Model, Sync_HB_Model (with happens-before), Sync_Multi_Model (several values at a time), Pool_Model |
| generics, constraints, xtd | | types and one-liners; `ZeroOf` is a parameter `zero`; `TypeOf` is part of the reflect model of Bind; `xtd.Addr`, NoCopy and NoCompare are not modelled | |

Not modelled anywhere: message texts of panics (only that and when they
happen, except where a property mentions them), JSON, `fmt`, allocation
failure, garbage collection (except zeroing and capacity claims), run time other than
the counts stated, relaxed memory effects beyond interleaving of the atomic steps
(the executions have no data race in the sense of the Go memory model, by C128 and
C129, and the Go memory model says that such programs behave as interleavings).

## Trusted base

* The kernel of Coq 8.16.1 (and coqchk, which re-checks the compiled files).
* The reading of the Go code: each definition cites the lines it models.  As
  evidence for it, Repo_Tests.v runs the project's own unit tests on the model
  (all that need no goroutines, clock or seeded math/rand); these are tests and
  no claim rests on them.
* Behaviour of things outside /repo, as documented: Go maps, slices, append,
  defer and panic, sync.Mutex, sync.RWMutex, sync.Pool, sync/atomic, reflect,
  io.ReadFull, crypto/rand, math/rand (transcribed from Go 1.18), runtime
  hash functions (transcribed from Go 1.18), XXH3 of eight bytes and ChaCha
  (written down from the public descriptions).
* Axioms: none of ours, and no theorem uses one of the standard library.  `coqchk` also lists
  seven constants of `Coq.ssr.ssrunder`; they belong to a module that the library of
  Coq itself loads, and no theorem here depends on them.

Output of `Print Assumptions` for every theorem named in MANIFEST.json (452 theorems): each of
them answers **Closed under the global context**, that is, no axiom at all.

* C01: `C01_sort_safe`
* C02: `C02_sort_sorts`
* C03: `C03_sortordered_safe`, `C03_sortordered_sorts`
* C04: `C04_stable_safe`, `C04_stableordered_safe`
* C05: `C05_stable_sorts_stably`, `C05_stableordered_sorts_stably`
* C06: `C06_sort_depth`, `C06_symmerge_depth`
* C07: `C07_sort_comparisons`
* C08: `C08_lower_bound`, `C08_lower_bound_sorted`
* C09: `C09_upper_bound`, `C09_upper_bound_sorted`
* C10: `C10_reversed_range_panics`, `C10_empty_range_no_calls`
* C100: `C100_distinct`, `C100_types_not_hashed`
* C101: `C101_history`, `C101_others`
* C102: `C102_stale_refuted`, `C102_kept_partial`, `C102_left_partial`
* C103: `C103_no_lost_update`, `C103_retry`
* C104: `C104_same`, `C104_ordered_same`, `C104_sorts`
* C105: `C105_sorted_slice`, `C105_meaning`
* C106: `C106_clock`, `C106_sort`, `C106_sort_ordered`, `C106_sort_per_comparison`, `C106_sorted`, `C106_stable`, `C106_stable_ordered`
* C107: `C107_swap`, `C107_exchange`, `C107_ptr`
* C108: `C108_one_map`, `C108_floats`, `C108_nan`, `C108_default_hasher`
* C109: `C109_per_key`, `C109_clear`, `C109_entry`
* C11: `C11_sorted_until`, `C11_is_sorted`
* C110: `C110_filter_refuted`, `C110_limit_refuted`, `C110_map_peek_partial`, `C110_panic_partial`, `C110_limit`, `C110_fold`, `C110_same`
* C111: `C111_loop`, `C111_iterators`, `C111_in_place`, `C111_pipeline`
* C112: `C112_comparisons`, `C112_time`, `C112_ordered`
* C113: `C113_amortised`, `C113_loop`
* C114: `C114_neighbours`
* C115: `C115_output`, `C115_counters`, `C115_chain`
* C116: `C116_seed`, `C116_words`, `C116_raw`, `C116_agreement`
* C117: `C117_references`
* C118: `C118_hashable_partial`, `C118_lookups_partial`, `C118_set_refuted`, `C118_delete_refuted`
* C119: `C119_spare_partial`, `C119_deleted_refuted`
* C12: `C12_reverse`
* C120: `C120_keys_partial`, `C120_whole_partial`, `C120_nested_refuted`, `C120_clear_refuted`
* C121: `C121_related`, `C121_map`, `C121_same_moves`, `C121_ordered`
* C122: `C122_all_end`, `C122_order_needed`
* C123: `C123_calls`, `C123_pure`
* C124: `C124_goes_back`
* C125: `C125_two_steps`
* C126: `C126_one_map`, `C126_concurrent`, `C126_no_deadlock`
* C127: `C127_added_stages`, `C127_none_added`, `C127_take_until`
* C128: `C128_same_executions`, `C128_value_race_free`, `C128_value_publishes`, `C128_ptr_same_executions`, `C128_ptr_publishes`
* C129: `C129_same_executions`, `C129_sharded_race_free`, `C129_sharded_publishes`, `C129_clear_races`, `C129_sync_same_executions`, `C129_sync_race_free`
* C13: `C13_swap`, `C13_fill_n`, `C13_fill_none`
* C130: `C130_limit_refuted`, `C130_end_refuted`, `C130_limit_partial`, `C130_only_calls`, `C130_only_adds`
* C131: `C131_one_step`, `C131_all_end`, `C131_invariant`, `C131_accounts`, `C131_two_phase_needed`, `C131_order_needed`, `C131_upgrade_stuck`
* C132: `C132_streams`, `C132_undisturbed`, `C132_all_return`, `C132_early_put`
* C133: `C133_shares`, `C133_pipelines`, `C133_sources`, `C133_pages_partial`, `C133_pages_refuted`
* C134: `C134_deque`, `C134_looking`, `C134_queue`, `C134_fifo`, `C134_defer_needed`
* C135: `C135_one_winner`, `C135_all_agree`, `C135_one_holder`, `C135_holder_reads`, `C135_fails_only_if_taken`, `C135_discipline_needed`, `C135_nan`
* C136: `C136_integers`, `C136_strings`, `C136_floats`, `C136_predicates`, `C136_complements`, `C136_sort_descending`, `C136_not_comparators`
* C14: `C14_next_permutation`
* C15: `C15_wraps_at_the_last`
* C16: `C16_enumerates_all_permutations`
* C17: `C17_reverse_lawful`, `C17_slice_iterators_lawful`, `C17_slice_ranges`
* C18: `C18_reverse_random_range_refuted`, `C18_reverse_random_range_partial`
* C19: `C19_in_bounds`, `C19_exact_panics`
* C20: `C20_insert`, `C20_insert_panics`, `C20_insert_foreign_iterator_panics`
* C21: `C21_delete`, `C21_unordered_delete`, `C21_delete_last`, `C21_delete_panics`
* C22: `C22_insert_frame`, `C22_append_frame`, `C22_append_one_frame`, `C22_delete_frame`, `C22_other_slices_unchanged`
* C23: `C23_copy`, `C23_reversed`
* C24: `C24_append_slice`, `C24_insert_slice`, `C24_ring`, `C24_fill_n`, `C24_other_methods`
* C25: `C25_newlencap_refuted`, `C25_newlencap_partial`
* C26: `C26_ring_is_deque`, `C26_panic_leaves_unchanged`
* C27: `C27_cap_proportional`, `C27_grow_only_when_full`
* C28: `C28_dead_slots_zero`
* C29: `C29_newlencap_refuted`, `C29_newlencap_partial`
* C30: `C30_enumeration`, `C30_set`, `C30_delete`
* C31: `C31_clear_refuted`, `C31_clear_exact`, `C31_clear_partial`
* C32: `C32_arraymap_refuted`, `C32_lookups_partial`, `C32_arraymap_partial`, `C32_delete_breaks`, `C32_set_breaks`, `C32_comes_back_refuted`, `C32_len`
* C33: `C33_custom_refuted`, `C33_collision_lost`, `C33_custom_exact`, `C33_custom_partial`, `C33_no_collision_partial`, `C33_overflow_refuted`, `C33_overflow_partial`
* C34: `C34_sequential`, `C34_total`, `C34_new_panics`
* C35: `C35_linearizable`
* C36: `C36_once`, `C36_same_value`, `C36_only_absent`
* C37: `C37_no_race_partial`, `C37_clear_race_refuted`
* C38: `C38_no_deadlock`, `C38_all_free`, `C38_all_return`
* C39: `C39_len_refuted`, `C39_len_partial`, `C39_len_between_partial`
* C40: `C40_pipeline_partial`, `C40_slice_partial`, `C40_interleaved_partial`, `C40_skip_overflow_refuted`, `C40_skip_after_end_refuted`
* C41: `C41_slice`, `C41_count`, `C41_collect`, `C41_reduce`, `C41_all_any_none`, `C41_first`, `C41_string`
* C42: `C42_any`, `C42_all`, `C42_first`
* C43: `C43_sticky`, `C43_sticky_builders`
* C44: `C44_range_partial`, `C44_progression`, `C44_range_overflow_refuted`, `C44_range_max_refuted`, `C44_rangeN_partial`, `C44_rangeN_refuted`, `C44_sequence`, `C44_zero_step`
* C45: `C45_limit_partial`, `C45_pulls`, `C45_limit_refuted`
* C46: `C46_turns`, `C46_last_turn`
* C47: `C47_peek_partial`, `C47_peek_limit_partial`, `C47_exact`, `C47_determined`, `C47_skip_refuted`
* C48: `C48_map`, `C48_skip`, `C48_nested`
* C49: `C49_slice_partial`, `C49_slice_skip_partial`, `C49_slice_skip_refuted`, `C49_iterators`, `C49_of_iterators`, `C49_other_slice`, `C49_bounded`, `C49_generator`
* C50: `C50_or`, `C50_not`, `C50_and_refuted`, `C50_and_partial`, `C50_and_method_refuted`, `C50_and_method_partial`, `C50_methods`, `C50_membership`, `C50_membership_any`, `C50_short_circuit`
* C51: `C51_prefix_suffix`
* C52: `C52_lessfloat_order`, `C52_sort_floats`, `C52_less_not_order`
* C53: `C53_bind_routes`
* C54: `C54_bind_accepts`, `C54_bind_well_typed_partial`, `C54_variadic_refuted`, `C54_variadic_partial`
* C55: `C55_min_max`
* C56: `C56_uint64_bijective`
* C57: `C57_seed_injective`, `C57_one_word_differs`, `C57_states_stay_apart`
* C58: `C58_write_refuted`, `C58_write_partial`, `C58_write_exactly`, `C58_block_differs`
* C59: `C59_roundtrip`
* C60: `C60_is_xxh3`
* C61: `C61_never_fails`, `C61_nesting`
* C62: `C62_erased`
* C63: `C63_aligned_partial`, `C63_cuts_partial`, `C63_straddle`, `C63_exact_partial`, `C63_same_cuts_partial`, `C63_chunking_refuted`
* C64: `C64_uint64`, `C64_seed`
* C65: `C65_new`, `C65_defaults`
* C66: `C66_contents`
* C67: `C67_linearizable`, `C67_new_value`, `C67_exact`, `C67_wait_free`
* C68: `C68_spurious_failure_refuted`, `C68_failure_partial`, `C68_cause_partial`
* C69: `C69_exclusion`, `C69_atomic`, `C69_no_lost_update`, `C69_no_deadlock`, `C69_readers_share`, `C69_all_return`
* C70: `C70_never_shared`, `C70_put_back`
* C71: `C71_provenance_partial`, `C71_new_never_panics`, `C71_empty_refuted`
* C72: `C72_amortised_copying`
* C73: `C73_from_reader`
* C74: `C74_secrand`, `C74_succeeds`, `C74_xrand`
* C75: `C75_linearizable`, `C75_wait_free`, `C75_one_winner`
* C76: `C76_crypto`, `C76_uniform`
* C77: `C77_range`, `C77_uniform`, `C77_redraws`, `C77_returns`, `C77_words`, `C77_words_uniform`
* C78: `C78_perm`, `C78_perm_uniform`, `C78_shuffle`, `C78_shuffle_draws`, `C78_shuffle_uniform`
* C79: `C79_read`, `C79_read_chunks`, `C79_floats`, `C79_nearest`
* C80: `C80_stable_comparisons`
* C81: `C81_sorted`, `C81_descending`
* C82: `C82_wrap`, `C82_wrap_unique`, `C82_inverse`, `C82_division`, `C82_sum`, `C82_product`, `C82_concat`, `C82_float_commutes`, `C82_float_sum_order`, `C82_float_ops`, `C82_float_special`
* C83: `C83_equal_values`, `C83_self_equal`, `C83_panics`, `C83_nan`, `C83_ways`, `C83_sharded`
* C84: `C84_factory_refuted`, `C84_iterate_set_refuted`, `C84_iterate_get_refuted`, `C84_crossing_refuted`, `C84_same_methods`, `C84_same_callbacks`, `C84_alone_partial`, `C84_ordered_partial`
* C85: `C85_write_refuted`, `C85_write_self_refuted`, `C85_read_refuted`, `C85_panics_partial`, `C85_usable_partial`
* C86: `C86_sort_panics`, `C86_stable_panics`, `C86_sort_calls`, `C86_stable_calls`
* C87: `C87_weakly_consistent`, `C87_meaning`, `C87_quiet`, `C87_moments`
* C88: `C88_deque_in_memory`, `C88_other_memory_unchanged`, `C88_results_independent`, `C88_ring_memory`, `C88_copy_returns`, `C88_pointers`
* C89: `C89_toslice_destination_refuted`, `C89_toslice_changes_ring_refuted`, `C89_toslice_apart_partial`, `C89_toslice_contiguous_partial`, `C89_toslice_exact_partial`, `C89_toslice_right_partial`
* C90: `C90_assigned_ring_refuted`, `C90_full_ring_partial`, `C90_same_elements_partial`, `C90_shared_partial`, `C90_parted_partial`, `C90_additions_partial`
* C91: `C91_sort_writes`, `C91_stable_writes`, `C91_elements`, `C91_depth`
* C92: `C92_ranges`, `C92_distance_signed`, `C92_slice_parts`, `C92_dummy`
* C93: `C93_reads`, `C93_set`, `C93_sub`
* C94: `C94_bounds`, `C94_sorted`, `C94_next_permutation`
* C95: `C95_cuts_refuted`, `C95_two_blocks_refuted`, `C95_same_cuts_partial`, `C95_sum_partial`
* C96: `C96_ordinals_refuted`, `C96_ordinals_partial`, `C96_message`, `C96_message_partial`, `C96_placeholder`
* C97: `C97_offsets`, `C97_distances`, `C97_lawful`
* C98: `C98_ring`, `C98_zero_size_refuted`, `C98_zero_size_partial`
* C99: `C99_recovered`, `C99_elements`
