# Formal model of chen3feng/stl4go in Rocq (Coq 8.16.1)

The model, the specifications and all proofs are in `rocq/theories/` (logical name `Verif`) and use only Coq's standard library.
`properties.jsonl` holds the properties in English, `MANIFEST.json` the names of the theorems for each of them, `seeded/LOG.jsonl` the wrong programs the theorems were tried against.

How to read `seeded/LOG.jsonl`: each line is one edit of the model, tried in a scratch copy.
Every lemma whose proof script then broke was admitted there, and `failed` lists the theorems that depend on an admitted lemma.
So `failed` says that the proof no longer goes through, not that the theorem was shown false of the edited program: a proof can also break because its script follows the shape of the definition, and a shared lemma takes all its theorems with it.
Where the field `broken` is present it lists the lemmas and examples that broke first; an example in it that is proved by computation shows a changed result.
Where an edit turned out to be harmless, the note of its line says so.
An empty `failed` means that the edit survived or, where the note says so, that the attempt was inconclusive.
`tightened` names the one theorem that was restated as a result of an attempt, C141_apart: it spoke of the specification alone.
A search of all theorems for the same weakness then had C18_panics, C18_panic_unchanged, C20_panics, C20_empty and C61_no_adjacent_equal restated about the model.
C106_less, C117_top, C120_unique, C133_middle and C142_unique speak of specifications alone on purpose: they say what those mean.

## 1. Layout

| files | role |
|---|---|
| `Base.v` | outcomes (`Ok`/`Panic`/`NoFuel`), state monad, Z-indexed arrays, Go slices over a memory of backing arrays, 64-bit wrap |
| `Nodes.v` | pointer heap for the linked structures |
| `Trace.v` | running a list of calls and collecting their results |
| `Spec.v`, `Spec_*.v` | the specification vocabulary. Small, and without reference to any model function: orders, sortedness, heaps, finite maps, sets, sequences, frame conditions, contracts of external code |
| `Model_*.v` | one per Go file: the executable model, every definition with the Go lines it models. No proofs |
| `Proof_*.v`, `BaseLemmas.v` | lemmas and invariants |
| `Props_*.v` | the property theorems `Cnn_…`, each followed by `Print Assumptions`, with `Example`s (`Cnn_hyp`, `…_runs`) showing that the hypotheses are met by a concrete non-trivial case and what the model computes there |

## 2. How Go is modelled

* **Panics and loops.** Every modelled function returns `Ok v`, `Panic` (nil dereference, index or slice bounds, explicit `panic`, integer division by zero, `make` with a bad size) or `NoFuel`. Loops are structural recursions where the Go loop is bounded by a list, otherwise they recurse on fuel computed inside the model from the state (for linked structures one more than the number of allocated nodes); running out yields the distinct value `NoFuel`, which every theorem excludes by stating an `Ok` or `Panic` result, so termination is part of what is proved. The state that exists when a panic happens is kept, since a caller can `recover`.
* **Integers.** Go `int` is `Z`, 64 bits wide where the width matters: wrap-around is written out where correctness could depend on it (heap child index, binary search midpoint, `Fill` doubling, slice index arithmetic in `Vector`, `Sum`, `Average`, `Range`, random level). The length counters of the linked structures are unbounded (an overflow needs 2^63 nodes).
* **Floats** (`Sum`, `Average`, `Range`, C53–C56, C64, C65, C74) are `SpecFloat.spec_float` with the IEEE precisions 24/128 and 53/1024 and round-to-nearest-even; the float-to-integer conversion of an out-of-range value, which Go leaves to the implementation, is an arbitrary function `ftoi`.
* **Slices.** A memory is a list of backing arrays; a slice is (array, offset, length, capacity). `append` reuses the array when capacity allows and otherwise allocates; the new capacity is an arbitrary oracle `grow`, forced to be at least what is needed. In-place algorithms on one slice run on the slice's window (`on_slice`): Go bounds-checks every access to a slice against its length, so only re-slicing and `append` can leave the window, and those are modelled on the memory. Slice arguments that are only read are the list of their contents, except where aliasing matters (`Vector.Insert`, `CopyTo`, `TransformTo`).
* **Pointers.** Linked structures live in a heap that only grows (Go is garbage collected); `nil` is `None`; dereferencing `nil` panics. The skip list's `head` field, a struct in Go, is a heap node of its own. The initial heap is arbitrary, so several structures may live in it.
* **Type parameters.** An `Ordered` type is a Coq type with boolean `ltb` and `eqb`; `a > b` is `ltb b a`, `a >= b` is `ltb b a || eqb a b`. The laws (`ordered`: strict weak order whose incomparability is `eqb`) are hypotheses of the theorems that need them. C74 shows that Go's types have them, floats as long as no NaN is involved; with NaN the weaker `ordered_nan` is assumed or nothing at all (C17, C50, C61, C62, C68, C72).
* **Callbacks** are state-passing functions: they may carry any private state (so "called once per element, in order" is expressible), but do not call back into the container, except in C81–C83, C88–C90, C93, C100, C110, C115, C116, C123, C130 and C132, where they are programs over the container's methods. Comparators are pure, except in C94, C95, C102, C103 and C111, where they keep state and may panic, and in C112, C115, C116, C127–C130 and C132. The callbacks of `transform.go`, `generate.go` and `Vector.RemoveIf` may panic in C96; those of `transform.go` and `generate.go` may also write memory in C124.
* **Go maps** (`BuiltinSet`) are lists of entries with an identity: `range` produces each entry that was there at the start and has not been deleted once, in any order (`rounds`), entries added meanwhile may or may not be produced; an insertion of an equal key may keep or replace the key (`pick`); entries whose key is not equal to itself are never found.
* **External code** is an oracle: `rand.Uint64` is an arbitrary number per call, map iteration order arbitrary, `sort.Sort/Stable` an arbitrary program over `Len/Less/Swap` meeting its documented contract (shown satisfiable), `rand.Shuffle` an arbitrary sequence of in-range swaps, `sync.Pool` an arbitrary bag that may drop items or find nothing.
* **Goroutines** occur only in C69 and C131; every interleaving of the small steps (take, miss, call New, return, put, drop, pass on) is covered. Other types document no thread safety.

## 3. Properties

"Refuted" means that the documented or expected behaviour is not what the code does; a theorem gives the counterexample and another one says what does hold. The statement in `properties.jsonl` contains both.

| property | model | specification and proof |
|---|---|---|
| C01, C02 map, C08 Clear | `skiplist.go`, both key comparison variants, all pointers | `map_spec` (sorted association list) and `fmap_spec` (a function `K -> option V`). Invariant: one duplicate-free address list, each level's chain is its filter by node height, keys strictly sorted. Simulation by induction on the calls |
| C03, C05–C07 iteration, bounds, ranges | iterators | chain walks; C06 (half-open range) is refuted, C07 says what holds |
| C04 | random numbers as arguments | two runs simulate the same specification |
| C09–C11 | pointers and iterators kept across calls | addresses are never reused; each call's effect on the other nodes |
| C12 | `randomLevel`, `newSkipListNode` (the 40 cases) | bounds and exact distribution of the level, for every length |
| C13 | `ForEach…` | `fold_while`, `map_while` |
| C14 | any permutation of the pairs | from C01 |
| C15, C16 | `skiplist_set.go` | `set_spec` (sorted list) and predicates `K -> bool` |
| C17 | ordered variant, arbitrary comparisons | refuted for NaN keys; structure, termination, soundness for any comparison |
| C18, C19, C22 | `slist.go` | `slist_spec` on `list`; list-segment invariant |
| C20, C21, C22, C24 | `dlist.go` | `dlist_spec`; ring invariant in both directions. C24 refuted: popped nodes, `Clear` |
| C23 | `dlist_queue.go` | `queue_spec`; what is popped is a prefix of what was pushed |
| C25 | `stack.go` | `stack_spec` |
| C26–C32 | `vector.go` on the slice memory | `vec_spec` on `list` plus frame conditions (`same_except`, `shrunk`: vacated slots are zero). C28 and the second half of C30 refuted |
| C33–C39, C71, C72 | `heap.go` | `min_heap`, `Permutation`; invariants "heap except at i" for sifting. C38 refuted. C72 assumes nothing about `less` |
| C40 | `priority_queue.go` | `pq_spec` on a bag |
| C41–C44, C70 | `binary_search.go` | partition point; loop invariant; iteration count |
| C45–C47 | `sort.go` adapters | any sorting program meeting `sort_contract`/`stable_contract` |
| C48–C52, C73 | `compare.go`, `lookup.go`, `functor.go` | `lex_lt`, `first_index`, `first_max`, quantifiers |
| C53–C56, C64, C65 | `compute.go`, `Range` | exact integers, `fits`, `value_is` for floats. C54, C56, C64, C65 refuted |
| C57–C63 | `transform.go` | list functions plus frame conditions; C59's `TransformTo` onto a shifted overlapping target refuted |
| C66–C68 | `builtin_set.go` | `bset_spec`: worlds of predicates. C68 refuted for NaN |
| C74 | `types.go`, `functor.go`: the Go types as machine integers, byte strings, `spec_float` | the order laws assumed elsewhere; floats compare as the numbers they stand for |
| C75 | `MakeMinHeap`, `MakeHeapFunc` with a budget of loop iterations | sum of the depths below each node |
| C76, C77 | the searches of `skiplist.go` with a count of the keys they read (`Spec_SkipCost.v`; `C76_counting`: without the count they are the model's searches); `links` adds up the lengths of the nodes' arrays | sums over all sequences of draws. A search reads at most one key per level plus one per node of that height not hidden behind a higher one. The heights are independent given the calls; of the keys inserted at length < t at most t are present, so few nodes have a height cut by the length |
| C78–C80 | client statements over variables that hold iterators and value pointers (`Model_SkipIter.v`, with `Pointer`, skiplist.go:235-237); a value pointer is the node it points into | simulation by a sorted map whose elements have identities and whose removed elements remember the one behind them (`Spec_SkipIter.v`); the nodes of removed elements are part of the frame that calls leave alone. C79, C80: invariants of that map (the element behind has a greater key) |
| C81–C83 | the four ForEach loops with callback bodies that are programs over the statements of C78 (`Spec_SkipReenter.v`, `Model_SkipReenter.v`); the number of rounds is an argument, since the loop may run forever | simulation as for C78, the loop variable being one more client variable; invariants over all states a callback passes through. C83 is refuted by a callback for which every round bound is exhausted |
| C84, C85 | client statements over variables that hold iterators and element pointers of an `SList` or a `DList` (`Model_ListIter.v` on top of `Model_SList.v`, `Model_DList.v`) | simulation by a sequence of elements with identities in which removed elements remember where they lead (`Spec_ListIter.v`, `Spec_Client.v`); the memory outside is a frame |
| C86, C87 | the same | walks from any element are acyclic: every removed element leads out of the removed ones after finitely many steps. C87 refuted |
| C88–C90 | the ForEach loops with callback bodies that are programs over those statements; the number of rounds is an argument | simulation as for C81. C89: the elements not yet visited stay in order behind the current one. C90 refuted by callbacks for which every round bound is exhausted |
| C91, C92 | client statements over variables that hold iterators and element pointers of a `Vector` (`Model_VecClient.v` on top of `Model_Vector.v`); a pointer is the slice and the index it was taken from. Calls with a reversed range, or that would make the vector longer than an int, are skipped (C30 covers them). `IterateRange` is added in C122 | simulation by a vector with a list of storages (`Spec_VecClient.v`); the memory outside is a frame. C92 refuted by a reallocating PushBack |
| C93 | the ForEach loops with callback bodies that are programs over those statements; `range v` evaluates the slice once | simulation as for C88. C93 refuted by a callback that removes |
| C94 | the `…Func` heap functions and `pqFunc` again (`Model_HeapFx.v`), with `less` a program that has its own state and may panic; the state of the slice at the panic is kept | loop invariants "permutation of the slice, memory outside kept" for every `less` that keeps a contract; a ledger of pushed and popped elements for the queue. C94 refuted by panics in the first call |
| C95 | the calls of a `SkipList` made by `NewSkipListFunc` again (`Model_SkipFx.v`), with `keyCmp` a program that has its own state and may panic. Keys are compared before anything is written but `prevsCache` | step for step comparison with `Model_SkipList.v`, then the simulation of the sorted map of C02 |
| C96 | the functions of `transform.go` and `generate.go` that take a callback, and `Vector.RemoveIf`, again (`Model_TransformFx.v`) with callbacks that have their own state and may panic | the state of the slice at the panic in terms of the results of the calls that returned (`calls`, `Spec_TransformFx.v`); C96 refuted by a predicate that panics on the last element |
| C97 | `slist.go`, `dlist.go`, `dlist_queue.go`, `skiplist.go`, `vector.go`, `stack.go`, `heap.go`, `priority_queue.go` | Spec_Reach.v: `reach` is reachability through node pointers, `keeps_only` says which nodes are reachable, `clean_behind` that slots behind a slice's last element are zero. Representation invariants of C01, C15, C20 closed under links (C97_SList, C97_DList, C97_DListQueue, C97_SkipList_head); Vector from the slot-exact world of C91 (C97_Vector). The expected statement is refuted for Stack, PriorityQueue and SkipList (C97_refuted), with the general facts C97_Stack_keeps, C97_heap_keeps, C97_PriorityQueue_Clear_keeps, C97_SkipList_leak. Not covered: the value in the head nodes of DList and SkipList (never written). |
| C98 | the looking methods of all containers, `SkipList.Remove` of an absent key | Spec_Reads.v: a program is a tree of single accesses, `together` interleaves several, `made_of` says which accesses can occur. Each looking call of the models of C01, C15, C18, C20, C23, C25, C26, C40, C66 is shown equal to a program made of reads only, and any interleaving of such programs is shown to leave the state and give each the result it has alone. C98_refuted: Remove of an absent key writes prevsCache; C98_Remove_missing: and nothing else. Go's memory model for racing accesses is not needed, since no access writes. |
| C99 | `NewPriorityQueueOn`, `NewPriorityQueueOf` and all calls on the queue | Spec_PQOn.v: `peak` is the largest number of elements held during a list of calls. Invariant over the calls (Proof_PQOn.v): the queue's header is the caller's window while `peak` is at most the capacity and a new array afterwards; only the window is written. C99_pops by induction on the number of Pops. C99_refuted: Pop rearranges the caller's slice; a write by the caller changes what Pop returns. |
| C100 | `BuiltinSet.ForEach`, `ForEachIf` with callbacks that use sets | Model_BSetFx.v: callbacks are trees of calls and loops (Spec_BSetFx.v), run by the range loop of Model_BuiltinSet.v, whose order is an arbitrary list of entry identities. `each`: nondeterministic specification of a loop by the keys that must still be visited and those that may not be visited again. Proof: every call keeps the identities of the entries it does not remove (it only adds or only removes). References a program cannot have yet count as nil. Since the order is a finite list, nothing is claimed about the end of loops whose callbacks insert. |
| C101 | the `PriorityQueue` struct, copied by assignment | Model_PQCopy.v: variables hold a slice header and `impl`, a reference to the variable inside the object the constructor made. Spec_PQCopy.v: `copy_spec` over queues (bag and first element) and copies (length, and the element seen once the queue has moved). Invariant (Proof_PQCopy.v): queues have disjoint arrays; a copy shares the array and offset of its queue or an array no queue uses. Overwriting an existing queue (`*q = c`) and queues on a caller's slice (C99) are not part of these programs. |
| C102 | callbacks of `lookup.go`, `CountIf`, `binary_search.go` | Model_LookupFx.v: callbacks on a world of memory and private state; `range` reads each element when its turn comes. Spec_LookupFx.v: `asks`, a chain of calls and nothing else, each on the current element. Callbacks are only assumed not to shrink or free arrays. |
| C103 | `SortFunc`, `StableSortFunc` with a less that panics or keeps state | Model_SortFx.v: the decision trees of Model_Sort.v run over the slice and less's own state. A less that writes the slice itself: see C129. |
| C104 | the `DList` struct, copied by assignment | Model_DListCopy.v: the functions of Model_DList.v on one heap and many headers. Spec_DListCopy.v: `share_spec` over rings (a sequence, or broken) and variables (ring, own length). Proof: calls whose emptiness test agrees run as on a list of the right length, the length shifted by a constant (`step_shift`); the rest by computation. Each program step is atomic: no copies made inside callbacks. A `DListQueue` is a struct with just a DList, so the same holds of its copies. |
| C105 | the `SList` struct, copied by assignment | Model_SListCopy.v: the functions of Model_SList.v on one heap and many headers. Spec_SListCopy.v: `own_spec` (a sequence per variable), `number` (which elements are common), `polite` (who may write). Proof: every push takes the next address, so addresses are the spec's numbers; a writing call keeps everything off its own list. Programs that are not polite are characterised only for appending through a copy (`C105_appended`). |
| C106 | the functions of C41–C43, C45, C47–C49, C51, C52, C60–C62 on float-like types | No new model. Spec_NaN.v: two less functions, `stretches_sorted`. Proof: from those properties' theorems, which hold for any `<` and `==`, and from the agreement of `<` with a total order on slices without NaN (`run_agree`). The counterexample to Sort uses insertion sort, which is what Go's sort package does with three elements. |
| C107 | `vector.go` | `Spec_VecCopy.v`, `Model_VecCopy.v`: one memory, a list of slice headers, copied by assignment; a call is that of `Model_Vector.v` on the shared memory and its own header.  Invariant: headers are well formed and those of one array have the same offset and capacity (`Proof_VecCopy.v`, generic in the container); per-method frame lemma (what is written is at or after `vec_touched`), then induction over programs |
| C108 | `stack.go` | Same generic proof for `Model_Stack.v` (`Proof_StackCopy.v`); lengths by a simulation that forgets elements |
| C109 | `skiplist.go` | `Model_SkipListCopy.v`: several structs, each with level, len and a pointer to the struct its `impl` was made with; head.next and nodes shared. Invariant that separates what the shared list needs (`body`) from what only the original needs (`fits`: no node higher than its level) and what copies keep (`loose`) (`Proof_SkipListCopy.v`) |
| C110 | `skiplist_set.go` | `Model_SetClient.v`: client statements over the methods of `Model_SkipListSet.v`, variables holding iterators, and the ForEach loops with callbacks that are programs over the same statements. Spec: `Spec_SetClient.v`, sorted set with element identities. Proof: every statement of a set client equals a short program of a SkipList[K, struct{}] client, on both sides (`Proof_SetClient.v`), then C79-C83 carry over |
| C111 | `skiplist_set.go` | `Model_SetFx.v`: the methods over the SkipList of `Model_SkipFx.v`, whose comparison function runs in a state monad and may panic. Spec: `Spec_SetFx.v`. Proof: each call tracks the pure one or panics with the nodes kept; InsertN and RemoveN by induction over their keys (`Proof_SetFx.v`) |
| C112 | `skiplist.go` | `Model_SkipVary.v`: each call of `Model_SkipList.v` with its own comparison function; for the refutations `Model_SkipFx.v`, whose function keeps state during a call. Spec: `Spec_SkipVary.v`, what a call may do to the sequence of pairs. Proof: representation invariant without sortedness, kept by Insert and Remove because the nodes found on the levels are in list order whatever the answers (`Proof_SkipVary.v`) |
| C113 | `sort.go`, `heap.go`, `priority_queue.go`, `binary_search.go`, `vector.go`, `transform.go`, `skiplist_set.go`, `builtin_set.go`, `lookup.go`, `compare.go` together | the models of the single files; `Model_Idioms.v` adds one client loop (insert at UpperBound). Spec: `Spec_Idioms.v` (`alike`: == position by position). Proof: a sorted sequence is determined up to == by how often each element occurs, a stable one exactly (`Proof_Idioms.v`), then the theorems of the parts |
| C114 | `helper.go`, the `String` methods of `dlist.go`, `dlist_queue.go`, `builtin_set.go` | `Model_String.v`: `nameOfType` cuts the first byte of the name reflect gives to `*T` (oracle; contract `names_type`: a star and the name of `T`); `fmt`'s `%s`/`%v` of a string is the string, `%v` of a slice is `[`, the elements' texts separated by spaces, `]`; the text of an element is any function `show`. Spec: `Spec_String.v`. Proof: words without spaces can be split again (`concat_words`); decimal texts by the standard library's `DecimalString`. |
| C115 | `skiplist.go:91-170, 376-463` with a `keyCmp` that calls the list | `Model_SkipSelf.v`: the functions of `Model_SkipFx.v` with `compare` any computation on the list and the client's variables; `nest` is a client's `keyCmp` that makes planned calls, to a given depth. Spec: `Spec_SkipSelf.v` (`looks_on`: leaves the list exactly, `keeps_on`: may write `prevsCache`), `map_spec`. Proof: simulation by the pure model, exact (`same`) or up to `prevsCache` (`near`). With panics: C132. |
| C116 | `priority_queue.go:34-69, 89-100`, `heap.go:133-198` with a `less` that calls the queue | `Model_PQSelf.v`: the functions of `Model_HeapFx.v` with `less` any computation on the memory, `pq.heap` and the client's variables; `pq_nest` is a client's `less` that makes planned calls, to a given depth. `Push` panics on a slice of `max_int` elements. Spec: `Spec_PQSelf.v` (`looks_as`, `keeps_elements`). Proof: simulation by the pure model; an invariant on all slice headers into the memory (`holds`), by induction on the nesting. |
| C117 | `heap.go` (Push, Pop, Remove) after a store into the heap | `Model_HeapUpdate.v`: client code around the functions of `Model_Heap.v`. Spec: `Spec_HeapUpdate.v` (`but_one`: all pairs of other elements compare as before, which covers stores and changes behind pointers). Proof: the invariant of the sift-down loop, which holds of such a slice. |
| C118 | `vector.go`, `stack.go`, `priority_queue.go`: allocation | No new model: memory only grows in the model, so what was allocated is the memory there is more (`slots`, `Spec_Alloc.v`). The growth policy of append is any function meeting `grows`/`not_more`; argument slices made by the caller are counted apart (`args_of`). Not counted: size classes and headers of Go's allocator, garbage collection. Proof: a potential argument over runs (`run_thrifty`, `run_fits`), each call moving the slice at most once. |
| C119 | a program on `priority_queue.go` (`Model_TopK.v`): push each element of a stream, pop one when there are more than k; then pop until empty | invariant "the queue holds k greatest of what was seen" over the pushes, from the calls of C40; storage from C118; uniqueness of sorted sequences up to equivalence. Which equivalent elements stay is refuted |
| C120 | a program on `dlist_queue.go` (`Model_Window.v`): window maxima with a queue of candidates | invariant "the queue holds the elements of the window that no later element is greater than, in order", over the calls of C23 |
| C121 | a program on `stack.go` (`Model_TwoStacks.v`): a queue made of two stacks in one memory, counting the elements moved | from C25 with frames (neither stack writes the other's storage); the moved elements by the potential "length of the first stack". Refuted for stacks that share storage |
| C122 | the statements of C91 and `IterateRange` (`Model_VecRange.v`, `Spec_VecRange.v`), same scope as C91 | the simulation of C91 with positions that carry the first slot of their range. Refuted by a range behind the end |
| C123 | `Vector.RemoveIf` with a condition that is a program over the statements of C91 (`Model_VecSelf.v`) | the relation of C91 kept over the loop's own stores; `asked` (`Spec_VecSelf.v`) says what the condition is asked and what the places hold then. Refuted by a condition that pushes |
| C124 | the callback functions of `transform.go` and `generate.go` again (`Model_SliceSelf.v`) with callbacks on a world of memory and private state, which may write the function's own slices | `turns` (`Spec_SliceSelf.v`) says that calls and single stores alternate and nothing else happens; every loop is shown equal to one general loop, for which this is proved by induction. Callbacks are only assumed not to shrink or free arrays. `TransformTo` only for a slice with room enough. Refuted by a callback that writes a place already passed |
| C125 | a program on `priority_queue.go` (`Model_Merge.v`): merging lists with a queue of their fronts | invariant "the queue holds one stream for each list that is not used up" over the calls of C40, giving `picked` (`Spec_Merge.v`) for any lists; sortedness and stability by induction on `picked`; storage from C118. Stability without list numbers is refuted |
| C126 | which nodes the calls of `slist.go`, `dlist.go`, `dlist_queue.go` use (the models of these files) | `uses` (`Spec_Local.v`) says it without counting steps: other contents in the other nodes change nothing. Proved by a relational rule for each step of the models (`loc` in `Proof_Local.v`), for every state, not only well-formed lists; the contrast by changing the value of one node that is not used |
| C127 | `skiplist_set.go` | `Model_SetVary.v`: each call of `Model_SkipListSet.v` with its own comparison function. Spec: `Spec_SetVary.v`, what a call may do to the sequence of elements. Proof: from the calls of C112 with values of type `struct{}`; InsertN and RemoveN by induction over their keys. The expected removal is refuted. Answers that change during a call: see C112 |
| C128 | the functions of `heap.go` with a less function that reads and writes memory, the heap's slice and `*heap` included | `Model_HeapSelf.v` (MakeHeapFunc, IsHeapFunc, RemoveHeapFunc) on top of `Model_PQSelf.v` (sifting, PushHeapFunc, PopHeapFunc). Spec: `Spec_HeapSelf.v`; `kept` is a claim about the state that calls of less and exchanges in the slice keep, indexed by the number of calls of less. Induction over the sift loops, with the number of calls. C128_minded by a simulation of `Model_Heap.v`. The expected heap is refuted. A less that runs forever, or that makes the slice stop being one, is left out (Go has none of the latter) |
| C129 | `SortFunc`, `StableSortFunc` with a less function that reads and writes memory, the slice being sorted included | `Model_SortSelf.v`: the decision trees of `Model_Sort.v` run over states with memory. `Spec_SortSelf.v` bounds the number of Less calls and the indices of a sort package whatever Less answers; whether Go's packages keep within such bounds is a hypothesis, shown for insertion sort. Claims `kept` as in C128; induction over the tree. The expected order is refuted |
| C130 | `skiplist_set.go:12-14, 41-110` with a comparison function that calls the set | `Model_SetSelf.v`: the functions of `Model_SetFx.v` over `Model_SkipSelf.v`; `set_nest` is a client's function that makes planned calls, to a given depth. Spec: `looks_on` and `keeps_on` of `Spec_SkipSelf.v`, `set_spec`. Proof: simulation by the pure set (`alike`, with a set of states that insertions and removals do not lead out of, for InsertN and RemoveN) or, for searches, up to `prevsCache` (`near`, C115). With panics: C132 |
| C131 | `pool.go` with clients that use the `sync.Pool` inside and New functions that panic | `Model_PoolRaw.v`: the transition system of C69 with raw puts, any New field, panics of New, objects made by clients and visible drops. Spec: `Spec_PoolRaw.v`, accounts and holders over what is seen of a run. Proof: invariants over all runs (an account for any kind of value). `sync.Pool` is assumed to be as documented, see C69; its `Put(nil)` is ignored |
| C132 | `skiplist.go`, `skiplist_set.go` with a comparison function that calls the container and panics | `Model_SkipSelf.v` and `Model_SetSelf.v` as for C115 and C130; `Model_SelfPanic.v` has client functions only (`nest_p`, `set_nest_p`). Spec: `Spec_SelfPanic.v` (`looks_or_panics`), `may_panic` (C95), `set_may_panic` (C111). Proof: simulation by the pure model, in which a call either does the same or panics with the list kept but for `prevsCache` (`trk`). `nest_p` makes all its planned calls before it panics because one of them did |
| C133 | programs on `priority_queue.go` | `Model_Median.v`: the program over the model of PriorityQueue, two queues each in its own memory; its output is a plain list. Spec: `Spec_Median.v`, counts of elements below and above. Proof: invariant (two halves, none of the second less than one of the first), over the specification of C40; a counting argument for the sorted stream |
| C134 | `dlist_queue.go`, DListQueue values copied by assignment | `Model_QueueCopy.v`: any number of structs over one heap, each call that of `Model_DListQueue.v`. Spec: `Spec_QueueCopy.v`, rings of elements, and per variable its ring and its own length; written for queue calls, not in terms of the one for DList. Proof: both sides are those of C104 with the calls renamed. Expectations refuted by programs of three to six steps |
| C135 | `skiplist_set.go`, SkipListSet structs copied by assignment, and zero values | `Model_SetCopy.v`: the variables of `Model_SkipListCopy.v`; InsertN and RemoveN spelled out key by key, since each search uses the struct the set was made with as it is then; the other methods are those of `Model_SkipListSet.v`. Spec: `Spec_SetCopy.v`, sets as sorted lists and views with a length. Proof: the invariant of C109 with values of type struct{}, and the counts of C15. Expectations refuted by short programs. Not covered: new keys inserted through copies at higher levels, beyond the refutations |
| C136 | a program on `stack.go` (`Model_Brackets.v`): checking brackets of several kinds with Push, TryPop and IsEmpty | spec: the grammar of balanced words (`Spec_Brackets.v`) and "can be continued to a balanced word"; by induction on the word over C25's relation between a Stack and a list. The word is a plain list |
| C137 | a program on `dlist_queue.go` (`Model_Bfs.v`): distances in a graph by breadth first search with PushBack, PopFront and IsEmpty | spec: walks and their lengths (`Spec_Bfs.v`); invariant: the queue holds vertices at distance m, then at m + 1; over C23's relation between a DListQueue and a list. The map of distances is a function, adj a pure one, distances are unbounded integers |
| C138 | a program on `binary_search.go` (`Model_Lis.v`): the length of the longest increasing subsequence with LowerBoundFunc, of the longest sorted one with UpperBoundFunc | spec: subsequences and the greatest length (`Spec_Lis.v`); invariant: tails[k] is the least last element of the subsequences of length k + 1; over C41 and C42. Slices are plain lists |
| C139 | a program on `priority_queue.go` (`Model_Dijkstra.v`): distances in a graph whose edges have lengths, with Push, Pop and IsEmpty | spec: walks and their total lengths (`Spec_Dijkstra.v`); invariant: every known distance is at most every entry of the queue, and every edge from a vertex with a known distance is accounted for by a known distance or an entry; over C40's relation between a PriorityQueue and a bag. Refuted for negative lengths. The map of distances is a function, adj a pure one, sums are unbounded integers |
| C140 | a program on `dlist_queue.go` (`Model_Topo.v`): an order of the vertices of a graph in which all edges lead forward, with PushBack, PopFront and IsEmpty | spec: `after_sources` and `acyclic` (`Spec_Topo.v`); invariant: the map counts the edges from vertices not yet in the result, and the vertices in the result or the queue are those with count 0; if vertices are left, each has an edge from another, which gives a cycle by counting; over C23's relation. The map is a function, adj a pure one |
| C141 | a program on `skiplist.go` (`Model_Calendar.v`): bookings of times that do not overlap, kept from their ends to their starts, with Insert, Find, Remove, UpperBound and the iterator's IsNotEnd and Value | spec: `cal_spec` searches a list of bookings without order (`Spec_Calendar.v`); invariant: the pairs in the map are the bookings, and each starts no earlier than all that end before it ends; so the one UpperBound stands at decides; over C01's relation |
| C142 | a program on `stack.go` (`Model_Dfs.v`): the vertices that can be reached from one, in depth first order, with Push, Pop and IsEmpty | spec: `visits` is the recursive search, `walk` reachability (`Spec_Dfs.v`, `Spec_Bfs.v`); invariant: a neighbour of a vertex in the result is in the result or on the stack, and rounds so far plus the size of the stack is one more than the edges from the result, which bounds the rounds; over C25's relation. The map is a function, adj a pure one, the result a plain list |
| C143 | a program on `stack.go` (`Model_NextGreater.v`): for every element of a list the next one that is greater, with Push, Pop, Top and IsEmpty | spec: `next_spec` searches the rest of the list for every element (`Spec_NextGreater.v`); invariant: the stack is the rest of the list without what comes after something not less, and pops left plus elements done is pops allowed plus the size of the stack; over C25's relation. The list and the result are plain lists |
| C69 | `pool.go` | transition system; ownership invariant over all schedules |

## 4. What is not modelled

* Inside `fmt` and `reflect`: the text of a single element and the name of a type are oracles (C114).
* `container.go`, `iterator.go`: interfaces, no code. `types.go`: the type constraints appear as C74. `test_helper.go`, tests and benchmarks.
* Time and memory, apart from the counts of C70, C71, C75–C77, the storage counts of C118 and the nodes counted by C126. Garbage collection: the heap never shrinks; what stays reachable is C97 (and C29).
* Data races, except that looking calls do not race (C98). Callbacks that modify the container they are called from, except those of `SkipList` (C81–C83), `SkipListSet` (C110), `SList` and `DList` (C88–C90), `Vector` (C93, C123) and `BuiltinSet` (C100), or that write the slice a slice function works on, except those of `transform.go` and `generate.go` (C124), of `heap.go` (C128), of the sort functions (C129) and of the lookup and search functions (C102), and `less`/comparison functions with side effects, except those of the heap functions, `NewPriorityQueueFunc` (C94), `NewSkipListFunc` (C95), `NewSkipListSetFunc` (C111), the lookup and search functions (C102) and the sort functions (C103). Comparison functions that call back into the container are modelled for `SkipList` (C115), `SkipListSet` (C130), both also when they panic (C132), and `PriorityQueue` (C116), those that change their answers for `SkipList` and `SkipListSet` too (C112, C127).
* `Pool` of a zero-size type: Go may give distinct allocations the same address, so the hypothesis "no object is made twice" of C69 and C131 fails there.

## 5. Trusted base

* Coq's kernel (no native compilation, no plugin beyond those of the standard library; `vm_compute` is used for examples and counterexamples).
* `Print Assumptions`, run by the build after every property theorem, reports "Closed under the global context" for all of them: no axiom is used. (`coqchk` also lists what the loaded library files declare, e.g. in `Coq.ssr.ssrunder`; no theorem depends on it.)
* The faithfulness of the hand-written model to `/repo` and of section 2 to Go: the code is not run here.
* The contracts of external code listed in section 2, which appear as hypotheses or as quantified oracles in the theorems.
