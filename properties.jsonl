{"id": "C01", "title": "SkipList is a finite map (Ordered keys)", "statement": "Starting from NewSkipList, after any sequence of Insert/Remove/Clear/write-through-Find-pointer calls, Find, Has, Len, IsEmpty and the result of Remove are exactly those of a finite map that received the same calls: Insert sets or replaces, Remove deletes and reports whether the key was there, no other key is affected, and no call panics or loops.", "quantifier": "every operation sequence, every key/value type whose < and == form a total order, every sequence of random 64-bit numbers drawn for node levels", "why_tests_cant": "the number of histories and of random level choices is unbounded; a test fixes one seed and a few histories", "anchors": ["skiplist.go: NewSkipList, Insert, Find, Has, Remove, Clear, Len, IsEmpty, skipListOrdered.*"]}
{"id": "C02", "title": "SkipList is a finite map (custom comparator)", "statement": "The same finite-map behaviour for lists made by NewSkipListFunc: keys are identified when keyCmp returns 0, only the sign of keyCmp matters, and when an equal key is inserted the value is replaced but the originally stored key object is kept.", "quantifier": "every operation sequence, every comparator that is a consistent three-way total preorder, every random level sequence", "why_tests_cant": "comparators, histories and levels are unbounded", "anchors": ["skiplist.go: NewSkipListFunc, skipListFunc.*"]}
{"id": "C03", "title": "SkipList iteration is complete, duplicate free and ascending", "statement": "ForEach and an Iterate()/IsNotEnd/MoveToNext/Key/Value loop visit each stored pair exactly once in strictly ascending key order, and terminate.", "quantifier": "every reachable skip list state", "why_tests_cant": "needs the link structure of every reachable state, at every level, to be acyclic and sorted", "anchors": ["skiplist.go: ForEach, Iterate, skipListIterator"]}
{"id": "C04", "title": "SkipList observable behaviour does not depend on the random levels", "statement": "Two skip lists given the same calls but different random numbers return the same results from every call and iterate the same pairs.", "quantifier": "every operation sequence and every pair of random number sequences", "why_tests_cant": "a test observes one or two seeds", "anchors": ["skiplist.go: randomLevel, Insert, Remove"]}
{"id": "C05", "title": "SkipList LowerBound/UpperBound", "statement": "LowerBound(k) points to the first pair whose key is not less than k, UpperBound(k) to the first whose key is greater than k; each is an end iterator when there is none, and the iterator then walks the rest of the list in order.", "quantifier": "every reachable state and every key", "why_tests_cant": "boundary placement relative to tall nodes depends on unbounded random structures", "anchors": ["skiplist.go: LowerBound, UpperBound, doFindNode, lowerBound, upperBound"]}
{"id": "C06", "title": "SkipList FindRange is documented as half open [first,last)", "statement": "Documented: FindRange(first,last) yields the keys k with first <= k < last (last is not included). False of the code: last is included when it is stored. What holds: for first <= last exactly the keys k with first <= k <= last are visited, so the documented range plus the pair stored under last, if any.", "quantifier": "every reachable state and every pair of keys", "why_tests_cant": "needs the boundary case of last being present, for every state", "anchors": ["skiplist.go: FindRange", "container.go: SortedMap.FindRange", "README.md"]}
{"id": "C07", "title": "SkipList FindRange actual range", "statement": "When first <= last, iterating FindRange(first,last) terminates and yields, in order, exactly the pairs with first <= key <= last (last included).", "quantifier": "every reachable state and every pair of keys with first <= last", "why_tests_cant": "every state and both boundaries", "anchors": ["skiplist.go: FindRange"]}
{"id": "C08", "title": "SkipList Clear", "statement": "After Clear, Len is 0, no key is found, iteration is empty, and the list then behaves like a newly created one for every further sequence of calls.", "quantifier": "every reachable state and every continuation", "why_tests_cant": "stale links at any level could only surface in a later history", "anchors": ["skiplist.go: Clear"]}
{"id": "C09", "title": "SkipList Find pointer stability", "statement": "The pointer returned by Find(k) stays the storage of k's value while k is not removed and the list is not cleared: whatever other keys are inserted or removed, reading it gives the current value of k and writing it changes the value of k and of no other key.", "quantifier": "every reachable state, every sequence of calls that does not Remove an equal key or Clear", "why_tests_cant": "aliasing over unbounded histories", "anchors": ["skiplist.go: Find, Insert, Remove"]}
{"id": "C10", "title": "SkipList iterator stability under mutation", "statement": "An iterator positioned on key k remains valid while k is not removed: after arbitrary Inserts/Removes of other keys, continuing it visits exactly the keys currently stored that are greater than k, in order.", "quantifier": "every reachable state, every sequence of calls that does not Remove an equal key or Clear", "why_tests_cant": "interleavings of iteration and mutation are unbounded", "anchors": ["skiplist.go: skipListIterator, Insert, Remove"]}
{"id": "C11", "title": "SkipList erase while iterating", "statement": "A loop that walks the list with an iterator and Removes the current key whenever a predicate holds, advancing afterwards, terminates without panic and leaves exactly the pairs for which the predicate is false.", "quantifier": "every reachable state, every predicate", "why_tests_cant": "unbounded states and deletion patterns", "anchors": ["skiplist.go: Remove, skipListIterator.MoveToNext"]}
{"id": "C12", "title": "SkipList levels stay in range", "statement": "The level drawn for a new node is always between 1 and 40 and at most 3 + log2 of the current length (for length >= 1), so node creation never reaches its panic. Up to that bound the level is at least j for exactly a 2^(1-j) share of the 2^64 numbers.", "quantifier": "every 64-bit random number and every length", "why_tests_cant": "2^64 random values times all lengths", "anchors": ["skiplist.go: randomLevel", "skiplist_newnode.go: newSkipListNode"]}
{"id": "C13", "title": "SkipList ForEachMutable / ForEachIf / ForEachMutableIf", "statement": "ForEachMutable applies the callback to every value exactly once in key order and stores what the callback wrote; the If variants do so for the prefix up to and including the first element for which the callback returns false, and leave all later elements untouched; keys and Len never change.", "quantifier": "every reachable state and every (stateful) callback that does not itself call the list", "why_tests_cant": "all callbacks and all states", "anchors": ["skiplist.go: ForEachMutable, ForEachIf, ForEachMutableIf"]}
{"id": "C14", "title": "NewSkipListFromMap is independent of map iteration order", "statement": "NewSkipListFromMap(m) contains exactly the pairs of m, whatever order Go's randomised map iteration produces.", "quantifier": "every map, every iteration order, every random level sequence", "why_tests_cant": "iteration order is random and factorial in number", "anchors": ["skiplist.go: NewSkipListFromMap"]}
{"id": "C15", "title": "SkipListSet is a sorted finite set", "statement": "After any sequence of calls, Has/Len/IsEmpty agree with a mathematical set; Insert and Remove return whether the set changed; InsertN and RemoveN return the number of elements actually added/removed (duplicates in the argument list counted once); Keys returns the elements strictly ascending without duplicates.", "quantifier": "every operation sequence and every random level sequence", "why_tests_cant": "unbounded histories and argument lists", "anchors": ["skiplist_set.go"]}
{"id": "C16", "title": "SkipListSet LowerBound/UpperBound/FindRange", "statement": "The set iterators start at the first element >= / > the key, FindRange(first,last) with first <= last yields the elements in [first,last].", "quantifier": "every reachable set and every key", "why_tests_cant": "every state and boundary", "anchors": ["skiplist_set.go: LowerBound, UpperBound, FindRange, skipListSetIterator"]}
{"id": "C17", "title": "SkipList with float NaN keys", "statement": "Expected: with float keys, inserting NaN never breaks the rest of the map. False of the code: once a NaN node is taller than its neighbours, a stored non-NaN key may be neither found nor removed, and may be inserted twice. What holds: without NaN the list is the sorted map; whatever the comparisons return and whatever is inserted, every call returns (only the walk over FindRange may panic) and Len is the number of pairs visited; NaN is never found, Remove(NaN) is false and changes nothing, every Insert of NaN adds one more pair; Find never returns a value stored under another key, Remove takes out at most one pair and that under an equal key, Insert adds one pair or replaces one value.", "quantifier": "every operation sequence over keys where some keys are unordered and unequal to everything (NaN)", "why_tests_cant": "interaction of NaN position with every history and level pattern", "anchors": ["skiplist.go: skipListOrdered.*"]}
{"id": "C18", "title": "SList is a sequence", "statement": "After any sequence of PushFront/PushBack/PopFront/Reverse/Clear calls on an SList, Len, IsEmpty, Front, Back, PopFront, Values, ForEach and iteration agree with a plain sequence receiving the same calls; calls on the empty list panic exactly for Front, Back and PopFront and leave the list unchanged.", "quantifier": "every operation sequence", "why_tests_cant": "the head/tail pointers must be right in every reachable state", "anchors": ["slist.go"]}
{"id": "C19", "title": "SList Reverse", "statement": "Reverse turns the sequence into its reverse (both ends included) and doing it twice restores the list; later PushBack/PushFront act on the reversed sequence.", "quantifier": "every list", "why_tests_cant": "in-place pointer reversal over all lengths", "anchors": ["slist.go: Reverse"]}
{"id": "C20", "title": "DList is a deque", "statement": "After any sequence of PushFront/PushBack/PopFront/PopBack/TryPop*/Clear calls, Len, IsEmpty, Front, Back and the popped values agree with a plain double-ended sequence; on the empty list the Try variants return (zero,false), the others panic, and the list is unchanged.", "quantifier": "every operation sequence", "why_tests_cant": "the ring's prev and next links must agree in every reachable state", "anchors": ["dlist.go"]}
{"id": "C21", "title": "DList forward iteration and ring consistency", "statement": "ForEach and Iterate visit the elements front to back exactly once and terminate, and the backward links spell the reverse sequence, in every reachable state.", "quantifier": "every reachable state", "why_tests_cant": "unbounded states; a wrong prev link is visible only after particular later pops", "anchors": ["dlist.go: ForEach, Iterate, dlistIterator"]}
{"id": "C22", "title": "List ForEachMutable / iterator pointers (SList and DList)", "statement": "ForEachMutable writes each element exactly once in order; the If variants stop right after the first false; writes through an iterator Pointer change exactly that element; lengths never change.", "quantifier": "every reachable list and every (stateful) callback that does not call the list", "why_tests_cant": "all callbacks and all states", "anchors": ["slist.go: ForEachMutable*, sListIterator", "dlist.go: ForEachMutable*, dlistIterator"]}
{"id": "C23", "title": "DListQueue is a FIFO/deque", "statement": "Elements pushed at the back and popped from the front come out in insertion order, with nothing lost or duplicated, for any interleaving of pushes and pops; all methods behave as on the underlying deque.", "quantifier": "every interleaving of queue operations", "why_tests_cant": "unbounded interleavings", "anchors": ["dlist_queue.go"]}
{"id": "C24", "title": "DList iterator invalidation", "statement": "Expected: an iterator says IsNotEnd only when Value is safe to call and the element is in the list, also after mutation. False of the code: after popping the element under an iterator IsNotEnd stays true, Value returns the popped value, and after one MoveToNext IsNotEnd is still true but Value panics; the same happens to an iterator taken from a list that never held anything after the first push; after Clear an old iterator still walks over all removed elements. What holds: an iterator stays valid (IsNotEnd, Value, Pointer, MoveToNext) under any calls that do not remove the element under it.", "quantifier": "every reachable list and iterator position", "why_tests_cant": "needs all interleavings of iteration and mutation", "anchors": ["dlist.go: dlistIterator, TryPopFront, TryPopBack"]}
{"id": "C25", "title": "Stack is LIFO", "statement": "After any sequence of Push/Pop/TryPop/Clear calls, Top, Pop, TryPop, Len and IsEmpty agree with a plain LIFO sequence; Pop and Top panic exactly on the empty stack, TryPop returns (zero,false) there; whatever capacity growth the runtime chooses.", "quantifier": "every operation sequence, every initial capacity and every append growth policy", "why_tests_cant": "unbounded histories and allocator behaviour", "anchors": ["stack.go"]}
{"id": "C26", "title": "Vector is a resizable sequence", "statement": "After any sequence of PushBack/Append/PopBack/TryPopBack/Set/Insert/Remove/RemoveRange/RemoveLength/RemoveIf/Clear/Reserve/Shrink calls with in-range arguments, the contents, At, Back, Len and IsEmpty agree with a plain sequence; independent of spare capacity and of the append growth policy.", "quantifier": "every operation sequence and every growth policy", "why_tests_cant": "unbounded histories and capacities", "anchors": ["vector.go"]}
{"id": "C27", "title": "Vector Insert", "statement": "Insert(i, x...) with 0 <= i <= Len yields old[:i] ++ x ++ old[i:], whether or not the storage has to be reallocated, when x does not share the vector's storage; for other i it panics and leaves the vector's contents unchanged.", "quantifier": "every vector, index, inserted slice, capacity", "why_tests_cant": "all lengths, capacities and positions", "anchors": ["vector.go: Insert"]}
{"id": "C28", "title": "Vector Insert of part of itself", "statement": "Expected: v.Insert(i, v[a:b]...) inserts the old contents of v[a:b]. False of the code: with spare capacity and a > i the tail is moved before x is read ([1 2 3] with capacity 5, Insert(0, v[1:]...) gives [2 1 1 2 3]). What holds: the expected result whenever a <= i or the storage is reallocated; otherwise element k of the insertion is old[a+k] while a+k < i+(b-a) and old[a+k-(b-a)] from there on, the rest of the vector being right.", "quantifier": "every vector, index and sub-range", "why_tests_cant": "depends on capacity: goes wrong only when there is spare capacity and overlap", "anchors": ["vector.go: Insert"]}
{"id": "C29", "title": "Vector removal zeroes the vacated storage", "statement": "PopBack, Remove, RemoveRange, RemoveLength, RemoveIf and Clear keep the same storage and set every vacated slot to the zero value, so no removed element stays reachable through it; no slot outside the old vector is written.", "quantifier": "every vector and removal range", "why_tests_cant": "all lengths and ranges; leaks are invisible to value tests", "anchors": ["vector.go: PopBack, RemoveRange, RemoveIf, Clear", "transform_fillzero_clear.go"]}
{"id": "C30", "title": "Vector RemoveRange argument checking", "statement": "RemoveRange(i,j) panics exactly when not 0 <= i <= j <= Len; Expected: the vector is unchanged after a panic. False of the code: for j < i <= Cap with 0 <= j <= Len it is overwritten by its first i slots followed by its elements from j on before the panic ([1 2 3], RemoveRange(2,1) leaves [1 2 2 3]); in all other panicking cases it is unchanged.", "quantifier": "every vector and every pair of integers", "why_tests_cant": "all index pairs including negative and beyond-capacity ones", "anchors": ["vector.go: RemoveRange"]}
{"id": "C31", "title": "Vector capacity management", "statement": "Reserve(l) makes Cap at least l and never changes the elements; Shrink and Reserve never change the elements; Clear keeps Cap; PushBack within capacity does not reallocate and does not write outside the next slot.", "quantifier": "every vector, every capacity, every growth policy", "why_tests_cant": "all capacities", "anchors": ["vector.go: Reserve, Shrink, Clear, PushBack"]}
{"id": "C32", "title": "Vector iteration", "statement": "Iterate, ForEach and ForEachIf visit the elements in index order exactly once (up to the first false); ForEachMutable(If) stores the callback's writes element by element; IterateRange(i,j) visits exactly the positions i..j-1.", "quantifier": "every vector, range and stateful callback", "why_tests_cant": "all lengths and callbacks", "anchors": ["vector.go: Iterate, IterateRange, ForEach*, vectorIterator"]}
{"id": "C33", "title": "MakeMinHeap / MakeHeapFunc build a heap", "statement": "After the call every element is not less than its parent and the slice is a permutation of the original, with nothing outside the slice touched.", "quantifier": "every slice and every strict weak order", "why_tests_cant": "all lengths and orders", "anchors": ["heap.go: MakeMinHeap, MakeHeapFunc, heapDown, heapDownFunc"]}
{"id": "C34", "title": "PushMinHeap / PushHeapFunc", "statement": "Pushing v on a heap yields a heap whose elements are the old ones plus v.", "quantifier": "every heap, value, order, capacity and growth policy", "why_tests_cant": "all heaps", "anchors": ["heap.go: PushMinHeap, PushHeapFunc, heapUp, heapUpFunc"]}
{"id": "C35", "title": "PopMinHeap / PopHeapFunc", "statement": "Popping a non-empty heap returns an element no other is less than, and leaves a heap of exactly the remaining elements; popping an empty heap panics.", "quantifier": "every heap and order", "why_tests_cant": "all heaps", "anchors": ["heap.go: PopMinHeap, PopHeapFunc"]}
{"id": "C36", "title": "RemoveMinHeap / RemoveHeapFunc", "statement": "Removing index i (0 <= i < len) from a heap returns exactly the element at i and leaves a heap of exactly the other elements; any other index panics.", "quantifier": "every heap, index and order", "why_tests_cant": "the moved element may need to go up or down, for all shapes", "anchors": ["heap.go: RemoveMinHeap, RemoveHeapFunc"]}
{"id": "C37", "title": "IsMinHeap decides the heap property", "statement": "IsMinHeap returns true exactly when no element is less than its parent.", "quantifier": "every slice", "why_tests_cant": "all lengths", "anchors": ["heap.go: IsMinHeap"]}
{"id": "C38", "title": "IsHeapFunc decides the heap property", "statement": "Documentation: IsHeapFunc(a,less) is true exactly when a is a min heap according to less. False of the code: it rejects heaps in which some element is equivalent to its parent, for instance [1 1] as built by MakeHeapFunc. What holds: it is true exactly when every element is strictly greater than its parent, so true implies heap.", "quantifier": "every slice and every strict weak order", "why_tests_cant": "depends on equal elements; all slices", "anchors": ["heap.go: IsHeapFunc"]}
{"id": "C39", "title": "Heap sort", "statement": "Popping a heap until it is empty yields all its elements in non-descending order.", "quantifier": "every heap and order", "why_tests_cant": "all lengths", "anchors": ["heap.go"]}
{"id": "C40", "title": "PriorityQueue is a priority queue", "statement": "For any constructor and any sequence of Push/Pop/Clear, Len/IsEmpty agree with a multiset, Top and Pop return a minimal element of that multiset, Pop removes exactly one occurrence of what it returns; Top and Pop panic exactly when empty.", "quantifier": "every operation sequence, every strict weak order, every initial slice, every growth policy", "why_tests_cant": "unbounded histories", "anchors": ["priority_queue.go"]}
{"id": "C41", "title": "LowerBound / LowerBoundFunc", "statement": "On a slice partitioned with respect to element < value the result is the partition point: everything before it is < value and nothing from it on is; the loop terminates and never indexes outside the slice, for any slice and any less.", "quantifier": "every slice, value and less", "why_tests_cant": "all lengths and values", "anchors": ["binary_search.go: LowerBound, LowerBoundFunc"]}
{"id": "C42", "title": "UpperBound / UpperBoundFunc", "statement": "On a slice partitioned with respect to value < element the result is the first index whose element is greater than value, or len.", "quantifier": "every slice, value and less", "why_tests_cant": "all lengths and values", "anchors": ["binary_search.go: UpperBound, UpperBoundFunc"]}
{"id": "C43", "title": "BinarySearch / BinarySearchFunc", "statement": "On a sorted slice, returns (first index of an element equivalent to value, true) if there is one and (-1,false) otherwise.", "quantifier": "every sorted slice and value", "why_tests_cant": "all lengths, duplicates", "anchors": ["binary_search.go: BinarySearch, BinarySearchFunc"]}
{"id": "C44", "title": "LowerBound..UpperBound delimits the equal range", "statement": "On a sorted slice, the elements equivalent to value are exactly those at indexes in [LowerBound, UpperBound).", "quantifier": "every sorted slice and value", "why_tests_cant": "all lengths", "anchors": ["binary_search.go"]}
{"id": "C45", "title": "Sort / DescSort / SortFunc produce a sorted permutation", "statement": "After the call the slice is a permutation of the original and ordered by the requested order, given that Go's sort.Sort does what it documents through Len/Less/Swap; the permutation part holds for any algorithm that only uses the Swap adapter.", "quantifier": "every slice, every strict weak order, every sequence of Less/Swap calls the library makes", "why_tests_cant": "all slices and all call sequences of the external algorithm", "anchors": ["sort.go: Sort, DescSort, SortFunc, ascSlice, descSlice, funcSortable"]}
{"id": "C46", "title": "StableSort variants are stable", "statement": "StableSort, DescStableSort and StableSortFunc produce a sorted permutation in which equivalent elements keep their original relative order, given sort.Stable's contract.", "quantifier": "every slice and strict weak order", "why_tests_cant": "all slices", "anchors": ["sort.go: StableSort, DescStableSort, StableSortFunc"]}
{"id": "C47", "title": "IsSorted / IsDescSorted", "statement": "IsSorted is true exactly when no later element is less than any earlier one; IsDescSorted exactly when no later element is greater than any earlier one.", "quantifier": "every slice of totally ordered elements", "why_tests_cant": "all lengths; only adjacent elements are compared", "anchors": ["sort.go: IsSorted, IsDescSorted"]}
{"id": "C48", "title": "Compare is a lexicographic three-way order", "statement": "Compare(a,b) is -1/0/1 exactly as a is lexicographically before/equal/after b; it is antisymmetric and transitive, and Compare(a,b)==0 exactly when Equal(a,b) for totally ordered elements.", "quantifier": "every pair/triple of slices", "why_tests_cant": "all lengths and contents", "anchors": ["compare.go: Compare, Equal", "functor.go: OrderedCompare"]}
{"id": "C49", "title": "Equal", "statement": "Equal(a,b) is true exactly when the lengths agree and all elements are pairwise ==; it never indexes out of range.", "quantifier": "every pair of slices", "why_tests_cant": "all lengths", "anchors": ["compare.go: Equal"]}
{"id": "C50", "title": "Min/Max/MinN/MaxN/MinMax/MinMaxN", "statement": "The result is an element of the arguments that bounds all of them (the N variants: the first such element); the N variants panic exactly on an empty argument list. With NaN: a NaN first argument is the result, later NaNs are ignored.", "quantifier": "every non-empty argument list of totally ordered values", "why_tests_cant": "all lengths", "anchors": ["lookup.go: Max, Min, MaxN, MinN, MinMax, MinMaxN"]}
{"id": "C51", "title": "Find/FindIf/Index return the first match", "statement": "They return the smallest index whose element matches, and (-1,false) / -1 exactly when no element matches; the predicate is called on the elements up to the match only, in order.", "quantifier": "every slice and predicate", "why_tests_cant": "all lengths", "anchors": ["lookup.go: Find, FindIf, Index"]}
{"id": "C52", "title": "AllOf/AnyOf/NoneOf/Count/CountIf", "statement": "They compute the universal/existential/negated-existential quantifier and the number of matching elements.", "quantifier": "every slice and predicate", "why_tests_cant": "all lengths", "anchors": ["lookup.go: AllOf, AnyOf, NoneOf", "compute.go: Count, CountIf"]}
{"id": "C53", "title": "Sum/SumAs are exact modulo 2^width", "statement": "For builtin integer element types SumAs[R] equals the mathematical sum reduced to R's width, so whenever the true sum fits in R the result is exact no matter how intermediate sums overflow.", "quantifier": "every slice, every builtin integer T and integer R", "why_tests_cant": "all lengths and overflow patterns", "anchors": ["compute.go: SumAs, Sum"]}
{"id": "C54", "title": "Sum of a defined integer type (type X int64) is exact when it fits", "statement": "Expected: Sum over a defined integer type (type X int64) is exact whenever the result fits. False of the code: defined types fall into the float64 branch, and [2^53, 1] sums to 2^53. What holds: the sum is exact as long as the elements and all running sums stay within 2^53, also for float64 elements with integer values.", "quantifier": "every slice of a defined integer type", "why_tests_cant": "loses precision only above 2^53", "anchors": ["compute.go: SumAs default branch"]}
{"id": "C55", "title": "Average", "statement": "For builtin integer types whose sum fits in 64 bits Average is the true quotient truncated toward zero, and it panics exactly on an empty slice.", "quantifier": "every slice of every builtin integer type", "why_tests_cant": "all lengths; the length conversion can wrap", "anchors": ["compute.go: Average, AverageAs"]}
{"id": "C56", "title": "AverageAs with a narrow result type", "statement": "Expected: AverageAs[R] is right whenever the sum and the average fit in R. False of the code: R(len(a)) wraps, giving wrong values or a division-by-zero panic (R = int8, 255 or 256 elements). What holds: it is the truncated quotient whenever the sum and the length fit in R.", "quantifier": "every slice and every R", "why_tests_cant": "fails only for lengths that do not fit R", "anchors": ["compute.go: AverageAs"]}
{"id": "C57", "title": "Copy / CopyTo isolation", "statement": "Copy returns equal contents in fresh storage: later writes to either are invisible to the other. CopyTo returns equal contents, reuses the target's storage when its capacity suffices and never writes outside it; also when source and target overlap.", "quantifier": "every slice, target, capacity, overlap", "why_tests_cant": "aliasing", "anchors": ["transform.go: Copy, CopyTo"]}
{"id": "C58", "title": "Fill / FillZero / FillPattern", "statement": "Fill sets every element to v; FillPattern makes element i equal pattern[i mod len(pattern)], and panics exactly on an empty pattern; nothing outside the slice is written.", "quantifier": "every slice, value, pattern", "why_tests_cant": "the doubling loop must hit every index for all lengths", "anchors": ["transform.go: Fill, FillPattern", "transform_fillzero_clear.go", "transform_fillzero_old.go"]}
{"id": "C59", "title": "Transform / TransformTo / TransformCopy / Generate", "statement": "Each element is op of the original element at the same position, op is called once per element in order; TransformTo may write into the source's own storage when the target starts at the same place.", "quantifier": "every slice and (stateful) op, every capacity of the target", "why_tests_cant": "all lengths and aliasing", "anchors": ["transform.go: Transform, TransformTo, TransformCopy", "generate.go: Generate"]}
{"id": "C60", "title": "Replace / ReplaceIf", "statement": "Exactly the matching elements become new, all others are unchanged.", "quantifier": "every slice, predicate", "why_tests_cant": "all lengths", "anchors": ["transform.go: Replace, ReplaceIf"]}
{"id": "C61", "title": "Unique / UniqueCopy", "statement": "The result is the input with each maximal run of equal elements reduced to its first element; UniqueCopy leaves its input unchanged; both give the same result.", "quantifier": "every slice", "why_tests_cant": "in-place compaction over all run patterns", "anchors": ["transform.go: Unique, UniqueCopy"]}
{"id": "C62", "title": "Remove / RemoveIf / RemoveCopy / RemoveIfCopy", "statement": "The result is the subsequence of non-matching elements in the original order; the Copy variants leave the input unchanged; the predicate is called once per element in order.", "quantifier": "every slice and predicate", "why_tests_cant": "in-place compaction", "anchors": ["transform.go: Remove, RemoveIf, RemoveCopy, RemoveIfCopy"]}
{"id": "C63", "title": "Reverse / ReverseCopy / Shuffle", "statement": "Reverse and ReverseCopy give the reversed sequence; Shuffle gives a permutation whatever random numbers are drawn.", "quantifier": "every slice, every swap sequence", "why_tests_cant": "all lengths", "anchors": ["transform.go: Reverse, ReverseCopy, Shuffle"]}
{"id": "C64", "title": "Range", "statement": "Expected: Range(first,last) is first, first+1, ..., last-1, empty when last <= first. False of the code: the capacity last-first may wrap or be negative, then make panics (Range[int8](-128,127), Range[int](1,0)). What holds: with h = 2^(width-1), signed and 64-bit unsigned types give the sequence exactly when 0 <= last-first < h or last-first < -h and panic otherwise; 8/16/32-bit unsigned types always give the sequence.", "quantifier": "every integer type and pair of values", "why_tests_cant": "overflow of last-first only for particular pairs", "anchors": ["generate.go: Range"]}
{"id": "C65", "title": "Range over floats terminates", "statement": "Expected: Range over floats terminates for all finite arguments. False of the code: v++ does nothing from 2^(p+1) on (p = 24 or 53), so e.g. Range(2^53, 2^53+2) never ends. What holds: for all finite arguments of magnitude at most 2^p it ends and gives a strictly increasing run from first below last; for integral first <= last exactly the integer sequence.", "quantifier": "every pair of floats", "why_tests_cant": "fails only for large magnitudes", "anchors": ["generate.go: Range"]}
{"id": "C66", "title": "BuiltinSet is a finite set", "statement": "After any sequence of Insert/InsertN/Remove/RemoveN/Delete/Update/Clear, Has, Len, IsEmpty and Keys agree with a mathematical set, and the boolean and count results report exactly the change, for keys that equal themselves.", "quantifier": "every operation sequence, every map iteration order", "why_tests_cant": "unbounded histories and random iteration order", "anchors": ["builtin_set.go"]}
{"id": "C67", "title": "BuiltinSet algebra", "statement": "Union, Intersection, Difference, IsDisjointOf, IsSubsetOf, IsSupersetOf are the mathematical operations, leave their operands unchanged, and do not depend on which operand is larger or on iteration order.", "quantifier": "every pair of sets, every iteration order", "why_tests_cant": "random iteration order; all sets", "anchors": ["builtin_set.go: Union, Intersection, Difference, IsDisjointOf, IsSubsetOf, IsSupersetOf, orderSet"]}
{"id": "C68", "title": "BuiltinSet Clear with NaN", "statement": "Documented: after Clear, Len() returns zero, for every key type including floats. False of the code: delete(s, NaN) removes nothing, so NaN elements stay. What holds: after Clear exactly the elements that do not equal themselves remain, in number and kind, so Len() is zero if and only if there were none.", "quantifier": "every set including NaN elements", "why_tests_cant": "NaN keys cannot be deleted", "anchors": ["builtin_set.go: Clear", "container.go: Container.Clear"]}
{"id": "C69", "title": "Pool never hands one object to two holders", "statement": "If objects are Put (or passed on) only by a holder and New never returns an object twice, then at no point do two goroutines hold the same object and Get only returns objects nobody holds. Without any such rule, no object is handed out more often than it was put or made. Get returns nil only when no New function was given or the user's New function returned nil, and never panics; Put(nil) is ignored.", "quantifier": "every interleaving of atomic Get/Put steps of any number of goroutines, every choice sync.Pool makes (including dropping objects)", "why_tests_cant": "all schedules", "anchors": ["pool.go"]}
{"id": "C70", "title": "Binary search complexity", "statement": "LowerBound, UpperBound and their Func variants (hence BinarySearch) finish within floor(log2 n)+1 loop iterations, as documented O(log n).", "quantifier": "every slice, value and less", "why_tests_cant": "a bound for all lengths", "anchors": ["binary_search.go: LowerBound, UpperBound, LowerBoundFunc, UpperBoundFunc"]}
{"id": "C71", "title": "Heap complexity", "statement": "The sift-up and sift-down loops behind Push/Pop/Remove finish within floor(log2 n)+2 iterations, as documented O(log n).", "quantifier": "every slice, index and less", "why_tests_cant": "a bound for all lengths", "anchors": ["heap.go: heapUp, heapDown, heapUpFunc, heapDownFunc"]}
{"id": "C72", "title": "Heap operations are safe under any less function", "statement": "With an inconsistent less function, or < on floats containing NaN, Make/Push/Pop/Remove still terminate without panic, keep exactly the same elements, Pop returns the old first element and Remove the element at the index.", "quantifier": "every slice and every less function", "why_tests_cant": "all comparators, including unlawful ones", "anchors": ["heap.go"]}
{"id": "C73", "title": "OrderedCompare, Less and Greater agree", "statement": "Less is <, Greater its converse; both are strict weak orders; OrderedCompare is a consistent three-way comparison in -1..1, negative/zero/positive exactly when Less/==/Greater holds.", "quantifier": "every totally ordered type", "why_tests_cant": "all values", "anchors": ["functor.go: Less, Greater, OrderedCompare"]}
{"id": "C74", "title": "The order laws hold of Go's ordered types", "statement": "The laws the other properties assume of ordered types hold of Go's types: < on every integer type and on strings (bytewise from the left, a proper prefix being less) is a strict weak order whose incomparability is ==; on float32 and float64, with infinities and signed zeros, the same holds of all values but NaN, which is neither less than, greater than nor equal to anything; finite floats compare as the numbers they stand for.", "quantifier": "all values of all integer types, all strings, all floats", "why_tests_cant": "2^64 values and unbounded strings", "anchors": ["types.go: Ordered", "functor.go: Less"]}
{"id": "C75", "title": "Heap construction is linear", "statement": "MakeMinHeap and MakeHeapFunc on n elements need at most 2n iterations of the sift-down loop altogether, as documented O(n), whatever the less function.", "quantifier": "every slice and every less function", "why_tests_cant": "a bound for all lengths", "anchors": ["heap.go: MakeMinHeap, MakeHeapFunc"]}
{"id": "C76", "title": "SkipList searches take logarithmic expected time", "statement": "Documented: the same asymptotic expected time bounds as balanced trees. After any sequence of calls that does not depend on the random numbers, and with those numbers uniform, each search (Find, Has, LowerBound, UpperBound, and the searches of Insert and Remove) reads at most 2.5*log2(n) + 7.5 keys on average, n < 2^39 being the number of keys stored; whatever the random numbers, it reads at most n + level + 1 keys.", "quantifier": "every history of calls, every key searched for, both kinds of list; averaged over all sequences of 64-bit random numbers", "why_tests_cant": "an average over 2^64 to the power of the number of calls, for all histories", "anchors": ["skiplist.go: randomLevel, doFindNode, lowerBound, upperBound, findInsertPoint, findPrevNodes, findRemovePoint"]}
{"id": "C77", "title": "SkipList uses linear expected space", "statement": "Documented: less space than balanced trees. After any sequence of calls that does not depend on the random numbers, and with those numbers uniform, the next arrays of the nodes in the list have at most 2n elements altogether on average, n being the number of keys stored.", "quantifier": "every history of calls, both kinds of list; averaged over all sequences of 64-bit random numbers", "why_tests_cant": "an average over 2^64 to the power of the number of calls, for all histories", "anchors": ["skiplist.go: randomLevel, Insert", "skiplist_newnode.go"]}
{"id": "C78", "title": "SkipList iterators and pointers kept over any changes", "statement": "Any number of iterators and value pointers, kept in variables while the list is inserted into, removed from and cleared, behave as follows, statement for statement. Each stands on one element. While the element is stored, the next one is the stored element behind it. After the element was removed the iterator still gives its key and value, and the next one is the element that stood behind it when it was removed. Writing through a pointer changes the value of the element it came from and nothing else; so a pointer to the value of a removed key is detached from the list, also after the key is inserted again. Only a nil iterator or pointer panics.", "quantifier": "every sequence of statements over every number of variables, every key order, both kinds of list", "why_tests_cant": "unbounded sequences of statements interleaved over unboundedly many iterators", "anchors": ["skiplist.go: Iterate, LowerBound, UpperBound, FindRange, Find, Insert, Remove, Clear, skipListIterator"]}
{"id": "C79", "title": "A SkipList iterator used after changes", "statement": "Expected: walking on, an iterator visits stored keys only. False of the code: after the key under the iterator and then the key behind it are removed, the iterator still visits the latter. What holds: whatever was done to the list since, walking an iterator of Iterate, LowerBound or UpperBound to its end terminates without a panic in strictly ascending order; it visits first some removed elements, then all stored elements from some point on; every key visited was inserted before, and every removed one was removed before.", "quantifier": "every sequence of statements over every number of variables, every key order, both kinds of list", "why_tests_cant": "unbounded sequences of changes between the steps of an iterator", "anchors": ["skiplist.go: Remove, skipListIterator.MoveToNext, IsNotEnd, Key"]}
{"id": "C80", "title": "A FindRange iterator used after changes", "statement": "Documented (README): iterating yields only the keys between first and last. False of the code once the list changes: a key inserted behind the range can be visited, and if the first key behind the range is removed the iterator runs past its end and panics at the end of the list. What holds: let lo be the first key not less than first and hi the first one greater than last when FindRange was called; as long as neither is removed, the iterator visits exactly the stored keys that are not less than lo and less than hi, whatever else is inserted or removed, and all of them lie between first and last if no key greater than last and less than hi (or, without hi, greater than last) is inserted.", "quantifier": "every history before and after FindRange, every key order, both kinds of list", "why_tests_cant": "unbounded sequences of changes between the steps of an iterator", "anchors": ["skiplist.go: FindRange, Insert, Remove, skipListIterator", "README.md: range iteration"]}
{"id": "C81", "title": "ForEach callbacks that use the SkipList", "statement": "Callbacks of ForEach, ForEachIf, ForEachMutable and ForEachMutableIf may themselves call any method of the list and use any iterators and pointers. The loop behaves, step for step, like this: it starts at the first stored element; the callback gets the element's key and present value (or a pointer to it); then the loop goes on to the element that is behind the current one after the callback, or, if the current element was removed, to the one that stood behind it when it was removed; it ends at nil, at false, or with the callback's panic.", "quantifier": "every callback body (any statements, each depending on what the earlier ones showed), every history, both kinds of list, also loops that never end", "why_tests_cant": "all callbacks that change the list they are called from", "anchors": ["skiplist.go: ForEach, ForEachMutable, ForEachIf, ForEachMutableIf"]}
{"id": "C82", "title": "What ForEach visits when its callback changes the SkipList", "statement": "Whatever the callback does to the list, the visited keys are strictly ascending, so no key is visited twice; each was stored at the start or inserted by the callback; and when ForEach or ForEachMutable ends, it has visited every key stored at the start that the callback never removes.", "quantifier": "every callback body, every history, both kinds of list", "why_tests_cant": "all callbacks that change the list they are called from", "anchors": ["skiplist.go: ForEach, ForEachMutable, ForEachIf, ForEachMutableIf"]}
{"id": "C83", "title": "ForEach over a SkipList ends", "statement": "Expected: ForEach ends. False of the code: with a callback that inserts the next greater key the loop runs forever. What holds: ForEach, ForEachIf, ForEachMutable and ForEachMutableIf end whenever the callback inserts nothing, whatever else it does, removing and clearing included; in particular a callback that removes the keys it chooses visits every pair once and leaves exactly the others.", "quantifier": "every callback body, every history, both kinds of list", "why_tests_cant": "all callbacks that change the list they are called from; non-termination", "anchors": ["skiplist.go: ForEach, ForEachMutable, ForEachIf, ForEachMutableIf"]}
{"id": "C84", "title": "SList iterators and pointers kept over any changes", "statement": "Any number of iterators and element pointers, kept in variables while the list is pushed to, popped from, reversed and cleared, behave as follows, statement for statement. Each stands on one element. While the element is in the list, the next one is the element behind it now. After it was popped the iterator still gives its value, and the next one is the element that stood behind it when it was popped; after Clear all elements keep the neighbours they had. Writing through a pointer changes the element it came from and nothing else. Only a nil iterator or pointer panics. Nodes of other lists are never touched.", "quantifier": "every sequence of statements over every number of variables, any other nodes in memory", "why_tests_cant": "unbounded sequences of statements interleaved over unboundedly many iterators", "anchors": ["slist.go: Iterate, sListIterator, PushFront, PushBack, PopFront, Reverse, Clear"]}
{"id": "C85", "title": "DList iterators and pointers kept over any changes", "statement": "Any number of iterators and element pointers, kept in variables while the list is pushed to at both ends, popped from at both ends and cleared, behave as follows, statement for statement. Each stands on an element, on the end mark (the head node), or on nothing if taken before the first push. While the element is in the list, the next one is the element behind it now, or the end mark; a popped element still gives its value, but the next one is nil; elements dropped by Clear keep the neighbours they had. Writing through a pointer changes the element it came from and nothing else. Nodes of other lists are never touched.", "quantifier": "every sequence of statements over every number of variables, any other nodes in memory", "why_tests_cant": "unbounded sequences of statements interleaved over unboundedly many iterators", "anchors": ["dlist.go: Iterate, dlistIterator, PushFront, PushBack, TryPopFront, TryPopBack, Clear"]}
{"id": "C86", "title": "Walking an SList iterator always ends", "statement": "Whatever was done to the list since an iterator was taken, Reverse, pops and Clear included, the loop over it to the end terminates without a panic after at most as many elements as were ever pushed. An iterator may be read, written through and moved exactly when IsNotEnd() is true; otherwise Value, MoveToNext and a write through Pointer panic.", "quantifier": "every sequence of statements over every number of variables", "why_tests_cant": "unbounded sequences of changes between the steps of an iterator; termination", "anchors": ["slist.go: Reverse, PopFront, Clear, sListIterator"]}
{"id": "C87", "title": "A DList iterator used after changes", "statement": "Expected: an iterator may be used while IsNotEnd() is true. False of the code: an iterator taken before the first push and used after it is nil though IsNotEnd() is true, and the loop over an iterator whose element was popped runs into nil and panics. What holds: every walk of a kept iterator ends or panics within as many elements as were ever pushed; it ends without a panic if nothing was popped and the iterator is not nil; at the end Value and Pointer silently work on the head node, and MoveToNext wraps around to the first element.", "quantifier": "every sequence of statements over every number of variables", "why_tests_cant": "unbounded sequences of changes between the steps of an iterator; termination", "anchors": ["dlist.go: dlistIterator, Iterate, TryPopFront, TryPopBack"]}
{"id": "C88", "title": "ForEach callbacks that use the SList or DList", "statement": "Callbacks of ForEach, ForEachIf, ForEachMutable and ForEachMutableIf of SList and DList may themselves call any method of the list and use any iterators and pointers. The loop behaves, step for step, like an iterator as in C84 and C85 that is moved on after each call: it starts at the first element, hands the callback the element's present value (or a pointer to it), goes on to the element that is behind the current one after the callback, and ends at the end mark, at false, or with a panic.", "quantifier": "every callback body (any statements, each depending on what the earlier ones showed), every history, also loops that never end", "why_tests_cant": "all callbacks that change the list they are called from", "anchors": ["slist.go: ForEach, ForEachIf, ForEachMutable, ForEachMutableIf", "dlist.go: ForEach, ForEachIf, ForEachMutable, ForEachMutableIf"]}
{"id": "C89", "title": "What ForEach visits when its callback changes the SList or DList", "statement": "If the callback neither appends nor reverses (SList), or neither appends nor pops (DList), the loop calls it for exactly the elements in the list at the start, once each and in order, whatever else it does, such as pushing to the front, clearing, popping from the SList, or calling ForEach or Iterate; and if it does not write through pointers either, with the values the elements had at the start.", "quantifier": "every callback body with that restriction, every history", "why_tests_cant": "all callbacks that change the list they are called from", "anchors": ["slist.go: ForEach, ForEachIf, ForEachMutable, ForEachMutableIf", "dlist.go: ForEach, ForEachIf, ForEachMutable, ForEachMutableIf"]}
{"id": "C90", "title": "ForEach over an SList or DList ends", "statement": "Expected: ForEach ends. False of the code: with a callback that appends to the list, the loop over any non-empty SList or DList runs forever; a callback that reverses the SList can make it run forever without any push; a callback that pops the current element of a DList makes the loop panic. What holds: see C89, the loop ends when the callback does none of these.", "quantifier": "every non-empty list and number of rounds for the appending callback", "why_tests_cant": "non-termination", "anchors": ["slist.go: ForEach, PushBack, Reverse", "dlist.go: ForEach, PushBack, TryPopFront"]}
{"id": "C91", "title": "Vector iterators and pointers kept over any changes", "statement": "Any number of iterators and element pointers, kept in variables while the vector is appended to, inserted into, popped, removed from, cleared, reserved and shrunk, behave as follows, statement for statement. The vector has a storage of Cap() slots; it moves to a new storage when it needs more room (or on Reserve and Shrink), and the old one stays as it is. An iterator stands on a slot of the storage the vector was in when the iterator was taken, and runs over as many slots as the vector had elements then. Removing elements sets the vacated slots to zero. Cap() is the size of the storage. Nothing in memory outside the vector's first storage and its new ones is written.", "quantifier": "every sequence of statements over every number of variables, any vector in the middle of any larger array, every growth policy of append", "why_tests_cant": "unbounded sequences of statements interleaved over unboundedly many iterators; aliasing", "anchors": ["vector.go: Iterate, vectorIterator, PushBack, Append, Insert, Remove*, Clear, Reserve, Shrink"]}
{"id": "C92", "title": "A Vector iterator used after changes", "statement": "Expected: a write through an iterator or pointer of the vector writes the element at its place. False of the code: after PushBack into a full vector it writes the old storage only. What holds: no call makes an iterator panic: IsNotEnd, Value and a write through Pointer work exactly while fewer moves were made than the vector had elements when the iterator was taken. As long as the vector is in the same storage, it reads and writes the vector's element at its index, or reads a zero value if the vector has become shorter. Once the vector has moved, a write through it changes no element and no result of any later call, and no call changes what it reads. Just those calls move the vector: PushBack, Append and valid Inserts that exceed the capacity, Reserve beyond the capacity, Shrink with spare capacity.", "quantifier": "every history before and after taking the iterator, every growth policy", "why_tests_cant": "unbounded sequences of changes between the steps of an iterator; aliasing", "anchors": ["vector.go: Iterate, vectorIterator, PushBack, Append, Insert, Reserve, Shrink"]}
{"id": "C93", "title": "ForEach callbacks that use the Vector", "statement": "Expected: ForEach passes elements of the vector to the callback. False of the code: a callback that removes elements is passed zero values at the end. What holds: callbacks of ForEach, ForEachIf, ForEachMutable and ForEachMutableIf may call any method of the vector and use any iterators and pointers; the loop makes one round for each element the vector had at the start (unless stopped by false or a panic in the callback), over the slots of the storage it was in at the start, with their present values; so it always ends. If the callback only reads, appends, reserves and shrinks, it is called with exactly the elements the vector had at the start, in order.", "quantifier": "every callback body (any statements, each depending on what the earlier ones showed), every history, every growth policy", "why_tests_cant": "all callbacks that change the vector they are called from", "anchors": ["vector.go: ForEach, ForEachIf, ForEachMutable, ForEachMutableIf"]}
{"id": "C94", "title": "A less function that panics in a heap operation", "statement": "Expected: a panic in less leaves a heap, and a Push that panics pushed nothing. False of the code: after a panic in Pop the slice need not be a heap, and the pushed element stays in the slice. What holds: whatever less does (it may keep state and panic at any call, and need not be an order), MakeHeapFunc, PushHeapFunc, PopHeapFunc and RemoveHeapFunc lose and duplicate no element: after a panic the slice holds a permutation of the elements (after Push with the new one; after Pop and RemoveHeapFunc still with the one to be removed) and memory outside is not touched; IsHeapFunc writes nothing. A PriorityQueue made by NewPriorityQueueFunc used on after such panics returns every pushed element exactly once, and MakeHeapFunc makes the slice a heap again. Calls that return do what they do with the pure order whose answers less gave.", "quantifier": "every less function with state, every panic point, every heap and history of queue calls", "why_tests_cant": "all points at which a callback can panic, in every call of an unbounded history", "anchors": ["heap.go: MakeHeapFunc, IsHeapFunc, PushHeapFunc, PopHeapFunc, RemoveHeapFunc, heapUpFunc, heapDownFunc", "priority_queue.go: pqFunc"]}
{"id": "C95", "title": "A key comparison that panics in a SkipList call", "statement": "On a list made by NewSkipListFunc, if the comparison function panics during a call (and the program recovers), the list is as if the call had not been made: no node, link, length or level has changed, and all later calls show and do exactly what they do on the sorted map of the calls that did not panic. The comparison function may keep state and give results of any size with the right sign. Calls that do not compare keys never run it.", "quantifier": "every comparison function with state whose results have the sign of a three-way order, every panic point, every sequence of calls, all random levels", "why_tests_cant": "all points at which a callback can panic, in every call of an unbounded history", "anchors": ["skiplist.go: NewSkipListFunc, Insert, Find, Has, Remove, LowerBound, UpperBound, FindRange, findInsertPoint, findRemovePoint, skipListFunc"]}
{"id": "C96", "title": "Callbacks that panic in the slice functions and in Vector.RemoveIf", "statement": "Expected: a RemoveIf whose predicate panics loses no element. False of the code: Vector.RemoveIf on [1 2 3] with a predicate that removes 1 and panics on 3 leaves [2 2 3]. What holds, at whatever element the callback panics: Transform, ReplaceIf and Generate have done exactly the elements whose calls returned and left the others; TransformCopy and RemoveIfCopy write no memory that existed before; TransformTo has put the results so far into the first slots of its target (or fresh storage) and wrote nothing else; RemoveIf leaves the elements it kept, followed by what stood behind that many positions, and Vector.RemoveIf then keeps its length, no foreign element appears, and all elements from the panicking call's on are untouched.", "quantifier": "every slice, every callback with its own state, every panic point", "why_tests_cant": "all points at which a callback can panic", "anchors": ["transform.go: Transform, TransformTo, TransformCopy, ReplaceIf, RemoveIf, RemoveIfCopy", "generate.go: Generate", "vector.go: RemoveIf"]}
{"id": "C97", "title": "No container keeps removed elements reachable", "statement": "Expected: a container keeps nothing of what it no longer contains, so the garbage collector can reclaim it (vector.go zeroes vacated slots for this). False of the code: Stack.Pop, TryPop and the heap functions' Pop/Remove (so PriorityQueue.Pop) leave the element they return in the slot behind the last element, Stack.Clear and PriorityQueue.Clear leave every slot as it was, and SkipList's prevsCache keeps removed nodes: after Remove of an absent key and Clear, every pair with a greater key is still reachable from the empty list if there was a pair with a smaller one. What holds: after any calls, the nodes reachable from an SList are exactly one per current element, from a DList or DListQueue those and the head node, from a SkipList's head those and the head node; a Vector whose slots behind the last element are zero stays like that after any calls and any use of iterators but writing through them.", "quantifier": "For all histories of calls on an SList, DList, DListQueue, SkipList, Vector; all stacks and heaps.", "why_tests_cant": "Reachability is invisible to callers: tests can only see it through finalizers and forced collections, and the claim is about all histories.", "anchors": ["stack.go:35-62", "heap.go:44-67", "heap.go:144-167", "priority_queue.go:52-69", "skiplist.go:28-37", "skiplist.go:76-120", "skiplist.go:156-170", "skiplist.go:349-378", "slist.go:10-150", "dlist.go:11-200", "vector.go:47-170"]}
{"id": "C98", "title": "Looking at a container writes nothing", "statement": "The calls that only look at a container - Len, IsEmpty, Cap, At, Front, Back, Top, Values, Keys, Find, Has, LowerBound, UpperBound, FindRange, Iterate and the iterators, ForEach and ForEachIf with callbacks that do not touch the container, IsSubsetOf, IsSupersetOf, IsDisjointOf - consist of reads only: they make no store at all, not even one they take back. So any number of them can run at the same time: however their single memory accesses are interleaved, the container never changes and each call has the result it has alone. Expected: a SkipList.Remove that finds nothing is such a call. False of the code: it writes the prevsCache field. What holds: it writes nothing else.", "quantifier": "every container state (not only reachable ones; for slices every well-formed header), every number of concurrent calls, every interleaving of their accesses", "why_tests_cant": "all interleavings; a write that is undone, or goes to a cache, is invisible in results", "anchors": ["slist.go: Len, IsEmpty, Front, Back, Values, ForEach, ForEachIf, Iterate", "dlist.go: Len, IsEmpty, Front, Back, ForEach, ForEachIf, Iterate", "dlist_queue.go: Len, IsEmpty, Front, Back", "skiplist.go: Len, IsEmpty, Find, Has, LowerBound, UpperBound, FindRange, Iterate, ForEach, ForEachIf, Remove, findPrevNodes", "skiplist_set.go: Has, Keys, LowerBound, UpperBound, FindRange, ForEach, ForEachIf", "builtin_set.go: Has, Len, Keys, ForEach, ForEachIf, IsDisjointOf, IsSubsetOf, IsSupersetOf", "vector.go: Len, Cap, IsEmpty, At, Back, Iterate, ForEach, ForEachIf", "stack.go: Top, Len, IsEmpty", "priority_queue.go: Top, Len, IsEmpty"]}
{"id": "C99", "title": "A PriorityQueue built on the caller's slice", "statement": "Expected: a queue of given elements (NewPriorityQueueOf) is apart from the slice they were passed in. False of the code: its calls rearrange that slice, and the caller's writes change its results. What holds: as long as the queue never held more than cap(s) elements it is the beginning of the caller's window s[:cap(s)], in heap order; the first Push beyond that moves it into fresh storage, after which no call changes the caller's array again. Outside s[:cap(s)] no memory that existed is ever written. After k Pops the caller's slice holds what is left, followed by the popped elements, last popped first; after len(s) Pops it is sorted in descending order.", "quantifier": "every slice in the middle of any larger array, every sequence of calls, every growth policy of append, every strict weak order", "why_tests_cant": "aliasing between the queue and the caller's array over unbounded histories", "anchors": ["priority_queue.go: NewPriorityQueueOn, NewPriorityQueueOf, Push, Pop, Clear", "heap.go: MakeMinHeap, PushMinHeap, PopMinHeap"]}
{"id": "C100", "title": "ForEach callbacks that use BuiltinSets", "statement": "Expected: what a loop over a BuiltinSet does to the sets does not depend on the order of the keys. False of the code: keys the callback inserts may be visited or not. What holds: callbacks of ForEach and ForEachIf may call any method of any set, also of the one they are called from, and run loops over it again; every call they make still acts on mathematical sets. The loop visits only keys in the set at that moment, every key that is in it from the start to the end, and no key a second time unless it was removed in between; so if callbacks remove nothing, all keys of the start are visited and none twice. A callback that removes the visited keys satisfying p visits every key once and leaves exactly those not satisfying p, whatever the order, and no other set changes.", "quantifier": "every callback body (any calls, each depending on what the earlier ones showed, nested loops, panics recovered or not), every history, every iteration order", "why_tests_cant": "all callbacks that change the set they are called from; all iteration orders", "anchors": ["builtin_set.go: ForEach, ForEachIf"]}
{"id": "C101", "title": "PriorityQueue values that are copied", "statement": "Expected: a copy c := *q is a queue of its own, or at least another name of the same queue. False of the code: it is neither. What holds: Push and Pop through a copy (or a copy of a copy) act on the queue it was copied from, exactly as through the original; Len, IsEmpty and Clear of a copy look at the copy's own length, which stays the one at the time of copying whatever is pushed and popped, until the copy is cleared; Top of a copy panics if that length is 0 and otherwise returns the queue's current top (the last one if it is empty) until a Push moves the queue to other storage, and ever after the top it saw before. Nothing done to a copy other than Push and Pop affects the queue: the calls that act on one queue are those of a priority queue, whatever is done with its copies and with other queues in between. Of a zero value Len is 0, Clear does nothing, Top, Push and Pop panic.", "quantifier": "every program with any number of queues (both constructors), copies, copies of copies and zero values, every interleaving of calls through them, every growth policy, all strict weak orders", "why_tests_cant": "aliasing of struct copies over unbounded histories", "anchors": ["priority_queue.go: PriorityQueue, NewPriorityQueue, NewPriorityQueueFunc, Len, IsEmpty, Clear, Top, Push, Pop"]}
{"id": "C102", "title": "Callbacks that panic, keep state or change the slice in the lookup and search functions", "statement": "Whatever the callback does - keep variables, contradict itself, panic, write the very slice being looked through - FindIf, AnyOf and NoneOf call it on a[0], a[1], ... in order, once each and on the element as it is at that moment, up to the first yes, AllOf up to the first no, CountIf on all, and the results follow from these answers. LowerBoundFunc and UpperBoundFunc end after at most log2(n)+1 calls, all on elements in range and never two on the same index, with arguments in the documented order; the result is the place the answers single out: all yes-it-is-before answers come from indices before it, all others from it on, and both its neighbours were asked. BinarySearchFunc makes one further call less(value, a[r]) and reports found exactly if that says no. A panic of the callback reaches the caller after exactly the calls before it. The functions themselves write nothing.", "quantifier": "every slice in any memory, every callback with state and effects on memory, every panic point", "why_tests_cant": "all callbacks with effects on the searched slice and all inconsistent comparison functions", "anchors": ["lookup.go: FindIf, AllOf, AnyOf, NoneOf", "compute.go: CountIf", "binary_search.go: LowerBoundFunc, UpperBoundFunc, BinarySearchFunc"]}
{"id": "C103", "title": "A less function that panics or keeps state in SortFunc and StableSortFunc", "statement": "Whatever the less function does (keep state, contradict itself, panic at any call) and whatever sequence of Less and Swap calls the sort package makes, the slice is left with exactly its elements in some order, nothing outside it is written, and less is only called on elements of the slice. If less, whenever it returns, answers as some strict weak order does, then the slice is sorted (by StableSortFunc stably) when the call returns, and the call panics only if less does.", "quantifier": "every slice, every less with state, every panic point, every sort algorithm that uses Less and Swap (for sortedness: that meets the documented contract)", "why_tests_cant": "all points at which a callback can panic; all algorithms the sort package may use", "anchors": ["sort.go: funcSortable, SortFunc, StableSortFunc"]}
{"id": "C104", "title": "DList values that are copied", "statement": "Expected: a copy c := l of a DList is a list of its own, or another name of the same list; pushing always works. False of the code: it is neither, and pushing may panic. What holds: copies of a list that had elements at some time share one ring of elements but each has its own length. PushFront, PushBack and iterators through any of them act on the shared elements whatever the length says; the pops, Front, Back and the ForEach functions act as on an empty list if the variable's own length is 0 and otherwise on the shared elements; each call changes only the length of the variable it is made through, by what it adds or removes. A pop through a variable with a length above 0 when no elements are left returns the zero value and breaks the ring: from then on every use of its elements panics, changing nothing, until a Clear through any of the variables. A copy of a list that never had elements is independent. As long as only one of the variables on a ring is used, and that one is in order (fresh, or a copy of one in order), its calls are those of an ordinary sequence, whatever is done with all other variables: handing over a list by assignment is safe.", "quantifier": "every program with any number of DList variables, copies, copies of copies, assignments and calls in any interleaving", "why_tests_cant": "aliasing of struct copies over unbounded histories", "anchors": ["dlist.go: DList, DListOf, Clear, Len, IsEmpty, Front, Back, PushFront, PushBack, PopFront, PopBack, TryPopFront, TryPopBack, ForEach, ForEachIf, ForEachMutable, ForEachMutableIf, Iterate, ensureHead"]}
{"id": "C105", "title": "SList values that are copied", "statement": "Expected: a copy c := l of an SList is a list of its own, or another name of the same list; Values never panics; what is pushed through a variable and not removed through it is in it. False of the code: none of these. What holds: PushFront, PopFront, Clear, all calls that look, and PushBack to an empty list never affect other variables, so programs using only these may copy lists as they like and every variable is a sequence of its own. The calls that write to elements already there (PushBack to a non-empty list, Reverse, ForEachMutable, ForEachMutableIf, writing through an iterator) have to be made through variables that at that moment have no element in common with another variable; then too every variable behaves as a sequence of its own. When ys are pushed to the back of a copy of a non-empty list xs, the copy is xs followed by ys; of the original, Len, Front and Back stay those of xs, loops and iterators see xs followed by ys, and Values panics.", "quantifier": "every program with any number of SList variables, copies, copies of copies, assignments and calls in any interleaving", "why_tests_cant": "aliasing of struct copies over unbounded histories", "anchors": ["slist.go: SList, SListOf, IsEmpty, Len, Clear, Front, Back, PushFront, PushBack, PopFront, Reverse, Values, ForEach, ForEachIf, ForEachMutable, ForEachMutableIf, Iterate"]}
{"id": "C106", "title": "Slices of floats that contain NaN", "statement": "Expected: IsSorted means the numbers are in order; after Sort they are, and BinarySearch finds them; UpperBound copes with NaNs where LowerBound does; Compare is transitive. False of the code with NaN in the slice: all of these. What holds: NaN is never found (Find, Index, BinarySearch), counted, removed, replaced or merged by Unique; LowerBound of NaN is 0 and UpperBound is len(a); a slice with a NaN is not Equal to anything, itself included. IsSorted and IsDescSorted hold exactly if every stretch without NaN is in order. The less functions a<b || b!=b && a==a (NaN last) and a<b || a!=a && b==b (NaN first) are strict weak orders, so SortFunc with them puts the numbers in order and the NaNs together; on a slice with the NaNs last, LowerBound and BinarySearch with plain < are right, with the NaNs first UpperBound is. RemoveIf(a, isNaN) followed by Sort leaves the numbers in order.", "quantifier": "every slice of every type whose order is that of floats (some values unordered and unequal to everything), every position and number of NaNs", "why_tests_cant": "all positions of NaN among unboundedly many elements", "anchors": ["lookup.go: Find, Index", "compute.go: Count", "compare.go: Equal, Compare", "binary_search.go: LowerBound, UpperBound, BinarySearch", "sort.go: IsSorted, IsDescSorted, Sort, SortFunc", "transform.go: Replace, Unique, UniqueCopy, Remove, RemoveCopy, RemoveIf"]}
{"id": "C107", "title": "Vector values copied by assignment: what a call through one does to the others, and when copies are independent", "statement": "Expected: in programs that copy Vectors by assignment (w := v, v = w, passing by value), a copy is either a vector of its own or another name for the original. False of the code: PopBack through a copy zeroes the last element of the original (C107_expected_own), PushBack through a copy is not seen by the original (C107_expected_alias), and what copies show depends on how append chooses capacities (C107_expected_capacity). What holds, for any number of variables, any calls, any growth policy: a call does to its own variable what it should do on the sequence that variable shows; every other variable keeps its length, keeps all its elements unless it shares the storage, and otherwise keeps the elements before the first position the call may change, which is given for every method (C107_call). If each call changes only positions that no other variable with the same storage reaches, all results are those of independent sequences (C107_independent). A function that gets a vector by value and only reads it and appends to it never changes the caller's variable and sees a vector of its own (C107_append_only). Removing through a copy leaves the original showing the remaining elements followed by zero values up to its old length (C107_removed). One PushBack through each of original and copy: with spare capacity the second element replaces the first in both, without it both are kept (C107_pushed_twice).", "quantifier": "all element types, zero values, growth policies, programs with any number of variables created by var, MakeVector, MakeVectorCap and VectorOf, copied, assigned and called in any order with any arguments that are Go ints, total length within an int", "why_tests_cant": "Tests use each Vector through one variable; effects of sharing show only in programs with copies, depend on spare capacity, and there are unboundedly many interleavings.", "anchors": ["vector.go:7", "vector.go:10-23", "vector.go:47-170"]}
{"id": "C108", "title": "Stack values copied by assignment: saved copies, lengths and elements", "statement": "Expected: a copy of a Stack (saved := *s) is a stack of its own, or at least keeps what it shows. False of the code: Pop followed by Push through the original replaces the element the copy shows (C108_expected_own, C108_expected_snapshot), and an element pushed through one variable can be replaced by one pushed through another before it is popped (C108_expected_kept). What holds, for any number of variables and any growth policy: in every program the lengths, emptiness, and whether calls panic or find an element are those of independent stacks, only elements may differ (C108_lengths); calls other than Push change nothing another variable shows, and Push of x puts x in the place of the element at the same height of exactly those variables that share the storage and are longer (C108_call); programs that push only through variables no longer variable shares storage with behave exactly as independent stacks (C108_independent).", "quantifier": "all element types, growth policies and programs with any number of variables created by var, NewStack and NewStackCap, copied, assigned and called in any order", "why_tests_cant": "Tests never copy a Stack; whether an element is lost depends on capacities and on the interleaving of calls through the copies.", "anchors": ["stack.go:5-7", "stack.go:10-17", "stack.go:20-69"]}
{"id": "C109", "title": "SkipList structs copied by assignment: shared map, separate lengths, and when calls corrupt the list; zero values", "statement": "Expected: a copy c := *m of a SkipList struct is a map of its own, or another name for the same map; Insert and Remove through original or copy do not panic; a key that Remove has removed is not found. False of the code: none of these (the nodes and the array of heads are shared; length and level are not; searches of the copy run on the original struct): inserting two keys through a copy can panic with an index out of range in the middle of the insertion, then Remove through the original panics too, and inserting a key through a copy can make a removed key be found again by Has and Find. What holds, for any number of lists, copies, copies of copies and zero values: if originals are not assigned to and new keys are inserted through originals (or through copies whenever the generator returns a number with bit 39 set, i.e. level 1), then every call through every variable, including overwriting, Remove and Clear through copies, acts on the one shared map of the original; only lengths are kept apart, each changing by the calls through its own variable (C109_shared). If moreover copies are not used to insert or remove and not asked for their length, they are other names of the map (C109_readers). The length of a copy stays what it was when it was made while the map it shows is the current one (C109_stale_len). On a zero value SkipList{} Len, IsEmpty and Clear work and every other method panics, whatever was called before (C109_zero).", "quantifier": "all key and value types, strict weak orders and three-way comparison functions, all programs with any number of variables, made by NewSkipList, NewSkipListFunc, var or copying, assigned and called in any order, all random draws", "why_tests_cant": "Tests never copy the struct; whether a call panics or a removed key comes back depends on random levels and on the interleaving of calls through the copies.", "anchors": ["skiplist.go:28-37", "skiplist.go:39-45", "skiplist.go:57-80", "skiplist.go:85-160", "skiplist.go:255-420"]}
{"id": "C110", "title": "Clients of SkipListSet: kept iterators and callbacks that use the set", "statement": "Expected: while nothing is inserted, an iterator of FindRange(a, b) that is kept while the set changes shows elements of its range and ends. False of the code (C110_refuted): after the first element behind the range is removed, the walk runs past its end and panics at the end of the set. What holds, for any program that keeps any number of iterators while it calls any methods: every statement shows what it shows on a sorted set whose elements have identities, where an iterator on a removed element still has its value and goes on to the element that stood behind it when it was removed (C110_kept_iterators). A kept LowerBound or UpperBound iterator can always be walked to its end without a panic, strictly ascending, first removed elements, then exactly the stored elements from some place to the last (C110_stale_iterators). A range iterator whose first element and end are never removed shows exactly the elements now stored from the first element up to the end (C110_range_kept). ForEach and ForEachIf with callbacks that use the set in any way do the same as on the set with identities, now and in all later statements (C110_callbacks). They visit strictly ascending elements, each stored at the start or inserted by the callback, and ForEach visits every element stored at the start that the callback never removes (C110_visits). They end if the callback inserts nothing (C110_ends). Removing elements while iterating visits every element once and leaves exactly the others (C110_remove_while_iterating).", "quantifier": "all element types, strict weak orders and three-way comparison functions, all histories of statements and callbacks, all random draws", "why_tests_cant": "The tests of SkipListSet use every iterator at once and never touch the set from a callback; there are unboundedly many interleavings of removals with kept iterators.", "anchors": ["skiplist_set.go:46-73", "skiplist_set.go:76-90", "skiplist_set.go:93-124", "skiplist.go:173-193"]}
{"id": "C111", "title": "A key comparison that panics in a SkipListSet call", "statement": "Expected, as for SkipList (C95): a call on a set made by NewSkipListSetFunc that panics in the comparison function leaves the set as it was. False of the code (C111_refuted): InsertN has then inserted the keys before the one being compared. What holds, for comparison functions that may panic and keep state of their own but answer with the sign of a three-way order: through any sequence of calls, some of which panic and are recovered, the set is the sorted set of what was done. A panicking InsertN or RemoveN has inserted or removed exactly the keys before some key of its argument list; every other panicking call has changed nothing; a call that does not panic returns and does exactly what it does on that set (C111_sorted_set). Repeating an InsertN or RemoveN that panicked, if the repeated call returns, makes the set what one undisturbed call makes of it (C111_repeat). With a pure comparison function every call returns what it returns in C15 (C111_pure).", "quantifier": "all key types, three-way orders, comparison functions with any state that panic at any of their calls, all call sequences, all random draws", "why_tests_cant": "The tests never use a comparison function that panics, and the panic can come at any comparison of any call.", "anchors": ["skiplist_set.go:12-14", "skiplist_set.go:46-73", "skiplist_set.go:93-106", "skiplist.go:389-463"]}
{"id": "C112", "title": "A SkipList whose order changes", "statement": "Expected: whatever the comparison function given to NewSkipListFunc answers, every call returns, no call panics, and a key reported as present is there. False of the code when the answers change during a call: a node can become its own successor, so that the next search never ends (C112_refuted_ends), Remove can panic on a node with more levels than the list (C112_refuted_no_panic), and a removed key can still be found in a list that is empty (C112_refuted_agrees). What holds when the answers change only between calls, as with keys that are modified while they are stored, and however the function answers during a call: every call except a walk over the FindRange result returns; Len is the number of pairs iterated over; Insert puts one pair between two neighbours that compare less and not less than it, or sets the value of one pair whose key compares equal; Remove takes out at most one pair, whose key compares equal; Find and Has find only what is there and compares equal; the bounds run from some pair to the last; the other calls do what they do on that sequence of pairs (C112_changing_order). Whenever the stored keys are in ascending order for the current function, the list is the sorted map of its pairs for all further calls (C112_sorted_again). A list made with one three-way order and used with other functions without Insert is the sorted map of what is left once the order is back (C112_order_restored).", "quantifier": "all key and value types, all sequences of calls each with its own comparison function, all random draws; for the refutations one function with state each", "why_tests_cant": "The tests use comparison functions that always answer the same, and what a wrong order leads to depends on all pairs stored and on their random levels.", "anchors": ["skiplist.go:57-63", "skiplist.go:91-118", "skiplist.go:156-170", "skiplist.go:381-463"]}
{"id": "C113", "title": "The parts of the library agree with each other", "statement": "For the same slice: Sort, SortFunc, the stable variants, a min heap or a PriorityQueue (made of the slice or filled one by one) emptied by popping, and a Vector filled by inserting each element at its UpperBound give the same sequence up to ==, and the descending variants give it backwards (C113_sorts_agree); StableSort, StableSortFunc and inserting at UpperBound give the identical sequence (C113_stable_sorts_equal). Sort followed by Unique, the Keys of a SkipListSet and the sorted Keys of a BuiltinSet of the elements are the same strictly ascending sequence up to == (C113_sets_agree). Find, Index and Count on the slice, BinarySearch and UpperBound minus LowerBound on the sorted slice, and Has on both kinds of set agree on whether, and how often, an element is there; a sorted slice passes IsSorted and IsMinHeap (C113_lookups_agree). MinN and MaxN are == to the first and last element of the sorted slice, MinN also to the top of the heap (C113_extremes_agree). Two sorted slices are Equal, and Compare as 0, exactly when every element occurs equally often in the two slices (C113_same_elements).", "quantifier": "all element types with a strict weak < and ==, all slices in all memories, all algorithms behind sort.Sort and sort.Stable that meet their documentation, all growth policies, random draws and map orders", "why_tests_cant": "Tests check each function against literals; no test compares two parts of the library, and none ranges over all inputs.", "anchors": ["sort.go:10-108", "heap.go:8-105", "priority_queue.go:12-90", "binary_search.go:8-121", "vector.go:129-144", "transform.go:114-132", "skiplist_set.go:17-23", "builtin_set.go:11-15", "lookup.go:26-128", "compare.go:7-44"]}
{"id": "C114", "title": "What the String methods show", "statement": "Documented of DList: \"String convert the list to string\", i.e. the text tells what is in the list. False of the code (C114_refuted_list_text): DList and DListQueue print only the type's name, whatever they hold (C114_lists). BuiltinSet prints the type's name and then every element exactly once, separated by spaces, in the map's order, and changes nothing (C114_set). Expected: equal sets have equal texts. False of the code (C114_refuted_same_text): the order differs. What holds: they show the same words in some order (C114_same_words). Expected: different sets have different texts. False of the code (C114_refuted_telling: {\"\"} and {}; C114_refuted_telling_spaces: {\"a b\"} and {\"a\", \"b\"}). What holds: it is so when no element's text is empty or has a space and different elements have different texts (C114_telling), as for integers in decimal (C114_integers).", "quantifier": "all element types, all texts of elements, all lists, queues and sets made by any calls, all map orders", "why_tests_cant": "The tests print one empty list and one empty queue of ints, and no set; that a text determines the set is a statement about all pairs of sets.", "anchors": ["helper.go:8-11", "dlist.go:44-47", "dlist_queue.go:33-36", "builtin_set.go:79-85", "builtin_set.go:103-106"]}
{"id": "C115", "title": "A key comparison that uses the SkipList it serves", "statement": "For a list made by NewSkipListFunc whose keyCmp itself calls methods of the list. A keyCmp that answers with the sign of a three-way order and leaves the list as it finds it does no harm: any sequence of calls shows and does what it does with the pure comparison (C115_looking); so it is for a keyCmp that makes any looking calls (Len, Has, Find, bounds, iteration, ForEach), chosen by what earlier ones showed, nested to any depth (C115_nested_looks, C115_nested). Expected: the same for a keyCmp whose calls change nothing a client can see. False of the code (C115_refuted): Remove of an absent key changes nothing (C115_absent_keeps) but overwrites prevsCache; sl.Remove(20) with a keyCmp that calls sl.Remove(100) returns true, 20 stays and iteration never ends. With Insert the damage shows later: a removed key is found again (C115_refuted_insert). What holds: calls that only look return what they should even so, and the map stays (C115_searches).", "quantifier": "all key and value types, all three-way orders, all lists reached by any calls, all comparison functions (as computations on the list and on the client's variables), all nesting depths", "why_tests_cant": "A test would need a keyCmp that re-enters the list; none does, and harmlessness is a claim about all such functions.", "anchors": ["skiplist.go:91-118", "skiplist.go:156-170", "skiplist.go:376-463"]}
{"id": "C116", "title": "A less function that uses the PriorityQueue it serves", "statement": "For a queue made by NewPriorityQueueFunc whose less itself calls methods of the queue. A less that only looks does no harm: any sequence of calls shows what it shows with the pure function, and leaves the same queue (C116_looking), as for calls of Top, Len and IsEmpty nested to any depth (C116_nested_looks); from inside, Len counts the element being pushed and still counts the one being popped (C116_inside). Expected of a less that also pushes or pops but answers by one order: Pop returns the least element, no element is handed out twice, none that less pushes is lost. False of the code: after Push(5), Push(3) whose less pushes 1, Pop returns 3 (C116_refuted); of 1, 2, 3 Pop returns 3 and so does the Pop that less makes meanwhile (C116_refuted_once); an element pushed during a Pop is lost (C116_refuted_kept). What holds, whatever less does to the queue through its methods (C116_nested): every call returns or panics and what Pop and Top return was pushed (C116_any); panics are only those of Pop and Top of an empty queue and Push to a full one (C116_panics); a Pop that returns leaves one element less than it found, whatever less pushed or popped meanwhile (C116_pop_len); pushes inside pushes lose and add nothing (C116_pushes).", "quantifier": "all element types, all less functions (as computations on the queue and on the client's variables), all call sequences, all plans of nested calls and all nesting depths", "why_tests_cant": "A test would need a less function that re-enters the queue; none does, and what holds is a claim about all such functions.", "anchors": ["priority_queue.go:34-69", "priority_queue.go:89-100", "heap.go:133-151", "heap.go:169-198"]}
{"id": "C117", "title": "Changing an element that is in a heap", "statement": "Expected: after an element of a heap has changed (h[i] = v, or a change behind the pointer h[i]) the next operations put it right. False of the code: the next Pop need not return a least element (C117_refuted), and when two elements have changed, removing the one and then the other need not leave a heap (C117_refuted_two). What holds: when one element has changed, to anything, RemoveHeapFunc or RemoveMinHeap of its index returns it and leaves a heap, for the order of now, of exactly the others (C117_remove, C117_remove_min); PopHeapFunc and PopMinHeap do so when it is the first one (C117_pop). So h[i] = v, remove index i and push the result is a heap again, of the same elements but v for h[i], in the same storage (C117_update), any number of times (C117_updates). While the changed element is in its place, the first element is a least one if and only if the changed one is not less than it (C117_top).", "quantifier": "all element types, all strict weak orders before and after, all heaps, indices and new elements", "why_tests_cant": "That one changed element can be taken out while two cannot depends on the order of grandparent and grandchildren, for every shape of heap; tests only remove from intact heaps.", "anchors": ["heap.go:36-67", "heap.go:133-198"]}
{"id": "C118", "title": "How much storage growing containers allocate", "statement": "Expected: a container that grows by n elements allocates storage in proportion to n, however they are added. False of the code: Vector.Insert and Vector.Reserve allocate exactly what is needed, so n single insertions into a full vector of l elements, at whatever positions, make n arrays of n l + n (n + 1) / 2 slots in all (C118_insert), and so does calling Reserve(Len() + 1) before each of n pushes (C118_reserve): no factor up to 2^61 bounds that (C118_refuted_insert, C118_refuted_reserve). What holds: if append, when it must move a slice, grows it by 1/k at least, then all storage allocated by any sequence of other calls on a vector (pushes, appends, removals, RemoveIf, Clear, pops, also calls that panic) is at most k + 1 times the growth of the capacity, besides the slices of arguments, and a allocations need a capacity of (1 + 1/k)^(a-1) (C118_vector); if append also takes at most b times what is needed, the capacity is at most b times the number of elements added (C118_linear) and the storage at most (k + 1) b times (C118_total). The same holds of all calls on a Stack (C118_stack) and on a PriorityQueue, whatever its less function (C118_queue).", "quantifier": "all element types, all growth policies of append meeting the contract (all whatever for the quadratic costs), all sequences of calls, positions and argument lists", "why_tests_cant": "The sum over all allocations of a run of any length, for any growth policy, is a potential argument; tests measure single runs of a single runtime, and none looks at allocation.", "anchors": ["vector.go:58-64", "vector.go:92-98", "vector.go:115-144", "vector.go:147-175", "stack.go:40-62", "priority_queue.go:52-69", "heap.go:136-151"]}
{"id": "C119", "title": "Keeping the k greatest elements of a stream in a PriorityQueue", "statement": "The loop `for v in stream { q.Push(v); if q.Len() > k { q.Pop() } }` on a new queue of either kind never panics for k < 2^63-1 and any length of the stream; popping what is left gives min(k, n) elements (none for negative k) in ascending order, none of the elements left out is greater than one of them, and they are element by element equivalent to the end of the stream sorted in any way. The storage allocated depends on k and on append's growth policy only, not on the length of the stream. Expected: of equivalent elements the later ones (or the earlier ones) stay. False of the code: with k = 2 and four equal elements the second and the fourth stay.", "quantifier": "all strict weak orders, element types, growth policies (for the storage: those meeting the conditions of C118), all k < 2^63-1, all streams", "why_tests_cant": "The choice made at each step depends on the whole history of the heap; that nothing greater was ever thrown away, for streams of any length and any order, needs an invariant. Tests pop a queue they filled completely.", "anchors": ["priority_queue.go:42-49", "priority_queue.go:62-69", "heap.go:136-168"]}
{"id": "C120", "title": "Window maxima with a DListQueue", "statement": "The usual program that finds the maxima of all windows of w consecutive elements (drop smaller elements from the back of a DListQueue, push the new one, drop the front when it left the window, take the front) never panics for w >= 1 and gives max(0, n-w+1) results, the i-th being the first of the greatest elements among those at i, ..., i+w-1; there is only one such sequence. For w <= 0 it panics at the first element.", "quantifier": "all strict weak orders, element types, sequences, widths; any heap contents around the queue", "why_tests_cant": "That dropping smaller elements loses no later maximum is an invariant over the whole history of the queue; tests run the queue on a few fixed pushes and pops at both ends.", "anchors": ["dlist_queue.go:19-26", "dlist_queue.go:39-46", "dlist_queue.go:54-66", "dlist.go:80-161"]}
{"id": "C121", "title": "A queue made of two Stacks", "statement": "The usual queue of two Stacks (push onto the first; to take, move all of the first to the second when that is empty, then pop the second) shows for every sequence of calls what a first in, first out sequence shows: Pop panics exactly when both are empty, and the queue can be used afterwards; in all no more elements are moved than were put in. The same from any two stacks that share no storage. Expected: copies of one empty Stack with capacity will do for the two. False of the code: they share the array, and moving overwrites what is still to be moved.", "quantifier": "all element types, growth policies, sequences of calls, initial stacks", "why_tests_cant": "Interleavings of pushes and pops at all fill states, over two slices in one memory, cannot be enumerated; tests use one stack.", "anchors": ["stack.go:10-27", "stack.go:40-42", "stack.go:58-62"]}
{"id": "C122", "title": "Iterators over a range of a Vector, kept over changes", "statement": "Iterators of IterateRange(i, j), taken, kept, moved, read and written between any other calls and iterators: every sequence of statements shows what a specification with storages shows, and writes nothing but the vector's own storages. Taking one panics exactly unless 0 <= i <= j <= Cap. No call invalidates it: it runs over j - i places. While the vector stays in its storage the iterator, moved q times, stands on element i + q as it is now, even one pushed after the iterator was taken. Behind the end, or once the vector has moved, writing through it changes no element. Documented: the iterator is to the range [i, j) of the container. False of the code: it can show slots that are no elements (Len <= i + q < Cap).", "quantifier": "all element types, vectors anywhere in memory, growth policies, ranges, sequences of statements with any number of iterators", "why_tests_cant": "Iterators outliving appends, removals and reallocations in all orders cannot be enumerated; the tests iterate over unchanged vectors.", "anchors": ["vector.go:212-214", "vector.go:216-235"]}
{"id": "C123", "title": "RemoveIf with a condition that uses the vector", "statement": "Vector.RemoveIf whose condition calls methods of the same vector or uses iterators and pointers of it. Whatever it does, when RemoveIf returns, the vector is the beginning of what it was: same storage and capacity, not longer than before, zero values from its new end to its old end; it panics only if a call of the condition does, and memory of others is not written. If the condition writes and removes no element, it is asked about the elements the vector had at the start, in order, and those it answered no to are left. Expected: what the condition adds to the vector is in the vector afterwards. False of the code: *v is read before and written after the calls, so it is lost.", "quantifier": "all element types, vectors, growth policies, conditions that are programs over the vector with their own state", "why_tests_cant": "Conditions that change the vector at any of its calls cannot be enumerated; the tests use conditions that look at their argument only.", "anchors": ["vector.go:165-170", "transform.go:183-192"]}
{"id": "C124", "title": "Transform, Generate, ReplaceIf, RemoveIf and the copying ones with callbacks that write memory", "statement": "A callback of these functions may write memory, the function's own slices included. Calls and stores take turns: every element is read when its turn comes, the store follows the call that decided it and writes one place, and nothing else happens; the function panics only where a call does. When it returns, the places stored to hold the results (Transform, Generate, TransformTo into a slice with room, also an overlapping one), the new value or what the call left (ReplaceIf), or the elements answered no to (RemoveIf), provided no call wrote places already stored to; TransformCopy and RemoveIfCopy need no such condition, as a callback cannot know the new array. A callback that leaves the elements alone gets the elements the slice had, in order. Expected: a callback whose answers depend on its argument alone maps, or filters, the slice. False of the code if it writes places already passed.", "quantifier": "all element types, slices, overlaps, memories, callbacks with private state that do not shrink or free arrays", "why_tests_cant": "Callbacks that write any places at any of their calls cannot be enumerated; the tests use callbacks that look at their argument only.", "anchors": ["transform.go:60-66", "transform.go:71-75", "transform.go:80-86", "transform.go:102-108", "transform.go:183-206", "generate.go:18-22"]}
{"id": "C125", "title": "Merging lists with a PriorityQueue", "statement": "A program keeps the front of each list that is not used up in a PriorityQueue made by NewPriorityQueueFunc, and pops the least front, pushing the next element of the same list, until the queue is empty. For any lists and any strict weak order of fronts and list numbers it never panics, ends after as many steps as there are elements, takes a front that no other goes before each time, and keeps the elements of each list in order. If the lists are sorted, the result is sorted and a permutation of all elements; if list numbers decide between equivalent elements, it is what a stable sort makes of the lists in a row. The storage allocated depends on the number of lists, not on their lengths. Expected: equivalent elements come in the order of their lists even if the fronts are compared by the elements alone. False of the code.", "quantifier": "all element types, strict weak orders, numbers and lengths of lists, growth policies meeting the conditions of C118", "why_tests_cant": "Lists of any number and length cannot be enumerated; that the heap's internal order does not show needs the argument over all heaps.", "anchors": ["priority_queue.go:34-39", "priority_queue.go:47-49", "priority_queue.go:62-69"]}
{"id": "C126", "title": "List calls at the ends use a fixed number of nodes", "statement": "In every state of the nodes, whether or not they form a list, a call of SList's PushFront, PushBack, PopFront, Front, Back, Clear, Len or IsEmpty uses at most one existing node, and a call of DList or DListQueue to push, pop, try to pop, Front, Back, Clear, Len or IsEmpty at most three: with any other contents in the other nodes it returns the same and does the same to the header, to those nodes and to new ones, and it changes no other node. It makes at most one node (SList) or two (DList, with the head). An iterator moved i times uses i + 1 (DList: i + 2) nodes. In contrast, reading all values with Values or an iterator uses at least as many nodes as the list has elements.", "quantifier": "all element types (for the contrast: with two values), all heaps and headers, well-formed or not; for the contrast all lists reached by any calls", "why_tests_cant": "A test with a clock cannot tell a fixed number of nodes from a slowly growing one, and no finite set of lists covers all lengths.", "anchors": ["slist.go:24-95", "slist.go:113-125", "slist.go:168-191", "dlist.go:26-32", "dlist.go:80-161", "dlist.go:210-216", "dlist_queue.go:19-76"]}
{"id": "C127", "title": "A SkipListSet whose order changes", "statement": "A SkipListSet made by NewSkipListSetFunc is used while the answers of its comparison function change between calls. Every call returns (but the walk over FindRange, which may panic as in C07). Keys, Len, IsEmpty and ForEach show exactly the elements. Insert says true and puts the element between neighbours that compare right with it, or says false, changes nothing and there is an element that compares equal. Remove says true and takes out one element that compares equal, or says false and changes nothing. InsertN and RemoveN do this key by key and return the number of successes. Has says true only if an element compares equal. Whenever the elements stand in ascending order of the function of the moment, the set is again the sorted set; in particular when nothing was inserted in between and the first order is back. Expected: Remove takes out an element that is there even while the order differs. False of the code.", "quantifier": "all key types, call sequences, sequences of comparison functions (any functions into the integers), heaps and random levels", "why_tests_cant": "No test can try all functions a comparison may turn into.", "anchors": ["skiplist_set.go:12-14", "skiplist_set.go:26-106", "skiplist.go:91-170", "skiplist.go:376-463"]}
{"id": "C128", "title": "Heap functions whose less function writes the heap", "statement": "The less function of MakeHeapFunc, IsHeapFunc, PushHeapFunc, PopHeapFunc and RemoveHeapFunc may read and write any memory, the heap's own slice and the variable *heap included, and may panic. Every claim about the state that calls of less and exchanges of two elements of the slice keep holds in the end; the function returns, panics only if less does, and calls less at most 2n (Make), n-1 (Is), log2(n+1) (Push), 2 log2(n-1) (Pop) and 2 log2 n (Remove) times. Pop and Remove end with *heap being the slice they started with less its last element, which is what they return, whatever less did to *heap. So if less reorders the slice no element is lost and no other memory written; and if less answers as an order and leaves the elements of the slice alone, whatever else it writes, the results are those of that order. Expected: when all answers are those of one order MakeHeapFunc makes a heap. False of the code if less reorders the slice.", "quantifier": "all element types, memories, slices, growth policies, less functions (any state transformers) and claims", "why_tests_cant": "No test can try all less functions; one that writes the slice is a case tests do not think of.", "anchors": ["heap.go:107-198"]}
{"id": "C129", "title": "Sort functions whose less function writes the slice", "statement": "The less function of SortFunc and StableSortFunc may read and write any memory, the slice being sorted included, and may panic. Whatever sequence of Less and Swap calls the sort package makes, every claim about the state that calls of less and exchanges of two elements of the slice keep holds in the end; less is called as often as the package calls Less; the call panics only if less does or the package uses an index out of range. So if less reorders the slice no element is lost and no other memory written. If less answers as a strict weak order and leaves the elements of the slice alone, whatever else it writes, the slice ends sorted, for StableSortFunc stably. Expected: it ends sorted when all answers are those of one order. False of the code if less reorders the slice.", "quantifier": "all element types, memories, slices, less functions (any state transformers), sort packages and claims", "why_tests_cant": "No test can try all less functions and all sort packages.", "anchors": ["sort.go:85-108"]}
{"id": "C130", "title": "SkipListSet whose comparison function uses the set", "statement": "The comparison function given to NewSkipListSetFunc may call methods of the set it orders. If it answers with the sign of a three-way order and, on every set the client gets to, leaves the set exactly as it is (any looking calls, nested to any depth), every sequence of calls shows what it shows on a sorted set and leaves the same nodes as with a pure function; InsertN and RemoveN included. Expected: the same for a function that changes nothing a client can see. False of the code: with one that calls s.Remove(100), s.Remove(20) on {10, 20, 30} returns true but 20 stays and iteration never ends, because both calls share prevsCache. What holds: calls that only look are right whatever is written to prevsCache. Expected: Insert says whether the key was missing. False of the code if the function inserts: Insert compares lengths, so it returns true for a key that was there.", "quantifier": "all key types, orders, comparison functions (any computations on the set and the client's variables), plans, nesting depths, call sequences, random numbers, callbacks", "why_tests_cant": "No test can try all comparison functions and all nestings.", "anchors": ["skiplist_set.go:12-14", "skiplist_set.go:41-110", "skiplist.go:376-463"]}
{"id": "C131", "title": "Pool whose sync.Pool is used too, or whose New function panics", "statement": "Pool[T] is declared as sync.Pool, so clients can set its field New and, after a conversion, put any value into it; New may panic or use the pool. Whatever they do: every object put in or made by New has exactly once been handed out by Get or dropped by sync.Pool, or is still there; no panic loses or doubles one. Every value that is no *T makes exactly one Get panic unless it is dropped or still there, so the pool works again afterwards. Get returns nil only if there is no New function, New returned nil, or a nil *T was put into the sync.Pool (the last for MakePool). A Get of a pool made by MakePool or MakePoolWithNew panics only if a value of another type was put into the sync.Pool or the user's New panics. If only holders put and pass objects on and no object is made twice, no object has two holders and Get returns only objects nobody holds. Expected: Get of a MakePool pool never panics and never returns nil. False of the code once the sync.Pool is used.", "quantifier": "every interleaving of the steps of any number of goroutines, every New function (a set of possible results and panics), every value put in, every choice sync.Pool makes", "why_tests_cant": "All schedules, and all choices of sync.Pool.", "anchors": ["pool.go:6-39"]}
{"id": "C132", "title": "SkipList and SkipListSet whose comparison function uses them and panics", "statement": "The comparison function given to NewSkipListFunc or NewSkipListSetFunc may call methods of the container it orders, and may panic at any time. If on every container the client can get to with it, at any point of a search, it either answers with the sign of a three-way order and leaves the container exactly as it is, or panics and leaves all but prevsCache as it was, then through any sequence of calls whose panics are recovered, the container is the sorted map (set) of the calls that did not panic: every call does and shows what it does there, or panics and, for the SkipList, has changed no node, link, level or length; an InsertN or RemoveN of the set that panics has done a proper prefix of its keys. Functions that make any looking calls, nested to any depth, and panic whenever they like or when one of these calls panicked, are such functions.", "quantifier": "all key and value types, orders, comparison functions (any computations on the container and the client's variables, with any invariants of these), plans, nesting depths, call sequences, random numbers, callbacks", "why_tests_cant": "No test can try all comparison functions, all nestings and all points of panic.", "anchors": ["skiplist.go:91-170", "skiplist.go:376-463", "skiplist_set.go:12-14", "skiplist_set.go:41-110"]}
{"id": "C133", "title": "Medians of a stream with two PriorityQueues", "statement": "A program keeps the smaller half of a stream in a PriorityQueue with the greatest element on top and the larger half in one with the least on top: it pushes each element to the first, moves the top to the second, and moves one back if the second is longer. For every strict weak order and every stream it never panics, and after each element the tops give a lower and an upper median of the elements so far: elements of which less than half are below and at most half above (and the other way round). These are, up to equivalence, the elements number (n-1)/2 and n/2 of the sorted stream, however it is sorted.", "quantifier": "all element types, strict weak orders, streams of up to 2^63-1 elements, growth policies of append", "why_tests_cant": "No test can try all streams and orders.", "anchors": ["priority_queue.go:34-69", "priority_queue.go:89-100"]}
{"id": "C134", "title": "DListQueue values that are copied", "statement": "Expected: a copy c := *q of a DListQueue is a queue of its own, or another name of the same queue; a queue only gives out what was put into one; pushing always works. False of the code: all four fail. What holds: copies of a queue that had elements at some time share one ring of elements but each has its own length. The pushes act on the shared elements whatever the length says; the pops, Front and Back act as on an empty queue if the variable's own length is 0 and otherwise on the shared elements; each call changes only the length of the variable it is made through. A pop through a variable with a length above 0 when no elements are left returns the zero value with true and breaks the ring: from then on every use of its elements panics, changing nothing, until a Clear through any of the variables. A copy of a queue that never had elements is independent. As long as only one of the variables on a ring is used, and that one is in order (fresh, or a copy of one in order), its calls are those of an ordinary queue, whatever is done with all other variables.", "quantifier": "every program with any number of DListQueue variables, copies, copies of copies, assignments and calls in any interleaving", "why_tests_cant": "aliasing of struct copies over unbounded histories", "anchors": ["dlist_queue.go:8-76", "dlist.go: ensureHead, Clear, Len, IsEmpty, Front, Back, PushFront, PushBack, PopFront, PopBack, TryPopFront, TryPopBack"]}
{"id": "C135", "title": "SkipListSet structs that are copied", "statement": "Expected: a copy c := *s of a SkipListSet is a set of its own, or another name of the same set; Keys and Insert do not panic; a removed key is gone. False of the code: all five fail. What holds: if originals are not assigned to and new keys are inserted through the original (or happen to get the lowest level), copies show the same set of keys as the original while each has a length of its own, which changes only by what is done through it; Insert, InsertN, Remove and RemoveN still return what they did to the set. Len and IsEmpty tell the variable's own length, and Keys panics if that is negative. A copy through which nothing is inserted or removed and which is not asked for Len, IsEmpty or Keys is another name of the set. On a zero value (var s SkipListSet[K]) Len, IsEmpty, Clear, and InsertN and RemoveN without keys work; everything else panics.", "quantifier": "every program with any number of SkipListSet variables, copies, copies of copies, assignments and calls in any interleaving; all key types with an order or a comparison function; all random draws", "why_tests_cant": "aliasing of struct copies over unbounded histories", "anchors": ["skiplist_set.go:4-14", "skiplist_set.go:26-110", "skiplist.go:28-63"]}
{"id": "C136", "title": "Checking brackets with a Stack", "statement": "The usual program (push the kind of every opening bracket; at a closing one TryPop and compare; at the end IsEmpty) never panics, and tells of every word whether it is balanced: every bracket is closed by one of its kind and pairs do not cross. The position it returns is the length of the longest part from the start that can be continued to a balanced word: the index of the first wrong bracket, or the length of the word if there is none.", "quantifier": "all words, kinds of brackets, growth policies, memories", "why_tests_cant": "Words of unbounded length and nesting; tests push and pop a few integers.", "anchors": ["stack.go:10-12", "stack.go:20-22", "stack.go:40-42", "stack.go:45-53"]}
{"id": "C137", "title": "Distances in a graph with a DListQueue", "statement": "The usual breadth first search (take the first vertex of the queue, put those of its neighbours that have no distance yet at the back) never panics, ends after at most as many rounds as there are vertices that can be reached, and gives the length of a shortest walk from s for each vertex that can be reached and nothing for the others; from a new DListQueue in any heap.", "quantifier": "all graphs in which finitely many vertices can be reached from s (also with cycles, loops and multiple edges), all vertex types with equality, all heaps", "why_tests_cant": "All graphs; tests push and pop a few integers.", "anchors": ["dlist_queue.go:13-16", "dlist_queue.go:24-26", "dlist_queue.go:54-61"]}
{"id": "C138", "title": "Longest increasing subsequences with LowerBoundFunc and UpperBoundFunc", "statement": "The usual program (look each element up in the slice of the least last elements; append it there, or write it over the one found) never panics and gives, with LowerBoundFunc, the greatest length of a subsequence in which each element is greater than all before, and with UpperBoundFunc the greatest length of a subsequence in which no element is less than one before.", "quantifier": "all slices, element types and strict weak orders", "why_tests_cant": "All subsequences of slices of any length; tests search a few sorted slices.", "anchors": ["binary_search.go:32-48", "binary_search.go:78-94"]}
{"id": "C139", "title": "Distances in a graph with a PriorityQueue", "statement": "The usual program (pop the nearest entry; if its vertex has no distance yet, give it this one and push an entry for each edge from it) never panics, ends after at most one round more than there are edges from vertices that can be reached, and gives the least total length of a walk from s for each vertex that can be reached and nothing for the others, if no edge has a negative length. Expected: the same for every graph on which it ends. False: an edge of negative length can lead to a vertex that has got its distance already.", "quantifier": "all graphs without negative lengths in which finitely many vertices can be reached from s, with fewer edges than the greatest int; all vertex types with equality, growth policies, memories", "why_tests_cant": "All graphs; tests push and pop a few integers.", "anchors": ["priority_queue.go:34-39", "priority_queue.go:47-49", "priority_queue.go:62-69"]}
{"id": "C140", "title": "Ordering the vertices of a graph with a DListQueue", "statement": "The usual program (count the edges to each vertex; put those with none into a queue; take one, append it to the result, and take its edges from the counts, putting vertices whose count gets 0 into the queue) never panics, and gives vertices of the graph without repetition such that each comes after all those with an edge to it. No vertex is missing exactly if the graph has no cycle.", "quantifier": "all finite graphs (with cycles, loops and multiple edges), all vertex types with equality, all heaps", "why_tests_cant": "All graphs; tests push and pop a few integers.", "anchors": ["dlist_queue.go:13-16", "dlist_queue.go:24-26", "dlist_queue.go:54-61"]}
{"id": "C141", "title": "Bookings that do not overlap, in a SkipList", "statement": "A calendar keeps bookings (s, e), of the times from s to before e, in a SkipList from ends to starts. A booking is accepted if s < e and what UpperBound(s) stands at, if anything, does not start before e. It is cancelled if Find(e) gives s, with Remove. A time t is taken if what UpperBound(t) stands at starts at t or before. Every sequence of bookings, cancellations and queries shows what a search through all bookings for an overlap would show, nothing panics, and no two bookings overlap at any time.", "quantifier": "all sequences of calls with all integers, all random numbers, both kinds of SkipList on integers ordered by <, all heaps", "why_tests_cant": "All sequences of bookings; tests of UpperBound look up a few keys in one fixed list.", "anchors": ["skiplist.go:91-118", "skiplist.go:122-128", "skiplist.go:145-147", "skiplist.go:156-170", "skiplist.go:219-233"]}
{"id": "C142", "title": "Depth first search with a Stack", "statement": "The usual program without recursion (push the first vertex; pop one, skip it if it was seen, else append it to the result and push its neighbours, the last one first) never panics, takes at most one round more than there are edges, and gives exactly the vertices that can be reached, each once, in the order in which a recursive search visits them.", "quantifier": "all graphs of which finitely many vertices can be reached (with cycles, loops and multiple edges), all vertex types with equality, all memories", "why_tests_cant": "All graphs; tests push and pop a few integers.", "anchors": ["stack.go:10-12", "stack.go:20-22", "stack.go:40-42", "stack.go:58-62"]}
{"id": "C143", "title": "Next greater elements with a Stack", "statement": "The usual program (from the last element to the first: pop while the top is not greater; what is then on top, if anything, is the answer; push the element) never panics, and gives for every element of a list the first later element that is greater, or none. For all elements together the inner loop pops at most as often as the list is long.", "quantifier": "all lists, all less functions whose negation is transitive (so all strict weak orders), all memories", "why_tests_cant": "All lists; tests push and pop a few integers.", "anchors": ["stack.go:10-12", "stack.go:20-22", "stack.go:40-42", "stack.go:58-62", "stack.go:67-69"]}
