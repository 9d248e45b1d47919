-Q theories Verif
theories/Base.v
theories/BaseLemmas.v
theories/Spec.v
theories/Trace.v
theories/Model_BinarySearch.v
theories/Proof_BinarySearch.v
theories/Props_BinarySearch.v
theories/Model_Heap.v
theories/Proof_Mem.v
theories/Proof_Heap.v
theories/Proof_HeapOps.v
theories/Proof_HeapTotal.v
theories/Spec_Heap.v
theories/Proof_HeapLinear.v
theories/Props_Heap.v
theories/Model_PriorityQueue.v
theories/Model_Stack.v
theories/Spec_Containers.v
theories/Proof_StackPQ.v
theories/Props_StackPQ.v
theories/Model_Transform.v
theories/Proof_Transform.v
theories/Proof_TransformMem.v
theories/Props_Transform.v
theories/Model_Vector.v
theories/Proof_Peek.v
theories/Spec_Vector.v
theories/Proof_Vector.v
theories/Proof_VectorOps.v
theories/Proof_VectorIter.v
theories/Props_Vector.v
theories/Spec_Lookup.v
theories/Model_Lookup.v
theories/Proof_Lookup.v
theories/Props_Lookup.v
theories/Model_Compute.v
theories/Spec_Compute.v
theories/Proof_Float.v
theories/Proof_Compute.v
theories/Proof_ComputeFloat.v
theories/Proof_Range.v
theories/Props_Compute.v
theories/Model_Sort.v
theories/Spec_Sort.v
theories/Proof_Sort.v
theories/Props_Sort.v
theories/Nodes.v
theories/Spec_List.v
theories/Model_SList.v
theories/Proof_Nodes.v
theories/Proof_SList.v
theories/Props_SList.v
theories/Model_DList.v
theories/Model_DListQueue.v
theories/Proof_DList.v
theories/Props_DList.v
theories/Spec_Map.v
theories/Model_SkipList.v
theories/Proof_SkipList.v
theories/Proof_Map.v
theories/Proof_SkipListAny.v
theories/Props_SkipList.v
theories/Props_SkipListNaN.v
theories/Spec_Set.v
theories/Model_SkipListSet.v
theories/Props_SkipListSet.v
theories/Spec_BSet.v
theories/Model_BuiltinSet.v
theories/Proof_BuiltinSet.v
theories/Props_BuiltinSet.v
theories/Model_Pool.v
theories/Spec_Pool.v
theories/Props_Pool.v
theories/Model_Types.v
theories/Proof_Types.v
theories/Props_Types.v
theories/Spec_SkipCost.v
theories/Proof_Draws.v
theories/Proof_SkipCost.v
theories/Props_SkipCost.v
theories/Spec_Client.v
theories/Spec_SkipIter.v
theories/Model_SkipIter.v
theories/Proof_SkipIter.v
theories/Proof_SkipStale.v
theories/Props_SkipIter.v
theories/Spec_SkipReenter.v
theories/Model_SkipReenter.v
theories/Proof_SkipReenter.v
theories/Props_SkipReenter.v
theories/Spec_SetClient.v
theories/Model_SetClient.v
theories/Proof_SetClient.v
theories/Props_SetClient.v
theories/Spec_SetFx.v
theories/Model_SetFx.v
theories/Proof_SetFx.v
theories/Props_SetFx.v
theories/Spec_SkipVary.v
theories/Model_SkipVary.v
theories/Proof_SkipVary.v
theories/Props_SkipVary.v
theories/Spec_ListIter.v
theories/Model_ListIter.v
theories/Proof_Client.v
theories/Proof_ListIter.v
theories/Proof_SListIter.v
theories/Proof_DListIter.v
theories/Proof_ListEach.v
theories/Proof_ListLoop.v
theories/Proof_ListWalk.v
theories/Props_ListIter.v
theories/Spec_VecClient.v
theories/Model_VecClient.v
theories/Proof_VecClient.v
theories/Proof_VecLoop.v
theories/Props_VecClient.v
theories/Spec_Fx.v
theories/Model_HeapFx.v
theories/Proof_HeapFx.v
theories/Props_HeapFx.v
theories/Spec_SkipFx.v
theories/Model_SkipFx.v
theories/Proof_SkipFx.v
theories/Props_SkipFx.v
theories/Spec_TransformFx.v
theories/Model_TransformFx.v
theories/Proof_TransformFx.v
theories/Props_TransformFx.v
theories/Spec_Reach.v
theories/Proof_Reach.v
theories/Props_Reach.v
theories/Spec_Reads.v
theories/Proof_Reads.v
theories/Props_Reads.v
theories/Spec_PQOn.v
theories/Proof_PQOn.v
theories/Props_PQOn.v
theories/Spec_BSetFx.v
theories/Model_BSetFx.v
theories/Proof_BSetFx.v
theories/Props_BSetFx.v
theories/Spec_PQCopy.v
theories/Model_PQCopy.v
theories/Proof_PQCopy.v
theories/Props_PQCopy.v
theories/Spec_LookupFx.v
theories/Model_LookupFx.v
theories/Proof_LookupFx.v
theories/Props_LookupFx.v
theories/Model_SortFx.v
theories/Proof_SortFx.v
theories/Props_SortFx.v
theories/Spec_DListCopy.v
theories/Model_DListCopy.v
theories/Proof_DListCopy.v
theories/Props_DListCopy.v
theories/Spec_SListCopy.v
theories/Model_SListCopy.v
theories/Proof_SListCopy.v
theories/Props_SListCopy.v
theories/Spec_NaN.v
theories/Props_NaN.v
theories/Spec_VecCopy.v
theories/Model_VecCopy.v
theories/Proof_VecCopy.v
theories/Props_VecCopy.v
theories/Proof_StackCopy.v
theories/Props_StackCopy.v
theories/Spec_SkipListCopy.v
theories/Model_SkipListCopy.v
theories/Proof_SkipListCopy.v
theories/Props_SkipListCopy.v
theories/Spec_Idioms.v
theories/Model_Idioms.v
theories/Proof_Idioms.v
theories/Props_Idioms.v
theories/Spec_String.v
theories/Model_String.v
theories/Proof_String.v
theories/Props_String.v
theories/Model_SkipSelf.v
theories/Spec_SkipSelf.v
theories/Proof_SkipSelf.v
theories/Props_SkipSelf.v
theories/Model_PQSelf.v
theories/Spec_PQSelf.v
theories/Proof_PQSelf.v
theories/Props_PQSelf.v
theories/Spec_HeapUpdate.v
theories/Model_HeapUpdate.v
theories/Proof_HeapUpdate.v
theories/Props_HeapUpdate.v
theories/Spec_Alloc.v
theories/Proof_Alloc.v
theories/Props_Alloc.v
theories/Model_TopK.v
theories/Spec_TopK.v
theories/Proof_TopK.v
theories/Props_TopK.v
theories/Model_Window.v
theories/Spec_Window.v
theories/Proof_Window.v
theories/Props_Window.v
theories/Model_TwoStacks.v
theories/Spec_TwoStacks.v
theories/Proof_TwoStacks.v
theories/Props_TwoStacks.v
theories/Spec_VecRange.v
theories/Model_VecRange.v
theories/Proof_VecRange.v
theories/Props_VecRange.v
theories/Spec_VecSelf.v
theories/Model_VecSelf.v
theories/Proof_VecSelf.v
theories/Props_VecSelf.v
theories/Spec_SliceSelf.v
theories/Model_SliceSelf.v
theories/Proof_SliceSelf.v
theories/Props_SliceSelf.v
theories/Spec_Merge.v
theories/Model_Merge.v
theories/Proof_Merge.v
theories/Props_Merge.v
theories/Spec_Local.v
theories/Proof_Local.v
theories/Props_Local.v
theories/Spec_SetVary.v
theories/Model_SetVary.v
theories/Proof_SetVary.v
theories/Props_SetVary.v
theories/Spec_HeapSelf.v
theories/Model_HeapSelf.v
theories/Proof_HeapSelf.v
theories/Props_HeapSelf.v
theories/Spec_SortSelf.v
theories/Model_SortSelf.v
theories/Proof_SortSelf.v
theories/Props_SortSelf.v
theories/Model_SetSelf.v
theories/Proof_SetSelf.v
theories/Props_SetSelf.v
theories/Model_PoolRaw.v
theories/Spec_PoolRaw.v
theories/Props_PoolRaw.v
theories/Model_SelfPanic.v
theories/Spec_SelfPanic.v
theories/Proof_SelfPanic.v
theories/Props_SelfPanic.v
theories/Model_Median.v
theories/Spec_Median.v
theories/Proof_Median.v
theories/Props_Median.v
theories/Model_QueueCopy.v
theories/Spec_QueueCopy.v
theories/Proof_QueueCopy.v
theories/Props_QueueCopy.v
theories/Model_SetCopy.v
theories/Spec_SetCopy.v
theories/Proof_SetCopy.v
theories/Props_SetCopy.v
theories/Model_Brackets.v
theories/Spec_Brackets.v
theories/Proof_Brackets.v
theories/Props_Brackets.v
theories/Model_Bfs.v
theories/Spec_Bfs.v
theories/Proof_Bfs.v
theories/Props_Bfs.v
theories/Model_Lis.v
theories/Spec_Lis.v
theories/Proof_Lis.v
theories/Props_Lis.v
theories/Model_Dijkstra.v
theories/Spec_Dijkstra.v
theories/Proof_Dijkstra.v
theories/Props_Dijkstra.v
theories/Model_Topo.v
theories/Spec_Topo.v
theories/Proof_Topo.v
theories/Props_Topo.v
theories/Model_Calendar.v
theories/Spec_Calendar.v
theories/Proof_Calendar.v
theories/Props_Calendar.v
theories/Model_Dfs.v
theories/Spec_Dfs.v
theories/Proof_Dfs.v
theories/Props_Dfs.v
theories/Model_NextGreater.v
theories/Spec_NextGreater.v
theories/Proof_NextGreater.v
theories/Props_NextGreater.v
