{
 "claims": [
  {
   "property": "C01",
   "status": "proved",
   "theorems": [
    "C01_created",
    "C01_sorted_map",
    "C01_finite_map"
   ],
   "note": ""
  },
  {
   "property": "C02",
   "status": "proved",
   "theorems": [
    "C02_sorted_map",
    "C02_finite_map",
    "C02_equal",
    "C02_sign_only",
    "C02_stored_key_kept"
   ],
   "note": ""
  },
  {
   "property": "C03",
   "status": "proved",
   "theorems": [
    "C03_iteration"
   ],
   "note": ""
  },
  {
   "property": "C04",
   "status": "proved",
   "theorems": [
    "C04_levels_unobservable"
   ],
   "note": ""
  },
  {
   "property": "C05",
   "status": "proved",
   "theorems": [
    "C05_lower_bound",
    "C05_upper_bound"
   ],
   "note": ""
  },
  {
   "property": "C06",
   "status": "proved",
   "theorems": [
    "C06_last_is_included",
    "C06_documented_refuted"
   ],
   "note": ""
  },
  {
   "property": "C07",
   "status": "proved",
   "theorems": [
    "C07_find_range",
    "C07_reversed_range"
   ],
   "note": ""
  },
  {
   "property": "C08",
   "status": "proved",
   "theorems": [
    "C08_clear"
   ],
   "note": ""
  },
  {
   "property": "C09",
   "status": "proved",
   "theorems": [
    "C09_find_pointer"
   ],
   "note": ""
  },
  {
   "property": "C10",
   "status": "proved",
   "theorems": [
    "C10_interleaved",
    "C10_stable"
   ],
   "note": ""
  },
  {
   "property": "C11",
   "status": "proved",
   "theorems": [
    "C11_erase_if"
   ],
   "note": ""
  },
  {
   "property": "C12",
   "status": "proved",
   "theorems": [
    "C12_shares",
    "C12_level_range",
    "C12_newnode_never_panics",
    "C12_distribution",
    "C12_list_level"
   ],
   "note": ""
  },
  {
   "property": "C13",
   "status": "proved",
   "theorems": [
    "C13_for_each_if",
    "C13_for_each_mutable",
    "C13_for_each_mutable_if"
   ],
   "note": ""
  },
  {
   "property": "C14",
   "status": "proved",
   "theorems": [
    "C14_from_map",
    "C14_order_irrelevant"
   ],
   "note": ""
  },
  {
   "property": "C15",
   "status": "proved",
   "theorems": [
    "C15_created",
    "C15_sorted_set",
    "C15_finite_set",
    "C15_counts",
    "C15_of"
   ],
   "note": ""
  },
  {
   "property": "C16",
   "status": "proved",
   "theorems": [
    "C16_lower_bound",
    "C16_upper_bound",
    "C16_find_range"
   ],
   "note": ""
  },
  {
   "property": "C17",
   "status": "proved",
   "theorems": [
    "C17_without_nan",
    "C17_structure",
    "C17_unequal_key",
    "C17_sound",
    "C17_expected_refuted"
   ],
   "note": ""
  },
  {
   "property": "C18",
   "status": "proved",
   "theorems": [
    "C18_SList_is_sequence",
    "C18_SListOf",
    "C18_panics",
    "C18_panic_unchanged"
   ],
   "note": ""
  },
  {
   "property": "C19",
   "status": "proved",
   "theorems": [
    "C19_Reverse",
    "C19_Reverse_ends",
    "C19_Reverse_twice"
   ],
   "note": ""
  },
  {
   "property": "C20",
   "status": "proved",
   "theorems": [
    "C20_DList_is_deque",
    "C20_DListOf",
    "C20_panics",
    "C20_empty"
   ],
   "note": ""
  },
  {
   "property": "C21",
   "status": "proved",
   "theorems": [
    "C21_both_directions",
    "C21_ForEach_collects"
   ],
   "note": ""
  },
  {
   "property": "C22",
   "status": "proved",
   "theorems": [
    "C22_DList_ForEachMutable",
    "C22_DList_ForEachMutableIf",
    "C22_DList_iterator_pointer",
    "C22_SList_ForEachMutable",
    "C22_SList_ForEachMutableIf",
    "C22_SList_ForEach",
    "C22_SList_iterator_pointer"
   ],
   "note": ""
  },
  {
   "property": "C23",
   "status": "proved",
   "theorems": [
    "C23_queue_is_deque",
    "C23_FIFO",
    "C23_drain"
   ],
   "note": ""
  },
  {
   "property": "C24",
   "status": "proved",
   "theorems": [
    "C24_iterator_survives",
    "C24_popped_front",
    "C24_popped_back",
    "C24_new_list",
    "C24_cleared"
   ],
   "note": ""
  },
  {
   "property": "C25",
   "status": "proved",
   "theorems": [
    "C25_NewStack",
    "C25_NewStackCap",
    "C25_NewStackCap_negative",
    "C25_Stack_any_state",
    "C25_Push_frame"
   ],
   "note": ""
  },
  {
   "property": "C26",
   "status": "proved",
   "theorems": [
    "C26_Vector_any_state",
    "C26_MakeVector",
    "C26_MakeVectorCap",
    "C26_VectorOf_AsVector",
    "C26_capacity_irrelevant"
   ],
   "note": ""
  },
  {
   "property": "C27",
   "status": "proved",
   "theorems": [
    "C27_Insert",
    "C27_Insert_out_of_range"
   ],
   "note": ""
  },
  {
   "property": "C28",
   "status": "proved",
   "theorems": [
    "C28_Insert_self_right",
    "C28_Insert_self_actual",
    "C28_expected_refuted"
   ],
   "note": ""
  },
  {
   "property": "C29",
   "status": "proved",
   "theorems": [
    "C29_PopBack",
    "C29_RemoveRange",
    "C29_Remove_RemoveLength",
    "C29_RemoveIf",
    "C29_Clear",
    "C29_nothing_left"
   ],
   "note": ""
  },
  {
   "property": "C30",
   "status": "proved",
   "theorems": [
    "C30_RemoveRange_invalid",
    "C30_RemoveRange_panics_iff",
    "C30_unchanged_refuted"
   ],
   "note": ""
  },
  {
   "property": "C31",
   "status": "proved",
   "theorems": [
    "C31_Reserve",
    "C31_Shrink",
    "C31_Clear_keeps_cap",
    "C31_PushBack",
    "C31_Append",
    "C31_Reserve_then_push"
   ],
   "note": ""
  },
  {
   "property": "C32",
   "status": "proved",
   "theorems": [
    "C32_ForEach",
    "C32_ForEachIf",
    "C32_ForEachMutable",
    "C32_ForEachMutableIf",
    "C32_Iterate",
    "C32_IterateRange",
    "C32_IterateRange_panics",
    "C32_iterator_write"
   ],
   "note": ""
  },
  {
   "property": "C33",
   "status": "proved",
   "theorems": [
    "C33_MakeMinHeap",
    "C33_MakeHeapFunc"
   ],
   "note": ""
  },
  {
   "property": "C34",
   "status": "proved",
   "theorems": [
    "C34_PushMinHeap",
    "C34_PushHeapFunc"
   ],
   "note": ""
  },
  {
   "property": "C35",
   "status": "proved",
   "theorems": [
    "C35_PopMinHeap",
    "C35_PopHeapFunc",
    "C35_PopMinHeap_empty",
    "C35_PopHeapFunc_empty"
   ],
   "note": ""
  },
  {
   "property": "C36",
   "status": "proved",
   "theorems": [
    "C36_RemoveMinHeap",
    "C36_RemoveHeapFunc",
    "C36_RemoveMinHeap_range",
    "C36_RemoveHeapFunc_range"
   ],
   "note": ""
  },
  {
   "property": "C37",
   "status": "proved",
   "theorems": [
    "C37_IsMinHeap"
   ],
   "note": ""
  },
  {
   "property": "C38",
   "status": "proved",
   "theorems": [
    "C38_IsHeapFunc_refuted",
    "C38_IsHeapFunc_actual",
    "C38_IsHeapFunc_sound"
   ],
   "note": ""
  },
  {
   "property": "C39",
   "status": "proved",
   "theorems": [
    "C39_heap_sort",
    "C39_heap_sort_func"
   ],
   "note": ""
  },
  {
   "property": "C40",
   "status": "proved",
   "theorems": [
    "C40_NewPriorityQueue",
    "C40_NewPriorityQueueOn",
    "C40_top_is_next_pop"
   ],
   "note": ""
  },
  {
   "property": "C41",
   "status": "proved",
   "theorems": [
    "C41_LowerBound_partition",
    "C41_LowerBoundFunc_partition",
    "C41_LowerBound_sorted",
    "C41_LowerBoundFunc_sorted",
    "C41_LowerBound_total",
    "C41_LowerBoundFunc_total"
   ],
   "note": ""
  },
  {
   "property": "C42",
   "status": "proved",
   "theorems": [
    "C42_UpperBound_partition",
    "C42_UpperBoundFunc_partition",
    "C42_UpperBound_sorted",
    "C42_UpperBoundFunc_sorted",
    "C42_UpperBound_total",
    "C42_UpperBoundFunc_total"
   ],
   "note": ""
  },
  {
   "property": "C43",
   "status": "proved",
   "theorems": [
    "C43_BinarySearch",
    "C43_BinarySearchFunc"
   ],
   "note": ""
  },
  {
   "property": "C44",
   "status": "proved",
   "theorems": [
    "C44_equal_range"
   ],
   "note": ""
  },
  {
   "property": "C45",
   "status": "proved",
   "theorems": [
    "C45_Sort",
    "C45_DescSort",
    "C45_SortFunc",
    "C45_permutation",
    "C45_contract_satisfiable"
   ],
   "note": ""
  },
  {
   "property": "C46",
   "status": "proved",
   "theorems": [
    "C46_StableSort",
    "C46_DescStableSort",
    "C46_StableSortFunc"
   ],
   "note": ""
  },
  {
   "property": "C47",
   "status": "proved",
   "theorems": [
    "C47_IsSorted",
    "C47_IsDescSorted"
   ],
   "note": ""
  },
  {
   "property": "C48",
   "status": "proved",
   "theorems": [
    "C48_Compare_lex",
    "C48_Compare_antisymmetric",
    "C48_Compare_transitive",
    "C48_Compare_zero_iff_Equal",
    "C48_Compare_zero_NaN_not_Equal"
   ],
   "note": ""
  },
  {
   "property": "C49",
   "status": "proved",
   "theorems": [
    "C49_Equal"
   ],
   "note": ""
  },
  {
   "property": "C50",
   "status": "proved",
   "theorems": [
    "C50_MaxN",
    "C50_MinN",
    "C50_MinMaxN",
    "C50_N_with_NaN",
    "C50_N_panic_iff_empty",
    "C50_Max_Min_MinMax",
    "C50_MinMax_permutation"
   ],
   "note": ""
  },
  {
   "property": "C51",
   "status": "proved",
   "theorems": [
    "C51_Find",
    "C51_Index",
    "C51_FindIf"
   ],
   "note": ""
  },
  {
   "property": "C52",
   "status": "proved",
   "theorems": [
    "C52_quantifiers",
    "C52_AllOf_calls",
    "C52_AnyOf_NoneOf_calls",
    "C52_Count",
    "C52_CountIf"
   ],
   "note": ""
  },
  {
   "property": "C53",
   "status": "proved",
   "theorems": [
    "C53_SumAs",
    "C53_SumAs_exact_when_fits",
    "C53_Sum_exact_when_fits",
    "C53_SumAs_float"
   ],
   "note": ""
  },
  {
   "property": "C54",
   "status": "proved",
   "theorems": [
    "C54_Sum_defined_refuted",
    "C54_SumAs_defined_within_2_53",
    "C54_Sum_floats_within_2_53"
   ],
   "note": ""
  },
  {
   "property": "C55",
   "status": "proved",
   "theorems": [
    "C55_Average",
    "C55_Average_small",
    "C55_Average_panics_iff_empty"
   ],
   "note": ""
  },
  {
   "property": "C56",
   "status": "proved",
   "theorems": [
    "C56_AverageAs_refuted",
    "C56_AverageAs_when_length_fits"
   ],
   "note": ""
  },
  {
   "property": "C57",
   "status": "proved",
   "theorems": [
    "C57_Copy",
    "C57_Copy_isolated",
    "C57_CopyTo"
   ],
   "note": ""
  },
  {
   "property": "C58",
   "status": "proved",
   "theorems": [
    "C58_Fill",
    "C58_Fill_huge_panics",
    "C58_FillZero",
    "C58_FillPattern",
    "C58_FillPattern_empty"
   ],
   "note": ""
  },
  {
   "property": "C59",
   "status": "proved",
   "theorems": [
    "C59_Transform",
    "C59_TransformTo",
    "C59_TransformTo_overlap_refuted",
    "C59_TransformCopy",
    "C59_Generate"
   ],
   "note": ""
  },
  {
   "property": "C60",
   "status": "proved",
   "theorems": [
    "C60_Replace",
    "C60_ReplaceIf"
   ],
   "note": ""
  },
  {
   "property": "C61",
   "status": "proved",
   "theorems": [
    "C61_Unique",
    "C61_UniqueCopy",
    "C61_no_adjacent_equal"
   ],
   "note": ""
  },
  {
   "property": "C62",
   "status": "proved",
   "theorems": [
    "C62_Remove",
    "C62_RemoveCopy",
    "C62_RemoveIf",
    "C62_RemoveIfCopy"
   ],
   "note": ""
  },
  {
   "property": "C63",
   "status": "proved",
   "theorems": [
    "C63_Reverse",
    "C63_ReverseCopy",
    "C63_Shuffle"
   ],
   "note": ""
  },
  {
   "property": "C64",
   "status": "proved",
   "theorems": [
    "C64_Range_refuted",
    "C64_Range",
    "C64_Range_small_unsigned"
   ],
   "note": ""
  },
  {
   "property": "C65",
   "status": "proved",
   "theorems": [
    "C65_Range_float_refuted",
    "C65_Range_float_loops_forever",
    "C65_Range_float_terminates",
    "C65_Range_float_integers"
   ],
   "note": ""
  },
  {
   "property": "C66",
   "status": "proved",
   "theorems": [
    "C66_finite_set",
    "C66_order_irrelevant",
    "C66_len_keys"
   ],
   "note": ""
  },
  {
   "property": "C67",
   "status": "proved",
   "theorems": [
    "C67_union",
    "C67_intersection",
    "C67_difference",
    "C67_disjoint",
    "C67_subset",
    "C67_superset"
   ],
   "note": ""
  },
  {
   "property": "C68",
   "status": "proved",
   "theorems": [
    "C68_clear",
    "C68_len",
    "C68_nan",
    "C68_documented_refuted"
   ],
   "note": ""
  },
  {
   "property": "C69",
   "status": "proved",
   "theorems": [
    "C69_conservation",
    "C69_one_holder",
    "C69_get_free",
    "C69_nil",
    "C69_no_panic",
    "C69_make_pool",
    "C69_no_new",
    "C69_put_nil",
    "C69_put"
   ],
   "note": ""
  },
  {
   "property": "C70",
   "status": "proved",
   "theorems": [
    "C70_binary_search_steps"
   ],
   "note": ""
  },
  {
   "property": "C71",
   "status": "proved",
   "theorems": [
    "C71_heapUp_steps",
    "C71_heapDown_steps"
   ],
   "note": ""
  },
  {
   "property": "C72",
   "status": "proved",
   "theorems": [
    "C72_make_any_less",
    "C72_push_any_less",
    "C72_pop_any_less",
    "C72_remove_any_less"
   ],
   "note": ""
  },
  {
   "property": "C73",
   "status": "proved",
   "theorems": [
    "C73_OrderedCompare"
   ],
   "note": ""
  },
  {
   "property": "C74",
   "status": "proved",
   "theorems": [
    "C74_int",
    "C74_int_range",
    "C74_string",
    "C74_float",
    "C74_float_without_nan",
    "C74_float_integers"
   ],
   "note": ""
  },
  {
   "property": "C75",
   "status": "proved",
   "theorems": [
    "C75_make_linear"
   ],
   "note": ""
  },
  {
   "property": "C76",
   "status": "proved",
   "theorems": [
    "C76_counting",
    "C76_worst_case",
    "C76_average"
   ],
   "note": ""
  },
  {
   "property": "C77",
   "status": "proved",
   "theorems": [
    "C77_average_space"
   ],
   "note": ""
  },
  {
   "property": "C78",
   "status": "proved",
   "theorems": [
    "C78_kept_iterators",
    "C78_detached"
   ],
   "note": ""
  },
  {
   "property": "C79",
   "status": "proved",
   "theorems": [
    "C79_refuted",
    "C79_stale_iterators"
   ],
   "note": ""
  },
  {
   "property": "C80",
   "status": "proved",
   "theorems": [
    "C80_refuted",
    "C80_refuted_panic",
    "C80_range_kept"
   ],
   "note": ""
  },
  {
   "property": "C81",
   "status": "proved",
   "theorems": [
    "C81_callbacks"
   ],
   "note": ""
  },
  {
   "property": "C82",
   "status": "proved",
   "theorems": [
    "C82_visits"
   ],
   "note": ""
  },
  {
   "property": "C83",
   "status": "proved",
   "theorems": [
    "C83_refuted",
    "C83_ends",
    "C83_remove_while_iterating"
   ],
   "note": ""
  },
  {
   "property": "C84",
   "status": "proved",
   "theorems": [
    "C84_kept_iterators",
    "C84_others_untouched"
   ],
   "note": ""
  },
  {
   "property": "C85",
   "status": "proved",
   "theorems": [
    "C85_kept_iterators",
    "C85_others_untouched"
   ],
   "note": ""
  },
  {
   "property": "C86",
   "status": "proved",
   "theorems": [
    "C86_walk_ends",
    "C86_guarded"
   ],
   "note": ""
  },
  {
   "property": "C87",
   "status": "proved",
   "theorems": [
    "C87_refuted",
    "C87_refuted_popped",
    "C87_walk_ends",
    "C87_unpopped",
    "C87_at_end"
   ],
   "note": ""
  },
  {
   "property": "C88",
   "status": "proved",
   "theorems": [
    "C88_slist",
    "C88_dlist"
   ],
   "note": ""
  },
  {
   "property": "C89",
   "status": "proved",
   "theorems": [
    "C89_slist",
    "C89_slist_values",
    "C89_dlist",
    "C89_dlist_values"
   ],
   "note": ""
  },
  {
   "property": "C90",
   "status": "proved",
   "theorems": [
    "C90_slist_append",
    "C90_dlist_append",
    "C90_refuted",
    "C90_slist_reverse",
    "C90_dlist_pop"
   ],
   "note": ""
  },
  {
   "property": "C91",
   "status": "proved",
   "theorems": [
    "C91_kept_iterators",
    "C91_others_untouched"
   ],
   "note": ""
  },
  {
   "property": "C92",
   "status": "proved",
   "theorems": [
    "C92_never_invalid",
    "C92_same_storage",
    "C92_vacated",
    "C92_detached",
    "C92_when_moves",
    "C92_refuted"
   ],
   "note": ""
  },
  {
   "property": "C93",
   "status": "proved",
   "theorems": [
    "C93_rounds",
    "C93_snapshot",
    "C93_count",
    "C93_refuted"
   ],
   "note": ""
  },
  {
   "property": "C94",
   "status": "proved",
   "theorems": [
    "C94_make",
    "C94_push",
    "C94_pop",
    "C94_remove",
    "C94_is_heap",
    "C94_returns",
    "C94_queue",
    "C94_refuted",
    "C94_repair"
   ],
   "note": ""
  },
  {
   "property": "C95",
   "status": "proved",
   "theorems": [
    "C95_sorted_map",
    "C95_panic_changes_nothing",
    "C95_pure"
   ],
   "note": ""
  },
  {
   "property": "C96",
   "status": "proved",
   "theorems": [
    "C96_Transform",
    "C96_Generate",
    "C96_ReplaceIf",
    "C96_TransformCopy",
    "C96_RemoveIfCopy",
    "C96_TransformTo",
    "C96_RemoveIf",
    "C96_vector",
    "C96_refuted",
    "C96_what_is_left"
   ],
   "note": ""
  },
  {
   "property": "C97",
   "status": "proved",
   "theorems": [
    "C97_SList",
    "C97_DList",
    "C97_DListQueue",
    "C97_SkipList_head",
    "C97_SkipList_leak",
    "C97_Vector",
    "C97_Stack_keeps",
    "C97_heap_keeps",
    "C97_PriorityQueue_Clear_keeps",
    "C97_refuted"
   ],
   "note": ""
  },
  {
   "property": "C98",
   "status": "proved",
   "theorems": [
    "C98_SList",
    "C98_DList",
    "C98_DListQueue",
    "C98_SkipList",
    "C98_SkipListSet",
    "C98_BuiltinSet",
    "C98_Vector",
    "C98_Stack",
    "C98_PriorityQueue",
    "C98_refuted",
    "C98_Remove_missing"
   ],
   "note": ""
  },
  {
   "property": "C99",
   "status": "proved",
   "theorems": [
    "C99_storage",
    "C99_left",
    "C99_pops",
    "C99_refuted"
   ],
   "note": ""
  },
  {
   "property": "C100",
   "status": "proved",
   "theorems": [
    "C100_callbacks",
    "C100_ForEach",
    "C100_visits",
    "C100_remove_while_iterating",
    "C100_refuted"
   ],
   "note": ""
  },
  {
   "property": "C101",
   "status": "proved",
   "theorems": [
    "C101_copies",
    "C101_one_queue",
    "C101_length",
    "C101_refuted"
   ],
   "note": ""
  },
  {
   "property": "C102",
   "status": "proved",
   "theorems": [
    "C102_FindIf",
    "C102_AnyOf",
    "C102_NoneOf",
    "C102_AllOf",
    "C102_CountIf",
    "C102_LowerBoundFunc",
    "C102_UpperBoundFunc",
    "C102_BinarySearchFunc"
   ],
   "note": ""
  },
  {
   "property": "C103",
   "status": "proved",
   "theorems": [
    "C103_permutation",
    "C103_SortFunc",
    "C103_StableSortFunc"
   ],
   "note": ""
  },
  {
   "property": "C104",
   "status": "proved",
   "theorems": [
    "C104_shared",
    "C104_one_user",
    "C104_handed_over",
    "C104_refuted"
   ],
   "note": ""
  },
  {
   "property": "C105",
   "status": "proved",
   "theorems": [
    "C105_independent",
    "C105_persistent",
    "C105_appended",
    "C105_refuted"
   ],
   "note": ""
  },
  {
   "property": "C106",
   "status": "proved",
   "theorems": [
    "C106_never_found",
    "C106_never_removed",
    "C106_Unique",
    "C106_Equal",
    "C106_less",
    "C106_SortFunc",
    "C106_search",
    "C106_IsSorted",
    "C106_clean",
    "C106_refuted"
   ],
   "note": ""
  },
  {
   "property": "C107",
   "status": "proved",
   "theorems": [
    "C107_call",
    "C107_independent",
    "C107_append_only",
    "C107_removed",
    "C107_pushed_twice",
    "C107_refuted"
   ],
   "note": ""
  },
  {
   "property": "C108",
   "status": "proved",
   "theorems": [
    "C108_independent",
    "C108_lengths",
    "C108_call",
    "C108_refuted"
   ],
   "note": ""
  },
  {
   "property": "C109",
   "status": "proved",
   "theorems": [
    "C109_shared",
    "C109_readers",
    "C109_stale_len",
    "C109_zero",
    "C109_refuted"
   ],
   "note": ""
  },
  {
   "property": "C110",
   "status": "proved",
   "theorems": [
    "C110_refuted",
    "C110_kept_iterators",
    "C110_stale_iterators",
    "C110_range_kept",
    "C110_callbacks",
    "C110_visits",
    "C110_ends",
    "C110_remove_while_iterating"
   ],
   "note": ""
  },
  {
   "property": "C111",
   "status": "proved",
   "theorems": [
    "C111_refuted",
    "C111_sorted_set",
    "C111_repeat",
    "C111_pure"
   ],
   "note": ""
  },
  {
   "property": "C112",
   "status": "proved",
   "theorems": [
    "C112_refuted_ends",
    "C112_refuted_no_panic",
    "C112_refuted_agrees",
    "C112_changing_order",
    "C112_sorted_again",
    "C112_order_restored"
   ],
   "note": ""
  },
  {
   "property": "C113",
   "status": "proved",
   "theorems": [
    "C113_sorts_agree",
    "C113_stable_sorts_equal",
    "C113_sets_agree",
    "C113_lookups_agree",
    "C113_extremes_agree",
    "C113_same_elements"
   ],
   "note": ""
  },
  {
   "property": "C114",
   "status": "proved",
   "theorems": [
    "C114_lists",
    "C114_refuted_list_text",
    "C114_set",
    "C114_refuted_same_text",
    "C114_same_words",
    "C114_refuted_telling",
    "C114_refuted_telling_spaces",
    "C114_telling",
    "C114_integers"
   ],
   "note": "Refuted as documented for DList/DListQueue and as expected for BuiltinSet; what holds is proved. The name reflect gives to *T and the text fmt gives to an element are oracles; fmt's layout of a slice is modelled."
  },
  {
   "property": "C115",
   "status": "proved",
   "theorems": [
    "C115_looking",
    "C115_nested_looks",
    "C115_nested",
    "C115_searches",
    "C115_absent_keeps",
    "C115_refuted",
    "C115_refuted_insert"
   ],
   "note": "Refuted as expected for calls that write; what holds is proved. Panicking comparison functions are C95, changing answers C112."
  },
  {
   "property": "C116",
   "status": "proved",
   "theorems": [
    "C116_looking",
    "C116_nested_looks",
    "C116_inside",
    "C116_any",
    "C116_pop_len",
    "C116_nested",
    "C116_panics",
    "C116_pushes",
    "C116_refuted",
    "C116_refuted_once",
    "C116_refuted_kept"
   ],
   "note": "Refuted as expected for less functions that push or pop; what holds is proved. Effects that do not reach the queue are C94."
  },
  {
   "property": "C117",
   "status": "proved",
   "theorems": [
    "C117_remove",
    "C117_remove_min",
    "C117_pop",
    "C117_update",
    "C117_updates",
    "C117_top",
    "C117_refuted",
    "C117_refuted_two"
   ],
   "note": "Refuted as expected; what holds is proved. MakeHeapFunc makes a heap of any slice (C33)."
  },
  {
   "property": "C118",
   "status": "proved",
   "theorems": [
    "C118_vector",
    "C118_linear",
    "C118_total",
    "C118_insert",
    "C118_reserve",
    "C118_refuted_insert",
    "C118_refuted_reserve",
    "C118_stack",
    "C118_queue"
   ],
   "note": "Refuted as expected; what holds is proved, under the stated contract on append."
  },
  {
   "property": "C119",
   "status": "proved",
   "theorems": [
    "C119_top_k",
    "C119_end_of_sorted",
    "C119_storage",
    "C119_refuted"
   ],
   "note": "Proved on top of C40 and C118; the order of arrival among equivalent elements is refuted."
  },
  {
   "property": "C120",
   "status": "proved",
   "theorems": [
    "C120_window",
    "C120_unique",
    "C120_not_positive"
   ],
   "note": "Proved on top of C23."
  },
  {
   "property": "C121",
   "status": "proved",
   "theorems": [
    "C121_fifo",
    "C121_any_stacks",
    "C121_refuted_shared"
   ],
   "note": "Proved on top of C25; refuted for stacks that share storage."
  },
  {
   "property": "C122",
   "status": "proved",
   "theorems": [
    "C122_kept_ranges",
    "C122_others_untouched",
    "C122_taking",
    "C122_never_invalid",
    "C122_same_storage",
    "C122_elsewhere",
    "C122_refuted"
   ],
   "note": "Proved by simulation, as C91; the documented range refuted."
  },
  {
   "property": "C123",
   "status": "proved",
   "theorems": [
    "C123_back_in_place",
    "C123_adding",
    "C123_filters",
    "C123_refuted"
   ],
   "note": "Proved on top of the simulation of C91; the expected behaviour refuted."
  },
  {
   "property": "C124",
   "status": "proved",
   "theorems": [
    "C124_Transform",
    "C124_Generate",
    "C124_ReplaceIf",
    "C124_RemoveIf",
    "C124_RemoveIfCopy",
    "C124_TransformCopy",
    "C124_TransformTo",
    "C124_harmless",
    "C124_refuted_Transform",
    "C124_refuted_RemoveIf"
   ],
   "note": "One general loop refined by all seven functions; the expected behaviour refuted."
  },
  {
   "property": "C125",
   "status": "proved",
   "theorems": [
    "C125_merge",
    "C125_sorted",
    "C125_stable",
    "C125_storage",
    "C125_refuted"
   ],
   "note": "Proved from the calls of C40 by induction on the elements left; stability without a tie-break refuted."
  },
  {
   "property": "C126",
   "status": "proved",
   "theorems": [
    "C126_SList",
    "C126_SList_all",
    "C126_DList",
    "C126_DList_all",
    "C126_DListQueue"
   ],
   "note": "Proved by a relational rule per step for every state; the lower bound for reading all values by changing one unused node."
  },
  {
   "property": "C127",
   "status": "proved",
   "theorems": [
    "C127_changing_order",
    "C127_sorted_again",
    "C127_order_restored",
    "C127_refuted_removes"
   ],
   "note": "Proved from the SkipList calls of C112; removal under another order refuted."
  },
  {
   "property": "C128",
   "status": "proved",
   "theorems": [
    "C128_MakeHeapFunc",
    "C128_IsHeapFunc",
    "C128_PushHeapFunc",
    "C128_PopHeapFunc",
    "C128_RemoveHeapFunc",
    "C128_shuffled",
    "C128_shuffled_push",
    "C128_minded",
    "C128_minded_push",
    "C128_refuted"
   ],
   "note": "For every claim that less and exchanges keep, with the number of calls; instances for a less that reorders the slice and for one that leaves it alone; the expected heap refuted."
  },
  {
   "property": "C129",
   "status": "proved",
   "theorems": [
    "C129_any",
    "C129_shuffled",
    "C129_minded",
    "C129_refuted"
   ],
   "note": "For every claim that less and exchanges keep; instances for a less that reorders the slice and for one that leaves it alone (sorted, stably); the expected order refuted."
  },
  {
   "property": "C130",
   "status": "proved",
   "theorems": [
    "C130_looking",
    "C130_nested_looks",
    "C130_nested",
    "C130_searches",
    "C130_absent_keeps",
    "C130_refuted",
    "C130_refuted_new"
   ],
   "note": "Looking comparison functions are as good as pure ones for every call sequence; those that write only prevsCache are for searches; the expected claims for Remove and for the result of Insert are refuted."
  },
  {
   "property": "C131",
   "status": "proved",
   "theorems": [
    "C131_account",
    "C131_panics",
    "C131_no_panic",
    "C131_nil",
    "C131_make_pool",
    "C131_one_holder",
    "C131_get_free",
    "C131_refuted"
   ],
   "note": "Exact accounts of objects and of foreign values over all runs; one holder; sources of nil and of panics; the unconditional claim for MakePool refuted."
  },
  {
   "property": "C132",
   "status": "proved",
   "theorems": [
    "C132_sorted_map",
    "C132_panic_changes_nothing",
    "C132_sorted_set",
    "C132_nested",
    "C132_nested_set"
   ],
   "note": "Simulation up to panics for every comparison function that looks or panics, list and set; nested looking and panicking functions are an instance."
  },
  {
   "property": "C133",
   "status": "proved",
   "theorems": [
    "C133_medians",
    "C133_middle"
   ],
   "note": "The two halves as an invariant; medians by counting, and equivalent to the middle of the sorted stream."
  },
  {
   "property": "C134",
   "status": "proved",
   "theorems": [
    "C134_shared",
    "C134_one_user",
    "C134_refuted"
   ],
   "note": "Four expectations refuted; the exact behaviour of copies, and of a copy that alone uses its elements."
  },
  {
   "property": "C135",
   "status": "proved",
   "theorems": [
    "C135_shared",
    "C135_readers",
    "C135_zero",
    "C135_refuted"
   ],
   "note": "Five expectations refuted; the exact behaviour of copies when new keys go through the original, and of zero values."
  },
  {
   "property": "C136",
   "status": "proved",
   "theorems": [
    "C136_check"
   ],
   "note": "The result of the program on every word, against the grammar of balanced words."
  },
  {
   "property": "C137",
   "status": "proved",
   "theorems": [
    "C137_distances"
   ],
   "note": "The distances for every graph in which finitely many vertices can be reached, against walks and their lengths."
  },
  {
   "property": "C138",
   "status": "proved",
   "theorems": [
    "C138_increasing",
    "C138_sorted"
   ],
   "note": "Both programs on every slice, for strict weak orders."
  },
  {
   "property": "C139",
   "status": "proved",
   "theorems": [
    "C139_distances",
    "C139_refuted"
   ],
   "note": "The distances for every graph without negative lengths in which finitely many vertices can be reached; refuted for negative lengths."
  },
  {
   "property": "C140",
   "status": "proved",
   "theorems": [
    "C140_order"
   ],
   "note": "The result for every finite graph, with or without cycles."
  },
  {
   "property": "C141",
   "status": "proved",
   "theorems": [
    "C141_calendar",
    "C141_apart"
   ],
   "note": "Every sequence of bookings, cancellations and queries, against a search through all bookings."
  },
  {
   "property": "C142",
   "status": "proved",
   "theorems": [
    "C142_depth_first",
    "C142_unique"
   ],
   "note": "The result for every graph of which finitely many vertices can be reached; C142_unique says that the specified order is only one."
  },
  {
   "property": "C143",
   "status": "proved",
   "theorems": [
    "C143_next_greater"
   ],
   "note": "The result for every list and every less whose negation is transitive, with a bound on the rounds of the inner loop for all elements together."
  }
 ]
}