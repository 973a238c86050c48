-Q theories Verif
theories/Base.v
theories/Arr.v
theories/Callback.v
theories/XSort_Model.v
theories/XSort_Spec.v
theories/XSort_Panic.v
theories/XSort_Proofs.v
theories/XSort_Pdq.v
theories/XSort_Stab.v
theories/XSort_Cost.v
theories/XSort_Props.v
theories/Int_Sort_Model.v
theories/Int_Sort_Proofs.v
theories/Int_Sort_Props.v
theories/XSort_CostSpec.v
theories/XSort_StableCost.v
theories/XSort_Adaptive.v
theories/XSort_Props2.v
theories/XSort_PanicRun.v
theories/XSort_Props3.v
theories/XSort_Rel.v
theories/XSort_SortCost.v
theories/XSort_Write.v
theories/XSort_Props4.v
theories/XSort_Timed_Model.v
theories/XSort_Timed_Rel.v
theories/XSort_Timed_Proofs.v
theories/XSort_Timed_Runs.v
theories/XSort_Timed_Props.v
theories/XSort_Distinct.v
theories/XSort_Distinct_Props.v
theories/XSort_Param_Spec.v
theories/XSort_Param_Proofs.v
theories/XSort_Param_Props.v
theories/Exn.v
theories/XRing_Spec.v
theories/XRing_Model.v
theories/XRing_Proofs.v
theories/XRing_Props.v
theories/XFn_Model.v
theories/XFn_Proofs.v
theories/XFn_Bind_Model.v
theories/XFn_Bind_Spec.v
theories/XFn_Bind_Proofs.v
theories/XFn_Bind_Msg.v
theories/XFn_Bind_Props.v
theories/XFn_Props.v
theories/XFn_Compare_Model.v
theories/XFn_Compare_Spec.v
theories/XFn_Compare_Proofs.v
theories/XFn_Compare_Props.v
theories/XFn_Twice_Spec.v
theories/XFn_Twice_Props.v
theories/XHash_Spec.v
theories/XHash_Model.v
theories/XHash_Proofs.v
theories/XHash_Props.v
theories/XHash_Props2.v
theories/GoMap.v
theories/XMap_Model.v
theories/XMap_Spec.v
theories/XMap_Proofs.v
theories/XMap_Props.v
theories/XMap_Overflow_Spec.v
theories/XMap_Overflow_Proofs.v
theories/XMap_Overflow_Props.v
theories/XMap_Calls_Model.v
theories/XMap_Calls_Spec.v
theories/XMap_Calls_Proofs.v
theories/XMap_Calls_Props.v
theories/MapRef_Model.v
theories/MapRef_Spec.v
theories/MapRef_Proofs.v
theories/MapRef_Props.v
theories/ArrayMap_Hash_Model.v
theories/ArrayMap_Hash_Props.v
theories/Sharded_Model.v
theories/Sharded_Spec.v
theories/Sharded_Locks.v
theories/Sharded_Lin.v
theories/Sharded_Seq.v
theories/Sharded_Factory.v
theories/Sharded_Len.v
theories/Sharded_Exec.v
theories/Sharded_Props.v
theories/Sharded_Weak.v
theories/Sharded_Props2.v
theories/Sharded_Keys_Spec.v
theories/Sharded_Keys_Proofs.v
theories/Sharded_Keys_Props.v
theories/Sharded_PerKey_Spec.v
theories/Sharded_PerKey_Proofs.v
theories/Sharded_PerKey_Props.v
theories/Sharded_Reent_Model.v
theories/Sharded_Reent_Spec.v
theories/Sharded_Reent_Locks.v
theories/Sharded_Reent_Proofs.v
theories/Sharded_Reent_Props.v
theories/Sharded_JSON_Model.v
theories/Sharded_JSON_Props.v
theories/Sharded_Outer_Model.v
theories/Sharded_Outer_Spec.v
theories/Sharded_Outer_Proofs.v
theories/Sharded_Outer_Props.v
theories/Sharded_Order_Spec.v
theories/Sharded_Order_Proofs.v
theories/Sharded_Order_Props.v
theories/Sharded_Moments_Spec.v
theories/Sharded_Moments_Proofs.v
theories/Sharded_Moments_Props.v
theories/Iter_Model.v
theories/Iter_Spec.v
theories/Algo_Model.v
theories/Algo_Spec.v
theories/Algo_Proofs.v
theories/Perm_Proofs.v
theories/NextPerm_Proofs.v
theories/Enum_Proofs.v
theories/GoSlice.v
theories/GoSlice_Proofs.v
theories/XSlice_Model.v
theories/XSlice_Proofs.v
theories/Algo_Facts.v
theories/Algo_Safe.v
theories/Algo_Props.v
theories/Algo_Props2.v
theories/Algo_Amortised.v
theories/Algo_Props3.v
theories/Algo_Back_Props.v
theories/XSlice_Spec.v
theories/XSlice_Facts.v
theories/XSlice_Access.v
theories/XSlice_Props.v
theories/XSlice_Props2.v
theories/XSlice_Hist_Spec.v
theories/XSlice_Hist_Proofs.v
theories/XSlice_Hist_Props.v
theories/XSlice_Spare_Spec.v
theories/XSlice_Spare_Proofs.v
theories/XSlice_Spare_Props.v
theories/Stream_Model.v
theories/Stream_Spec.v
theories/Stream_Proofs.v
theories/Stream_Den.v
theories/Stream_Sources.v
theories/Stream_Drain.v
theories/Stream_Facts.v
theories/Stream_Props.v
theories/Stream_Exact_Spec.v
theories/Stream_Exact_Proofs.v
theories/Stream_Exact_Props.v
theories/Stream_Nested_Props.v
theories/Stream_Panic_Spec.v
theories/Stream_Panic_Proofs.v
theories/Stream_Panic_Props.v
theories/Stream_Reent_Model.v
theories/Stream_Reent_Spec.v
theories/Stream_Reent_Proofs.v
theories/Stream_Reent_Props.v
theories/Stream_Grow_Model.v
theories/Stream_Grow_Spec.v
theories/Stream_Grow_Proofs.v
theories/Stream_Grow_Uses.v
theories/Stream_Grow_Props.v
theories/Stream_Both_Model.v
theories/Stream_Both_Spec.v
theories/Stream_Both_Proofs.v
theories/Stream_Both_Same.v
theories/Stream_Both_Adds.v
theories/Stream_Both_Props.v
theories/Stream_Share_Model.v
theories/Stream_Share_Spec.v
theories/Stream_Share_Proofs.v
theories/Stream_Share_Props.v
theories/Sync_Ring_Model.v
theories/Sync_Ring_Spec.v
theories/Sync_Ring_Proofs.v
theories/Sync_Ring_Props.v
theories/Sharded_KeyLock_Spec.v
theories/Sharded_KeyLock_Proofs.v
theories/Sharded_KeyLock_Props.v
theories/Stream_Live_Model.v
theories/Stream_Live_Spec.v
theories/Stream_Live_Proofs.v
theories/Stream_Live_Props.v
theories/Secrand_Model.v
theories/Secrand_Spec.v
theories/Secrand_Proofs.v
theories/Secrand_Props.v
theories/Secrand_Cut_Proofs.v
theories/Secrand_Props2.v
theories/Gen_Spec.v
theories/Gen_Model.v
theories/Gen_Proofs.v
theories/Gen_Rng_Proofs.v
theories/Gen_Props.v
theories/Lin.v
theories/Lin_Proofs.v
theories/Value_Model.v
theories/Value_Spec.v
theories/Value_Proofs.v
theories/Value_Props.v
theories/Value_Loop_Spec.v
theories/Value_Loop_Props.v
theories/Value_Handover_Spec.v
theories/Value_Handover_Props.v
theories/HB.v
theories/HB_Proofs.v
theories/HB_Locks.v
theories/Value_HB_Model.v
theories/Value_HB_Spec.v
theories/Value_HB_Proofs.v
theories/Value_HB_Props.v
theories/Sync_Model.v
theories/Sync_Spec.v
theories/Sync_Proofs.v
theories/Sync_Props.v
theories/Lin_Live.v
theories/Sync_Live_Props.v
theories/Pool_Model.v
theories/Pool_Spec.v
theories/Pool_Proofs.v
theories/Pool_Props.v
theories/Pool_Gen_Model.v
theories/Pool_Gen_Spec.v
theories/Pool_Gen_Proofs.v
theories/Pool_Gen_Live.v
theories/Pool_Gen_Props.v
theories/Ptr_Model.v
theories/Ptr_Spec.v
theories/Ptr_Proofs.v
theories/Ptr_Props.v
theories/Ptr_HB_Model.v
theories/Ptr_HB_Props.v
theories/Sharded_HB_Model.v
theories/Sharded_HB_Spec.v
theories/Sharded_HB_Proofs.v
theories/Sharded_HB_Props.v
theories/Sync_HB_Model.v
theories/Sync_HB_Props.v
theories/Sync_Multi_Model.v
theories/Sync_Multi_Spec.v
theories/Sync_Multi_Proofs.v
theories/Sync_Multi_Live.v
theories/Sync_Multi_Props.v
theories/Rand_Model.v
theories/Rand_Spec.v
theories/Rand_Proofs.v
theories/Rand_Perm.v
theories/Rand_Read.v
theories/Rand_Round.v
theories/Rand_Props.v
theories/XFn_Arith_Model.v
theories/XFn_Arith_Spec.v
theories/XFn_Arith_Proofs.v
theories/XFn_Arith_Props.v
theories/Hasher_Model.v
theories/Hasher_Spec.v
theories/Hasher_Proofs.v
theories/Hasher_Inj_Proofs.v
theories/Hasher_Props.v
theories/XRing_Heap_Spec.v
theories/XRing_Heap_Model.v
theories/XRing_Heap_Facts.v
theories/XRing_Heap_Proofs.v
theories/XRing_Heap_Props.v
theories/XRing_Dest_Spec.v
theories/XRing_Dest_Proofs.v
theories/XRing_Dest_Props.v
theories/XRing_Copy_Spec.v
theories/XRing_Copy_Proofs.v
theories/XRing_Copy_Props.v
theories/Int_Spec.v
theories/Int_Iter_Model.v
theories/Int_Iter_Proofs.v
theories/Int_Ring_Model.v
theories/Int_Ring_Proofs.v
theories/Int_Props.v
theories/XSlice_Sorted_Spec.v
theories/XSlice_Sorted_Proofs.v
theories/XSlice_Sorted_Props.v
theories/Repo_Tests.v
