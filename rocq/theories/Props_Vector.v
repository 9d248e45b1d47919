(** Properties C26-C32 (vector.go).  A vector is a slice header in a memory of
    backing arrays; [vec_spec], [remove_spec], [shrunk] are in Spec_Vector.v. *)
From Verif Require Import BaseLemmas Spec Trace Proof_Mem Proof_Peek Model_Transform Proof_TransformMem
  Model_Vector Spec_Vector Proof_Vector Proof_VectorOps Proof_VectorIter.

(** ** C26 *)

(** From any vector (any storage, any spare capacity), for any sequence of
    calls with Go int arguments: everything observed is what [vec_spec] says of
    the plain sequence of its elements, and the final elements are the
    automaton's.  The total length is assumed to stay a Go int.  Whatever the
    growth policy. *)
Theorem C26_Vector_any_state : forall T (zero : T) grow ops l c,
  wf_slice (fst c) (snd c) /\ c_contents c = l -> Forall vec_args ops -> zlen l + total_growth ops <= max_int ->
  exists l', accepts (vec_spec zero) l ops (fst (run (vec_step zero grow) ops c)) l' /\
    (wf_slice (fst (snd (run (vec_step zero grow) ops c))) (snd (snd (run (vec_step zero grow) ops c))) /\
     c_contents (snd (run (vec_step zero grow) ops c)) = l').
Proof. exact @vec_run_ok. Qed.
Print Assumptions C26_Vector_any_state.

(** The constructors. *)
Theorem C26_MakeVector : forall T (zero : T) grow ops m,
  Forall vec_args ops -> total_growth ops <= max_int ->
  exists s m1 l', MakeVector m = (Ok s, m1) /\ accepts (vec_spec zero) [] ops (fst (run (vec_step zero grow) ops (m1, s))) l'.
Proof.
  intros T zero grow ops m Ha Hg. destruct (lit_ok m (@nil T)) as (E & W & C & X).
  destruct (vec_run_ok zero grow ops [] (m ++ [[]], mkSlice (length m) 0 (zlen (@nil T)) (zlen (@nil T)))) as (l' & A & _).
  - split; auto.
  - auto.
  - rewrite zlen_nil. lia.
  - eexists _, _, l'. split; [exact E|exact A].
Qed.
Print Assumptions C26_MakeVector.

Theorem C26_MakeVectorCap : forall T (zero : T) grow cap ops m, 0 <= cap ->
  Forall vec_args ops -> total_growth ops <= max_int ->
  exists s m1 l', MakeVectorCap zero cap m = (Ok s, m1) /\ s_cap s = cap /\
    accepts (vec_spec zero) [] ops (fst (run (vec_step zero grow) ops (m1, s))) l'.
Proof.
  intros T zero grow cap ops m Hc Ha Hg. destruct (fresh_make zero m 0 cap) as (s & m1 & E & (X & W & _) & C & L & Cp & A); [lia|].
  destruct (vec_run_ok zero grow ops [] (m1, s)) as (l' & Acc & _).
  - split; auto.
  - auto.
  - rewrite zlen_nil. lia.
  - eexists _, _, l'. split; [exact E|]. split; [auto|exact Acc].
Qed.
Print Assumptions C26_MakeVectorCap.

Theorem C26_VectorOf_AsVector : forall T (m : mem T) s, VectorOf s m = (Ok s, m) /\ AsVector s m = (Ok s, m).
Proof. split; reflexivity. Qed.
Print Assumptions C26_VectorOf_AsVector.

(** Two vectors with the same elements but different storage, spare capacity
    and growth policies cannot be told apart by any sequence of calls without
    reversed ranges. *)
Theorem C26_capacity_irrelevant : forall T (zero : T) grow1 grow2 ops c1 c2,
  wf_slice (fst c1) (snd c1) -> wf_slice (fst c2) (snd c2) -> c_contents c1 = c_contents c2 ->
  Forall vec_args ops -> Forall vec_not_reversed ops -> zlen (c_contents c1) + total_growth ops <= max_int ->
  fst (run (vec_step zero grow1) ops c1) = fst (run (vec_step zero grow2) ops c2) /\
  c_contents (snd (run (vec_step zero grow1) ops c1)) = c_contents (snd (run (vec_step zero grow2) ops c2)).
Proof.
  intros T zero grow1 grow2 ops c1 c2 W1 W2 Hc Ha Hn Hg.
  destruct (vec_run_ok zero grow1 ops (c_contents c1) c1) as (l1 & A1 & _ & C1); [split; auto|auto|auto|].
  destruct (vec_run_ok zero grow2 ops (c_contents c1) c2) as (l2 & A2 & _ & C2); [split; auto|auto|auto|].
  destruct (vec_spec_det zero ops _ _ _ _ _ Hn A1 A2) as [E1 E2]. split; congruence.
Qed.
Print Assumptions C26_capacity_irrelevant.

(** ** C27 *)

(** x does not start inside the part of the storage that Insert moves (in
    particular: x in another array, or anywhere outside the vector's tail). *)
Theorem C27_Insert : forall T (zero : T) i x m s,
  wf_slice m s -> wf_slice m x -> 0 <= i <= s_len s -> s_len s + s_len x <= max_int ->
  (s_arr x <> s_arr s \/ s_off x <= s_off s + i \/ s_off s + s_len s + s_len x <= s_off x) ->
  exists m' s', Vector_Insert zero i x (m, s) = (Ok tt, (m', s')) /\ wf_slice m' s' /\
    contents m' s' = zsub (contents m s) 0 i ++ contents m x ++ zsub (contents m s) i (s_len s) /\
    if s_len s + s_len x <=? s_cap s
    then s_arr s' = s_arr s /\ s_off s' = s_off s /\ s_cap s' = s_cap s /\
         same_except m m' (s_arr s) (s_off s + i) (s_off s + s_len s + s_len x)
    else s_arr s' = length m /\ extends m m'.
Proof. exact @Insert_ok. Qed.
Print Assumptions C27_Insert.

Theorem C27_Insert_out_of_range : forall T (zero : T) i x m s,
  wf_slice m s -> wf_slice m x -> is_int i -> ~ (0 <= i <= s_len s) -> s_len s + s_len x <= max_int ->
  exists m', Vector_Insert zero i x (m, s) = (Panic, (m', s)) /\ extends m m' /\ contents m' s = contents m s.
Proof.
  intros T zero i x m s Hs Hx Hi Hn Hm. destruct (Insert_panic zero i x m s Hs Hx Hi Hn Hm) as (m' & E & X).
  exists m'. split; [auto|]. split; [auto|]. apply extends_contents; auto. apply Hs.
Qed.
Print Assumptions C27_Insert_out_of_range.

(** ** C28: inserting part of the vector into itself, x = v[a:b] *)

(** Expected result, when the storage is reallocated or a <= i. *)
Theorem C28_Insert_self_right : forall T (zero : T) i a b m s,
  wf_slice m s -> 0 <= i <= s_len s -> 0 <= a <= b -> b <= s_len s -> s_len s + (b - a) <= max_int ->
  (a <= i \/ s_cap s < s_len s + (b - a)) ->
  exists x m' s', reslice s a b = Ok x /\ Vector_Insert zero i x (m, s) = (Ok tt, (m', s')) /\
    contents m' s' = zsub (contents m s) 0 i ++ zsub (contents m s) a b ++ zsub (contents m s) i (s_len s).
Proof. exact @Insert_self_right. Qed.
Print Assumptions C28_Insert_self_right.

(** What happens otherwise (spare capacity and a > i): the inserted elements
    from position i+(b-a)-a on are read after they have been moved, so they are
    the elements b-a places too early. *)
Theorem C28_Insert_self_actual : forall T (zero : T) i a b m s,
  wf_slice m s -> 0 <= i <= s_len s -> 0 <= a <= b -> b <= s_len s -> s_len s + (b - a) <= max_int ->
  s_len s + (b - a) <= s_cap s ->
  exists x m' s' xs, reslice s a b = Ok x /\ Vector_Insert zero i x (m, s) = (Ok tt, (m', s')) /\
    contents m' s' = zsub (contents m s) 0 i ++ xs ++ zsub (contents m s) i (s_len s) /\
    zlen xs = b - a /\
    forall k, 0 <= k < b - a ->
      zget xs k = zget (contents m s) (if a + k <? i + (b - a) then a + k else a + k - (b - a)).
Proof. exact @Insert_self_actual. Qed.
Print Assumptions C28_Insert_self_actual.

(** The expected claim is false: v = [1 2 3] with capacity 5,
    v.Insert(0, v[1:]...) gives [2 1 1 2 3], not [2 3 1 2 3]. *)
Theorem C28_expected_refuted :
  ~ (forall T (zero : T) i a b m s,
       wf_slice m s -> 0 <= i <= s_len s -> 0 <= a <= b -> b <= s_len s -> s_len s + (b - a) <= max_int ->
       exists x m' s', reslice s a b = Ok x /\ Vector_Insert zero i x (m, s) = (Ok tt, (m', s')) /\
         contents m' s' = zsub (contents m s) 0 i ++ zsub (contents m s) a b ++ zsub (contents m s) i (s_len s)).
Proof.
  intros H. specialize (H Z 0 0 1 3 [[1;2;3;0;0]] (mkSlice 0 0 3 5)).
  destruct H as (x & m' & s' & E1 & E2 & E3); try (unfold max_int; simpl; lia).
  - unfold wf_slice. simpl. unfold zlen. simpl. lia.
  - vm_compute in E1. injection E1 as E1. subst x. vm_compute in E2. injection E2 as E2 E2'. subst m' s'. vm_compute in E3. discriminate.
Qed.
Print Assumptions C28_expected_refuted.

(** ** C29: vacated storage is zeroed *)

Theorem C29_PopBack : forall T (zero : T) m s x l', wf_slice m s -> contents m s = l' ++ [x] ->
  exists m' s', Vector_PopBack zero (m, s) = (Ok x, (m', s')) /\ shrunk zero m m' s s' l'.
Proof. exact @PopBack_ok. Qed.
Print Assumptions C29_PopBack.
Theorem C29_RemoveRange : forall T (zero : T) grow i j m s,
  wf_slice m s -> 0 <= i <= j -> j <= s_len s ->
  exists m' s', Vector_RemoveRange zero grow i j (m, s) = (Ok tt, (m', s')) /\
    shrunk zero m m' s s' (zsub (contents m s) 0 i ++ zsub (contents m s) j (s_len s)).
Proof. exact @RemoveRange_ok. Qed.
Print Assumptions C29_RemoveRange.
Theorem C29_Remove_RemoveLength : forall T (zero : T) grow i n m s,
  wf_slice m s -> s_len s <= max_int -> 0 <= i -> 0 <= n -> i + n <= s_len s ->
  (exists m' s', Vector_RemoveLength zero grow i n (m, s) = (Ok tt, (m', s')) /\
    shrunk zero m m' s s' (zsub (contents m s) 0 i ++ zsub (contents m s) (i + n) (s_len s))) /\
  (n = 1 -> exists m' s', Vector_Remove zero grow i (m, s) = (Ok tt, (m', s')) /\
    shrunk zero m m' s s' (zsub (contents m s) 0 i ++ zsub (contents m s) (i + 1) (s_len s))).
Proof.
  intros T zero grow i n m s Hs Hm Hi Hn Hl. unfold Vector_RemoveLength, Vector_Remove. split; [|intros ->];
    rewrite wrap64_id by (unfold is_int, max_int in *; lia); apply RemoveRange_ok; auto; lia.
Qed.
Print Assumptions C29_Remove_RemoveLength.
(** The predicate is called once per element in order (its state is threaded). *)
Theorem C29_RemoveIf : forall T (zero : T) St (cond : St -> T -> bool * St) st m s, wf_slice m s ->
  let p := reject_st cond st (contents m s) in
  exists m' s', Vector_RemoveIf zero cond st (m, s) = (Ok (snd p), (m', s')) /\ shrunk zero m m' s s' (fst p).
Proof. exact @VRemoveIf_ok. Qed.
Print Assumptions C29_RemoveIf.
Theorem C29_Clear : forall T (zero : T) m s, wf_slice m s ->
  exists m' s', Vector_Clear zero (m, s) = (Ok tt, (m', s')) /\ shrunk zero m m' s s' [].
Proof. exact @Clear_ok. Qed.
Print Assumptions C29_Clear.
(** So after any of them nothing removed can be read through the old header:
    every position the new vector does not cover reads zero. *)
Theorem C29_nothing_left : forall T (zero : T) m m' s s' l', shrunk zero m m' s s' l' ->
  forall k v, s_len s' <= k -> zget (contents m' s) k = Some v -> v = zero.
Proof.
  intros T zero m m' s s' l' (W & C & _ & _ & _ & Z & _) k v Hk Hg. rewrite Z in Hg.
  pose proof (zlen_contents m' s' W) as L. rewrite C in L. rewrite zget_app_r in Hg by lia. rewrite zget_repeat in Hg.
  destruct ((0 <=? k - zlen l') && (k - zlen l' <? Z.of_nat (Z.to_nat (s_len s - s_len s')))); congruence.
Qed.
Print Assumptions C29_nothing_left.

(** ** C30 *)

(** Valid ranges are handled by C29_RemoveRange.  All others panic; the vector
    is unchanged unless the range is reversed with j <= Len and i <= Cap, when
    it has already been overwritten by its first i slots (exposing spare
    capacity if i > Len) followed by its elements from j on. *)
Theorem C30_RemoveRange_invalid : forall T (zero : T) grow i j m s,
  wf_slice m s -> ~ (0 <= i <= j /\ j <= s_len s) ->
  exists c', Vector_RemoveRange zero grow i j (m, s) = (Panic, c') /\
    if (0 <=? j) && (j <=? s_len s) && (j <? i) && (i <=? s_cap s)
    then wf_slice (fst c') (snd c') /\ s_len (snd c') = i + (s_len s - j) /\
         c_contents c' = zsub (cap_contents m s) 0 i ++ zsub (contents m s) j (s_len s)
    else c' = (m, s).
Proof. exact @RemoveRange_panic. Qed.
Print Assumptions C30_RemoveRange_invalid.
Theorem C30_RemoveRange_panics_iff : forall T (zero : T) grow i j m s, wf_slice m s ->
  (fst (Vector_RemoveRange zero grow i j (m, s)) = Panic <-> ~ (0 <= i <= j /\ j <= s_len s)) /\
  (fst (Vector_RemoveRange zero grow i j (m, s)) = Ok tt <-> 0 <= i <= j /\ j <= s_len s).
Proof.
  intros T zero grow i j m s Hs.
  assert (D : (0 <= i <= j /\ j <= s_len s) \/ ~ (0 <= i <= j /\ j <= s_len s)) by lia.
  destruct D as [D|D].
  - destruct (RemoveRange_ok zero grow i j m s Hs) as (m' & s' & E & _); try lia. rewrite E. simpl.
    split; split; intros; auto; try discriminate; tauto.
  - destruct (RemoveRange_panic zero grow i j m s Hs D) as (c' & E & _). rewrite E. simpl.
    split; split; intros; auto; try discriminate; tauto.
Qed.
Print Assumptions C30_RemoveRange_panics_iff.
(** "Unchanged after a panic" is false: v = [1 2 3], RemoveRange(2,1) panics
    and leaves [1 2 2 3]. *)
Theorem C30_unchanged_refuted :
  ~ (forall T (zero : T) grow i j m s c', wf_slice m s ->
       Vector_RemoveRange zero grow i j (m, s) = (Panic, c') -> c_contents c' = contents m s).
Proof.
  intros H. specialize (H Z 0 (fun _ n => n) 2 1 [[1;2;3]] (mkSlice 0 0 3 3)).
  destruct (Vector_RemoveRange 0 (fun _ n => n) 2 1 ([[1;2;3]], mkSlice 0 0 3 3)) as [o c'] eqn:E.
  vm_compute in E. injection E as E1 E2. subst o c'. specialize (H _ ltac:(unfold wf_slice, zlen; simpl; lia) eq_refl).
  vm_compute in H. discriminate.
Qed.
Print Assumptions C30_unchanged_refuted.

(** ** C31 *)

Theorem C31_Reserve : forall T (zero : T) l m s, wf_slice m s ->
  exists m' s', Vector_Reserve zero l (m, s) = (Ok tt, (m', s')) /\ wf_slice m' s' /\
    contents m' s' = contents m s /\ s_cap s' = Z.max (s_cap s) l /\ extends m m' /\
    (l <= s_cap s -> m' = m /\ s' = s) /\ (s_cap s < l -> s_arr s' = length m).
Proof. exact @Reserve_ok. Qed.
Print Assumptions C31_Reserve.
(** Shrink reallocates only when there is spare capacity; the new capacity is
    what append chooses for that many elements (not necessarily the length). *)
Theorem C31_Shrink : forall T (zero : T) grow m s, wf_slice m s ->
  exists m' s', Vector_Shrink zero grow (m, s) = (Ok tt, (m', s')) /\ wf_slice m' s' /\
    contents m' s' = contents m s /\ extends m m' /\
    (s_cap s = s_len s -> m' = m /\ s' = s) /\
    (s_len s < s_cap s -> (length m <= s_arr s')%nat /\
       s_cap s' = if s_len s =? 0 then 0 else Z.max (s_len s) (grow 0 (s_len s))).
Proof. exact @Shrink_ok. Qed.
Print Assumptions C31_Shrink.
Theorem C31_Clear_keeps_cap : forall T (zero : T) m s, wf_slice m s ->
  exists m' s', Vector_Clear zero (m, s) = (Ok tt, (m', s')) /\ Vector_Cap (m', s') = (Ok (s_cap s), (m', s')).
Proof.
  intros T zero m s Hs. destruct (Clear_ok zero m s Hs) as (m' & s' & E & _ & _ & _ & _ & Cp & _).
  exists m', s'. split; [auto|]. unfold Vector_Cap. rewrite bind_get_hdr, Cp. reflexivity.
Qed.
Print Assumptions C31_Clear_keeps_cap.
(** PushBack within capacity writes only the next slot. *)
Theorem C31_PushBack : forall T (zero : T) grow x m s, wf_slice m s ->
  exists m' s', Vector_PushBack zero grow x (m, s) = (Ok tt, (m', s')) /\ wf_slice m' s' /\
    contents m' s' = contents m s ++ [x] /\ s_len s' = s_len s + 1 /\
    (if s_len s + 1 <=? s_cap s
     then s_arr s' = s_arr s /\ s_off s' = s_off s /\ s_cap s' = s_cap s /\
          same_except m m' (s_arr s) (s_off s + s_len s) (s_off s + s_len s + 1)
     else s_arr s' = length m /\ extends m m').
Proof. exact @PushBack_ok. Qed.
Print Assumptions C31_PushBack.
(** The same for Append, also when x overlaps the vector. *)
Theorem C31_Append : forall T (zero : T) grow x m s, wf_slice m s -> wf_slice m x ->
  exists m' s', Vector_Append zero grow x (m, s) = (Ok tt, (m', s')) /\ wf_slice m' s' /\
    contents m' s' = contents m s ++ contents m x /\ s_len s' = s_len s + s_len x /\
    (if s_len s + s_len x <=? s_cap s
     then s_arr s' = s_arr s /\ s_off s' = s_off s /\ s_cap s' = s_cap s /\
          same_except m m' (s_arr s) (s_off s + s_len s) (s_off s + s_len s + s_len x)
     else s_arr s' = length m /\ extends m m').
Proof. exact @Append_ok. Qed.
Print Assumptions C31_Append.
(** After Reserve(l), pushing up to l elements in all never reallocates. *)
Theorem C31_Reserve_then_push : forall T (zero : T) grow l xs m s, wf_slice m s ->
  exists m' s', Vector_Reserve zero l (m, s) = (Ok tt, (m', s')) /\
  (s_len s + zlen xs <= l ->
   let c := snd (run (vec_step zero grow) (map VPushBack xs) (m', s')) in
   s_arr (snd c) = s_arr s' /\ s_off (snd c) = s_off s' /\ s_cap (snd c) = s_cap s' /\
   c_contents c = contents m s ++ xs).
Proof. exact @Reserve_push. Qed.
Print Assumptions C31_Reserve_then_push.

(** ** C32 *)

Theorem C32_ForEach : forall T St (cb : St -> T -> St) st m v, wf_slice m v ->
  Vector_ForEach v cb st m = (Ok (fold_left cb (contents m v) st), m).
Proof. exact @VForEach_ok. Qed.
Print Assumptions C32_ForEach.
Theorem C32_ForEachIf : forall T St (cb : St -> T -> bool * St) st m v, wf_slice m v ->
  Vector_ForEachIf v cb st m = (Ok (fold_while cb st (contents m v)), m).
Proof. exact @VForEachIf_ok. Qed.
Print Assumptions C32_ForEachIf.
Theorem C32_ForEachMutable : forall T St (cb : St -> T -> T * St) st m v, wf_slice m v ->
  let p := map_st cb st (contents m v) in
  exists m', Vector_ForEachMutable v cb st m = (Ok (snd p), m') /\
    wf_slice m' v /\ contents m' v = fst p /\ same_except m m' (s_arr v) (s_off v) (s_off v + s_len v).
Proof. exact @VForEachMutable_ok. Qed.
Print Assumptions C32_ForEachMutable.
Theorem C32_ForEachMutableIf : forall T St (cb : St -> T -> T * bool * St) st m v, wf_slice m v ->
  let p := map_while cb st (contents m v) in
  exists m', Vector_ForEachMutableIf v cb st m = (Ok (snd p), m') /\
    wf_slice m' v /\ contents m' v = fst p /\ same_except m m' (s_arr v) (s_off v) (s_off v + s_len v).
Proof. exact @VForEachMutableIf_ok. Qed.
Print Assumptions C32_ForEachMutableIf.
Theorem C32_Iterate : forall T (m : mem T) v fuel,
  wf_slice m v -> s_len v <= max_int -> (length (contents m v) <= fuel)%nat ->
  vi_collect fuel (Vector_Iterate v) m = (Ok (contents m v), m).
Proof. exact @Iterate_ok. Qed.
Print Assumptions C32_Iterate.
(** IterateRange visits positions i..j-1.  j is checked against Cap, not Len:
    beyond Len it visits spare capacity. *)
Theorem C32_IterateRange : forall T (m : mem T) v i j fuel, wf_slice m v -> s_cap v <= max_int ->
  0 <= i <= j -> j <= s_cap v -> (Z.to_nat (j - i) <= fuel)%nat ->
  exists it, Vector_IterateRange v i j = Ok it /\ vi_collect fuel it m = (Ok (zsub (cap_contents m v) i j), m) /\
    (j <= s_len v -> zsub (cap_contents m v) i j = zsub (contents m v) i j).
Proof.
  intros T m v i j fuel Hv Hm Hi Hj Hf. destruct (IterateRange_ok m v i j fuel Hv Hm Hi Hj Hf) as (it & E1 & E2).
  exists it. split; [auto|]. split; [auto|]. intros Hl.
  rewrite <- (contents_cap m v i j) by auto. apply contents_reslice; auto; lia.
Qed.
Print Assumptions C32_IterateRange.
Theorem C32_IterateRange_panics : forall v i j,
  ~ (0 <= i <= j /\ j <= s_cap v) -> Vector_IterateRange v i j = Panic.
Proof. exact IterateRange_panic. Qed.
Print Assumptions C32_IterateRange_panics.
(** Writing through an iterator's Pointer changes exactly the element the
    iterator is on. *)
Theorem C32_iterator_write : forall T (m : mem T) v i x, wf_slice m v -> 0 <= i < s_len v ->
  exists m', vi_write (mkVIt v i) x m = (Ok tt, m') /\ contents m' v = zupd (contents m v) i x /\
    vi_Value (mkVIt v i) m' = (Ok x, m') /\ same_except m m' (s_arr v) (s_off v + i) (s_off v + i + 1).
Proof. exact @vi_write_ok. Qed.
Print Assumptions C32_iterator_write.

(** ** Concrete cases *)
Definition ex_mem : mem Z := [[9]; [1;2;3;0;0;7]].
Definition ex_v : slice := mkSlice 1 0 3 5.
Definition ex_grow (c n : Z) : Z := 2 * n.

Example ex_wf : wf_slice ex_mem ex_v.
Proof. unfold wf_slice, zlen, ex_mem, ex_v. simpl. lia. Qed.
(** C26: a run with pushes, insertion, removals, panics. *)
Definition ex_ops : list (vec_op Z) :=
  [VPushBack 4; VInsert 1 [8;9]; VRemove 0; VAt 0; VAt 7; VRemoveRange 1 3; VLen; VPopBack; VRemoveIf Z.even; VBack; VInsert 5 [1]; VLen].
Example ex_run :
  fst (run (vec_step 0 ex_grow) ex_ops (ex_mem, ex_v))
  = [Ok ONone; Ok ONone; Ok ONone; Ok (OVal 8); Panic; Ok ONone; Ok (OInt 3); Ok (OVal 4); Ok ONone; Ok (OVal 3); Panic; Ok (OInt 1)].
Proof. vm_compute. reflexivity. Qed.
Example ex_run_hyps : Forall vec_args ex_ops /\ Forall vec_not_reversed ex_ops /\
  zlen (contents ex_mem ex_v) + total_growth ex_ops <= max_int.
Proof. split; [|split]; [repeat constructor; vm_compute; congruence|repeat constructor; vm_compute; congruence|vm_compute; congruence]. Qed.
(** C27 in place and with reallocation; C28 both ways; C29 zeroing. *)
Example ex_insert : c_contents (snd (Vector_Insert 0 1 (mkSlice 0 0 1 1) (ex_mem, ex_v))) = [1;9;2;3].
Proof. reflexivity. Qed.
Example ex_insert_grow : c_contents (snd (Vector_Insert 0 1 (mkSlice 1 0 3 6) (ex_mem, ex_v))) = [1;1;2;3;2;3].
Proof. reflexivity. Qed.
Example ex_insert_self_bad : c_contents (snd (Vector_Insert 0 0 (mkSlice 1 1 2 4) (ex_mem, ex_v))) = [2;1;1;2;3].
Proof. reflexivity. Qed.
Example ex_removerange : Vector_RemoveRange 0 ex_grow 0 2 (ex_mem, ex_v) = (Ok tt, ([[9]; [3;0;0;0;0;7]], mkSlice 1 0 1 5)).
Proof. reflexivity. Qed.
Example ex_iterrange : vi_collect 9 (mkVIt (mkSlice 1 1 3 4) 0) ex_mem = (Ok [2;3;0], ex_mem).
Proof. reflexivity. Qed.
