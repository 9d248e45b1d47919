From Verif Require Import BaseLemmas Spec Trace Proof_Mem Proof_Peek Model_Transform Proof_Transform Proof_TransformMem Model_Vector Spec_Vector Proof_Vector.

Section Vec.
Context {T : Type}.
Implicit Types (m : mem T) (s v : slice).

Lemma zget_mid' pre (x : T) rest : zget (pre ++ x :: rest) (zlen pre) = Some x.
Proof. apply zget_mid. Qed.

Lemma VForEach_loop_ok {St} (cb : St -> T -> St) m v (Hv : wf_slice m v) rest : forall pre st,
  contents m v = pre ++ rest ->
  VForEach_loop v cb (length rest) (zlen pre) st m = (Ok (fold_left cb rest st), m).
Proof.
  induction rest as [|x rest IH]; intros pre st Hc; [reflexivity|]. cbn [length VForEach_loop fold_left].
  rewrite (bind_Ok _ _ _ _ _ (sload_ok m v (zlen pre) x Hv ltac:(rewrite Hc; apply zget_mid))).
  rewrite <- zlen_snoc with (x := x). apply IH. rewrite Hc. apply snoc_assoc.
Qed.
Lemma VForEach_ok {St} (cb : St -> T -> St) st m v : wf_slice m v ->
  Vector_ForEach v cb st m = (Ok (fold_left cb (contents m v) st), m).
Proof.
  intros Hv. unfold Vector_ForEach. rewrite (len_contents m v Hv). exact (VForEach_loop_ok cb m v Hv (contents m v) [] st eq_refl).
Qed.

Lemma VForEachIf_loop_ok {St} (cb : St -> T -> bool * St) m v (Hv : wf_slice m v) rest : forall pre st,
  contents m v = pre ++ rest ->
  VForEachIf_loop v cb (length rest) (zlen pre) st m = (Ok (fold_while cb st rest), m).
Proof.
  induction rest as [|x rest IH]; intros pre st Hc; [reflexivity|]. cbn [length VForEachIf_loop fold_while].
  rewrite (bind_Ok _ _ _ _ _ (sload_ok m v (zlen pre) x Hv ltac:(rewrite Hc; apply zget_mid))).
  destruct (cb st x) as [[|] st1]; cbn [negb]; [|reflexivity].
  rewrite <- zlen_snoc with (x := x). apply IH. rewrite Hc. apply snoc_assoc.
Qed.
Lemma VForEachIf_ok {St} (cb : St -> T -> bool * St) st m v : wf_slice m v ->
  Vector_ForEachIf v cb st m = (Ok (fold_while cb st (contents m v)), m).
Proof.
  intros Hv. unfold Vector_ForEachIf. rewrite (len_contents m v Hv). exact (VForEachIf_loop_ok cb m v Hv (contents m v) [] st eq_refl).
Qed.

Lemma sstore_mid m v pre (x y : T) rest : wf_slice m v -> contents m v = pre ++ x :: rest ->
  sstore v (zlen pre) y m = (Ok tt, write_at m v 0 (pre ++ y :: rest)) /\
  wf_slice (write_at m v 0 (pre ++ y :: rest)) v /\ contents (write_at m v 0 (pre ++ y :: rest)) v = pre ++ y :: rest /\
  same_except m (write_at m v 0 (pre ++ y :: rest)) (s_arr v) (s_off v) (s_off v + s_len v).
Proof.
  intros Hv Hc. pose proof (zlen_contents m v Hv) as Z. rewrite Hc in Z. pose proof (zlen_nonneg pre). pose proof (zlen_nonneg rest).
  assert (Z' : zlen (pre ++ y :: rest) = s_len v) by (rewrite <- Z, !zlen_app, !zlen_cons; auto).
  split; [|split; [now apply wf_write_self|split; [now apply contents_write_at|now apply same_except_write]]].
  rewrite sstore_ok; auto.
  - rewrite Hc, zupd_mid. reflexivity.
  - rewrite <- Z, zlen_app, zlen_cons. lia.
Qed.

Lemma VForEachMutable_loop_ok {St} (cb : St -> T -> T * St) v rest : forall pre st m,
  wf_slice m v -> contents m v = pre ++ rest ->
  let p := map_st cb st rest in
  exists m', VForEachMutable_loop v cb (length rest) (zlen pre) st m = (Ok (snd p), m') /\
    wf_slice m' v /\ contents m' v = pre ++ fst p /\ same_except m m' (s_arr v) (s_off v) (s_off v + s_len v).
Proof.
  induction rest as [|x rest IH]; intros pre st m Hv Hc.
  - exists m. split; [reflexivity|]. split; [auto|]. split; [auto|apply same_except_refl].
  - cbn [length VForEachMutable_loop map_st].
    rewrite (bind_Ok _ _ _ _ _ (sload_ok m v (zlen pre) x Hv ltac:(rewrite Hc; apply zget_mid))).
    destruct (cb st x) as [y st1].
    destruct (sstore_mid m v pre x y rest Hv Hc) as (E & W & C & F).
    rewrite (bind_Ok _ _ _ _ _ E).
    destruct (IH (pre ++ [y]) st1 _ W ltac:(rewrite C; apply snoc_assoc)) as (m' & E' & W' & C' & F').
    rewrite zlen_snoc in E'. rewrite E'. destruct (map_st cb st1 rest) as [ys st2]. cbn [fst snd] in *.
    exists m'. split; [reflexivity|]. split; [auto|]. split; [rewrite C'; symmetry; apply snoc_assoc|eapply same_except_trans; eauto].
Qed.
Lemma VForEachMutable_ok {St} (cb : St -> T -> T * St) st m v : wf_slice m v ->
  let p := map_st cb st (contents m v) in
  exists m', Vector_ForEachMutable v cb st m = (Ok (snd p), m') /\
    wf_slice m' v /\ contents m' v = fst p /\ same_except m m' (s_arr v) (s_off v) (s_off v + s_len v).
Proof.
  intros Hv. unfold Vector_ForEachMutable. rewrite (len_contents m v Hv).
  exact (VForEachMutable_loop_ok cb v (contents m v) [] st m Hv eq_refl).
Qed.

Lemma VForEachMutableIf_loop_ok {St} (cb : St -> T -> T * bool * St) v rest : forall pre st m,
  wf_slice m v -> contents m v = pre ++ rest ->
  let p := map_while cb st rest in
  exists m', VForEachMutableIf_loop v cb (length rest) (zlen pre) st m = (Ok (snd p), m') /\
    wf_slice m' v /\ contents m' v = pre ++ fst p /\ same_except m m' (s_arr v) (s_off v) (s_off v + s_len v).
Proof.
  induction rest as [|x rest IH]; intros pre st m Hv Hc.
  - exists m. split; [reflexivity|]. split; [auto|]. split; [auto|apply same_except_refl].
  - cbn [length VForEachMutableIf_loop map_while].
    rewrite (bind_Ok _ _ _ _ _ (sload_ok m v (zlen pre) x Hv ltac:(rewrite Hc; apply zget_mid))).
    destruct (cb st x) as [[y go] st1].
    destruct (sstore_mid m v pre x y rest Hv Hc) as (E & W & C & F).
    rewrite (bind_Ok _ _ _ _ _ E). destruct go; cbn [negb].
    + destruct (IH (pre ++ [y]) st1 _ W ltac:(rewrite C; apply snoc_assoc)) as (m' & E' & W' & C' & F').
      rewrite zlen_snoc in E'. rewrite E'. destruct (map_while cb st1 rest) as [ys st2]. cbn [fst snd] in *.
      exists m'. split; [reflexivity|]. split; [auto|]. split; [rewrite C'; symmetry; apply snoc_assoc|eapply same_except_trans; eauto].
    + eexists. split; [reflexivity|]. cbn [fst snd]. auto.
Qed.
Lemma VForEachMutableIf_ok {St} (cb : St -> T -> T * bool * St) st m v : wf_slice m v ->
  let p := map_while cb st (contents m v) in
  exists m', Vector_ForEachMutableIf v cb st m = (Ok (snd p), m') /\
    wf_slice m' v /\ contents m' v = fst p /\ same_except m m' (s_arr v) (s_off v) (s_off v + s_len v).
Proof.
  intros Hv. unfold Vector_ForEachMutableIf. rewrite (len_contents m v Hv).
  exact (VForEachMutableIf_loop_ok cb v (contents m v) [] st m Hv eq_refl).
Qed.

Lemma vi_collect_ok m v (Hv : wf_slice m v) (Hm : s_len v <= max_int) rest : forall pre fuel,
  contents m v = pre ++ rest -> (length rest <= fuel)%nat ->
  vi_collect fuel (mkVIt v (zlen pre)) m = (Ok rest, m).
Proof.
  pose proof (zlen_contents m v Hv) as Z.
  induction rest as [|x rest IH]; intros pre fuel Hc Hf; destruct fuel as [|fuel]; cbn [length] in Hf; try lia;
    rewrite Hc, zlen_app in Z; cbn [vi_collect]; unfold vi_IsNotEnd; cbn [vi_i vi_v].
  1-2: rewrite zlen_nil in Z; destruct (Z.ltb_spec (zlen pre) (s_len v)); [lia|reflexivity].
  rewrite zlen_cons in Z. pose proof (zlen_nonneg rest). pose proof (zlen_nonneg pre).
  destruct (Z.ltb_spec (zlen pre) (s_len v)); [|lia].
  unfold vi_Value. cbn [vi_i vi_v].
  rewrite (bind_Ok _ _ _ _ _ (sload_ok m v (zlen pre) x Hv ltac:(rewrite Hc; apply zget_mid))).
  unfold vi_MoveToNext. cbn [vi_i vi_v]. rewrite wrap64_id by (unfold is_int, max_int in *; lia).
  rewrite <- zlen_snoc with (x := x).
  assert (E : vi_collect fuel (mkVIt v (zlen (pre ++ [x]))) m = (Ok rest, m)).
  { apply IH; [|lia]. rewrite Hc. apply snoc_assoc. }
  rewrite (bind_Ok _ _ _ _ _ E). reflexivity.
Qed.

Lemma Iterate_ok m v fuel : wf_slice m v -> s_len v <= max_int -> (length (contents m v) <= fuel)%nat ->
  vi_collect fuel (Vector_Iterate v) m = (Ok (contents m v), m).
Proof. intros Hv Hm Hf. exact (vi_collect_ok m v Hv Hm (contents m v) [] fuel eq_refl Hf). Qed.

Lemma contents_cap m v i j : wf_slice m v -> 0 <= i <= j -> j <= s_cap v ->
  contents m (mkSlice (s_arr v) (s_off v + i) (j - i) (s_cap v - i)) = zsub (cap_contents m v) i j.
Proof.
  intros (W1 & W2 & W3 & W4) Hi Hj. unfold contents, cap_contents, arr_of in *. simpl. apply zlist_eq. intros k Hk.
  rewrite !zget_zsub by lia.
  destruct (Z.ltb_spec k (s_off v + i + (j - i) - (s_off v + i))), (Z.ltb_spec k (j - i)); try lia; auto.
  destruct (Z.ltb_spec (i + k) (s_off v + s_cap v - s_off v)); [|lia]. f_equal. lia.
Qed.
Lemma cap_contents_contents m v : wf_slice m v -> zsub (cap_contents m v) 0 (s_len v) = contents m v.
Proof.
  intros (W1 & W2 & W3 & W4). unfold contents, cap_contents. apply zlist_eq. intros k Hk. rewrite !zget_zsub by lia.
  destruct (Z.ltb_spec k (s_len v - 0)), (Z.ltb_spec k (s_off v + s_len v - s_off v)), (Z.ltb_spec (0 + k) (s_off v + s_cap v - s_off v)); auto; lia.
Qed.

Lemma IterateRange_ok m v i j fuel : wf_slice m v -> s_cap v <= max_int ->
  0 <= i <= j -> j <= s_cap v -> (Z.to_nat (j - i) <= fuel)%nat ->
  exists it, Vector_IterateRange v i j = Ok it /\ vi_collect fuel it m = (Ok (zsub (cap_contents m v) i j), m).
Proof.
  intros Hv Hm Hi Hj Hf. unfold Vector_IterateRange. rewrite reslice_ok by lia. cbn [omap]. eexists. split; [reflexivity|].
  set (t := mkSlice _ _ _ _). assert (Ht : wf_slice m t) by (apply wf_reslice; auto; lia).
  rewrite <- (contents_cap m v i j Hv Hi Hj). fold t.
  apply (vi_collect_ok m t Ht ltac:(simpl; lia) (contents m t) [] fuel eq_refl).
  rewrite <- (len_contents m t Ht). exact Hf.
Qed.
Lemma IterateRange_panic v i j : ~ (0 <= i <= j /\ j <= s_cap v) -> Vector_IterateRange v i j = Panic.
Proof. intros H. unfold Vector_IterateRange. rewrite reslice_panic by auto. reflexivity. Qed.
End Vec.
