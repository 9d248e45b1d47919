(** C122: clients of a Vector that keep iterators of IterateRange over changes. *)
From Verif Require Import BaseLemmas Spec Trace Proof_Mem Proof_Peek Model_Vector Spec_Vector Proof_Vector Proof_VectorOps Spec_Client Proof_Client Spec_VecClient Model_VecClient Proof_VecClient Proof_VecLoop Props_VecClient Spec_VecRange Model_VecRange Proof_VecRange.

Notation rstmt T := (rop (vcall T) T).
Notation code zero grow := (rclient (vec_listing zero grow) vec_range).
Notation spec zero grow := (rclient (rw_spec zero grow) rw_range).
(** After the statements, starting in state c. *)
Definition r_after {T} (zero : T) grow (ops : list (rstmt T)) (c : cell T * list vectorIterator) := snd (run (code zero grow) ops c).
Definition r_world {T} (zero : T) grow (ops : list (rstmt T)) (m : mem T) (s : slice) := snd (run (spec zero grow) ops (mkVW (cap_contents m s) (s_len s) [], [])).
Notation RR m s := (RC (list slice) (Rs m s) Rq).
Lemma r_start {T} (zero : T) grow m s (ops : list (rstmt T)) : wf_slice m s -> s_len s <= max_int ->
  fst (run (code zero grow) ops (m, s, [])) = fst (run (spec zero grow) ops (mkVW (cap_contents m s) (s_len s) [], [])) /\
  exists k, RR m s k (r_after zero grow ops (m, s, [])) (r_world zero grow ops m s).
Proof.
  intros W Hm. destruct (rrun_sim zero grow m s ops [full s] (m, s, []) (mkVW (cap_contents m s) (s_len s) [], [])) as (E & k & _ & R); [split; [now apply Rs_init|constructor]|]. eauto.
Qed.

(** Every sequence of statements, IterateRange among them, shows what the
    specification shows. *)
Theorem C122_kept_ranges : forall T (zero : T) grow m s (ops : list (rstmt T)), wf_slice m s -> s_len s <= max_int ->
  let c := run (code zero grow) ops (m, s, []) in let w := run (spec zero grow) ops (mkVW (cap_contents m s) (s_len s) [], []) in
  fst c = fst w /\ c_contents (fst (snd c)) = elems (fst (snd w)) /\ s_cap (snd (fst (snd c))) = room (fst (snd w)).
Proof.
  intros T zero grow m s ops W Hm. cbn zeta. destruct (r_start zero grow m s ops W Hm) as (E & k & R & _). unfold r_after, r_world in R. split; [exact E|].
  destruct (fst (snd (run (code zero grow) ops (m, s, [])))) as [m' s']. split; symmetry; [exact (Rs_elems _ _ _ _ _ _ R)|exact (Rs_room _ _ _ _ _ _ R)].
Qed.
Print Assumptions C122_kept_ranges.
(** Nothing else in memory is written: only the first storage and new ones. *)
Theorem C122_others_untouched : forall T (zero : T) grow m s (ops : list (rstmt T)), wf_slice m s -> s_len s <= max_int ->
  old_same_except m (fst (fst (r_after zero grow ops (m, s, [])))) (s_arr s) (s_off s) (s_off s + s_cap s).
Proof. intros T zero grow m s ops W Hm. destruct (r_start zero grow m s ops W Hm) as (_ & k & R & _). apply R. Qed.
Print Assumptions C122_others_untouched.
(** IterateRange itself changes nothing.  It panics unless 0 <= i <= j <= Cap. *)
Theorem C122_taking : forall T (zero : T) grow m s (ops : list (rstmt T)) i j, let c := r_after zero grow ops (m, s, []) in let r := code zero grow (RRange i j) c in
  (0 <= i <= j /\ j <= s_cap (snd (fst c)) -> fst r = Ok IDone /\ fst (snd r) = fst c /\ exists it, snd (snd r) = snd c ++ [it]) /\
  (~ (0 <= i <= j /\ j <= s_cap (snd (fst c))) -> r = (Panic, c)).
Proof.
  intros T zero grow m s ops i j. cbn zeta. set (c := r_after zero grow ops (m, s, [])). destruct c as [[m' s'] vs]. cbn [rclient]. unfold vec_range, Vector_IterateRange. unfold bind, on_list, declare, ret, get_hdr. cbn [fst snd]. split; intros H.
  - rewrite reslice_ok by lia. cbn. eauto.
  - rewrite reslice_panic by auto. reflexivity.
Qed.
Print Assumptions C122_taking.

(** An iterator over [lo, hi) taken in the state c1 that any statements [ops1] lead
    to, after further statements [ops2]: its variable, the state, and how far it
    was moved. *)
Definition kept_range {T} (zero : T) grow m s (ops1 ops2 : list (rstmt T)) lo hi (P : cell T -> nat -> cell T * list vectorIterator -> Z -> Prop) : Prop :=
  let c1 := r_after zero grow ops1 (m, s, []) in let x := length (snd c1) in let q := rmoves x ops2 in
  wf_slice m s -> s_len s <= max_int -> q <= max_int -> 0 <= lo <= hi -> hi <= s_cap (snd (fst c1)) -> P (fst c1) x (r_after zero grow (RRange lo hi :: ops2) c1) q.
Lemma range_pos {T} (zero : T) grow m s (ops1 ops2 : list (rstmt T)) lo hi : kept_range zero grow m s ops1 ops2 lo hi (fun c1 x c2 q =>
  exists k1 k2 w1 (w2 : vworld T * list rpos) it, let p := mkRP (length (vw_old w1)) lo (hi - lo) q in
    Rs m s k1 c1 w1 /\ le k1 k2 /\ RR m s k2 c2 w2 /\ nth_error (snd c2) x = Some it /\ Rq k2 it p).
Proof.
  unfold kept_range. cbn zeta. intros W Hm Hj Hlo Hhi. set (c1 := r_after zero grow ops1 (m, s, [])) in *. set (x := length (snd c1)) in *. set (j := rmoves x ops2) in *. destruct (r_start zero grow m s ops1 W Hm) as (_ & k1 & R1). fold c1 in R1. destruct (r_world zero grow ops1 m s) as [w1 vs1] eqn:Ew.
  destruct (rrun_sim zero grow m s (RRange lo hi :: ops2) k1 c1 (w1, vs1) R1) as (_ & k2 & Hl & R2). fold (r_after zero grow (RRange lo hi :: ops2) c1) in R2.
  set (w2 := snd (run (spec zero grow) (RRange lo hi :: ops2) (w1, vs1))) in *.
  assert (Lx : length vs1 = x). { destruct R1 as [_ F]. cbn [fst snd] in F. unfold x. clear - F. induction F; cbn; congruence. }
  assert (Ln : room w1 = s_cap (snd (fst c1))). { destruct R1 as [R1 _]. cbn [fst] in R1. destruct (fst c1) as [m1 s1]. cbn [snd]. exact (Rs_room _ _ _ _ _ _ R1). }
  set (p0 := mkRP (length (vw_old w1)) lo (hi - lo) 0).
  assert (Ew2 : w2 = snd (run (spec zero grow) ops2 (w1, vs1 ++ [p0]))).
  { unfold w2. cbn [run]. unfold rclient at 1. unfold bind, on_list, declare, ret, rw_range. cbn [fst snd]. rewrite Ln.
    destruct (Z.leb_spec 0 lo), (Z.leb_spec lo hi), (Z.leb_spec hi (s_cap (snd (fst c1)))); try lia. cbn [andb fst snd]. fold p0. destruct (run _ ops2 _). reflexivity. }
  assert (H0 : nth_error (vs1 ++ [p0]) x = Some p0) by (rewrite nth_error_app2, Lx, Nat.sub_diag by lia; reflexivity).
  pose proof (rvars_run zero grow ops2 w1 (vs1 ++ [p0]) x p0 H0 ltac:(cbn; lia) ltac:(cbn [rp_i p0]; lia)) as Hp. rewrite <- Ew2 in Hp. cbn [rp_gen rp_lo rp_len rp_i p0] in Hp. fold j in Hp. rewrite Z.add_0_l in Hp.
  assert (Hit : exists it, nth_error (snd (r_after zero grow (RRange lo hi :: ops2) c1)) x = Some it /\ Rq k2 it (mkRP (length (vw_old w1)) lo (hi - lo) j)).
  { destruct R2 as [_ F]. exact (F2_nth_r _ _ _ F _ _ Hp). }
  destruct Hit as (it & Hit & Hrp). exists k1, k2, w1, w2, it. cbn zeta. split; [exact (proj1 R1)|]. split; [exact Hl|]. split; [exact R2|]. split; [exact Hit|exact Hrp].
Qed.
Ltac at_range :=
  match goal with |- kept_range ?zero ?grow ?m ?s ?ops1 ?ops2 ?lo ?hi _ =>
    unfold kept_range; cbn zeta; intros W Hm Hq Hlo Hhi; destruct (range_pos zero grow m s ops1 ops2 lo hi W Hm Hq Hlo Hhi) as (k1 & k2 & w1 & w2 & it & R1 & Hl & R2 & Hit & Hrp);
    pose proof (rmoves_nonneg grow (length (snd (r_after zero grow ops1 (m, s, [])))) ops2) as J0; cbn zeta in *;
    destruct (ruse_pos zero grow m s k2 _ w2 _ it _ R2 Hit Hrp) as (U1 & U2 & U3); pose proof (rslot_some grow _ _ _ _ _ _ _ (proj1 R2) Hrp J0) as Sl; cbn [rp_i rp_len rp_gen rp_lo] in *;
    set (c1 := r_after zero grow ops1 (m, s, [])) in *; set (x := length (snd c1)) in *; set (q := rmoves x ops2) in *; set (c2 := r_after zero grow (RRange lo hi :: ops2) c1) in * end.
(** No call invalidates the iterator: it runs over hi - lo places. *)
Theorem C122_never_invalid : forall T (zero : T) grow m s (ops1 ops2 : list (rstmt T)) lo hi, kept_range zero grow m s ops1 ops2 lo hi (fun c1 x c2 q =>
  client (vec_listing zero grow) (IIsNotEnd x) c2 = (Ok (IBool (q <? hi - lo)), c2) /\
  if q <? hi - lo then (exists v, client (vec_listing zero grow) (IValue x) c2 = (Ok (IValueIs v), c2)) /\ (forall v, fst (client (vec_listing zero grow) (IStore x v) c2) = Ok IDone)
  else client (vec_listing zero grow) (IValue x) c2 = (Panic, c2) /\ forall v, client (vec_listing zero grow) (IStore x v) c2 = (Panic, c2)).
Proof.
  intros T zero grow m s ops1 ops2 lo hi. at_range. split; [exact U1|]. destruct (q <? hi - lo).
  - destruct Sl as (v & Sl). rewrite Sl in *. split; [eauto|]. intros v'. destruct (U3 v') as (m' & -> & _). reflexivity.
  - rewrite Sl in *. auto.
Qed.
Print Assumptions C122_never_invalid.
(** While the vector stays in the storage it was in, the iterator stands on
    element lo + q of the vector as it is now, and writing through it writes that
    element.  The element need not have been there when the iterator was taken. *)
Theorem C122_same_storage : forall T (zero : T) grow m s (ops1 ops2 : list (rstmt T)) lo hi, kept_range zero grow m s ops1 ops2 lo hi (fun c1 x c2 q =>
  s_arr (snd (fst c2)) = s_arr (snd c1) -> q < hi - lo -> lo + q < s_len (snd (fst c2)) ->
  (exists v, zget (c_contents (fst c2)) (lo + q) = Some v /\ client (vec_listing zero grow) (IValue x) c2 = (Ok (IValueIs v), c2)) /\
  forall v, let r := client (vec_listing zero grow) (IStore x v) c2 in fst r = Ok IDone /\ c_contents (fst (snd r)) = zupd (c_contents (fst c2)) (lo + q) v).
Proof.
  intros T zero grow m s ops1 ops2 lo hi. at_range. intros Ea Hn Hn2. destruct (Z.ltb_spec q (hi - lo)); [|lia]. destruct Sl as (v & Sl). rewrite Sl in *.
  pose proof (proj1 (same_arr _ _ _ _ _ _ _ _ R1 (proj1 R2) Hl) Ea) as Eg. destruct R2 as [R2 _]. destruct c2 as [[m2 s2] its], w2 as [w2 vs]. cbn [fst snd] in *.
  unfold rw_slot in Sl. cbn [rp_i rp_len rp_gen rp_lo] in Sl. destruct (_ && _); [|discriminate]. rewrite <- Eg, nth_now in Sl. pose proof (Rs_wok _ _ _ _ _ R2) as Wo. pose proof (Rs_len _ _ _ _ _ _ R2) as Ln.
  split.
  - exists v. unfold c_contents. cbn [fst snd]. rewrite <- (Rs_elems _ _ _ _ _ _ R2), zget_elems by (auto; lia). auto.
  - intros v'. destruct (U3 v') as (m' & -> & R'). cbn [fst snd]. split; [reflexivity|]. unfold rw_write in R'. rewrite write_now in R' by (symmetry; exact Eg). cbn [vp_i rp_i rp_lo] in R'. unfold c_contents. cbn [fst snd].
    rewrite <- (Rs_elems _ _ _ _ _ _ R2), <- (Rs_elems _ _ _ _ _ _ R'). unfold elems. cbn [vw_now vw_len]. apply zsub_zupd; unfold wok, room in Wo; lia.
Qed.
Print Assumptions C122_same_storage.
(** Behind the end of the vector, or in a storage it has left, the iterator still
    writes, but no element changes. *)
Theorem C122_elsewhere : forall T (zero : T) grow m s (ops1 ops2 : list (rstmt T)) lo hi, kept_range zero grow m s ops1 ops2 lo hi (fun c1 x c2 q =>
  s_arr (snd (fst c2)) <> s_arr (snd c1) \/ s_len (snd (fst c2)) <= lo + q -> forall v, c_contents (fst (snd (client (vec_listing zero grow) (IStore x v) c2))) = c_contents (fst c2)).
Proof.
  intros T zero grow m s ops1 ops2 lo hi. at_range. intros Ha v. specialize (U3 v). destruct (rw_slot (fst w2) _) as [y|]; [|rewrite U3; reflexivity]. destruct U3 as (m' & -> & R'). cbn [fst snd].
  pose proof (same_arr _ _ _ _ _ _ _ _ R1 (proj1 R2) Hl) as Sa. destruct R2 as [R2 _]. destruct c2 as [[m2 s2] its], w2 as [w2 vs]. cbn [fst snd] in *. unfold c_contents. cbn [fst snd].
  rewrite <- (Rs_elems _ _ _ _ _ _ R2), <- (Rs_elems _ _ _ _ _ _ R'). unfold rw_write, elems. cbn [rp_gen rp_lo rp_len rp_i].
  destruct (Nat.eq_dec (length (vw_old w1)) (length (vw_old w2))) as [Eg|Ng].
  - destruct Ha as [Ha|Ha]; [exfalso; apply Ha, Sa; auto|]. rewrite write_now by exact Eg. cbn [vw_now vw_len vp_i]. rewrite (Rs_len _ _ _ _ _ _ R2) in Ha. pose proof (Rs_wok _ _ _ _ _ R2) as Wo. unfold wok, room in Wo.
    apply zlist_eq. intros i Hi. rewrite !zget_zsub by (rewrite ?zlen_zupd; lia). destruct (Z.ltb_spec i (vw_len w2 - 0)); [|reflexivity]. rewrite zget_zupd_ne by lia. reflexivity.
  - destruct (write_old w2 (mkVP (length (vw_old w1)) (lo + (hi - lo)) (lo + q)) v Ng) as (-> & ->). reflexivity.
Qed.
Print Assumptions C122_elsewhere.
(** Expected: an iterator over a range shows elements of that range of the vector.
    It can show what is no element, and reads a slot of the storage that the
    vector does not use. *)
Definition C122_expected : Prop := forall T (zero : T) grow m s (ops1 ops2 : list (rstmt T)) lo hi, kept_range zero grow m s ops1 ops2 lo hi (fun c1 x c2 q =>
  forall v, ops2 = [] -> client (vec_listing zero grow) (IValue x) c2 = (Ok (IValueIs v), c2) -> zget (c_contents c1) (lo + q) = Some v).
Theorem C122_refuted : ~ C122_expected.
Proof.
  intros H. assert (W : wf_slice [[1; 2; 7]] (mkSlice 0 0 2 3)) by (unfold wf_slice, zlen; simpl; lia).
  specialize (H Z 0 (fun c n => 2 * c) [[1; 2; 7]] (mkSlice 0 0 2 3) [] [] 2 3 W ltac:(vm_compute; congruence) ltac:(vm_compute; congruence) ltac:(lia) ltac:(vm_compute; congruence) 7 eq_refl eq_refl).
  vm_compute in H. discriminate.
Qed.
Print Assumptions C122_refuted.
(** A vector of two elements in a storage of four, in the middle of an array: an
    iterator over the free places sees what is pushed, until the vector moves. *)
Example C122_hyp : let m := [[7; 1; 2; 0; 0; 9]] in let s := mkSlice 0 1 2 4 in let g := fun c n => 2 * c in
  let ops2 := [RStmt (ICall (VCall (VPushBack 5))); RStmt (IMoveToNext 0)] in let c2 := r_after 0 g (RRange 1 4 :: ops2) (m, s, []) in
  wf_slice m s /\ rmoves 0 ops2 = 1 /\ s_arr (snd (fst c2)) = 0%nat /\ s_len s = 2 /\ fst (client (vec_listing 0 g) (IValue 0) c2) = Ok (IValueIs 5).
Proof. cbn zeta. split; [unfold wf_slice, zlen; simpl; lia|]. vm_compute. auto. Qed.
Example C122_runs : let m := [[7; 1; 2; 0; 0; 9]] in let s := mkSlice 0 1 2 4 in
  let r := run (code 0 (fun c n => 2 * c)) [RRange 1 5; RRange 2 1; RRange 2 4; RStmt (IValue 0); RStmt (ICall (VCall (VPushBack 5))); RStmt (IValue 0); RStmt (IStore 0 6); RStmt (ICall (VCall (VAt 2))); RStmt (ICall (VCall (VAppend [3; 3]))); RStmt (IStore 0 8); RStmt (ICall (VCall (VAt 2))); RStmt (IValue 0); RStmt (IMoveToNext 0); RStmt (IMoveToNext 0); RStmt (IIsNotEnd 0); RStmt (IValue 0)] (m, s, []) in
  fst r = [Panic; Panic; Ok IDone; Ok (IValueIs 0); Ok (IRes ONone); Ok (IValueIs 5); Ok IDone; Ok (IRes (OVal 6)); Ok (IRes ONone); Ok IDone; Ok (IRes (OVal 6)); Ok (IValueIs 8); Ok IDone; Ok IDone; Ok (IBool false); Panic] /\
  fst (fst (snd r)) = [[7; 1; 2; 8; 0; 9]; [3; 3]; [1; 2; 6; 3; 3; 0; 0; 0]].
Proof. vm_compute. auto. Qed.
