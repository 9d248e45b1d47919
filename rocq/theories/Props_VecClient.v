(** C91-C93: clients of a Vector that keep iterators and pointers over changes,
    and ForEach callbacks that change the vector. *)
From Verif Require Import BaseLemmas Spec Trace Proof_Mem Proof_Peek Model_Vector Spec_Vector Proof_Vector Proof_VectorOps Spec_Client Proof_Client Spec_VecClient Model_VecClient Proof_VecClient Proof_VecLoop.

Notation vop T := (iop (vcall T) T).
Notation vprog T := (prog (iop (vcall T) T) (ires (obs T) T)).
(** After the statements, starting in state c. *)
Definition v_after {T} (zero : T) grow (ops : list (vop T)) (c : cell T * list vectorIterator) := snd (run (client (vec_listing zero grow)) ops c).
Definition v_world {T} (zero : T) grow (ops : list (vop T)) (m : mem T) (s : slice) := snd (run (client (vw_spec zero grow)) ops (mkVW (cap_contents m s) (s_len s) [], [])).
Notation VR m s := (RC (list slice) (Rs m s) Rp).
Lemma F2_nth_r {A B} (R : A -> B -> Prop) l l' : Forall2 R l l' -> forall n b, nth_error l' n = Some b -> exists a, nth_error l n = Some a /\ R a b.
Proof. induction 1; intros [|n] a E; try discriminate; cbn in *; [injection E as <-; eauto|auto]. Qed.
Lemma v_start {T} (zero : T) grow m s (ops : list (vop T)) : wf_slice m s -> s_len s <= max_int ->
  fst (run (client (vec_listing zero grow)) ops (m, s, [])) = fst (run (client (vw_spec zero grow)) ops (mkVW (cap_contents m s) (s_len s) [], [])) /\
  exists k, VR m s k (v_after zero grow ops (m, s, [])) (v_world zero grow ops m s).
Proof.
  intros W Hm. destruct (run_sim zero grow m s ops [full s] (m, s, []) (mkVW (cap_contents m s) (s_len s) [], [])) as (E & k & _ & R); [split; [now apply Rs_init|constructor]|]. eauto.
Qed.

(** ** C91 *)
(** Every sequence of statements on a vector (calls, iterators and pointers
    taken, moved, read and written whenever) shows what the specification
    shows. *)
Theorem C91_kept_iterators : forall T (zero : T) grow m s (ops : list (vop T)), wf_slice m s -> s_len s <= max_int ->
  let code := run (client (vec_listing zero grow)) ops (m, s, []) in let spec := run (client (vw_spec zero grow)) ops (mkVW (cap_contents m s) (s_len s) [], []) in
  fst code = fst spec /\ c_contents (fst (snd code)) = elems (fst (snd spec)) /\ s_cap (snd (fst (snd code))) = room (fst (snd spec)).
Proof.
  intros T zero grow m s ops W Hm. cbn zeta. destruct (v_start zero grow m s ops W Hm) as (E & k & R & _). unfold v_after, v_world in R. split; [exact E|].
  destruct (fst (snd (run (client (vec_listing zero grow)) ops (m, s, [])))) as [m' s']. split; symmetry; [exact (Rs_elems _ _ _ _ _ _ R)|exact (Rs_room _ _ _ _ _ _ R)].
Qed.
Print Assumptions C91_kept_iterators.
(** Nothing else in memory is written: only the first storage and new ones. *)
Theorem C91_others_untouched : forall T (zero : T) grow m s (ops : list (vop T)), wf_slice m s -> s_len s <= max_int ->
  old_same_except m (fst (fst (v_after zero grow ops (m, s, [])))) (s_arr s) (s_off s) (s_off s + s_cap s).
Proof. intros T zero grow m s ops W Hm. destruct (v_start zero grow m s ops W Hm) as (_ & k & R & _). apply R. Qed.
Print Assumptions C91_others_untouched.
(** A vector in the middle of a larger array, an iterator kept over a removal, an
    append in place, a reallocation and a clear. *)
Example C91_hyp : let m := [[7; 1; 2; 3; 8; 9]] in let s := mkSlice 0 1 3 4 in
  let ops := [IIterate; ICall (VCall (VRemove 0)); IValue 0; IMoveToNext 0; IMoveToNext 0; IIsNotEnd 0; IValue 0; IStore 0 5; ICall (VCall (VPushBack 4)); IValue 0; ICall (VCall (VAppend [6; 6])); ICall VCap; IStore 0 0; ICall (VCall (VAt 2)); IValue 0; ICall (VCall VClear); IValue 0; IMoveToNext 0; IIsNotEnd 0; IValue 0] in
  wf_slice m s /\ fst (run (client (vec_listing 0 (fun c n => 2 * c))) ops (m, s, [])) =
    [Ok IDone; Ok (IRes ONone); Ok (IValueIs 2); Ok IDone; Ok IDone; Ok (IBool true); Ok (IValueIs 0); Ok IDone; Ok (IRes ONone); Ok (IValueIs 4); Ok (IRes ONone); Ok (IRes (OInt 8)); Ok IDone; Ok (IRes (OVal 4)); Ok (IValueIs 0); Ok (IRes ONone); Ok (IValueIs 0); Ok IDone; Ok (IBool false); Panic] /\
  fst (fst (v_after 0 (fun c n => 2 * c) ops (m, s, []))) = [[7; 2; 3; 0; 8; 9]; [6; 6]; [0; 0; 0; 0; 0; 0; 0; 0]].
Proof. cbn zeta. split; [unfold wf_slice, zlen; simpl; lia|]. split; vm_compute; reflexivity. Qed.

(** ** C92 *)
(** An iterator taken in the state c1 that any statements [ops1] lead to, after
    further statements [ops2]: its variable, the length when it was taken, the
    state, and how far it was moved. *)
Definition kept {T} (zero : T) grow m s (ops1 ops2 : list (vop T)) (P : cell T -> nat -> cell T * list vectorIterator -> Z -> Prop) : Prop :=
  let c1 := v_after zero grow ops1 (m, s, []) in let x := length (snd c1) in let j := moves x ops2 in
  wf_slice m s -> s_len s <= max_int -> j <= max_int -> P (fst c1) x (v_after zero grow (IIterate :: ops2) c1) j.
Lemma kept_pos {T} (zero : T) grow m s (ops1 ops2 : list (vop T)) : kept zero grow m s ops1 ops2 (fun c1 x c2 j =>
  exists k1 k2 w1 (w2 : vworld T * list vpos) it, let p := mkVP (length (vw_old w1)) (s_len (snd c1)) j in
    Rs m s k1 c1 w1 /\ le k1 k2 /\ VR m s k2 c2 w2 /\ nth_error (snd c2) x = Some it /\ nth_error (snd w2) x = Some p /\ Rp k2 it p /\
    (Forall no_store ops2 -> vacated zero (vp_gen p) (vp_len p) (fst w2))).
Proof.
  unfold kept. cbn zeta. intros W Hm Hj. set (c1 := v_after zero grow ops1 (m, s, [])) in *. set (x := length (snd c1)) in *. set (j := moves x ops2) in *. destruct (v_start zero grow m s ops1 W Hm) as (_ & k1 & R1). fold c1 in R1. destruct (v_world zero grow ops1 m s) as [w1 vs1] eqn:Ew.
  destruct (run_sim zero grow m s (IIterate :: ops2) k1 c1 (w1, vs1) R1) as (_ & k2 & Hl & R2). fold (v_after zero grow (IIterate :: ops2) c1) in R2.
  set (w2 := snd (run (client (vw_spec zero grow)) (IIterate :: ops2) (w1, vs1))) in *.
  assert (Lx : length vs1 = x). { destruct R1 as [_ F]. cbn [fst snd] in F. unfold x. clear - F. induction F; cbn; congruence. }
  assert (Ln : vw_len w1 = s_len (snd (fst c1))). { destruct R1 as [R1 _]. cbn [fst] in R1. destruct (fst c1) as [m1 s1]. cbn [snd]. symmetry. exact (Rs_len _ _ _ _ _ _ R1). }
  set (p0 := mkVP (length (vw_old w1)) (s_len (snd (fst c1))) 0).
  assert (Ew2 : w2 = snd (run (client (vw_spec zero grow)) ops2 (w1, vs1 ++ [p0]))).
  { unfold w2. cbn [run]. unfold client at 1. cbn [l_iterate vw_spec]. unfold bind, on_list, declare, ret. cbn [fst snd]. rewrite Ln. fold p0. destruct (run _ ops2 _). reflexivity. }
  assert (H0 : nth_error (vs1 ++ [p0]) x = Some p0) by (rewrite nth_error_app2, Lx, Nat.sub_diag by lia; reflexivity).
  pose proof (vars_run zero grow ops2 w1 (vs1 ++ [p0]) x p0 H0 ltac:(cbn; lia) ltac:(cbn [vp_i p0]; lia)) as Hp. rewrite <- Ew2 in Hp. cbn [vp_gen vp_len vp_i p0] in Hp. fold j in Hp. rewrite Z.add_0_l in Hp.
  assert (Hit : exists it, nth_error (snd (v_after zero grow (IIterate :: ops2) c1)) x = Some it /\ Rp k2 it (mkVP (length (vw_old w1)) (s_len (snd (fst c1))) j)).
  { destruct R2 as [_ F]. exact (F2_nth_r _ _ _ F _ _ Hp). }
  destruct Hit as (it & Hit & Hrp). exists k1, k2, w1, w2, it. cbn zeta. split; [exact (proj1 R1)|]. split; [exact Hl|]. split; [exact R2|]. split; [exact Hit|]. split; [exact Hp|]. split; [exact Hrp|].
  intros F. cbn [vp_gen vp_len]. unfold w2. apply (kept_vacated zero grow m s _ _ (IIterate :: ops2) k1 c1 (w1, vs1)); [constructor; [exact I|exact F]|exact R1|unfold before; cbn [fst]; lia|].
  intros _ q Hq. cbn [fst] in Hq. lia.
Qed.
Lemma slot_some {T} m0 s0 k (c : cell T) w it p : Rs m0 s0 k c w -> Rp k it p -> 0 <= vp_i p -> if vp_i p <? vp_len p then exists v, vw_slot w p = Some v else vw_slot w p = None.
Proof.
  destruct c as [m s]. intros R Hrp Hi. destruct (slot_ok _ _ _ _ _ _ _ _ R Hrp) as (Wi & <-). destruct Hrp as (t & Ht & Ev & Hn & Ei).
  pose proof (zlen_contents _ _ Wi) as Zc. rewrite Ev in Zc at 2. cbn [s_len] in Zc. rewrite <- Ei in *.
  destruct (zget (contents m (vi_v it)) (vi_i it)) as [v|] eqn:G; [apply zget_Some_range in G; destruct (Z.ltb_spec (vi_i it) (vp_len p)); [eauto|lia]|].
  apply zget_None in G. destruct (Z.ltb_spec (vi_i it) (vp_len p)); [lia|reflexivity].
Qed.
Lemma use_pos {T} (zero : T) grow m s k (c : cell T * list vectorIterator) (w : vworld T * list vpos) x it p : VR m s k c w -> nth_error (snd c) x = Some it -> Rp k it p ->
  client (vec_listing zero grow) (IIsNotEnd x) c = (Ok (IBool (vp_i p <? vp_len p)), c) /\
  client (vec_listing zero grow) (IValue x) c = (match vw_slot (fst w) p with Some v => Ok (IValueIs v) | None => Panic end, c) /\
  forall v, match vw_slot (fst w) p with
    | Some _ => exists m', client (vec_listing zero grow) (IStore x v) c = (Ok IDone, (m', snd (fst c), snd c)) /\ Rs m s k (m', snd (fst c)) (vw_write (fst w) p v)
    | None => client (vec_listing zero grow) (IStore x v) c = (Panic, c) end.
Proof.
  destruct c as [[m2 s2] its], w as [w vs]. intros [R _] Hit Hrp. cbn [fst snd] in *. pose proof (slot_ok _ _ _ _ _ _ _ _ R Hrp) as (Wi & G).
  pose proof (fun v => store_ok grow _ _ _ _ _ _ _ _ v R Hrp) as St. destruct Hrp as (t & Ht & Ev & Hn & Ei).
  unfold client, with_var. cbn [fst snd]. rewrite Hit. unfold bind, on_list, ret. cbn [l_more l_value l_store vec_listing fst snd]. unfold ret, lift_mem, vi_Value. cbn [fst snd].
  split; [unfold vi_IsNotEnd; rewrite Ev, Ei; reflexivity|]. rewrite <- G in *. destruct (zget (contents m2 (vi_v it)) (vi_i it)) as [v|] eqn:Gv.
  - split; [rewrite (sload_ok _ _ _ _ Wi Gv); reflexivity|]. intros v'. destruct (St v') as (m' & E & R'). exists m'. rewrite E. auto.
  - split; [rewrite (sload_panic _ _ _ Wi Gv); reflexivity|]. intros v'. rewrite (St v'). reflexivity.
Qed.
Lemma write_now {T} (w : vworld T) p v : vp_gen p = length (vw_old w) -> vw_write w p v = mkVW (zupd (vw_now w) (vp_i p) v) (vw_len w) (vw_old w).
Proof. intros E. unfold vw_write. rewrite E, Nat.eqb_refl, nth_now. reflexivity. Qed.
Lemma write_old {T} (w : vworld T) p v : vp_gen p <> length (vw_old w) -> vw_now (vw_write w p v) = vw_now w /\ vw_len (vw_write w p v) = vw_len w.
Proof. intros E. unfold vw_write. destruct (Nat.eqb_spec (vp_gen p) (length (vw_old w))); [contradiction|]. auto. Qed.
Lemma zsub_zupd {A} (l : list A) i n v : 0 <= i < n -> n <= zlen l -> zsub (zupd l i v) 0 n = zupd (zsub l 0 n) i v.
Proof.
  intros Hi Hn. apply zlist_eq. intros q Hq. destruct (Z.eq_dec i q) as [<-|N].
  - rewrite (zget_zupd_eq (zsub l 0 n)) by (rewrite zlen_zsub by lia; lia). rewrite zget_zsub by (rewrite ?zlen_zupd; lia). destruct (Z.ltb_spec i (n - 0)); [|lia]. rewrite Z.add_0_l. apply zget_zupd_eq. lia.
  - rewrite (zget_zupd_ne (zsub l 0 n)) by auto. rewrite !zget_zsub by (rewrite ?zlen_zupd; lia). rewrite zget_zupd_ne by lia. reflexivity.
Qed.
Ltac at_kept :=
  match goal with |- kept ?zero ?grow ?m ?s ?ops1 ?ops2 _ =>
    unfold kept; cbn zeta; intros W Hm Hj; destruct (kept_pos zero grow m s ops1 ops2 W Hm Hj) as (k1 & k2 & w1 & w2 & it & R1 & Hl & R2 & Hit & Hp & Hrp & Va);
    pose proof (moves_nonneg (length (snd (v_after zero grow ops1 (m, s, [])))) ops2) as J0; cbn zeta in *;
    destruct (use_pos zero grow m s k2 _ w2 _ it _ R2 Hit Hrp) as (U1 & U2 & U3); pose proof (slot_some _ _ _ _ _ _ _ (proj1 R2) Hrp J0) as Sl; cbn [vp_i vp_len vp_gen] in *;
    set (c1 := v_after zero grow ops1 (m, s, [])) in *; set (x := length (snd c1)) in *; set (j := moves x ops2) in *; set (n := s_len (snd (fst c1))) in *; set (c2 := v_after zero grow (IIterate :: ops2) c1) in * end.
(** No call invalidates an iterator: it runs over as many elements as the vector
    had when it was taken. *)
Theorem C92_never_invalid : forall T (zero : T) grow m s (ops1 ops2 : list (vop T)), kept zero grow m s ops1 ops2 (fun c1 x c2 j =>
  client (vec_listing zero grow) (IIsNotEnd x) c2 = (Ok (IBool (j <? s_len (snd c1))), c2) /\
  if j <? s_len (snd c1) then (exists v, client (vec_listing zero grow) (IValue x) c2 = (Ok (IValueIs v), c2)) /\ (forall v, fst (client (vec_listing zero grow) (IStore x v) c2) = Ok IDone)
  else client (vec_listing zero grow) (IValue x) c2 = (Panic, c2) /\ forall v, client (vec_listing zero grow) (IStore x v) c2 = (Panic, c2)).
Proof.
  intros T zero grow m s ops1 ops2. at_kept. split; [exact U1|]. destruct (j <? n).
  - destruct Sl as (v & Sl). rewrite Sl in *. split; [eauto|]. intros v'. destruct (U3 v') as (m' & -> & _). reflexivity.
  - rewrite Sl in *. auto.
Qed.
Print Assumptions C92_never_invalid.
(** While the vector stays in the storage it was in, the iterator stands on
    element j, and writing through it writes that element. *)
Theorem C92_same_storage : forall T (zero : T) grow m s (ops1 ops2 : list (vop T)), kept zero grow m s ops1 ops2 (fun c1 x c2 j =>
  s_arr (snd (fst c2)) = s_arr (snd c1) -> j < s_len (snd c1) -> j < s_len (snd (fst c2)) ->
  (exists v, zget (c_contents (fst c2)) j = Some v /\ client (vec_listing zero grow) (IValue x) c2 = (Ok (IValueIs v), c2)) /\
  forall v, let r := client (vec_listing zero grow) (IStore x v) c2 in fst r = Ok IDone /\ c_contents (fst (snd r)) = zupd (c_contents (fst c2)) j v).
Proof.
  intros T zero grow m s ops1 ops2. at_kept. intros Ea Hn Hn2. destruct (Z.ltb_spec j n); [|lia]. destruct Sl as (v & Sl). rewrite Sl in *.
  pose proof (proj1 (same_arr _ _ _ _ _ _ _ _ R1 (proj1 R2) Hl) Ea) as Eg. destruct R2 as [R2 _]. destruct c2 as [[m2 s2] its], w2 as [w2 vs]. cbn [fst snd] in *.
  unfold vw_slot in Sl. cbn [vp_i vp_len vp_gen] in Sl. destruct (_ && _); [|discriminate]. rewrite <- Eg, nth_now in Sl. pose proof (Rs_wok _ _ _ _ _ R2) as Wo. pose proof (Rs_len _ _ _ _ _ _ R2) as Ln.
  split.
  - exists v. unfold c_contents. cbn [fst snd]. rewrite <- (Rs_elems _ _ _ _ _ _ R2), zget_elems by (auto; lia). auto.
  - intros v'. destruct (U3 v') as (m' & -> & R'). cbn [fst snd]. split; [reflexivity|]. rewrite write_now in R' by (symmetry; exact Eg). cbn [vp_i] in R'. unfold c_contents. cbn [fst snd].
    rewrite <- (Rs_elems _ _ _ _ _ _ R2), <- (Rs_elems _ _ _ _ _ _ R'). unfold elems. cbn [vw_now vw_len]. apply zsub_zupd; unfold wok, room in Wo; lia.
Qed.
Print Assumptions C92_same_storage.
(** Elements that were removed meanwhile read as zero values. *)
Theorem C92_vacated : forall T (zero : T) grow m s (ops1 ops2 : list (vop T)), Forall no_store ops2 -> kept zero grow m s ops1 ops2 (fun c1 x c2 j =>
  s_arr (snd (fst c2)) = s_arr (snd c1) -> s_len (snd (fst c2)) <= j < s_len (snd c1) ->
  client (vec_listing zero grow) (IValue x) c2 = (Ok (IValueIs zero), c2)).
Proof.
  intros T zero grow m s ops1 ops2 Ns. at_kept. intros Ea Hn. destruct (Z.ltb_spec j n); [|lia]. destruct Sl as (v & Sl). rewrite Sl in *. rewrite U2.
  pose proof (proj1 (same_arr _ _ _ _ _ _ _ _ R1 (proj1 R2) Hl) Ea) as Eg. specialize (Va Ns (eq_sym Eg)). destruct R2 as [R2 _]. destruct c2 as [[m2 s2] its], w2 as [w2 vs]. cbn [fst snd] in *.
  unfold vw_slot in Sl. cbn [vp_i vp_len vp_gen] in Sl. destruct (_ && _); [|discriminate]. rewrite <- Eg, nth_now in Sl. rewrite (Rs_len _ _ _ _ _ _ R2) in Hn. rewrite (Va j Hn) in Sl. now injection Sl as <-.
Qed.
Print Assumptions C92_vacated.
(** Once the vector has moved, the iterator stands on the old storage: writing
    through it changes nothing the vector shows, and the vector's calls do not
    change what it shows. *)
Lemma local_calls {T} (zero : T) grow (calls : list (vcall T)) : forall (w w' : vworld T) vs vs', vw_now w = vw_now w' -> vw_len w = vw_len w' ->
  fst (run (client (vw_spec zero grow)) (map ICall calls) (w, vs)) = fst (run (client (vw_spec zero grow)) (map ICall calls) (w', vs')).
Proof.
  induction calls as [|c calls IH]; intros w w' vs vs' En El; [reflexivity|]. cbn [map run client]. unfold bind, on_list, ret. cbn [fst snd l_call vw_spec].
  assert (Er : room w = room w') by (unfold room; congruence). destruct c as [o|].
  - rewrite Er, El. destruct (in_scope _ _ o).
    + destruct (step_local zero grow o w w' En El) as (E1 & E2 & E3). destruct (vw_step zero grow o w) as [r1 u1], (vw_step zero grow o w') as [r2 u2]. cbn [fst snd] in *. subst r2.
      destruct r1; cbn [fst snd]; specialize (IH u1 u2 vs vs' E2 E3); destruct (run _ _ (u1, vs)), (run _ _ (u2, vs')); cbn [fst] in *; congruence.
    + specialize (IH w w' vs vs' En El). destruct (run _ _ (w, vs)), (run _ _ (w', vs')); cbn [fst] in *; congruence.
  - rewrite Er. specialize (IH w w' vs vs' En El). destruct (run _ _ (w, vs)), (run _ _ (w', vs')); cbn [fst] in *; congruence.
Qed.
Lemma old_slot {T} (w w' : vworld T) p l : (vp_gen p < length (vw_old w))%nat -> vw_old w' = vw_old w ++ l -> vw_slot w' p = vw_slot w p /\ (vp_gen p < length (vw_old w'))%nat.
Proof. intros Hg E. unfold vw_slot, storages. rewrite E, <- app_assoc, app_length, !(app_nth1 _ _ _ Hg). split; [reflexivity|lia]. Qed.
Lemma calls_slot {T} (zero : T) grow m s (calls : list (vcall T)) p : forall k c (w : vworld T * list vpos), VR m s k c w -> (vp_gen p < length (vw_old (fst w)))%nat ->
  snd (snd (run (client (vw_spec zero grow)) (map ICall calls) w)) = snd w /\ vw_slot (fst (snd (run (client (vw_spec zero grow)) (map ICall calls) w))) p = vw_slot (fst w) p.
Proof.
  induction calls as [|o calls IH]; intros k c w R Hg; [auto|]. cbn [map run]. destruct (step_sim zero grow m s (ICall o) k c w R) as (k' & _ & R'). destruct w as [w vs]. cbn [fst snd] in *.
  pose proof (client_world zero grow (ICall o) w vs I) as Ew. assert (Ev : snd (snd (client (vw_spec zero grow) (ICall o) (w, vs))) = vs).
  { cbn [client]. unfold bind, on_list, ret. cbn [fst snd]. destruct (l_call _ o w) as [[]]; reflexivity. }
  assert (Ho : exists l, vw_old (fst (snd (client (vw_spec zero grow) (ICall o) (w, vs)))) = vw_old w ++ l).
  { rewrite Ew. destruct o as [o|]; [|exists []; symmetry; apply app_nil_r]. destruct (in_scope _ _ o); [|exists []; symmetry; apply app_nil_r]. rewrite step_old by exact (Rs_wok _ _ _ _ _ (proj1 R)).
    destruct (moving _ _ o); [eexists; reflexivity|exists []; symmetry; apply app_nil_r]. }
  destruct Ho as (l & Ho). destruct (client (vw_spec zero grow) (ICall o) (w, vs)) as [r [w' vs']]. cbn [fst snd] in *. subst vs'. destruct (old_slot w w' p l Hg Ho) as (E & Hg').
  destruct (IH k' _ (w', vs) R' Hg') as (I1 & I2). destruct (run _ _ (w', vs)) as [rs [w3 vs3]]. cbn [fst snd] in *. split; congruence.
Qed.
Theorem C92_detached : forall T (zero : T) grow m s (ops1 ops2 : list (vop T)), kept zero grow m s ops1 ops2 (fun c1 x c2 j =>
  s_arr (snd (fst c2)) <> s_arr (snd c1) -> forall calls : list (vcall T), let L := vec_listing zero grow in
  (forall v, let r := client L (IStore x v) c2 in c_contents (fst (snd r)) = c_contents (fst c2) /\ fst (run (client L) (map ICall calls) (snd r)) = fst (run (client L) (map ICall calls) c2)) /\
  fst (client L (IValue x) (v_after zero grow (map ICall calls) c2)) = fst (client L (IValue x) c2)).
Proof.
  intros T zero grow m s ops1 ops2. at_kept. intros Ea calls. cbn zeta. pose proof (same_arr _ _ _ _ _ _ _ _ R1 (proj1 R2) Hl) as Sa.
  set (p := mkVP (length (vw_old w1)) n j) in *.
  assert (Eg : vp_gen p <> length (vw_old (fst w2))) by (intros E; apply Ea, Sa; now rewrite <- E).
  assert (Lg : (vp_gen p < length (vw_old (fst w2)))%nat).
  { destruct Hrp as (t & Ht & _). assert (Q : (vp_gen p < length k2)%nat) by (apply nth_error_Some; congruence). destruct R2 as [R2 _]. destruct (fst c2) as [m2 s2].
    destruct (Rs_parts _ _ _ _ _ _ R2) as (old & -> & Lo & _). rewrite app_length in Q. cbn [length] in Q. lia. }
  split.
  - intros v. specialize (U3 v). destruct (vw_slot (fst w2) p) as [y|]; [|rewrite U3; auto]. destruct U3 as (m' & -> & R'). cbn [fst snd]. destruct (write_old (fst w2) p v Eg) as (En & El). split.
    + pose proof (Rs_elems _ _ _ _ _ _ R') as E1. destruct R2 as [R2 _]. destruct c2 as [[m2 s2] its]. cbn [fst snd] in *. unfold c_contents. cbn [fst snd]. rewrite <- E1, <- (Rs_elems _ _ _ _ _ _ R2). unfold elems. congruence.
    + destruct (run_sim zero grow m s (map ICall calls) k2 c2 w2 R2) as (-> & _).
      destruct (run_sim zero grow m s (map ICall calls) k2 (m', snd (fst c2), snd c2) (vw_write (fst w2) p v, snd w2)) as (-> & _); [split; [exact R'|exact (proj2 R2)]|].
      etransitivity; [apply (local_calls zero grow calls _ (fst w2) _ (snd w2)); assumption|]. now rewrite <- surjective_pairing.
  - destruct (run_sim zero grow m s (map ICall calls) k2 c2 w2 R2) as (_ & k3 & Hl3 & R3). destruct (calls_slot zero grow m s calls p k2 c2 w2 R2 Lg) as (Ev & Es). fold (v_after zero grow (map ICall calls) c2) in R3.
    rewrite U2. destruct (F2_nth_r _ _ _ (proj2 R3) x p) as (it3 & Hit3 & Hrp3); [rewrite Ev; exact Hp|].
    destruct (use_pos zero grow m s k3 _ _ x it3 p R3 Hit3 Hrp3) as (_ & -> & _). rewrite Es. reflexivity.
Qed.
Print Assumptions C92_detached.
(** The calls that move the vector to another storage. *)
Theorem C92_when_moves : forall T (zero : T) grow m s (ops : list (vop T)) (o : vec_op T), wf_slice m s -> s_len s <= max_int ->
  let c := v_after zero grow ops (m, s, []) in let v := snd (fst c) in in_scope (s_len v) (s_cap v) o = true ->
  s_arr (snd (fst (snd (client (vec_listing zero grow) (ICall (VCall o)) c)))) = s_arr v <-> moving (s_len v) (s_cap v) o = false.
Proof.
  intros T zero grow m s ops o W Hm. cbn zeta. destruct (v_start zero grow m s ops W Hm) as (_ & k & R). set (c := v_after zero grow ops (m, s, [])) in *. set (w := v_world zero grow ops m s) in *. intros Hs.
  destruct (step_sim zero grow m s (ICall (VCall o)) k c w R) as (k' & Hl & R'). rewrite (same_arr _ _ _ _ _ _ _ _ (proj1 R) (proj1 R') Hl). clear R'.
  destruct w as [w vs], c as [[m' s'] its]. cbn [fst snd] in *. destruct R as [R _]. cbn [fst] in R. rewrite client_world by exact I. rewrite (Rs_len _ _ _ _ _ _ R), <- (Rs_room _ _ _ _ _ _ R) in *. rewrite Hs.
  rewrite step_old by exact (Rs_wok _ _ _ _ _ R). destruct (moving _ _ o); [rewrite storages_len|]; split; intros; try lia; auto; discriminate.
Qed.
Print Assumptions C92_when_moves.
(** Expected: writing through an iterator, or a pointer taken from it, writes the
    element of the vector at its place.  It does not once the vector has moved. *)
Definition C92_expected : Prop := forall T (zero : T) grow m s (ops1 ops2 : list (vop T)), kept zero grow m s ops1 ops2 (fun c1 x c2 j =>
  j < s_len (snd c1) -> j < s_len (snd (fst c2)) -> forall v, zget (c_contents (fst (snd (client (vec_listing zero grow) (IStore x v) c2)))) j = Some v).
Theorem C92_refuted : ~ C92_expected.
Proof.
  intros H. assert (W : wf_slice [[1; 2; 3]] (mkSlice 0 0 3 3)) by (unfold wf_slice, zlen; simpl; lia).
  specialize (H Z 0 (fun c n => 2 * c) [[1; 2; 3]] (mkSlice 0 0 3 3) [] [ICall (VCall (VPushBack 4))] W).
  assert (Q : zget (c_contents (fst (snd (client (vec_listing 0 (fun c n => 2 * c)) (IStore 0 9) (v_after 0 (fun c n => 2 * c) [IIterate; ICall (VCall (VPushBack 4))] ([[1; 2; 3]], mkSlice 0 0 3 3, [])))))) 0 = Some 9).
  { apply H; vm_compute; congruence. }
  vm_compute in Q. discriminate.
Qed.
Print Assumptions C92_refuted.
Example C92_hyp : let g := fun c n => 2 * c in let c1 := ([[1; 2; 3; 0]], mkSlice 0 0 3 4, []) in
  let stays := v_after 0 g [IIterate; ICall (VCall (VInsert 0 [9])); IMoveToNext 0; ICall (VCall (VRemoveRange 1 4))] c1 in let goes := v_after 0 g [IIterate; ICall (VCall (VAppend [4; 5]))] c1 in
  moves (T := Z) 0 [ICall (VCall (VInsert 0 [9])); IMoveToNext 0; ICall (VCall (VRemoveRange 1 4))] = 1 /\ s_arr (snd (fst stays)) = 0%nat /\ c_contents (fst stays) = [9] /\ fst (client (vec_listing 0 g) (IValue 0) stays) = Ok (IValueIs 0) /\
  s_arr (snd (fst goes)) = 2%nat /\ c_contents (fst (snd (client (vec_listing 0 g) (IStore 0 9) goes))) = [1; 2; 3; 4; 5].
Proof. vm_compute. intuition congruence. Qed.

(** ** C93 *)
Section Loops.
Context {T St : Type}.
Variable zero : T.
Variable grow : Z -> Z -> Z.
Notation L := (vec_listing zero grow).
Notation Sp := (vw_spec zero grow).
Lemma v_loop {A} (give1 : slice -> Z -> M (cell T * list vectorIterator) A) (give2 : vpos -> M (vworld T * list vpos) A) (op : St -> A -> vprog T (bool * St)) m s ops st : wf_slice m s -> s_len s <= max_int ->
  (forall k v i p, Rp k (mkVIt v i) p -> sim (list slice) le (VR m s) (@same (list slice) A) k (give1 v i) (give2 p)) ->
  let w := v_world zero grow ops m s in
  alike L Sp (vec_from_start zero grow give1 op st (v_after zero grow ops (m, s, []))) (over_at Sp give2 op (places (length (vw_old (fst w))) (vw_len (fst w))) st w).
Proof.
  intros W Hm Hg. cbn zeta. destruct (v_start zero grow m s ops W Hm) as (_ & k & R).
  eapply (agree_alike L Sp (list slice) le le_refl le_trans (Rs m s) Rp Rp_le (vec_sims zero grow m s)). exact (from_start_agree zero grow m s give1 give2 op st k _ _ Hg R).
Qed.
End Loops.
(** The loops with callbacks that do anything to the vector show, and leave, what
    the specification does: one round for each element the vector had at the
    start, on the places of the storage it was in then. *)
Theorem C93_rounds : forall T St (zero : T) grow m s (ops : list (vop T)) (st : St), wf_slice m s -> s_len s <= max_int ->
  let L := vec_listing zero grow in let Sp := vw_spec zero grow in let c := v_after zero grow ops (m, s, []) in let w := v_world zero grow ops m s in let at_start := places (length (vw_old (fst w))) (vw_len (fst w)) in
  (forall cb : St -> T -> vprog T St, alike L Sp (Vec_ForEach zero grow cb st c) (over_at Sp (give_value Sp) (fun st v => always (cb st v)) at_start st w)) /\
  (forall cb : St -> T -> vprog T (bool * St), alike L Sp (Vec_ForEachIf zero grow cb st c) (over_at Sp (give_value Sp) cb at_start st w)) /\
  (forall cb : St -> nat -> vprog T St, alike L Sp (Vec_ForEachMutable zero grow cb st c) (over_at Sp (give_pointer Sp) (fun st p => always (cb st p)) at_start st w)) /\
  (forall cb : St -> nat -> vprog T (bool * St), alike L Sp (Vec_ForEachMutableIf zero grow cb st c) (over_at Sp (give_pointer Sp) cb at_start st w)).
Proof.
  intros T St zero grow m s ops st W Hm. cbn zeta. split; [|split; [|split]]; intros cb; apply v_loop; auto; intros; try (now apply value_sim); now apply pointer_sim.
Qed.
Print Assumptions C93_rounds.
(** If the callback writes no element and removes none, the loop is the loop over
    the elements the vector had at the start, whatever it appends. *)
Theorem C93_snapshot : forall T St (zero : T) grow m s (ops : list (vop T)) (st : St), wf_slice m s -> s_len s <= max_int ->
  let L := vec_listing zero grow in let c := v_after zero grow ops (m, s, []) in let xs := c_contents (fst c) in
  (forall cb : St -> T -> vprog T St, (forall st v, only adds_only (cb st v)) -> Vec_ForEach zero grow cb st c = exec (client L) (over (fun st v => always (cb st v)) xs st) c) /\
  (forall cb : St -> T -> vprog T (bool * St), (forall st v, only adds_only (cb st v)) -> Vec_ForEachIf zero grow cb st c = exec (client L) (over cb xs st) c).
Proof.
  intros T St zero grow m s ops st W Hm. cbn zeta. destruct (v_start zero grow m s ops W Hm) as (_ & k & R).
  split; intros cb Hc; eapply from_start_held; eauto. intros. now apply only_map.
Qed.
Print Assumptions C93_snapshot.
(** ForEach and ForEachMutable end after as many calls as the vector had elements
    (counted by a callback that carries a counter), and panic only if a call does. *)
Lemma each_count {T A} (zero : T) grow m s (give1 : slice -> Z -> M (cell T * list vectorIterator) A) (give2 : vpos -> M (vworld T * list vpos) A) (cb : Z -> A -> vprog T Z) v g n :
  (forall k v i p, Rp k (mkVIt v i) p -> sim (list slice) le (VR m s) (@same (list slice) A) k (give1 v i) (give2 p)) ->
  (forall (w : vworld T * list vpos) p, vw_slot (fst w) p <> None -> exists a w', give2 p w = (Ok a, w')) ->
  (forall i a c' j, fst (exec (client (vec_listing zero grow)) (cb i a) c') = Ok j -> j = i + 1) ->
  forall r i st k c w, VR m s k c w -> (forall j, Rp k (mkVIt v j) (mkVP g n j)) -> 0 <= i -> i + Z.of_nat r = n ->
  let F := vec_each zero grow give1 (fun st a => always (cb st a)) v r i st c in
  fst F = Ok (st + Z.of_nat r) \/ (forall j, fst F <> Ok j) /\ exists i a c', fst (exec (client (vec_listing zero grow)) (cb i a) c') = fst F.
Proof.
  intros Hg Ht Hc. induction r as [|r IH]; intros i st k c w R Hv Hi En; cbn zeta; cbn [vec_each].
  - left. cbn. f_equal. lia.
  - destruct (Hg k v i _ (Hv i) k c w (le_refl k) R) as (k' & Hl & R' & Hq). pose proof (slot_some _ _ _ _ _ _ _ (proj1 R) (Hv i) Hi) as Sl. cbn [vp_i vp_len] in Sl. destruct (Z.ltb_spec i n); [|lia]. destruct Sl as (y & Sl).
    destruct (Ht w (mkVP g n i)) as (a & w' & Ew); [congruence|]. rewrite Ew in *. unfold bind at 1 3 5. destruct (give1 v i c) as [[a1| |] c1]; cbn [fst snd] in *; try contradiction. red in Hq. subst a1.
    destruct (exec_sim (vec_listing zero grow) (vw_spec zero grow) (list slice) le le_refl le_trans (Rs m s) Rp Rp_le (vec_sims zero grow m s) (cb st a) k' k' c1 w' (le_refl k') R') as (k2 & Hl2 & R2 & _).
    pose proof (exec_map (client (vec_listing zero grow)) (cb st a) (fun a => (true, a)) c1) as Ea. fold (always (cb st a)) in Ea. unfold bind in *. rewrite Ea. clear Ea. unfold ret. pose proof (Hc st a c1) as Hc1. destruct (exec (client (vec_listing zero grow)) (cb st a) c1) as [[st'| |] c2] eqn:Ex; cbn [fst snd exec] in *.
    + rewrite (Hc1 st' eq_refl) in *. destruct (IH (i + 1) (st + 1) k2 c2 _ R2) as [E|E]; [| lia | lia | | ].
      * intros j. eapply Rp_le; [|apply Hv]. eapply le_trans; eauto.
      * left. rewrite E. f_equal. lia.
      * right. exact E.
    + right. split; [discriminate|]. exists st, a, c1. rewrite Ex. reflexivity.
    + right. split; [discriminate|]. exists st, a, c1. rewrite Ex. reflexivity.
Qed.
Theorem C93_count : forall T (zero : T) grow m s (ops : list (vop T)), wf_slice m s -> s_len s <= max_int ->
  let c := v_after zero grow ops (m, s, []) in let calls {A} (cb : Z -> A -> vprog T Z) i a c' := fst (exec (client (vec_listing zero grow)) (cb i a) c') in
  let counts {A} (cb : Z -> A -> vprog T Z) r := (forall i a c' j, calls cb i a c' = Ok j -> j = i + 1) -> r = Ok (s_len (snd (fst c))) \/ (forall j, r <> Ok j) /\ exists i a c', calls cb i a c' = r in
  (forall cb, counts cb (fst (Vec_ForEach zero grow cb 0 c))) /\ (forall cb, counts cb (fst (Vec_ForEachMutable zero grow cb 0 c))).
Proof.
  intros T zero grow m s ops W Hm. cbn zeta. destruct (v_start zero grow m s ops W Hm) as (_ & k & R). destruct (v_after zero grow ops (m, s, [])) as [[m' s'] its]. destruct (v_world zero grow ops m s) as [w vs].
  pose proof (proj1 R) as R1. cbn [fst snd] in *. pose proof (hdr_Rp grow _ _ _ _ _ _ R1) as Hh. rewrite <- (Rs_len _ _ _ _ _ _ R1) in Hh. pose proof (Rs_wf _ _ _ _ _ _ R1) as (_ & _ & Hn & _).
  split; intros cb Hc; unfold Vec_ForEach, Vec_ForEachMutable, vec_from_start, bind, on_list, get_hdr; cbn [fst snd]; set (n := s_len s') in *.
  - destruct (each_count zero grow m s vec_value (give_value (vw_spec zero grow)) cb s' (length (vw_old w)) n) with (r := Z.to_nat n) (i := 0) (st := 0) (k := k) (c := (m', s', its)) (w := (w, vs)) as [E|E]; auto; try lia.
    + intros. now apply value_sim.
    + intros u p. unfold give_value, on_list. cbn [l_value vw_spec]. destruct (vw_slot (fst u) p) as [y|]; [|congruence]. intros _. eauto.
    + left. etransitivity; [exact E|]. f_equal. lia.
  - destruct (each_count zero grow m s vec_pointer (give_pointer (vw_spec zero grow)) cb s' (length (vw_old w)) n) with (r := Z.to_nat n) (i := 0) (st := 0) (k := k) (c := (m', s', its)) (w := (w, vs)) as [E|E]; auto; try lia.
    + intros. now apply pointer_sim.
    + intros u p. unfold give_pointer, on_list, bind, declare. cbn [l_pointer vw_spec]. destruct (vw_slot (fst u) p) as [y|]; [|congruence]. intros _. eauto.
    + left. etransitivity; [exact E|]. f_equal. lia.
Qed.
Print Assumptions C93_count.
(** Expected: ForEach passes elements of the vector to the callback.  With a
    callback that removes, it passes zero values. *)
Definition C93_expected : Prop := forall T (zero : T) grow m s (cb : list T -> T -> vprog T (list T)) seen, wf_slice m s -> s_len s <= max_int ->
  (forall st v c, match fst (exec (client (vec_listing zero grow)) (cb st v) c) with Ok st' => st' = st ++ [v] | _ => True end) ->
  fst (Vec_ForEach zero grow cb [] (m, s, [])) = Ok seen -> forall v, In v seen -> In v (contents m s).
Theorem C93_refuted : ~ C93_expected.
Proof.
  intros H. assert (W : wf_slice [[1; 2; 3]] (mkSlice 0 0 3 3)) by (unfold wf_slice, zlen; simpl; lia).
  specialize (H Z 0 (fun c n => 2 * c) [[1; 2; 3]] (mkSlice 0 0 3 3) (fun st v => Do (ICall (VCall (VRemove 0))) (fun _ => Done (st ++ [v]))) [1; 3; 0] W).
  assert (Q : In 0 [1; 2; 3]).
  { apply H; [vm_compute; congruence| |vm_compute; reflexivity|cbn; auto]. intros st v c. cbn [exec]. unfold bind. destruct (client _ _ c) as [[r| |] c']; cbn; auto. }
  cbn in Q. lia.
Qed.
Print Assumptions C93_refuted.
(** A callback that appends what it sees, while the vector moves; and one that
    writes through the pointer after the vector has moved. *)
Definition cb93 (st : list Z) (v : Z) : vprog Z (list Z) := Do (ICall (VCall (VPushBack (v * 10)))) (fun _ => Done (st ++ [v])).
Definition cb93m (st : unit) (p : nat) : vprog Z unit := Do (ICall (VCall (VPushBack 7))) (fun _ => Do (IStore p 5) (fun _ => Done tt)).
Example C93_hyp : let g := fun c n => 2 * c in let full := ([[1; 2; 3]], mkSlice 0 0 3 3, []) in
  (forall st v, only adds_only (cb93 st v)) /\ fst (Vec_ForEach 0 g cb93 [] full) = Ok [1; 2; 3] /\ c_contents (fst (snd (Vec_ForEach 0 g cb93 [] full))) = [1; 2; 3; 10; 20; 30] /\
  c_contents (fst (snd (Vec_ForEachMutable 0 g cb93m tt full))) = [1; 2; 3; 7; 7; 7].
Proof. cbn zeta. split; [|vm_compute; auto]. intros st v. repeat constructor. Qed.
