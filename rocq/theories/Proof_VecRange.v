(** Clients that keep iterators of IterateRange follow rw_spec. *)
From Verif Require Import BaseLemmas Spec Trace Proof_Mem Proof_Peek Proof_Transform Proof_TransformMem Model_Vector Spec_Vector Proof_Vector Proof_VectorOps Spec_Client Proof_Client Spec_VecClient Model_VecClient Proof_VecClient Proof_VecLoop Spec_VecRange Model_VecRange.

Section Rng.
Context {T : Type}.
Variable zero : T.
Variable grow : Z -> Z -> Z.
Variables (m0 : mem T) (s0 : slice).
Implicit Types (m : mem T) (s t : slice) (w : vworld T).
Notation L1 := (vec_listing zero grow).
Notation L2 := (rw_spec zero grow).
Notation RS := (Rs m0 s0).
Notation vop := (rop (vcall T) T).
Definition Rq (k : list slice) (it : vectorIterator) (p : rpos) : Prop :=
  exists t, nth_error k (rp_gen p) = Some t /\ vi_v it = mkSlice (s_arr t) (s_off t + rp_lo p) (rp_len p) (s_cap t - rp_lo p) /\
    0 <= rp_lo p /\ 0 <= rp_len p /\ rp_lo p + rp_len p <= s_cap t /\ vi_i it = rp_i p.
Lemma Rq_le a b p q : le a b -> Rq a p q -> Rq b p q.
Proof.
  intros [x ->] (t & Ht & H). exists t. split; [|exact H]. rewrite nth_error_app1; auto. apply nth_error_Some. congruence.
Qed.
Lemma part_wf m t lo n : wf_slice m t -> 0 <= lo -> 0 <= n -> lo + n <= s_cap t -> wf_slice m (mkSlice (s_arr t) (s_off t + lo) n (s_cap t - lo)).
Proof. intros (W1 & W2 & W3 & W4) H1 H2 H3. unfold wf_slice. cbn [s_arr s_off s_len s_cap]. split; [auto|]. unfold arr_of in *. cbn [s_arr]. lia. Qed.
Lemma part_get m t lo n i : wf_slice m t -> s_len t = s_cap t -> 0 <= lo -> 0 <= n -> lo + n <= s_cap t ->
  zget (contents m (mkSlice (s_arr t) (s_off t + lo) n (s_cap t - lo))) i = if (0 <=? i) && (i <? n) then zget (contents m t) (lo + i) else None.
Proof.
  intros W Lt H1 H2 H3. rewrite !zget_contents_peek by (auto; now apply part_wf). cbn [s_arr s_off s_len].
  destruct (Z.leb_spec 0 i), (Z.ltb_spec i n); cbn [andb]; auto. destruct (Z.leb_spec 0 (lo + i)), (Z.ltb_spec (lo + i) (s_len t)); cbn [andb]; try lia. f_equal. lia.
Qed.
Lemma rslot_ok k m s w it p : RS k (m, s) w -> Rq k it p ->
  wf_slice m (vi_v it) /\ zget (contents m (vi_v it)) (vi_i it) = rw_slot w p.
Proof.
  intros H (t & Ht & Ev & H1 & H2 & H3 & Ei). destruct H as (_ & _ & _ & F & _). cbn [fst] in F. destruct (F2_nth _ _ _ F _ _ Ht) as (l & El & (Wt & Lt & Ct)).
  rewrite Ev, Ei. split; [now apply part_wf|]. rewrite part_get by auto. unfold rw_slot. rewrite (nth_error_nth _ _ [] El), <- Ct. reflexivity.
Qed.
Lemma rstore_ok k m s w it p v : RS k (m, s) w -> Rq k it p ->
  match rw_slot w p with
  | Some _ => exists m', vi_write it v m = (Ok tt, m') /\ RS k (m', s) (rw_write w p v)
  | None => vi_write it v m = (Panic, m)
  end.
Proof.
  intros H Hp. pose proof (rslot_ok _ _ _ _ _ _ H Hp) as (W & G). destruct Hp as (t & Ht & Ev & H1 & H2 & H3 & Ei).
  pose proof (zlen_contents _ _ W) as Zc. destruct (rw_slot w p) as [y|] eqn:Q.
  - pose proof (zget_Some_range _ _ _ G) as Hi. destruct it as [v0 i0]. cbn [vi_v vi_i] in *. subst v0 i0. rewrite Zc in Hi.
    destruct (vi_write_ok m _ _ v W ltac:(exact Hi)) as (m' & E & C & _ & X). exists m'. split; [exact E|]. cbn [s_len s_arr s_off] in *.
    pose proof H as (Ws & (L & Hm) & K & F & N & M & Fr). cbn [fst snd] in *. destruct (F2_nth _ _ _ F _ _ Ht) as (l & El & (Wt & Lt & Ct)).
    assert (O1 : old_same_except m m' (s_arr t) (s_off t) (s_off t + s_cap t)) by (eapply ose_weaken; [apply ose_of_same; exact X|lia|lia]).
    assert (Wt' : wf_slice m' t) by (eapply wf_ose; eauto).
    assert (Ll : (rp_gen p < length (storages w))%nat) by (apply nth_error_Some; congruence).
    assert (Cn : contents m' t = zupd l (rp_lo p + rp_i p) v).
    { apply zlist_eq. intros i Hi0. destruct (Z.eq_dec i (rp_lo p + rp_i p)) as [->|Ni].
      - rewrite zget_zupd_eq by (rewrite <- Ct, zlen_contents by auto; lia).
        pose proof (part_get m' t (rp_lo p) (rp_len p) (rp_i p) Wt' Lt H1 H2 H3) as Pg. rewrite C, zget_zupd_eq in Pg by lia.
        destruct (Z.leb_spec 0 (rp_i p)), (Z.ltb_spec (rp_i p) (rp_len p)); cbn [andb] in Pg; try lia. now rewrite <- Pg.
      - rewrite zget_zupd_ne by auto. rewrite <- Ct. rewrite !zget_contents_peek by auto. destruct (_ && _); auto. symmetry. destruct Wt as (_ & K2 & _). apply X; lia. }
    split; [eapply wf_ose; eauto|]. cbn [fst snd]. split; [split; [|exact Hm]|].
    { unfold rw_write, vw_write. destruct (_ =? _)%nat; exact L. }
    split; [exact K|]. split; [|split; [exact N|split; [exact M|]]].
    + unfold rw_write. rewrite storages_write by exact Ll. cbn [vp_gen vp_i]. rewrite (nth_error_nth _ _ [] El), <- Cn. eapply touch; eauto.
    + eapply frame_touch with (t := t); eauto. eapply Forall_forall; [exact M|]. eapply nth_error_In; eauto.
  - apply zget_None in G. apply sstore_panic; auto. lia.
Qed.
Theorem rng_sims : sims L1 L2 (list slice) le RS Rq.
Proof.
  constructor.
  - exact (sim_call _ _ _ _ _ _ (vec_sims zero grow m0 s0)).
  - intros k k' [m s] w _ H. exists k'. split; [apply le_refl|]. split; [exact H|]. cbn.
    destruct (Rs_parts _ _ _ _ _ _ H) as (old & -> & Lo & _). pose proof (Rs_wf _ _ _ _ _ _ H) as (W1 & W2 & W3 & W4). rewrite <- (Rs_len _ _ _ _ _ _ H).
    exists (full s). cbn [rp_gen rp_len rp_lo rp_i]. rewrite <- Lo, nth_error_app2, Nat.sub_diag by lia. split; [reflexivity|]. split; [destruct s; cbn; f_equal; lia|]. cbn [full s_cap]. repeat split; lia.
  - intros k p q Hp k' [m s] w Hl H. assert (Hp' : Rq k' p q) by (eapply Rq_le; eauto). destruct (rslot_ok _ _ _ _ _ _ H Hp') as (W & G).
    exists k'. split; [apply le_refl|]. cbn [l_pointer vec_listing rw_spec]. unfold lift_mem, bind, vi_Value, ret. cbn [fst snd]. destruct (rw_slot w q) as [v|].
    + rewrite (sload_ok _ _ _ _ W G). split; [exact H|]. reflexivity.
    + rewrite (sload_panic _ _ _ W G). split; [exact H|]. exact I.
  - intros k p q (t & Ht & Ev & _ & _ & _ & Ei) k' [m s] w Hl H. exists k'. split; [apply le_refl|]. split; [exact H|]. cbn. unfold vi_IsNotEnd. rewrite Ev, Ei. reflexivity.
  - intros k p q (t & Ht & Ev & H1 & H2 & H3 & Ei) k' [m s] w Hl H. exists k'. split; [apply le_refl|]. split; [exact H|]. cbn. eapply Rq_le; [exact Hl|]. exists t. cbn [rp_gen rp_lo rp_len rp_i vi_MoveToNext vi_v vi_i]. rewrite Ei. tauto.
  - intros k p q Hp k' [m s] w Hl H. assert (Hp' : Rq k' p q) by (eapply Rq_le; eauto). destruct (rslot_ok _ _ _ _ _ _ H Hp') as (W & G).
    exists k'. split; [apply le_refl|]. cbn [l_value vec_listing rw_spec]. unfold lift_mem, vi_Value. cbn [fst snd]. destruct (rw_slot w q) as [v|].
    + rewrite (sload_ok _ _ _ _ W G). split; [exact H|]. reflexivity.
    + rewrite (sload_panic _ _ _ W G). split; [exact H|]. exact I.
  - intros k p q v Hp k' [m s] w Hl H. assert (Hp' : Rq k' p q) by (eapply Rq_le; eauto). pose proof (rstore_ok _ _ _ _ _ _ v H Hp') as G.
    exists k'. split; [apply le_refl|]. cbn [l_store vec_listing rw_spec]. unfold lift_mem. cbn [fst snd]. destruct (rw_slot w q) as [y|].
    + destruct G as (m' & E & H'). rewrite E. split; [exact H'|]. reflexivity.
    + rewrite G. split; [exact H|]. exact I.
Qed.
Lemma range_sim k i j : sim (list slice) le RS Rq k (vec_range i j) (rw_range i j).
Proof.
  intros k' [m s] w _ H. exists k'. split; [apply le_refl|]. unfold vec_range, rw_range, bind, get_hdr, Vector_IterateRange. cbn [fst snd]. rewrite (Rs_room _ _ _ _ _ _ H).
  destruct (Rs_parts _ _ _ _ _ _ H) as (old & -> & Lo & _).
  destruct (Z.leb_spec 0 i), (Z.leb_spec i j), (Z.leb_spec j (s_cap s)); cbn [andb]; try (rewrite reslice_panic by lia; split; [exact H|exact I]).
  rewrite reslice_ok by lia. split; [exact H|]. cbn [omap fst snd]. exists (full s). cbn [rp_gen rp_len rp_lo rp_i vi_v vi_i]. rewrite <- Lo, nth_error_app2, Nat.sub_diag by lia. split; [reflexivity|]. cbn [full s_arr s_off s_cap]. repeat split; try lia.
Qed.
Notation RV := (RC (list slice) RS Rq).
Lemma rclient_sim k (o : vop) : sim (list slice) le RV (@same (list slice) _) k (rclient L1 vec_range o) (rclient L2 rw_range o).
Proof.
  destruct o as [o|i j]; cbn [rclient].
  - apply (client_sim L1 L2 (list slice) le le_refl le_trans RS Rq Rq_le rng_sims).
  - eapply (sim_bind (list slice) le le_refl le_trans); [apply (sim_on_list (list slice) le RS Rq Rq_le), range_sim|]. intros k' p q L Hp.
    eapply (sim_bind (list slice) le le_refl le_trans); [apply (sim_declare (list slice) le le_refl RS Rq Rq_le); exact Hp|]. intros. apply (sim_ret (list slice) le le_refl). reflexivity.
Qed.
Lemma rrun_sim (ops : list vop) : forall k c (w : vworld T * list rpos), RV k c w ->
  fst (run (rclient L1 vec_range) ops c) = fst (run (rclient L2 rw_range) ops w) /\ exists k', le k k' /\ RV k' (snd (run (rclient L1 vec_range) ops c)) (snd (run (rclient L2 rw_range) ops w)).
Proof.
  induction ops as [|o ops IH]; intros k c w Rr; cbn [run].
  - split; auto. exists k. split; [apply le_refl|auto].
  - destruct (rclient_sim k o k c w (le_refl _) Rr) as (k1 & L1' & R2 & Hq). destruct (rclient L1 vec_range o c) as [r1 c'], (rclient L2 rw_range o w) as [r2 w']. cbn [fst snd] in *.
    destruct (IH k1 c' w' R2) as (E & k2 & L2' & R3). destruct (run (rclient L1 vec_range) ops c'), (run (rclient L2 rw_range) ops w'). cbn [fst snd] in *. split.
    + f_equal; auto. destruct r1, r2; try contradiction; auto. red in Hq. congruence.
    + exists k2. split; auto. eapply le_trans; [exact L1'|exact L2'].
Qed.

(** *** Variables of the specification *)
Lemma rvars_step (o : vop) w vs x p : nth_error vs x = Some p -> 0 <= rp_i p -> rp_i p + rmoves x [o] <= max_int ->
  nth_error (snd (snd (rclient L2 rw_range o (w, vs)))) x = Some (mkRP (rp_gen p) (rp_lo p) (rp_len p) (rp_i p + rmoves x [o])).
Proof.
  intros Hx H0 Hm. assert (Hp : p = mkRP (rp_gen p) (rp_lo p) (rp_len p) (rp_i p + 0)) by (destruct p; cbn; f_equal; lia).
  assert (Lx : (x < length vs)%nat) by (apply nth_error_Some; congruence).
  destruct o as [[c| |y|y|y|y|y v]|i j]; cbn [rmoves moves] in *; cbn [rclient client]; unfold with_var, bind, on_list, declare, assign, ret; cbn [fst snd]; rewrite ?Z.add_0_r in *.
  - destruct (l_call L2 c w) as [[r| |] w']; cbn [snd]; rewrite Hx; congruence.
  - cbn [l_iterate rw_spec]. cbn [snd]. rewrite nth_error_app1 by auto. congruence.
  - destruct (nth_error vs y) as [q|]; [|cbn [snd]; congruence]. destruct (l_pointer L2 q w) as [[r| |] w']; cbn [snd]; rewrite ?nth_error_app1 by auto; congruence.
  - destruct (nth_error vs y) as [q|]; cbn; congruence.
  - destruct (Nat.eqb_spec y x) as [->|N].
    + rewrite Hx. cbn [l_next rw_spec ret snd]. rewrite nth_error_upd_eq by auto. rewrite wrap64_id by (unfold is_int, max_int in *; lia). reflexivity.
    + rewrite ?Z.add_0_r in *. destruct (nth_error vs y) as [q|]; [|cbn [snd]; rewrite Hx; congruence]. cbn [l_next rw_spec ret snd]. rewrite nth_error_upd_ne by auto. rewrite Hx. congruence.
  - destruct (nth_error vs y) as [q|]; [|cbn [snd]; congruence]. destruct (l_value L2 q w) as [[r| |] w']; cbn [snd]; congruence.
  - destruct (nth_error vs y) as [q|]; [|cbn [snd]; congruence]. destruct (l_store L2 q v w) as [[r| |] w']; cbn [snd]; congruence.
  - destruct (rw_range i j w) as [[r| |] w']; cbn [snd]; rewrite ?nth_error_app1 by auto; congruence.
Qed.
Lemma rmoves_cons x (o : vop) r : rmoves x (o :: r) = rmoves x [o] + rmoves x r.
Proof. destruct o; cbn [rmoves]; lia. Qed.
Lemma rmoves_nonneg x (ops : list vop) : 0 <= rmoves x ops.
Proof. induction ops as [|[o|i j] r IH]; cbn [rmoves]; try lia. pose proof (moves_nonneg x [o]). lia. Qed.
Lemma rvars_run (ops : list vop) : forall w vs x p, nth_error vs x = Some p -> 0 <= rp_i p -> rp_i p + rmoves x ops <= max_int ->
  nth_error (snd (snd (run (rclient L2 rw_range) ops (w, vs)))) x = Some (mkRP (rp_gen p) (rp_lo p) (rp_len p) (rp_i p + rmoves x ops)).
Proof.
  induction ops as [|o r IH]; intros w vs x p Hx H0 Hm.
  - cbn [run snd rmoves]. rewrite Hx. destruct p; cbn. do 2 f_equal. lia.
  - rewrite rmoves_cons in *. pose proof (rmoves_nonneg x r). pose proof (rmoves_nonneg x [o]).
    pose proof (rvars_step o w vs x p Hx H0 ltac:(lia)) as Hs. cbn [run]. destruct (rclient L2 rw_range o (w, vs)) as [r1 [w1 vs1]]. cbn [snd] in Hs.
    specialize (IH w1 vs1 x _ Hs ltac:(cbn [rp_i]; lia) ltac:(cbn [rp_i]; lia)). destruct (run (rclient L2 rw_range) r (w1, vs1)). cbn [snd rp_gen rp_lo rp_len rp_i] in *. rewrite IH. do 2 f_equal. lia.
Qed.
Lemma ruse_pos k (c : cell T * list vectorIterator) (w : vworld T * list rpos) x it p : RV k c w -> nth_error (snd c) x = Some it -> Rq k it p ->
  client L1 (IIsNotEnd x) c = (Ok (IBool (rp_i p <? rp_len p)), c) /\
  client L1 (IValue x) c = (match rw_slot (fst w) p with Some v => Ok (IValueIs v) | None => Panic end, c) /\
  forall v, match rw_slot (fst w) p with
    | Some _ => exists m', client L1 (IStore x v) c = (Ok IDone, (m', snd (fst c), snd c)) /\ RS k (m', snd (fst c)) (rw_write (fst w) p v)
    | None => client L1 (IStore x v) c = (Panic, c) end.
Proof.
  destruct c as [[m2 s2] its], w as [w vs]. intros [R _] Hit Hrp. cbn [fst snd] in *. pose proof (rslot_ok _ _ _ _ _ _ R Hrp) as (Wi & G).
  pose proof (fun v => rstore_ok _ _ _ _ _ _ v R Hrp) as St. destruct Hrp as (t & Ht & Ev & _ & _ & _ & Ei).
  unfold client, with_var. cbn [fst snd]. rewrite Hit. unfold bind, on_list, ret. cbn [l_more l_value l_store vec_listing fst snd]. unfold ret, lift_mem, vi_Value. cbn [fst snd].
  split; [unfold vi_IsNotEnd; rewrite Ev, Ei; reflexivity|]. rewrite <- G in *. destruct (zget (contents m2 (vi_v it)) (vi_i it)) as [v|] eqn:Gv.
  - split; [rewrite (sload_ok _ _ _ _ Wi Gv); reflexivity|]. intros v'. destruct (St v') as (m' & E & R'). exists m'. rewrite E. auto.
  - split; [rewrite (sload_panic _ _ _ Wi Gv); reflexivity|]. intros v'. rewrite (St v'). reflexivity.
Qed.
Lemma rslot_some k (c : cell T) w it p : RS k c w -> Rq k it p -> 0 <= rp_i p -> if rp_i p <? rp_len p then exists v, rw_slot w p = Some v else rw_slot w p = None.
Proof.
  destruct c as [m s]. intros R Hrp Hi. destruct (rslot_ok _ _ _ _ _ _ R Hrp) as (Wi & <-). destruct Hrp as (t & Ht & Ev & _ & _ & _ & Ei).
  pose proof (zlen_contents _ _ Wi) as Zc. rewrite Ev in Zc at 2. cbn [s_len] in Zc. rewrite <- Ei in *.
  destruct (zget (contents m (vi_v it)) (vi_i it)) as [v|] eqn:G; [apply zget_Some_range in G; destruct (Z.ltb_spec (vi_i it) (rp_len p)); [eauto|lia]|].
  apply zget_None in G. destruct (Z.ltb_spec (vi_i it) (rp_len p)); [lia|reflexivity].
Qed.
End Rng.
