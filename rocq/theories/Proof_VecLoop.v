(** Iterators of a Vector kept over calls, and the ForEach loops. *)
From Verif Require Import BaseLemmas Spec Trace Proof_Mem Proof_Peek Proof_Transform Proof_TransformMem Model_Vector Spec_Vector Proof_Vector Proof_VectorOps Spec_Client Proof_Client Spec_VecClient Model_VecClient Proof_VecClient.

Lemma list_snoc_any {A} (l : list A) : l = [] \/ exists l' x, l = l' ++ [x].
Proof. destruct l as [|a l] using rev_ind; [auto|right; eauto]. Qed.

Section Loop.
Context {T : Type}.
Variable zero : T.
Variable grow : Z -> Z -> Z.
Implicit Types (m : mem T) (s t : slice) (w : vworld T).
Notation L1 := (vec_listing zero grow).
Notation L2 := (vw_spec zero grow).
Notation vop := (iop (vcall T) T).

(** *** One statement of the specification *)
Lemma vars_step (o : vop) w vs x p : nth_error vs x = Some p -> 0 <= vp_i p -> vp_i p + moves x [o] <= max_int ->
  nth_error (snd (snd (client L2 o (w, vs)))) x = Some (mkVP (vp_gen p) (vp_len p) (vp_i p + moves x [o])).
Proof.
  intros Hx H0 Hm. assert (Hp : p = mkVP (vp_gen p) (vp_len p) (vp_i p + 0)) by (destruct p; cbn; f_equal; lia).
  assert (Lx : (x < length vs)%nat) by (apply nth_error_Some; congruence).
  destruct o as [c| |y|y|y|y|y v]; cbn [moves] in *; cbn [client]; unfold with_var, bind, on_list, declare, assign, ret; cbn [fst snd].
  - destruct (l_call L2 c w) as [[r| |] w']; cbn [snd]; rewrite Hx; congruence.
  - cbn [l_iterate vw_spec]. cbn [snd]. rewrite nth_error_app1 by auto. congruence.
  - destruct (nth_error vs y) as [q|]; [|cbn [snd]; congruence]. destruct (l_pointer L2 q w) as [[r| |] w']; cbn [snd]; rewrite ?nth_error_app1 by auto; congruence.
  - destruct (nth_error vs y) as [q|]; cbn; congruence.
  - destruct (Nat.eqb_spec y x) as [->|N].
    + rewrite Hx. cbn [l_next vw_spec ret snd]. rewrite nth_error_upd_eq by auto. rewrite wrap64_id by (unfold is_int, max_int in *; lia). reflexivity.
    + change (0 + 0) with 0. destruct (nth_error vs y) as [q|]; [|cbn [snd]; rewrite Hx; congruence]. cbn [l_next vw_spec ret snd]. rewrite nth_error_upd_ne by auto. rewrite Hx. congruence.
  - destruct (nth_error vs y) as [q|]; [|cbn [snd]; congruence]. destruct (l_value L2 q w) as [[r| |] w']; cbn [snd]; congruence.
  - destruct (nth_error vs y) as [q|]; [|cbn [snd]; congruence]. destruct (l_store L2 q v w) as [[r| |] w']; cbn [snd]; congruence.
Qed.
Lemma moves_cons x (o : vop) r : moves x (o :: r) = moves x [o] + moves x r.
Proof. destruct o; cbn; try lia. Qed.
Lemma moves_nonneg x (ops : list vop) : 0 <= moves x ops.
Proof. induction ops as [|o r IH]; [cbn; lia|]. rewrite moves_cons. assert (0 <= moves x [o]) by (destruct o; cbn; try lia; destruct (_ =? _)%nat; lia). lia. Qed.
Lemma vars_run (ops : list vop) : forall w vs x p, nth_error vs x = Some p -> 0 <= vp_i p -> vp_i p + moves x ops <= max_int ->
  nth_error (snd (snd (run (client L2) ops (w, vs)))) x = Some (mkVP (vp_gen p) (vp_len p) (vp_i p + moves x ops)).
Proof.
  induction ops as [|o r IH]; intros w vs x p Hx H0 Hm.
  - cbn [run snd moves]. rewrite Hx. destruct p; cbn. do 2 f_equal. lia.
  - rewrite moves_cons in *. pose proof (moves_nonneg x r). pose proof (moves_nonneg x [o]).
    pose proof (vars_step o w vs x p Hx H0 ltac:(lia)) as Hs. cbn [run]. destruct (client L2 o (w, vs)) as [r1 [w1 vs1]]. cbn [snd] in Hs.
    specialize (IH w1 vs1 x _ Hs ltac:(cbn [vp_i]; lia) ltac:(cbn [vp_i]; lia)). destruct (run (client L2) r (w1, vs1)). cbn [snd vp_gen vp_len vp_i] in *. rewrite IH. do 2 f_equal. lia.
Qed.
(** Calls and the storages. *)
Definition wok w : Prop := 0 <= vw_len w <= room w.
Lemma zlen_elems w : wok w -> zlen (elems w) = vw_len w.
Proof. intros H. unfold elems, wok, room in *. rewrite zlen_zsub; lia. Qed.
Lemma keep_old w l : vw_old (keep zero w l) = vw_old w.
Proof. reflexivity. Qed.
Lemma put_old w l c : vw_old (put zero w l c) = if room w <? zlen l then storages w else vw_old w.
Proof. unfold put. destruct (Z.leb_spec (zlen l) (room w)), (Z.ltb_spec (room w) (zlen l)); try lia; reflexivity. Qed.
Lemma removed_old w i j : vw_old (snd (removed zero w i j)) = vw_old w.
Proof. unfold removed. destruct (_ && _ && _); reflexivity. Qed.
Lemma step_old (o : vec_op T) w : wok w -> vw_old (snd (vw_step zero grow o w)) = if moving (vw_len w) (room w) o then storages w else vw_old w.
Proof.
  intros H. pose proof (zlen_elems w H) as Ze. unfold wok in H.
  destruct o as [x|xs|i xs| | | |i|i x|i|i j|i n|p| | | |r|]; cbn [vw_step moving snd]; try apply removed_old; try reflexivity.
  - rewrite put_old, zlen_app, Ze. reflexivity.
  - rewrite put_old, zlen_app, Ze. reflexivity.
  - destruct (Z.leb_spec 0 i), (Z.leb_spec i (vw_len w)); cbn [andb snd]; try reflexivity. rewrite put_old, !zlen_app, !zlen_zsub by lia. replace (i - 0 + (zlen xs + (vw_len w - i))) with (vw_len w + zlen xs) by lia. reflexivity.
  - destruct (zget _ _); reflexivity.
  - destruct (zget _ _); reflexivity.
  - destruct (zget _ _); reflexivity.
  - destruct (zget _ _); reflexivity.
  - destruct (zget _ _); reflexivity.
  - destruct (room w <? r); reflexivity.
  - destruct (vw_len w <? room w); reflexivity.
Qed.
(** What a call shows and makes of the vector depends on the present storage only. *)
Lemma step_local (o : vec_op T) w w' : vw_now w = vw_now w' -> vw_len w = vw_len w' ->
  fst (vw_step zero grow o w) = fst (vw_step zero grow o w') /\ vw_now (snd (vw_step zero grow o w)) = vw_now (snd (vw_step zero grow o w')) /\ vw_len (snd (vw_step zero grow o w)) = vw_len (snd (vw_step zero grow o w')).
Proof.
  intros En El. assert (Ee : elems w = elems w') by (unfold elems; congruence). assert (Er : room w = room w') by (unfold room; congruence).
  destruct o as [x|xs|i xs| | | |i|i x|i|i j|i n|p| | | |r|]; cbn [vw_step fst snd]; unfold removed, put, keep, move; rewrite ?Ee, ?Er, ?En, ?El;
    repeat match goal with |- context [if ?b then _ else _] => destruct b | |- context [match zget ?l ?i with _ => _ end] => destruct (zget l i) end; cbn [fst snd vw_now vw_len]; auto.
Qed.
(** The storages a specification run leaves behind never change by calls. *)
Lemma zget_keep w l j : wok w -> 0 <= j -> zget (vw_now (keep zero w l)) j = if j <? zlen l then zget l j else if j <? vw_len w then Some zero else zget (vw_now w) j.
Proof.
  intros H Hj. unfold wok, room in H. cbn [keep vw_now]. pose proof (zlen_nonneg l).
  destruct (Z.ltb_spec j (zlen l)); [now rewrite zget_app_l by lia|]. rewrite zget_app_r by lia.
  destruct (Z.ltb_spec j (vw_len w)).
  - rewrite zget_app_l by (rewrite zlen_repeat; lia). apply zget_rep. lia.
  - rewrite zget_app_r by (rewrite zlen_repeat; lia). rewrite zlen_repeat. unfold room. destruct (Z_le_gt_dec (Z.max (vw_len w) (zlen l)) (zlen (vw_now w))).
    + rewrite zget_zsub by lia. destruct (Z.ltb_spec (j - zlen l - Z.of_nat (Z.to_nat (vw_len w - zlen l))) (zlen (vw_now w) - Z.max (vw_len w) (zlen l))).
      * f_equal. lia.
      * symmetry. apply zget_None. lia.
    + rewrite zsub_nil by lia. rewrite zget_nil. symmetry. apply zget_None. lia.
Qed.
Lemma keep_len w l : vw_len (keep zero w l) = zlen l.
Proof. reflexivity. Qed.
(** Vacated slots hold zero: slots at or behind the length, below n, of storage g. *)
Definition vacated (g : nat) n w : Prop := g = length (vw_old w) -> forall j, vw_len w <= j < n -> zget (vw_now w) j = Some zero.
Lemma vacated_keep g n w l : wok w -> vacated g n w -> vacated g n (keep zero w l).
Proof.
  intros H V E j Hj. rewrite keep_len in Hj. pose proof (zlen_nonneg l). rewrite zget_keep by (auto; lia).
  destruct (Z.ltb_spec j (zlen l)); [lia|]. destruct (Z.ltb_spec j (vw_len w)); auto. apply V; [exact E|lia].
Qed.
Definition before (g : nat) w : Prop := (g <= length (vw_old w))%nat.
Lemma storages_len w : length (storages w) = S (length (vw_old w)).
Proof. unfold storages. rewrite app_length. cbn. lia. Qed.
Lemma vacated_step g n (o : vec_op T) w : wok w -> before g w -> vacated g n w -> vacated g n (snd (vw_step zero grow o w)).
Proof.
  intros H B V. pose proof (step_old o w H) as Eo. destruct (moving (vw_len w) (room w) o) eqn:Mv.
  { intros E. rewrite Eo, storages_len in E. unfold before in B. lia. }
  pose proof (zlen_elems w H) as Ze. pose proof (fun l => vacated_keep g n w l H V) as K.
  assert (P : forall l c, (room w <? zlen l) = false -> vacated g n (put zero w l c)).
  { intros l c Hc. unfold put. destruct (Z.leb_spec (zlen l) (room w)); [apply K|]. apply Z.ltb_ge in Hc. lia. }
  destruct o as [x|xs|i xs| | | |i|i x|i|i j|i k|p| | | |r|]; cbn [vw_step moving snd] in *; unfold removed;
    repeat match goal with |- context [if (?a && ?b && ?c) then _ else _] => destruct (a && b && c) | |- context [match zget ?l ?i with _ => _ end] => destruct (zget l i) end; cbn [snd]; auto.
  - apply P. rewrite zlen_app, Ze. exact Mv.
  - apply P. rewrite zlen_app, Ze. exact Mv.
  - unfold wok in H. destruct (Z.leb_spec 0 i), (Z.leb_spec i (vw_len w)); cbn [andb snd] in *; auto. apply P. rewrite !zlen_app, !zlen_zsub by lia. rewrite <- Mv. f_equal. lia.
  - rewrite Mv. exact V.
  - rewrite Mv. exact V.
Qed.

(** *** Related runs *)
Variables (m0 : mem T) (s0 : slice).
Notation RS := (Rs m0 s0).
Notation RV := (RC (list slice) RS Rp).
Notation vsim := (sim (list slice) le).
Lemma Rs_wok k c w : RS k c w -> wok w.
Proof.
  destruct c as [m s]. intros H. unfold wok. rewrite (Rs_room _ _ _ _ _ _ H), <- (Rs_len _ _ _ _ _ _ H). apply (Rs_wf _ _ _ _ _ _ H).
Qed.
Lemma step_sim (o : vop) k c (w : vworld T * list vpos) : RV k c w -> exists k', le k k' /\ RV k' (snd (client L1 o c)) (snd (client L2 o w)).
Proof.
  intros R. destruct (client_sim L1 L2 (list slice) le le_refl le_trans RS Rp Rp_le (vec_sims zero grow m0 s0) k o k c w (le_refl k) R) as (k' & Hl & R' & _). eauto.
Qed.
Lemma run_sim (ops : list vop) k c (w : vworld T * list vpos) : RV k c w -> fst (run (client L1) ops c) = fst (run (client L2) ops w) /\ exists k', le k k' /\ RV k' (snd (run (client L1) ops c)) (snd (run (client L2) ops w)).
Proof. apply (run_client_sim L1 L2 (list slice) le le_refl le_trans RS Rp Rp_le (vec_sims zero grow m0 s0)). Qed.
Lemma client_world (o : vop) w vs : no_store o -> fst (snd (client L2 o (w, vs))) =
  match o with ICall (VCall c) => if in_scope (vw_len w) (room w) c then snd (vw_step zero grow c w) else w | _ => w end.
Proof.
  intros N. destruct o as [[c|]| |y|y|y|y|y v]; cbn [no_store] in N; try contradiction; cbn [client]; unfold with_var, bind, on_list, declare, assign, ret; cbn [fst snd].
  - cbn [l_call vw_spec]. destruct (in_scope _ _ c); [|reflexivity]. destruct (vw_step zero grow c w) as [[r| |] w']; reflexivity.
  - reflexivity.
  - reflexivity.
  - destruct (nth_error vs y) as [q|]; [|reflexivity]. cbn [l_pointer vw_spec]. destruct (vw_slot w q); reflexivity.
  - destruct (nth_error vs y); reflexivity.
  - destruct (nth_error vs y); reflexivity.
  - destruct (nth_error vs y) as [q|]; [|reflexivity]. cbn [l_value vw_spec]. destruct (vw_slot w q); reflexivity.
Qed.
Lemma run_inv (Q : vop -> Prop) (Inv : vworld T -> Prop) (ops : list vop) : Forall Q ops -> (forall o w vs, Q o -> wok w -> Inv w -> Inv (fst (snd (client L2 o (w, vs))))) ->
  forall k c (w : vworld T * list vpos), RV k c w -> Inv (fst w) -> Inv (fst (snd (run (client L2) ops w))).
Proof.
  intros F Hs. induction F as [|o ops Ho _ IH]; intros k c w R Hi; [exact Hi|]. destruct (step_sim o k c w R) as (k' & _ & R'). destruct w as [w vs].
  pose proof (Hs o w vs Ho (Rs_wok _ _ _ (proj1 R)) Hi) as Hi'. cbn [run]. destruct (client L2 o (w, vs)) as [r1 w1]. cbn [snd] in *.
  specialize (IH k' (snd (client L1 o c)) w1 R' Hi'). destruct (run (client L2) ops w1). exact IH.
Qed.
Lemma kept_vacated g n (ops : list vop) k c (w : vworld T * list vpos) : Forall no_store ops -> RV k c w -> before g (fst w) -> vacated g n (fst w) -> vacated g n (fst (snd (run (client L2) ops w))).
Proof.
  intros F R B V. apply (run_inv no_store (fun w => before g w /\ vacated g n w) ops F) with (k := k) (c := c); auto.
  intros o w' vs N H [B' V']. rewrite client_world by exact N. destruct o as [[o|]| | | | | | ]; auto. destruct (in_scope _ _ o); auto. split; [|now apply vacated_step].
  unfold before in *. rewrite step_old by exact H. destruct (moving _ _ o); auto. rewrite storages_len. lia.
Qed.
(** The storage is the same iff the number of moves is. *)
Lemma same_arr k1 k2 c1 c2 w1 w2 : RS k1 c1 w1 -> RS k2 c2 w2 -> le k1 k2 ->
  s_arr (snd c2) = s_arr (snd c1) <-> length (vw_old w2) = length (vw_old w1).
Proof.
  destruct c1 as [m1 s1], c2 as [m2 s2]. intros H1 H2 [x Ex]. cbn [snd].
  destruct (Rs_parts _ _ _ _ _ _ H1) as (o1 & -> & E1 & _). destruct (Rs_parts _ _ _ _ _ _ H2) as (o2 & -> & E2 & _). rewrite <- E1, <- E2.
  destruct H2 as (_ & _ & _ & _ & N & _). destruct (list_snoc_any x) as [->|(x' & y & ->)].
  - rewrite app_nil_r in Ex. apply app_inj_tail in Ex as [-> Ef]. unfold full in Ef. injection Ef as Ea _ _. split; auto.
  - rewrite app_assoc in Ex. apply app_inj_tail in Ex as [-> <-]. split.
    + intros Ea. exfalso. rewrite !map_app in N. cbn [map full s_arr] in N. rewrite Ea in N. apply NoDup_remove_2 in N. apply N. rewrite app_nil_r. apply in_or_app. left. apply in_or_app. right. left. reflexivity.
    + rewrite !app_length. cbn [length]. lia.
Qed.

(** *** The loops *)
Fixpoint pl (g : nat) (len i : Z) (n : nat) : list vpos := match n with O => [] | S n' => mkVP g len i :: pl g len (i + 1) n' end.
Lemma pl_places g len : places g len = pl g len 0 (Z.to_nat len).
Proof.
  unfold places. generalize (Z.to_nat len) as n. intros n. change 0 with (Z.of_nat 0). generalize 0%nat as a. induction n as [|n IH]; intros a; cbn [seq map pl]; [reflexivity|].
  f_equal. rewrite IH. f_equal. lia.
Qed.
Notation CS1 := (cell T * list vectorIterator)%type.
Notation CS2 := (vworld T * list vpos)%type.
Notation vprog := (prog vop (ires (obs T) T)).
Lemma vec_each_sim {A St} (give1 : slice -> Z -> M CS1 A) (give2 : vpos -> M CS2 A) (op : St -> A -> vprog (bool * St)) :
  (forall k v i p, Rp k (mkVIt v i) p -> vsim RV (@same (list slice) A) k (give1 v i) (give2 p)) ->
  forall n i k v g len st, (forall j, Rp k (mkVIt v j) (mkVP g len j)) -> vsim RV (@same (list slice) St) k (vec_each zero grow give1 op v n i st) (over_at L2 give2 op (pl g len i n) st).
Proof.
  intros Hg. induction n as [|n IH]; intros i k v g len st Hv; cbn [vec_each pl over_at].
  - apply sim_ret; [apply le_refl|reflexivity].
  - eapply sim_bind; [apply le_refl|apply le_trans|apply Hg, Hv|]. intros k1 a a' Hl1 ->.
    eapply sim_bind; [apply le_refl|apply le_trans|apply (exec_sim L1 L2 (list slice) le le_refl le_trans RS Rp Rp_le (vec_sims zero grow m0 s0))|].
    intros k2 r r' Hl2 Er. red in Er. subst r'. destruct (fst r); [|apply sim_ret; [apply le_refl|reflexivity]].
    apply IH. intros j. eapply Rp_le; [|apply Hv]. eapply le_trans; eauto.
Qed.
Lemma value_sim k v i p : Rp k (mkVIt v i) p -> vsim RV (@same (list slice) T) k (vec_value v i) (give_value L2 p).
Proof. intros Hp. exact (give_value_sim L1 L2 (list slice) le le_refl le_trans RS Rp Rp_le (vec_sims zero grow m0 s0) k _ _ Hp). Qed.
Lemma pointer_sim k v i p : Rp k (mkVIt v i) p -> vsim RV (@same (list slice) nat) k (vec_pointer v i) (give_pointer L2 p).
Proof. intros Hp. exact (give_pointer_sim L1 L2 (list slice) le le_refl le_trans RS Rp Rp_le (vec_sims zero grow m0 s0) k _ _ Hp). Qed.
Lemma hdr_Rp k m s w : RS k (m, s) w -> forall j, Rp k (mkVIt s j) (mkVP (length (vw_old w)) (vw_len w) j).
Proof.
  intros H j. destruct (Rs_parts _ _ _ _ _ _ H) as (old & -> & Lo & _). pose proof (Rs_wf _ _ _ _ _ _ H) as (W1 & W2 & W3 & W4). rewrite <- (Rs_len _ _ _ _ _ _ H).
  exists (full s). cbn [vp_gen vp_len vp_i vi_v vi_i]. rewrite <- Lo, nth_error_app2, Nat.sub_diag by lia. split; [reflexivity|]. split; [destruct s; reflexivity|]. split; [exact W3|reflexivity].
Qed.
Lemma from_start_agree {A St} (give1 : slice -> Z -> M CS1 A) (give2 : vpos -> M CS2 A) (op : St -> A -> vprog (bool * St)) st k c (w : CS2) :
  (forall k v i p, Rp k (mkVIt v i) p -> vsim RV (@same (list slice) A) k (give1 v i) (give2 p)) -> RV k c w ->
  agree (list slice) le RV (@same (list slice) St) k (vec_from_start zero grow give1 op st c) (over_at L2 give2 op (places (length (vw_old (fst w))) (vw_len (fst w))) st w).
Proof.
  intros Hg R. destruct c as [[m s] its], w as [w vs]. cbn [fst]. rewrite pl_places. pose proof (proj1 R) as Rs1. cbn [fst] in Rs1.
  unfold vec_from_start, bind, on_list, get_hdr. cbn [fst snd]. rewrite (Rs_len _ _ _ _ _ _ Rs1).
  apply (vec_each_sim give1 give2 op Hg (Z.to_nat (vw_len w)) 0 k s (length (vw_old w)) (vw_len w) st (hdr_Rp k m s w Rs1) k); [apply le_refl|exact R].
Qed.

(** *** Callbacks that only add *)
Definition keeps (g : nat) n (l : list T) w : Prop := before g w /\ (g = length (vw_old w) -> n <= vw_len w) /\ forall j, 0 <= j < n -> zget (nth g (storages w) []) j = zget l j.
Lemma nth_now w : nth (length (vw_old w)) (storages w) [] = vw_now w.
Proof. unfold storages. rewrite app_nth2, Nat.sub_diag by lia. reflexivity. Qed.
Lemma zget_elems w j : wok w -> 0 <= j < vw_len w -> zget (elems w) j = zget (vw_now w) j.
Proof. intros H Hj. unfold wok, room, elems in *. rewrite zget_zsub by lia. destruct (Z.ltb_spec j (vw_len w - 0)); [f_equal; lia|lia]. Qed.
Lemma keeps_move g n l w l' c : keeps g n l w -> keeps g n l (move zero w l' c).
Proof.
  intros (B & _ & E). unfold before in B. split; [|split].
  - unfold before. cbn [move vw_old]. rewrite app_length. lia.
  - intros Hg. cbn [move vw_old] in Hg. rewrite app_length in Hg. cbn in Hg. lia.
  - intros j Hj. rewrite <- E by auto. f_equal. unfold storages at 1. cbn [move vw_old vw_now]. rewrite app_nth1; [reflexivity|]. rewrite app_length. cbn. lia.
Qed.
Lemma keeps_add g n l w xs : wok w -> keeps g n l w -> keeps g n l (keep zero w (elems w ++ xs)).
Proof.
  intros H (B & Hn & E). pose proof (zlen_elems w H) as Ze. pose proof (zlen_nonneg xs). split; [exact B|]. split.
  - cbn [keep vw_old vw_len]. intros Hg. specialize (Hn Hg). rewrite zlen_app. lia.
  - intros j Hj. rewrite <- E by auto. unfold before in B. destruct (Nat.eq_dec g (length (vw_old w))) as [->|N].
    + specialize (Hn eq_refl). change (vw_old w) with (vw_old (keep zero w (elems w ++ xs))) at 1. rewrite !nth_now. rewrite zget_keep by (auto; lia). rewrite zlen_app, Ze.
      destruct (Z.ltb_spec j (vw_len w + zlen xs)); [|lia]. rewrite zget_app_l by lia. apply zget_elems; auto. lia.
    + unfold storages. cbn [keep vw_old vw_now]. rewrite !app_nth1 by lia. reflexivity.
Qed.
Lemma keeps_client g n l (o : vop) w vs : adds_only o -> wok w -> keeps g n l w -> keeps g n l (fst (snd (client L2 o (w, vs)))).
Proof.
  intros A H K. assert (N : no_store o) by (destruct o; try exact I; exact A). rewrite client_world by exact N.
  destruct o as [[o|]| | | | | | ]; auto. destruct (in_scope _ _ o); auto. cbn [adds_only] in A.
  destruct o as [x|xs|i xs| | | |i|i x|i|i j|i q|p| | | |r|]; cbn [vw_step snd]; try contradiction; auto.
  - unfold put. destruct (_ <=? _); [now apply keeps_add|now apply keeps_move].
  - unfold put. destruct (_ <=? _); [now apply keeps_add|now apply keeps_move].
  - destruct (zget _ _); auto.
  - destruct (zget _ _); auto.
  - destruct (_ <? _); auto. now apply keeps_move.
  - destruct (_ <? _); auto. now apply keeps_move.
Qed.
Definition held (g : nat) v n l (c : CS1) : Prop := exists k (w : CS2), RV k c w /\ (forall j, Rp k (mkVIt v j) (mkVP g n j)) /\ keeps g n l (fst w).
Lemma held_step g v n l (o : vop) c : adds_only o -> held g v n l c -> held g v n l (snd (client L1 o c)).
Proof.
  intros A (k & [w vs] & R & Hv & K). destruct (step_sim o k c (w, vs) R) as (k' & Hl & R'). exists k', (snd (client L2 o (w, vs))). split; [exact R'|]. split.
  - intros j. eapply Rp_le; [exact Hl|apply Hv].
  - apply keeps_client; auto. exact (Rs_wok _ _ _ (proj1 R)).
Qed.
Lemma each_held {St} (op : St -> T -> vprog (bool * St)) g v l : (forall st x, only adds_only (op st x)) ->
  forall r pre st c, l = pre ++ r -> held g v (zlen l) l c ->
  vec_each zero grow vec_value op v (length r) (zlen pre) st c = exec (client L1) (over op r st) c.
Proof.
  intros Ho. induction r as [|x r IH]; intros pre st c El Hh; cbn [length vec_each over].
  - reflexivity.
  - rewrite exec_bind. destruct Hh as (k & [w vs] & R & Hv & K). assert (Hs : vec_value (T := T) v (zlen pre) c = (Ok x, c)).
    { destruct c as [[m s] its]. pose proof (proj1 R) as Rs1. cbn [fst] in Rs1. destruct (slot_ok _ _ _ _ _ _ _ _ Rs1 (Hv (zlen pre))) as (W & G). cbn [vi_v vi_i] in *.
      pose proof (zlen_nonneg pre). pose proof (zlen_nonneg r). assert (Ll : zlen l = zlen pre + 1 + zlen r) by (rewrite El, zlen_app, zlen_cons; lia).
      unfold vec_value, on_list. cbn [fst snd]. rewrite (lift_mem_ok _ m s x m); [reflexivity|]. apply sload_ok; auto. rewrite G. unfold vw_slot. cbn [vp_i vp_len vp_gen].
      destruct (Z.leb_spec 0 (zlen pre)), (Z.ltb_spec (zlen pre) (zlen l)); try lia. cbn [andb]. rewrite (proj2 (proj2 K)) by lia. rewrite El. apply zget_mid. }
    unfold bind at 1. rewrite Hs. unfold bind.
    assert (Hh : held g v (zlen l) l (snd (exec (client L1) (op st x) c))).
    { apply (exec_inv (client L1) adds_only (held g v (zlen l) l) (op st x)); [apply Ho|intros; now apply held_step|]. exists k, (w, vs). auto. }
    destruct (exec (client L1) (op st x) c) as [[b| |] c1]; cbn [snd] in *; auto. destruct (fst b); [|reflexivity].
    replace (zlen pre + 1) with (zlen (pre ++ [x])) by (rewrite zlen_app; reflexivity). apply IH; [rewrite <- app_assoc; exact El|exact Hh].
Qed.
Lemma from_start_held {St} (op : St -> T -> vprog (bool * St)) st k c (w : CS2) : (forall st x, only adds_only (op st x)) -> RV k c w ->
  vec_from_start zero grow vec_value op st c = exec (client L1) (over op (c_contents (fst c)) st) c.
Proof.
  intros Ho R. destruct c as [[m s] its], w as [w vs]. pose proof (proj1 R) as Rs1. cbn [fst] in Rs1. unfold vec_from_start, bind, on_list, get_hdr. cbn [fst snd].
  pose proof (Rs_wf _ _ _ _ _ _ Rs1) as W. pose proof (zlen_contents m s W) as Zl. unfold c_contents. cbn [fst snd]. set (l := contents m s) in *.
  replace (Z.to_nat (s_len s)) with (length l) by (rewrite <- Zl; unfold zlen; lia).
  apply (each_held op (length (vw_old w)) s l Ho l [] st); [reflexivity|]. exists k, (w, vs). split; [exact R|]. cbn [fst]. rewrite Zl. split.
  - rewrite (Rs_len _ _ _ _ _ _ Rs1). apply (hdr_Rp k m s w Rs1).
  - split; [unfold before; lia|]. split; [rewrite (Rs_len _ _ _ _ _ _ Rs1); lia|]. intros j Hj. rewrite nth_now. unfold l. rewrite <- (Rs_elems _ _ _ _ _ _ Rs1). symmetry. apply zget_elems; [exact (Rs_wok _ _ _ Rs1)|]. rewrite <- (Rs_len _ _ _ _ _ _ Rs1). exact Hj.
Qed.
End Loop.
