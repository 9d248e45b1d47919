(** SList simulates lists with element identities. *)
From Verif Require Import BaseLemmas Spec Trace Spec_List Spec_Client Nodes Proof_Nodes Spec_ListIter Model_ListIter Proof_Client Proof_ListIter Model_SList Proof_SList.
Set Default Proof Using "Type".
Local Arguments zlen : simpl never. Local Arguments pload : simpl never. Local Arguments pmod : simpl never.

Definition Rp (k : know) (p : ptr) (q : option nat) : Prop := p = option_map (fst (fst k)) q /\ forall j, q = Some j -> (j < snd (fst k))%nat.
Lemma Rp_le a b p q : kle a b -> Rp a p q -> Rp b p q.
Proof. intros (L & F & _) (-> & H). split; [|intros j E; specialize (H j E); lia]. destruct q as [j|]; auto. cbn. now rewrite F by auto. Qed.

Section S.
Context {T St : Type}.
Variable zero : T.
(** The nodes that are there before the list, and stay as they are. *)
Variable fr0 : nat -> option (snode T).
Notation W := (lworld T (option nat)).
Notation id_to := (fun q : option nat => q).
Notation nodeq f q v := (mkSNode (option_map f q) v).
Definition Gone (f : nat -> nat) (fr : nat -> option (snode T)) (w : W) : Prop :=
  forall i v q, In (i, v, q) (w_gone w) -> fr (f i) = Some (nodeq f q v) /\ fr0 (f i) = None /\ (forall j, q = Some j -> (j < w_made w)%nat).
Definition Rw (f : nat -> nat) (fr : nat -> option (snode T)) (s : list (snode T) * slist) (w : W) : Prop :=
  wf w /\ injf f (w_made w) /\ (forall a n, fr0 a = Some n -> fr a = Some n) /\ rep fr (map (cell f) (w_live w)) s /\
  Gone f fr w.
Definition Rs (k : know) s (w : W) : Prop := w_made w = snd (fst k) /\ exists fr, Rw (fst (fst k)) fr s w.
Lemma rep_reframe fr fr' (l : list (nat * T)) s : rep fr l s -> keeps fr' (fst s) -> (forall a, In a (addrs l) -> fr' a = None) -> rep fr' l s.
Proof. intros ((ND & LB & K) & H) K' LB'. split; auto. split; auto. Qed.
Lemma rep_keeps fr (l : list (nat * T)) s : rep fr l s -> keeps fr (fst s).
Proof. intros ((_ & _ & K) & _). exact K. Qed.
Lemma rep_out fr (l : list (nat * T)) s a : rep fr l s -> In a (addrs l) -> fr a = None.
Proof. intros ((_ & LB & _) & _). apply LB. Qed.
Lemma rep_nodup fr (l : list (nat * T)) s : rep fr l s -> NoDup (addrs l).
Proof. intros ((ND & _) & _). exact ND. Qed.
Lemma chain_node h (L : list (nat * T)) a v R : forall p, chain h p (L ++ (a, v) :: R) -> exists q, nth_error h a = Some (mkSNode q v) /\ chain h q R.
Proof. induction L as [|[b u] L IH]; intros p C; cbn in C; destruct C as (_ & q & E & C); eauto. Qed.
Lemma chain_first h f p (R : list (nat * T)) : chain h p (map (cell f) R) -> p = option_map f (first_id R).
Proof. destruct R as [|[i v] R]; cbn; auto. now intros (-> & _). Qed.

(** The node of an element. *)
Lemma element f fr h hdr w i : Rw f fr (h, hdr) w -> (i < w_made w)%nat -> exists v q,
  nth_error h (f i) = Some (nodeq f q v) /\ value_of i w = Some v /\ next_of id_to i w = Some q /\ (forall j, q = Some j -> (j < w_made w)%nat).
Proof.
  intros (Hw & Inj & _ & R & G) Li. destruct (id_cases id_to w i Hw Li) as [(L & v & Rr & El & Ev & En & _)|(v & q & I & Ev & En & _)].
  - pose proof R as (_ & C & _). cbn [fst snd] in C. rewrite El, map_app in C. cbn [map cell fst snd] in C. destruct (chain_node _ _ _ _ _ _ C) as (q & E & Cq). apply chain_first in Cq. subst q.
    exists v, (first_id Rr). split; auto. split; auto. split; auto. eapply behind_lt; eauto.
  - destruct (G i v q I) as (E & _ & Lq). exists v, q. split; [|auto]. exact (rep_keeps _ _ _ R _ _ E).
Qed.
Lemma push_case f fr h hdr w s' l' a : Rw f fr (h, hdr) w -> rep fr l' s' -> In a (addrs l') -> NoDup (addrs l') ->
  (forall b, In b (addrs (map (cell f) (w_live w))) -> In b (addrs l') /\ b <> a) ->
  injf (ext f (w_made w) a) (S (w_made w)) /\
  (forall i v q, In (i, v, q) (w_gone w) -> fr (ext f (w_made w) a i) = Some (nodeq (ext f (w_made w) a) q v) /\ fr0 (ext f (w_made w) a i) = None /\ (forall j, q = Some j -> (j < S (w_made w))%nat)).
Proof.
  intros (Hw & Inj & _ & R & G) R' Ia ND Hl. split.
  - apply inj_ext; auto. intros i Li E. destruct (id_cases id_to w i Hw Li) as [(L & v & Rr & El & _)|(v & q & I & _)].
    + destruct (Hl (f i)) as [_ N]; auto. unfold addrs. rewrite cell_fst. apply in_map. rewrite El, map_app. apply in_app_iff. right. now left.
    + destruct (G i v q I) as [E2 _]. rewrite E in E2. rewrite (rep_out _ _ _ _ R' Ia) in E2. discriminate.
  - intros i v q I. destruct (G i v q I) as (E & F & Lq). pose proof (gone_lt _ _ _ _ Hw I). rewrite ext_old by auto. split; [|split; auto].
    + rewrite E. do 2 f_equal. destruct q as [j|]; auto. cbn. now rewrite ext_old by auto.
    + intros j Ej. specialize (Lq j Ej). lia.
Qed.
Lemma fr0_none f fr s w a : Rw f fr s w -> fr a = None -> fr0 a = None.
Proof. intros (_ & _ & F & _) E. destruct (fr0 a) eqn:E0; auto. apply F in E0. congruence. Qed.
(** Elements at the front of the list leave; the heap is as it was. *)
Lemma retire_case f fr h hdr w L Rr s' : Rw f fr (h, hdr) w -> w_live w = L ++ Rr -> fst s' = h -> rep fr (map (cell f) Rr) s' ->
  let fr' := retire fr (map f (map fst L)) h in
  (forall a n, fr0 a = Some n -> fr' a = Some n) /\ rep fr' (map (cell f) Rr) s' /\
  (forall i v q, In (i, v, q) (w_gone w) -> fr' (f i) = Some (nodeq f q v) /\ fr0 (f i) = None /\ (forall j, q = Some j -> (j < w_made w)%nat)) /\
  (forall L1 i v L2, L = L1 ++ (i, v) :: L2 -> fr' (f i) = Some (nodeq f (first_id (L2 ++ Rr)) v) /\ fr0 (f i) = None /\ (forall j, first_id (L2 ++ Rr) = Some j -> (j < w_made w)%nat)).
Proof.
  intros Hrw El Eh R' fr'. pose proof Hrw as (Hw & Inj & F0 & R & G). assert (ND := rep_nodup _ _ _ R). unfold addrs in ND. rewrite cell_fst, El, !map_app in ND. apply NoDup_app_split in ND as (_ & _ & ND).
  assert (NL : forall a, In a (map f (map fst L)) -> fr a = None).
  { intros a I. apply (rep_out _ _ _ _ R). unfold addrs. rewrite cell_fst, El, !map_app. apply in_app_iff. now left. }
  split; [|split; [|split]].
  - intros a n E. unfold fr'. rewrite retire_out; auto. intros I. apply NL in I. apply F0 in E. congruence.
  - eapply rep_reframe; [exact R'|rewrite Eh; apply retire_keeps; pose proof (rep_keeps _ _ _ R) as K; exact K|]. intros a I. unfold fr'. rewrite retire_out; [exact (rep_out _ _ _ _ R' I)|].
    intros I2. unfold addrs in I. rewrite cell_fst in I. exact (ND _ I2 I).
  - intros i v q I. destruct (G i v q I) as (E & E0 & Lq). split; auto. unfold fr'. rewrite retire_out; auto. intros I2. apply NL in I2. congruence.
  - intros L1 i v L2 EL. assert (Ii : In (f i) (map f (map fst L))) by (apply in_map; rewrite EL, map_app; apply in_app_iff; right; now left).
    split; [|split; [apply (fr0_none _ _ _ _ _ Hrw), NL, Ii|]].
    + unfold fr'. rewrite retire_in by exact Ii. pose proof R as (_ & C & _). cbn [fst snd] in C. rewrite El, EL, <- app_assoc, map_app in C. cbn [map cell fst snd app] in C.
      destruct (chain_node _ _ _ _ _ _ C) as (q & E & Cq). apply chain_first in Cq. subst q. exact E.
    + apply (behind_lt w L1 i v); auto. now rewrite El, EL, <- app_assoc.
Qed.
Lemma cells_id (l' l : list (nat * T)) : map fst l' = map fst l -> map snd l' = map snd l -> l' = l.
Proof. revert l. induction l' as [|[a v] l' IH]; intros [|[b u] l] E1 E2; try discriminate; auto. cbn in *. injection E1 as -> E1. injection E2 as -> E2. f_equal. auto. Qed.
Lemma call_sim k (o : sop T St) : sim know kle Rs (same know) k (l_call (slist_listing zero) o) (l_call sl_spec o).
Proof.
  intros [[f n] od] s w _ (Em & fr & Hrw). pose proof Hrw as (Hw & Inj & F0 & R & G). cbn [fst snd] in *. subst n. cbn [l_call slist_listing sl_spec].
  destruct (step_full zero fr _ s o R) as (l' & E & V & R' & Mv). rewrite cell_snd in E, V. fold (values w) in E, V. destruct s as [h hdr].
  assert (Fin : forall k' fr' w', w' = sl_world o w -> kle (f, w_made w, od) k' -> w_made w' = snd (fst k') -> wf w' -> injf (fst (fst k')) (w_made w') -> (forall a n, fr0 a = Some n -> fr' a = Some n) ->
    rep fr' (map (cell (fst (fst k'))) (w_live w')) (snd (slist_step zero o (h, hdr))) -> Gone (fst (fst k')) fr' w' ->
    agree know kle Rs (same know) (f, w_made w, od) (slist_step zero o (h, hdr)) (fst (slist_spec o (values w)), sl_world o w)).
  { intros k' fr' w' -> L1 L2 L3 L4 L5 L6 L7. exists k'. split; auto. cbn [fst snd]. split.
    - split; auto. exists fr'. split; auto.
    - rewrite E. destruct (fst (slist_spec o (values w))); auto. reflexivity. }
  assert (Same : sl_world o w = revalue (snd (slist_spec o (values w))) w -> addrs l' = addrs (map (cell f) (w_live w)) ->
    agree know kle Rs (same know) (f, w_made w, od) (slist_step zero o (h, hdr)) (fst (slist_spec o (values w)), sl_world o w)).
  { intros Ew Ea. unfold addrs in Ea. rewrite cell_fst in Ea. destruct (cells_revalue f l' w Ea) as [El Len]. rewrite V in El, Len.
    apply (Fin (f, w_made w, od) fr (revalue (snd (slist_spec o (values w))) w)); auto; [apply kle_refl|now apply wf_revalue|]. cbn [fst]. rewrite <- El. exact R'. }
  assert (AL : addrs (map (cell f) (w_live w)) = map f (map fst (w_live w))) by (unfold addrs; apply cell_fst).
  assert (ND' := rep_nodup _ _ _ R').
  destruct o; cbn [moved] in Mv; try (apply Same; [reflexivity|exact Mv]); cbn [slist_spec snd fst] in V.
  - destruct Mv as (a & Ea). rewrite Ea in ND'. destruct (push_case f fr h hdr w _ l' a Hrw R') as [I2 G2]; [rewrite Ea; now left|now rewrite Ea| |].
    { intros b Ib. rewrite Ea. split; [now right|]. intros ->. now inversion ND'. }
    apply (Fin (ext f (w_made w) a, S (w_made w), od) fr (push_front v w)); auto; [apply kle_ext|now apply wf_push_front|]. cbn [fst snd].
    unfold push_front. cbn [w_live map]. rewrite ext_cells by (now apply live_forall). unfold cell at 1. cbn [fst snd]. rewrite ext_new.
    replace ((a, v) :: map (cell f) (w_live w)) with l'; auto. apply cells_id; [exact Ea|]. cbn [map snd]. rewrite cell_snd. exact V.
  - destruct Mv as (a & Ea). rewrite Ea in ND'. destruct (push_case f fr h hdr w _ l' a Hrw R') as [I2 G2]; [rewrite Ea; apply in_app_iff; right; now left|now rewrite Ea| |].
    { intros b Ib. rewrite Ea. split; [apply in_app_iff; now left|]. intros ->. apply NoDup_app_split in ND' as (_ & _ & ND'). apply (ND' _ Ib). now left. }
    apply (Fin (ext f (w_made w) a, S (w_made w), od) fr (push_back v w)); auto; [apply kle_ext|now apply wf_push_back|]. cbn [fst snd].
    unfold push_back. cbn [w_live]. rewrite map_app, ext_cells by (now apply live_forall). cbn [map]. unfold cell at 2. cbn [fst snd]. rewrite ext_new.
    replace (map (cell f) (w_live w) ++ [(a, v)]) with l'; auto. apply cells_id; [rewrite map_app; exact Ea|]. rewrite map_app, cell_snd. exact V.
  - destruct Mv as [Ea Eh]. cbn [fst] in Eh. destruct (w_live w) as [|[i v] r] eqn:El.
    + assert (l' = []) by (destruct l'; auto; discriminate). subst l'. apply (Fin (f, w_made w, od) fr w); auto; [cbn; unfold pop_front; now rewrite El|apply kle_refl|]. rewrite El. exact R'.
    + assert (L' : l' = map (cell f) r). { apply cells_id; [exact Ea|]. rewrite V, cell_snd. unfold values. now rewrite El. } rewrite L' in R'.
      destruct (retire_case f fr h hdr w [(i, v)] r _ Hrw El Eh R') as (F1 & R1 & G1 & N1).
      apply (Fin (f, w_made w, od) (retire fr (map f (map fst [(i, v)])) h) (pop_front id_to w)); auto.
      * apply kle_refl.
      * unfold pop_front. now rewrite El.
      * now apply wf_pop_front.
      * unfold pop_front. rewrite El. exact Inj.
      * unfold pop_front. rewrite El. exact R1.
      * unfold pop_front. rewrite El. intros j u q [Ij|Ij]; [injection Ij as <- <- <-; exact (N1 [] i v [] eq_refl)|exact (G1 j u q Ij)].
  - apply (Fin (f, w_made w, od) fr (reverse w)); auto; [apply kle_refl|now apply wf_reverse|]. unfold reverse. cbn [w_live fst]. replace (map (cell f) (rev (w_live w))) with l'; auto.
    apply cells_id; [|rewrite cell_snd, map_rev; exact V]. rewrite cell_fst, !map_rev, <- AL. exact Mv.
  - destruct Mv as [-> Eh]. cbn [fst] in Eh. assert (El : w_live w = w_live w ++ []) by (now rewrite app_nil_r).
    destruct (retire_case f fr h hdr w (w_live w) [] _ Hrw El Eh R') as (F1 & R1 & G1 & N1).
    apply (Fin (f, w_made w, od) (retire fr (map f (map fst (w_live w))) h) (clear id_to w)); auto; [apply kle_refl|now apply wf_clear|].
    intros j u q I. cbn [w_gone clear] in I. apply in_app_iff in I as [I|I]; [|exact (G1 j u q I)].
    apply leaving_in in I as (L & Rr & EL & ->). specialize (N1 L j u Rr EL). rewrite app_nil_r in N1. exact N1.
Qed.
Lemma iterate_sim k : sim know kle Rs Rp k (l_iterate (slist_listing (St:=St) zero)) (l_iterate (sl_spec (St:=St))).
Proof.
  intros k' [h hdr] w L Hs. pose proof Hs as (Em & fr & Hrw). pose proof Hrw as (Hw & Inj & F0 & (Gd & C & _) & G). exists k'. split; [apply kle_refl|]. split; [exact Hs|]. cbn [fst snd l_iterate slist_listing sl_spec pure]. split.
  - cbn in C. now apply chain_first in C.
  - rewrite <- Em. now apply first_lt.
Qed.
(** A statement on an element. *)
Lemma node_sim {A B} (Q : know -> A -> B -> Prop) k p q (m1 : M (list (snode T) * slist) A) (m2 : nat -> M W B) : Rp k p q ->
  (forall s, p = None -> m1 s = (Panic, s)) ->
  (forall k' f h hdr w fr i v nx, kle k k' -> f = fst (fst k') -> Rs k' (h, hdr) w -> Rw f fr (h, hdr) w -> q = Some i -> p = Some (f i) -> (i < w_made w)%nat -> nth_error h (f i) = Some (nodeq f nx v) ->
    value_of i w = Some v -> next_of id_to i w = Some nx -> (forall j, nx = Some j -> (j < w_made w)%nat) -> agree know kle Rs Q k' (m1 (h, hdr)) (m2 i w)) ->
  sim know kle Rs Q k m1 (on_element q m2).
Proof.
  intros Hp Hn Hi k' [h hdr] w L Hs. apply (Rp_le _ _ _ _ L) in Hp as (Ep & Lq). pose proof Hs as (Em & fr & Hrw). destruct q as [i|]; cbn [on_element].
  - assert (Li : (i < w_made w)%nat) by (rewrite Em; auto). destruct (element _ _ _ _ _ _ Hrw Li) as (v & nx & En & Ev & Enx & Lnx). eapply (Hi k' _ h hdr w fr i v nx); eauto.
  - rewrite Hn by exact Ep. exists k'. split; [apply kle_refl|]. split; [exact Hs|]. exact I.
Qed.
Lemma pload_nil (h : list (snode T)) (hdr : slist) : pload (H:=slist) None (h, hdr) = (Panic, (h, hdr)).
Proof. reflexivity. Qed.
Lemma value_sim k p q : Rp k p q -> sim know kle Rs (same know) k (l_value (slist_listing (St:=St) zero) p) (l_value (sl_spec (St:=St)) q).
Proof.
  intros Hp. apply node_sim with (p := p); auto; [intros [h hdr] ->; reflexivity|]. intros k' f h hdr w fr i v nx L Ef Hs Hrw -> -> Li En Ev Enx Lnx. cbn [l_value slist_listing]. unfold Value, bind.
  rewrite (pload_ok _ _ _ _ En). unfold pure. rewrite Ev. exists k'. split; [apply kle_refl|]. split; [exact Hs|]. reflexivity.
Qed.
Lemma next_sim k p q : Rp k p q -> sim know kle Rs Rp k (l_next (slist_listing (St:=St) zero) p) (l_next (sl_spec (St:=St)) q).
Proof.
  intros Hp. apply node_sim with (p := p); auto; [intros [h hdr] ->; reflexivity|]. intros k' f h hdr w fr i v nx L Ef Hs Hrw -> -> Li En Ev Enx Lnx. cbn [l_next slist_listing]. unfold MoveToNext, bind.
  rewrite (pload_ok _ _ _ _ En). unfold pure. rewrite Enx. exists k'. split; [apply kle_refl|]. split; [exact Hs|]. cbn [fst snd some_or_panic ret s_next]. split; [now subst f|]. destruct Hs as [<- _]. exact Lnx.
Qed.
Lemma pointer_sim k p q : Rp k p q -> sim know kle Rs (same know) k (l_pointer (slist_listing (St:=St) zero) p) (l_pointer (sl_spec (St:=St)) q).
Proof.
  intros Hp. apply node_sim with (p := p); auto; [intros [h hdr] ->; reflexivity|]. intros k' f h hdr w fr i v nx L Ef Hs Hrw -> -> Li En Ev Enx Lnx. cbn [l_pointer slist_listing]. unfold bind.
  rewrite (pload_ok _ _ _ _ En). exists k'. split; [apply kle_refl|]. split; [exact Hs|]. reflexivity.
Qed.
Lemma more_sim k p q : Rp k p q -> sim know kle Rs (same know) k (l_more (slist_listing (St:=St) zero) p) (l_more (sl_spec (St:=St)) q).
Proof. intros (-> & _). cbn [l_more slist_listing sl_spec]. unfold IsNotEnd. apply sim_ret; [apply kle_refl|]. intros k' _. now destruct q. Qed.
Lemma chain_store h (L : list (nat * T)) a u v Rr q : nth_error h a = Some (mkSNode q u) -> forall p, NoDup (addrs (L ++ (a, u) :: Rr)) -> chain h p (L ++ (a, u) :: Rr) ->
  chain (upd a (mkSNode q v) h) p (L ++ (a, v) :: Rr).
Proof.
  intros E. induction L as [|[b x] L IH]; intros p ND C.
  - cbn [app] in *. destruct C as (-> & q' & E' & C). rewrite E in E'. injection E' as <-. split; auto. exists q. split; [apply nth_error_upd_eq; now apply nth_lt in E|]. apply chain_upd_out; auto. now inversion ND.
  - cbn [app] in *. destruct C as (-> & q' & E' & C). inversion ND as [|? ? NI ND']; subst. split; auto. exists q'. split; [|auto]. rewrite nth_error_upd_ne; auto. intros ->. apply NI. fold (addrs (L ++ (b, u) :: Rr)). rewrite addrs_app. apply in_app_iff. right. now left.
Qed.
Lemma store_sim k p q v : Rp k p q -> sim know kle Rs (same know) k (l_store (slist_listing (St:=St) zero) p v) (l_store (sl_spec (St:=St)) q v).
Proof.
  intros Hp. apply node_sim with (p := p); auto; [intros [h hdr] ->; reflexivity|]. intros k' f h hdr w fr i u nx L Ef Hs Hrw -> -> Li En Ev Enx Lnx. cbn [l_store slist_listing]. unfold Pointer_store.
  rewrite (pmod_ok _ _ _ _ _ En). exists k'. split; [apply kle_refl|]. cbn [fst snd]. split; [|reflexivity]. destruct Hs as [Em _]. split; auto. rewrite <- Ef. unfold set_s_value. cbn [s_next].
  pose proof Hrw as (Hw & Inj & F0 & R & G). assert (ND := rep_nodup _ _ _ R). destruct (id_cases id_to w i Hw Li) as [(L0 & v0 & Rr & El & Ev' & En' & NG)|(v0 & q & I & Ev' & En' & NL)].
  - assert (v0 = u) by congruence. subst v0. exists fr. split; [now apply wf_store|]. split; [exact Inj|]. split; [exact F0|].
    assert (Ew : w_live (store i v w) = L0 ++ (i, v) :: Rr). { unfold store. cbn [w_live]. rewrite El. apply write_mid. rewrite <- El. now apply wf_parts in Hw as (? & _). }
    assert (Ia : In (f i) (addrs (map (cell f) (w_live w)))) by (unfold addrs; rewrite cell_fst, El, map_app; apply in_map, in_app_iff; right; now left).
    split.
    + rewrite Ew. destruct R as ((N & LB & K) & C & Et & Elen). cbn [fst snd] in *. assert (EA : addrs (map (cell f) (L0 ++ (i, v) :: Rr)) = addrs (map (cell f) (w_live w))) by (unfold addrs; rewrite !cell_fst, El, !map_app; reflexivity).
      split; [|split; [|split]]; cbn [fst snd].
      * rewrite <- EA in N, LB. split; auto. split; auto. apply keeps_upd; auto. apply LB. rewrite EA. exact Ia.
      * rewrite El, map_app in C. cbn [map] in C. unfold cell at 2 in C. cbn [fst snd] in C. rewrite map_app. cbn [map]. unfold cell at 2. cbn [fst snd]. eapply chain_store; [exact En| |exact C].
        unfold addrs in N |- *. rewrite El in N. rewrite map_app in N. exact N.
      * rewrite Et. now apply last_addrs.
      * rewrite Elen, El. unfold zlen. rewrite !map_length, !app_length. reflexivity.
    + unfold Gone. cbn [w_gone store w_made]. rewrite write_gone by exact NG. exact G.
  - assert (v0 = u) by congruence. assert (q = nx) by congruence. subst v0 q. destruct (G i u nx I) as (Ei & E0 & Lq).
    exists (fun a => if Nat.eqb a (f i) then Some (nodeq f nx v) else fr a). split; [now apply wf_store|]. split; [exact Inj|]. split; [|split].
    + intros a n Ea. destruct (Nat.eqb_spec a (f i)) as [->|]; auto. congruence.
    + unfold store. cbn [w_live]. rewrite write_other by exact NL. assert (NA : forall a, In a (addrs (map (cell f) (w_live w))) -> a <> f i).
      { intros a Ia ->. apply (rep_out _ _ _ _ R) in Ia. congruence. }
      destruct R as ((N & LB & K) & C & Et & Elen). cbn [fst snd] in *. split; [|split; [|split]]; auto; cbn [fst snd].
      * split; auto. split; [intros a Ia; destruct (Nat.eqb_spec a (f i)) as [->|]; auto; exfalso; now apply (NA (f i))|].
        intros a n. destruct (Nat.eqb_spec a (f i)) as [->|Na]; [intros [= <-]; apply nth_error_upd_eq; now apply nth_lt in En|]. intros Ea. rewrite nth_error_upd_ne by auto. now apply K.
      * apply chain_upd_out; auto. intros Ia. now apply (NA (f i)).
    + intros j x q Ij. unfold store in Ij. cbn [w_gone] in Ij. apply in_map_iff in Ij as ([[j' x'] q'] & Ee & Ij). cbn [fst snd] in Ee. unfold write in Ee. cbn [fst snd] in Ee. cbn [w_made store].
      assert (Lj := gone_lt _ _ _ _ Hw Ij). destruct (G j' x' q' Ij) as (Ej & E0' & Lq').
      destruct (Nat.eqb_spec j' i) as [->|Nj]; injection Ee as <- <- <-.
      * rewrite Nat.eqb_refl. split; auto. assert (q' = nx) by (rewrite Ei in Ej; unfold find in *; pose proof (find_gone _ _ _ _ (proj1 (proj2 (wf_parts _ Hw))) Ij) as F1; pose proof (find_gone _ _ _ _ (proj1 (proj2 (wf_parts _ Hw))) I) as F2; congruence). now subst q'.
      * destruct (Nat.eqb_spec (f j') (f i)) as [Eij|]; [exfalso; apply Nj; now apply Inj|]. auto.
Qed.
Lemma slist_sims : sims (slist_listing (St:=St) zero) sl_spec know kle Rs Rp.
Proof. constructor; intros; [apply call_sim|apply iterate_sim|now apply pointer_sim|now apply more_sim|now apply next_sim|now apply value_sim|now apply store_sim]. Qed.
End S.
(** The zero SList. *)
Lemma Rs_init {T} (h0 : list (snode T)) : Rs (nth_error h0) ((fun i => i), O, None) (h0, empty_slist) w_empty.
Proof.
  split; auto. exists (nth_error h0). split; [apply wf_empty|]. split; [intros i j L; cbn in L; lia|]. split; auto. split; [|intros i v q []].
  cbn. unfold rep, good. cbn. repeat split; auto; [constructor|intros a []|apply keeps_refl].
Qed.
Lemma Rs_keeps {T} (fr0 : nat -> option (snode T)) k s w : Rs fr0 k s w -> keeps fr0 (fst s).
Proof. intros (_ & fr & _ & _ & F & R & _) a n E. apply (rep_keeps _ _ _ R), F, E. Qed.
