(** Comparison functions that look at the list and may panic: a call does what it
    does with a pure one, or panics having changed nothing but prevsCache. *)
From Verif Require Import BaseLemmas Spec Trace Spec_List Spec_Map Spec_Set Spec_Fx Spec_SkipFx Spec_SetFx Spec_SkipSelf Spec_SelfPanic Nodes Proof_Nodes Model_SkipList Proof_SkipList Proof_Map Props_SkipList
  Model_SkipListSet Props_SkipListSet Model_SkipFx Proof_SkipFx Model_SkipSelf Proof_SkipSelf Model_SetSelf.
From Verif Require Proof_SetSelf.

Section Trk.
Context {K V X : Type}.
Variable compare : K -> K -> @Model_SkipFx.FP K V X Z.
Variables (P Q : X -> Prop) (cmp : K -> K -> Z).
Variable s0 : list (slnode K V) * sklist.
Hypothesis A : looks_or_panics P Q cmp compare s0.
Notation SP := (Nodes.P (slnode K V) sklist).
Notation FP := (@Model_SkipFx.FP K V X).
(** p does what the pure q does, or panics because keyCmp did. *)
Definition trk {B} (p : FP B) (q : SP B) : Prop := forall s x, kept s0 s -> P x ->
  exists o s' x', p (s, x) = (o, (s', x')) /\ kept s s' /\ ((q s = (o, s') /\ P x') \/ (o = Panic /\ Q x')).
Lemma trk_quiet {B} (q : SP B) : inert q -> trk (quiet q) q.
Proof. intros I s x H Px. unfold quiet. cbn [fst snd]. specialize (I s). destruct (q s) as [o s'] eqn:E. cbn [snd] in I. exists o, s', x. auto. Qed.
Lemma trk_ret {B} (b : B) : trk (ret b) (ret b).
Proof. intros s x H Px. exists (Ok b), s, x. split; [reflexivity|]. split; [apply kept_refl|left; split; auto]. Qed.
Lemma trk_nofuel {B} : trk (B := B) nofuel nofuel.
Proof. intros s x H Px. exists NoFuel, s, x. split; [reflexivity|]. split; [apply kept_refl|left; split; auto]. Qed.
Lemma trk_bind {B D} (p : FP B) q (k : B -> FP D) k' : trk p q -> (forall b, trk (k b) (k' b)) -> trk (bind p k) (bind q k').
Proof.
  intros H1 H2 s x G Px. destruct (H1 s x G Px) as (o & s1 & x1 & E & K1 & [[Eq P1]|[-> Q1]]); unfold bind; rewrite E.
  - rewrite Eq. destruct o as [b| |].
    + destruct (H2 b s1 x1) as (o & s2 & x2 & E2 & K2 & H); [eapply kept_trans; eauto|exact P1|]. exists o, s2, x2. split; auto. split; auto. eapply kept_trans; eauto.
    + exists Panic, s1, x1. auto.
    + exists NoFuel, s1, x1. auto.
  - exists Panic, s1, x1. auto.
Qed.
Lemma trk_compare {D} a b (k : Z -> FP D) q :
  (forall r, Z.sgn r = Z.sgn (cmp a b) -> trk (k r) q) -> trk (bind (compare a b) k) q.
Proof using A.
  intros H s x G Px. pose proof (A s x a b G Px) as Ha. unfold bind. destruct (compare a b (s, x)) as [[r| |] [s1 x']].
  - destruct Ha as (-> & Sg & P1). exact (H r Sg s x' G P1).
  - destruct Ha as (K1 & Q1). exists Panic, s1, x'. split; auto. split; auto. eapply kept_trans; [apply kept_sym; exact G|exact K1].
  - destruct Ha.
Qed.
Lemma trk_ext {B} (p p' : FP B) q q' : (forall s, p s = p' s) -> (forall s, q s = q' s) -> trk p' q' -> trk p q.
Proof. intros E E' H s x Hx. rewrite E, E'. now apply H. Qed.

Hint Resolve inert_hget inert_fuel inert_key inert_next inert_slice inert_get inert_set : inert.
Ltac quietly := apply trk_bind; [apply trk_quiet; auto with inert|intros].
Ltac by_sign H := match type of H with Z.sgn ?r = Z.sgn ?c =>
  let E := fresh in destruct (Z.sgn_spec r) as [[? E]|[[? E]|[? E]]]; rewrite E in H; clear E;
  let E := fresh in destruct (Z.sgn_spec c) as [[? E]|[[? E]|[? E]]]; rewrite E in H; clear E; try discriminate H; clear H end.

Lemma scan_trk key fuel : forall i prev cur,
  trk (scan_self compare key fuel i prev cur) (scan (fun k => cmp k key =? 0) (fun k => 0 <? cmp k key) fuel i prev cur).
Proof using A.
  induction fuel as [|f IH]; intros i prev cur; cbn [scan_self scan]; [apply trk_nofuel|].
  destruct (is_nil cur); [apply trk_ret|]. quietly. apply trk_compare. intros r Hr.
  by_sign Hr.
  - destruct (Z.eqb_spec r 0), (Z.eqb_spec (cmp b key) 0), (Z.ltb_spec 0 r), (Z.ltb_spec 0 (cmp b key)); try lia. apply trk_ret.
  - destruct (Z.eqb_spec r 0), (Z.eqb_spec (cmp b key) 0); try lia. apply trk_ret.
  - destruct (Z.eqb_spec r 0), (Z.eqb_spec (cmp b key) 0), (Z.ltb_spec 0 r), (Z.ltb_spec 0 (cmp b key)); try lia. quietly. apply IH.
Qed.
Lemma scan_prev_trk key fuel : forall i prev cur,
  trk (r <- scan_prev_self compare key fuel i prev cur ;; ret (inr r)) (scan (fun _ => false) (fun k => 0 <=? cmp k key) fuel i prev cur).
Proof using A.
  induction fuel as [|f IH]; intros i prev cur; cbn [scan_prev_self scan]; [intros s x H Px; exists NoFuel, s, x; split; [reflexivity|]; split; [apply kept_refl|left; split; [reflexivity|exact Px]]|].
  destruct (is_nil cur); [apply trk_ret|].
  eapply trk_ext; [intros s; apply Proof_SkipFx.bind_assoc|reflexivity|]. quietly.
  eapply trk_ext; [intros s; apply Proof_SkipFx.bind_assoc|reflexivity|]. apply trk_compare. intros r Hr.
  assert (E : (0 <=? r) = (0 <=? cmp b key)).
  { by_sign Hr; destruct (Z.leb_spec 0 r), (Z.leb_spec 0 (cmp b key)); auto; lia. }
  rewrite E. destruct (0 <=? cmp b key); [apply trk_ret|].
  eapply trk_ext; [intros s; apply Proof_SkipFx.bind_assoc|reflexivity|]. quietly. apply IH.
Qed.
Lemma lower_loop_trk key fuel : forall level prev,
  trk (lower_loop_self compare key fuel level prev) (descend (fun k => cmp k key =? 0) (fun k => 0 <? cmp k key) fuel level prev).
Proof using A.
  induction level as [|i IH]; intros prev; cbn [lower_loop_self descend]; [apply trk_ret|].
  quietly. apply trk_bind; [apply scan_trk|]. intros [n|q]; [apply trk_ret|apply IH].
Qed.
Lemma insert_loop_trk key fuel prevs : forall level prev,
  trk (insert_loop_self compare key fuel prevs level prev) (descend_prevs (fun k => cmp k key =? 0) (fun k => 0 <? cmp k key) fuel prevs level prev).
Proof using A.
  induction level as [|i IH]; intros prev; cbn [insert_loop_self descend_prevs]; [apply trk_ret|].
  quietly. apply trk_bind; [apply scan_trk|]. intros [n|q]; [apply trk_ret|]. quietly. apply IH.
Qed.
Lemma prev_loop_trk key fuel prevs : forall level prev,
  trk (r <- prev_loop_self compare key fuel prevs level prev ;; ret (inr r)) (descend_prevs (fun _ => false) (fun k => 0 <=? cmp k key) fuel prevs level prev).
Proof using A.
  induction level as [|i IH]; intros prev; cbn [prev_loop_self descend_prevs]; [apply trk_ret|].
  eapply trk_ext; [intros s; apply Proof_SkipFx.bind_assoc|reflexivity|]. quietly.
  eapply trk_ext with (p' := r <- (r <- scan_prev_self compare key fuel i prev b ;; ret (inr r)) ;;
    match r with inl n => ret (inl n) | inr prev' =>
      quiet (prevs_set prevs i prev') ;; (r <- prev_loop_self compare key fuel prevs i prev' ;; ret (inr r)) end); [|reflexivity|].
  { intros s. rewrite !Proof_SkipFx.bind_assoc. apply Proof_SkipFx.bind_ext. intros b0 s1. rewrite Proof_SkipFx.bind_assoc. reflexivity. }
  apply trk_bind; [apply scan_prev_trk|]. intros [n|q]; [apply trk_ret|]. quietly. apply IH.
Qed.
Lemma lowerBound_trk key : trk (lowerBound_self compare key) (fn_lowerBound cmp key).
Proof using A.
  unfold lowerBound_self, fn_lowerBound. do 3 quietly. apply trk_bind; [apply lower_loop_trk|].
  intros [n|q]; [apply trk_ret|apply trk_quiet; auto with inert].
Qed.
Lemma findNode_trk key : trk (findNode_self compare key) (fn_findNode cmp key).
Proof using A.
  unfold findNode_self, fn_findNode. apply trk_bind; [apply lowerBound_trk|]. intros node.
  destruct (is_nil node); [apply trk_ret|]. quietly. apply trk_compare. intros r Hr. rewrite (eq0_sign _ _ Hr).
  destruct (_ =? _); apply trk_ret.
Qed.
Lemma upperBound_trk key : trk (upperBound_self compare key) (fn_upperBound cmp key).
Proof using A.
  unfold upperBound_self, fn_upperBound. apply trk_bind; [apply lowerBound_trk|]. intros node.
  destruct (is_nil node); [apply trk_ret|]. quietly. apply trk_compare. intros r Hr. rewrite (eq0_sign _ _ Hr).
  destruct (_ =? _); [apply trk_quiet; auto with inert|apply trk_ret].
Qed.
Lemma findInsertPoint_trk key : trk (findInsertPoint_self compare key) (fn_findInsertPoint cmp key).
Proof using A.
  unfold findInsertPoint_self, fn_findInsertPoint. do 4 quietly. apply trk_bind; [apply insert_loop_trk|].
  intros [n|q]; apply trk_ret.
Qed.
Lemma findPrevNodes_trk key : trk (findPrevNodes_self compare key) (fn_findPrevNodes cmp key).
Proof using A.
  unfold findPrevNodes_self, fn_findPrevNodes. do 4 quietly.
  eapply trk_ext with (p' := _ <- (r <- prev_loop_self compare key b b0 b2 b1 ;; ret (inr r)) ;; ret b0); [|reflexivity|].
  { intros s. rewrite Proof_SkipFx.bind_assoc. reflexivity. }
  apply trk_bind; [apply prev_loop_trk|]. intros _. apply trk_ret.
Qed.
Lemma findRemovePoint_trk key : trk (findRemovePoint_self compare key) (fn_findRemovePoint cmp key).
Proof using A.
  unfold findRemovePoint_self, fn_findRemovePoint. apply trk_bind; [apply findPrevNodes_trk|]. intros prevs. do 2 quietly.
  destruct (is_nil _); [apply trk_ret|]. quietly. apply trk_compare. intros r Hr. rewrite (eq0_sign _ _ Hr).
  destruct (negb _); apply trk_ret.
Qed.

(** A whole call: it may change the list, but not when keyCmp panics. *)
Definition trk_call {B} (s : list (slnode K V) * sklist) (p : FP B) (q : SP B) : Prop := forall x, P x ->
  exists o s' x', p (s, x) = (o, (s', x')) /\ ((q s = (o, s') /\ P x') \/ (o = Panic /\ kept s s' /\ Q x')).
Lemma trk_to_call {B} (p : FP B) q : trk p q -> trk_call s0 p q.
Proof. intros H x Px. destruct (H s0 x (kept_refl _) Px) as (o & s' & x' & E & Kp & [[? ?]|[? ?]]); exists o, s', x'; auto. Qed.
Lemma trk_then {B D} (p : FP B) q (k : B -> SP D) : trk p q -> trk_call s0 (b <- p ;; quiet (k b)) (b <- q ;; k b).
Proof.
  intros H x Px. destruct (H s0 x (kept_refl _) Px) as (o & s1 & x1 & E & Kp & [[Eq P1]|[-> Q1]]); unfold bind; rewrite E.
  - rewrite Eq. destruct o as [b| |]; [|exists Panic, s1, x1; auto|exists NoFuel, s1, x1; auto].
    unfold quiet. cbn [fst snd]. destruct (k b s1) as [o s2]. exists o, s2, x1. auto.
  - exists Panic, s1, x1. auto.
Qed.
Lemma trk_call_quiet {B} s (q : SP B) : trk_call s (quiet q) q.
Proof. intros x Px. unfold quiet. cbn [fst snd]. destruct (q s) as [o s']. exists o, s', x. auto. Qed.
Lemma trk_call_show {B R} s (f : B -> R) (p : FP B) q : trk_call s p q -> trk_call s (show f p) (show f q).
Proof.
  intros H x Px. destruct (H x Px) as (o & s' & x' & E & Hc). unfold show. rewrite E. exists (omap f o), s', x'. split; auto.
  destruct Hc as [[Eq ?]|[-> [? ?]]]; [left; rewrite Eq; auto|right; auto].
Qed.
Lemma trk_walk p q : trk p q -> trk_call s0 (walk_self p) (walk q).
Proof. intros H. exact (trk_then p q (fun it => iter_loop (S (length (fst s0))) it []) H). Qed.
Lemma Find_trk key : trk (Find_self compare key) (Find (implFunc cmp) key).
Proof using A. apply trk_bind; [apply findNode_trk|]. intros n. destruct (negb _); apply trk_ret. Qed.
Lemma step_trk {St} (o : mop K V St) : trk_call s0 (map_step_self compare o) (map_step (implFunc cmp) o).
Proof using A.
  destruct o; cbn [map_step_self map_step]; apply trk_call_show; try apply trk_call_quiet.
  - unfold Insert_self, Insert. eapply trk_then. apply findInsertPoint_trk.
  - unfold Remove_self, Remove. eapply trk_then. apply findRemovePoint_trk.
  - unfold find_get_self, find_get. eapply trk_then. apply Find_trk.
  - apply trk_to_call. apply trk_bind; [apply findNode_trk|]. intros. apply trk_ret.
  - unfold find_set_self, find_set. eapply trk_then. apply Find_trk.
  - apply trk_walk. apply trk_bind; [apply lowerBound_trk|]. intros. apply trk_ret.
  - apply trk_walk. apply trk_bind; [apply upperBound_trk|]. intros. apply trk_ret.
  - apply trk_walk. apply trk_bind; [apply lowerBound_trk|]. intros.
    apply trk_bind; [apply upperBound_trk|]. intros. apply trk_ret.
  - apply trk_walk. apply trk_quiet. apply inert_bind; [apply inert_hget|]. intros. apply inert_bind; [apply inert_next|]. intros. apply inert_ret.
Qed.
End Trk.

(** ** SkipListSet *)
Section SetTrk.
Context {K X : Type}.
Variable compare : K -> K -> @Model_SkipFx.FP K unit X Z.
Variables (P Q : X -> Prop) (cmp : K -> K -> Z).
(** States that insertions and removals do not lead out of, in all of which the
    comparison function looks or panics. *)
Variable G : (list (slnode K unit) * sklist) * X -> Prop.
Hypothesis A : forall s x, G (s, x) -> looks_or_panics P Q cmp compare s.
Hypothesis Gi : forall t k r, G t -> G (snd (set_Insert_self compare k r t)).
Hypothesis Gr : forall t k, G t -> G (snd (set_Remove_self compare k t)).
Hypothesis TW : three_way cmp.
Notation lt := (fun a b => cmp a b <? 0).
Notation impl := (implFunc (V := unit) cmp).
Lemma set_kind : kind impl lt.
Proof using TW. right. exists cmp. auto. Qed.
Lemma srel_kept fr m (s s' : list (slnode K unit) * sklist) : SRel lt fr m s -> kept s s' -> SRel lt fr m s'.
Proof. intros (mm & E & R) Kp. exists mm. split; auto. eapply Rel_kept; eauto. Qed.
Lemma quiet_len fr m s (x : X) : SRel lt fr m s -> quiet set_Len (s, x) = (Ok (zlen m), (s, x)).
Proof using TW. intros R. unfold quiet. cbn [fst snd]. now rewrite (SRel_len impl lt set_kind fr m s R). Qed.

Lemma Insert_call s x k r : G (s, x) -> trk_call P Q s (Insert_self compare k tt r) (Insert impl k tt r).
Proof using A. intros H. unfold Insert_self, Insert. eapply trk_then. apply findInsertPoint_trk. eapply A; eauto. Qed.
Lemma Remove_call s x k : G (s, x) -> trk_call P Q s (Remove_self compare k) (Remove impl k).
Proof using A. intros H. unfold Remove_self, Remove. eapply trk_then. apply findRemovePoint_trk. eapply A; eauto. Qed.

Lemma Insert_self_set fr m s x k r : SRel lt fr m s -> P x -> G (s, x) ->
  (exists s' x', set_Insert_self compare k r (s, x) = (Ok (negb (mem lt k m)), (s', x')) /\ SRel lt fr (add lt k m) s' /\ P x') \/
  (exists s' x', set_Insert_self compare k r (s, x) = (Panic, (s', x')) /\ SRel lt fr m s' /\ Q x').
Proof using A Gi Gr TW.
  intros R Px Gx. destruct (Insert_set impl lt set_kind fr m s k r R) as (s1 & E & R1). unfold set_Insert in E. rewrite (bind_eq _ _ _ _ _ (SRel_len impl lt set_kind fr m s R)) in E.
  unfold set_Insert_self. rewrite (bind_eq _ _ _ _ _ (quiet_len fr m s x R)).
  destruct (Insert_call s x k r Gx x Px) as (o & s' & x' & E1 & [[E2 Px']|(-> & Kp & Qx')]).
  - left. unfold bind in E at 1. rewrite E2 in E. destruct o as [u| |]; try discriminate E. rewrite (bind_eq _ _ _ _ _ E1).
    unfold bind, set_Len, Len, hget, ret in E. injection E as Eb Es. subst s1. rewrite (bind_eq _ _ _ _ _ (quiet_len fr _ s' x' R1)).
    exists s', x'. split; auto. unfold ret. pose proof (SRel_len impl lt set_kind fr _ _ R1) as L. unfold set_Len, Len, hget in L. injection L as L. rewrite L in Eb. now rewrite Eb.
  - right. exists s', x'. split; [|split; auto; eapply srel_kept; eauto]. unfold bind. now rewrite E1.
Qed.
Lemma Remove_self_set fr m s x k : SRel lt fr m s -> P x -> G (s, x) ->
  (exists s' x', set_Remove_self compare k (s, x) = (Ok (mem lt k m), (s', x')) /\ SRel lt fr (drop lt k m) s' /\ P x') \/
  (exists s' x', set_Remove_self compare k (s, x) = (Panic, (s', x')) /\ SRel lt fr m s' /\ Q x').
Proof using A Gi Gr TW.
  intros R Px Gx. destruct (Remove_set impl lt set_kind fr m s k R) as (s1 & E & R1). unfold set_Remove_self, set_Remove in *.
  destruct (Remove_call s x k Gx x Px) as (o & s' & x' & E1 & [[E2 Px']|(-> & Kp & Qx')]).
  - left. rewrite E2 in E. injection E as -> ->. eauto.
  - right. exists s', x'. split; [|split]; auto. eapply srel_kept; eauto.
Qed.
Lemma insertN_loop_set fr ks : forall m s x, SRel lt fr m s -> P x -> G (s, x) ->
  (exists s' x', insertN_loop_self compare ks (s, x) = (Ok tt, (s', x')) /\ SRel lt fr (fold_left (fun m p => add lt (fst p) m) ks m) s' /\ P x') \/
  (exists ks1 ks2 s' x', ks = ks1 ++ ks2 /\ ks2 <> [] /\ insertN_loop_self compare ks (s, x) = (Panic, (s', x')) /\ SRel lt fr (fold_left (fun m p => add lt (fst p) m) ks1 m) s' /\ Q x').
Proof using A Gi Gr TW.
  induction ks as [|[k r] ks IH]; intros m s x R Px Gx; cbn [insertN_loop_self]; [left; exists s, x; auto|].
  destruct (Insert_self_set fr m s x k r R Px Gx) as [(s' & x' & E & R' & Px')|(s' & x' & E & R' & Qx')].
  - rewrite (bind_eq _ _ _ _ _ E). assert (Gx' : G (s', x')) by (pose proof (Gi (s, x) k r Gx) as H; now rewrite E in H); destruct (IH _ _ _ R' Px' Gx') as [H|(ks1 & ks2 & s2 & x2 & -> & N & E2 & R2 & Q2)]; [left; exact H|]. right. exists ((k, r) :: ks1), ks2, s2, x2. auto.
  - right. exists [], ((k, r) :: ks), s', x'. split; auto. split; [discriminate|]. split; auto. unfold bind. now rewrite E.
Qed.
Lemma removeN_loop_set fr ks : forall m s x, SRel lt fr m s -> P x -> G (s, x) ->
  (exists s' x', removeN_loop_self compare ks (s, x) = (Ok tt, (s', x')) /\ SRel lt fr (fold_left (fun m k => drop lt k m) ks m) s' /\ P x') \/
  (exists ks1 ks2 s' x', ks = ks1 ++ ks2 /\ ks2 <> [] /\ removeN_loop_self compare ks (s, x) = (Panic, (s', x')) /\ SRel lt fr (fold_left (fun m k => drop lt k m) ks1 m) s' /\ Q x').
Proof using A Gi Gr TW.
  induction ks as [|k ks IH]; intros m s x R Px Gx; cbn [removeN_loop_self]; [left; exists s, x; auto|].
  destruct (Remove_self_set fr m s x k R Px Gx) as [(s' & x' & E & R' & Px')|(s' & x' & E & R' & Qx')].
  - rewrite (bind_eq _ _ _ _ _ E). assert (Gx' : G (s', x')) by (pose proof (Gr (s, x) k Gx) as H; now rewrite E in H); destruct (IH _ _ _ R' Px' Gx') as [H|(ks1 & ks2 & s2 & x2 & -> & N & E2 & R2 & Q2)]; [left; exact H|]. right. exists (k :: ks1), ks2, s2, x2. auto.
  - right. exists [], (k :: ks), s', x'. split; auto. split; [discriminate|]. split; auto. unfold bind. now rewrite E.
Qed.
Lemma trk_si_walk s (p : @Model_SkipFx.FP K unit X iter) q : trk P Q s p q -> trk_call P Q s (si_walk_self p) (si_walk q).
Proof. intros H. exact (trk_then P Q s p q (fun it => si_loop (S (length (fst s))) it []) H). Qed.
(** All calls but InsertN, RemoveN and Insert, which read the length between. *)
Definition single {St} (o : sop K St) : bool := match o with SInsert _ _ | SInsertN _ | SRemoveN _ => false | _ => true end.
Lemma set_step_call {St} (o : sop K St) s x : G (s, x) -> single o = true -> trk_call P Q s (set_step_self compare o) (set_step impl o).
Proof using A.
  intros H. pose proof (A s x H) as As. destruct o; cbn [single set_step_self set_step]; intros S1; try discriminate S1; apply trk_call_show; try apply trk_call_quiet.
  - eapply Remove_call; eauto.
  - apply trk_to_call. apply trk_bind; [now apply findNode_trk|]. intros. apply trk_ret.
  - apply trk_si_walk. apply trk_bind; [now apply lowerBound_trk|]. intros. apply trk_ret.
  - apply trk_si_walk. apply trk_bind; [now apply upperBound_trk|]. intros. apply trk_ret.
  - apply trk_si_walk. apply trk_bind; [now apply lowerBound_trk|]. intros. apply trk_bind; [now apply upperBound_trk|]. intros. apply trk_ret.
Qed.
Lemma set_self_step {St} fr (a : list K * X) s (o : sop K St) : (forall y, Q y -> P y) ->
  (SRel lt fr (fst a) (fst s) /\ snd a = snd s /\ P (snd s)) -> G s ->
  exists a', set_may_panic lt P Q a o (fst (set_step_self compare o s)) a' /\
    (SRel lt fr (fst a') (fst (snd (set_step_self compare o s))) /\ snd a' = snd (snd (set_step_self compare o s)) /\ P (snd (snd (set_step_self compare o s)))).
Proof using A Gi Gr TW.
  intros QP. destruct a as [m xa], s as [s x]. cbn [fst snd]. intros (R & -> & Px) Gx.
  destruct (set_call impl lt set_kind fr o m s R) as [E R1].
  destruct (set_compares o) eqn:Eo; [|rewrite (Proof_SetSelf.set_step_quiet compare cmp o s x Eo); cbn [fst snd]; exists (snd (set_spec lt o m), x); cbn [fst snd]; split; [left|auto]; cbn [fst snd]; rewrite E; split; [now destruct (set_spec lt o m)|auto]].
  destruct (single o) eqn:So.
  - destruct (set_step_call o s x Gx So x Px) as (r & s' & x' & Er & [[Eq Px']|(-> & Kp & Qx')]); rewrite Er; cbn [fst snd].
    + rewrite Eq in *. cbn [fst snd] in *. exists (snd (set_spec lt o m), x'). cbn [fst snd]. split; auto. left.
      cbn [fst snd]. split; [rewrite E; now destruct (set_spec lt o m)|]. split; auto. intros F. rewrite Eo in F. discriminate F.
    + exists (m, x'). cbn [fst snd]. split; [right|split; [eapply srel_kept; eauto|split; auto]]. split; auto. split; auto. split; auto. exists SLen. split; [|reflexivity]. destruct o; try discriminate So; reflexivity.
  - destruct o; try discriminate So; clear So Eo E R1; cbn [set_step_self]; unfold show.
    + destruct (Insert_self_set fr m s x k r R Px Gx) as [(s' & x' & E & R' & Px')|(s' & x' & E & R' & Qx')]; rewrite E; cbn [omap fst snd].
      * exists (add lt k m, x'). split; [|auto]. left. cbn. auto using eq_refl. split; [reflexivity|]. split; auto. discriminate.
      * exists (m, x'). split; [|auto]. right. cbn [fst snd]. split; auto. split; auto. split; auto. exists SLen. split; reflexivity.
    + unfold set_InsertN_self. rewrite (bind_eq _ _ _ _ _ (quiet_len fr m s x R)).
      destruct (insertN_loop_set fr ks m s x R Px Gx) as [(s' & x' & E & R' & Px')|(ks1 & ks2 & s' & x' & Ek & N & E & R' & Qx')].
      * rewrite (bind_eq _ _ _ _ _ E), (bind_eq _ _ _ _ _ (quiet_len fr _ s' x' R')). cbn [ret omap fst snd]. exists (fold_left (fun m p => add lt (fst p) m) ks m, x'). split; [|auto]. left. cbn [fst snd set_spec set_compares].
        split; [|split; auto; discriminate]. destruct (InsertN_set impl lt set_kind fr ks m s R) as (s2 & E2 & R2). unfold set_InsertN in E2. rewrite (bind_eq _ _ _ _ _ (SRel_len impl lt set_kind fr m s R)) in E2.
        destruct (insert_loop_ok impl lt set_kind fr ks m s R) as (s3 & E3 & R3). rewrite (bind_eq _ _ _ _ _ E3), (bind_eq _ _ _ _ _ (SRel_len impl lt set_kind fr _ s3 R3)) in E2. unfold ret in E2. injection E2 as -> _. reflexivity.
      * assert (E' : forall g, bind (insertN_loop_self compare ks) g (s, x) = (Panic (A := Z), (s', x'))) by (intros g; unfold bind; now rewrite E). rewrite E'. cbn [omap fst snd]. exists (fold_left (fun m p => add lt (fst p) m) ks1 m, x'). split; [|auto]. right. cbn [fst snd]. split; auto. split; auto. split; auto. exists (SInsertN ks1). split; [|reflexivity]. exists ks1, ks2. auto.
    + unfold set_RemoveN_self. rewrite (bind_eq _ _ _ _ _ (quiet_len fr m s x R)).
      destruct (removeN_loop_set fr ks m s x R Px Gx) as [(s' & x' & E & R' & Px')|(ks1 & ks2 & s' & x' & Ek & N & E & R' & Qx')].
      * rewrite (bind_eq _ _ _ _ _ E), (bind_eq _ _ _ _ _ (quiet_len fr _ s' x' R')). cbn [ret omap fst snd]. exists (fold_left (fun m k => drop lt k m) ks m, x'). split; [|auto]. left. cbn [fst snd set_spec set_compares].
        split; [|split; auto; discriminate]. destruct (RemoveN_set impl lt set_kind fr ks m s R) as (s2 & E2 & R2). unfold set_RemoveN in E2. rewrite (bind_eq _ _ _ _ _ (SRel_len impl lt set_kind fr m s R)) in E2.
        destruct (remove_loop_ok impl lt set_kind fr ks m s R) as (s3 & E3 & R3). rewrite (bind_eq _ _ _ _ _ E3), (bind_eq _ _ _ _ _ (SRel_len impl lt set_kind fr _ s3 R3)) in E2. unfold ret in E2. injection E2 as -> _. reflexivity.
      * assert (E' : forall g, bind (removeN_loop_self compare ks) g (s, x) = (Panic (A := Z), (s', x'))) by (intros g; unfold bind; now rewrite E). rewrite E'. cbn [omap fst snd]. exists (fold_left (fun m k => drop lt k m) ks1 m, x'). split; [|auto]. right. cbn [fst snd]. split; auto. split; auto. split; auto. exists (SRemoveN ks1). split; [|reflexivity]. exists ks1, ks2. auto.
Qed.
End SetTrk.
