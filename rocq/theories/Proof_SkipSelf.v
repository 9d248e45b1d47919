(** Comparison functions that only look at the list are as good as pure ones, and
    those that only write prevsCache are as good for searches. *)
From Verif Require Import BaseLemmas Spec Trace Spec_List Spec_Map Spec_Fx Spec_SkipFx Spec_SkipSelf Nodes Model_SkipList Proof_SkipList Model_SkipFx Proof_SkipFx Model_SkipSelf.
From Verif Require Model_Lookup.

Lemma kept_sym {K V} (s s' : list (slnode K V) * sklist) : kept s s' -> kept s' s.
Proof.
  intros (E & pc & L & El). split; auto. exists (sl_prevs (snd s)). rewrite El. cbn [set_sl_prevs sl_prevs]. split; auto. destruct (snd s). reflexivity.
Qed.

Section Exact.
Context {K V X : Type}.
Variable compare : K -> K -> @Model_SkipFx.FP K V X Z.
Variable cmp : K -> K -> Z.
Variable s0 : list (slnode K V) * sklist.
Hypothesis A : looks_on cmp compare s0.
Notation SP := (Nodes.P (slnode K V) sklist).
Notation FP := (@Model_SkipFx.FP K V X).
(** p does what the pure q does. *)
Definition same {B} (p : FP B) (q : SP B) : Prop := forall s x, kept s0 s ->
  exists o s' x', p (s, x) = (o, (s', x')) /\ kept s s' /\ q s = (o, s').
Lemma same_quiet {B} (q : SP B) : inert q -> same (quiet q) q.
Proof. intros I s x H. unfold quiet. cbn [fst snd]. specialize (I s). destruct (q s) as [o s'] eqn:E. cbn [snd] in I. exists o, s', x. auto. Qed.
Lemma same_ret {B} (b : B) : same (ret b) (ret b).
Proof. intros s x H. exists (Ok b), s, x. split; [reflexivity|]. split; [apply kept_refl|reflexivity]. Qed.
Lemma same_nofuel {B} : same (B := B) nofuel nofuel.
Proof. intros s x H. exists NoFuel, s, x. split; [reflexivity|]. split; [apply kept_refl|reflexivity]. Qed.
Lemma same_bind {B D} (p : FP B) q (k : B -> FP D) k' : same p q -> (forall b, same (k b) (k' b)) -> same (bind p k) (bind q k').
Proof.
  intros H1 H2 s x G. destruct (H1 s x G) as (o & s1 & x1 & E & K1 & Eq). unfold bind. rewrite E, Eq. destruct o as [b| |].
  - destruct (H2 b s1 x1) as (o & s2 & x2 & E2 & K2 & H); [eapply kept_trans; eauto|]. exists o, s2, x2. split; auto. split; auto. eapply kept_trans; eauto.
  - exists Panic, s1, x1. auto.
  - exists NoFuel, s1, x1. auto.
Qed.
Lemma same_compare {D} a b (k : Z -> FP D) q :
  (forall r, Z.sgn r = Z.sgn (cmp a b) -> same (k r) q) -> same (bind (compare a b) k) q.
Proof using A.
  intros H s x G. destruct (A s x a b G) as (r & x' & E & Sg). unfold bind. rewrite E. exact (H r Sg s x' G).
Qed.
Lemma same_ext {B} (p p' : FP B) q q' : (forall s, p s = p' s) -> (forall s, q s = q' s) -> same p' q' -> same p q.
Proof. intros E E' H s x Hx. rewrite E, E'. now apply H. Qed.

Hint Resolve inert_hget inert_fuel inert_key inert_next inert_slice inert_get inert_set : inert.
Ltac quietly := apply same_bind; [apply same_quiet; auto with inert|intros].
Ltac by_sign H := match type of H with Z.sgn ?r = Z.sgn ?c =>
  let E := fresh in destruct (Z.sgn_spec r) as [[? E]|[[? E]|[? E]]]; rewrite E in H; clear E;
  let E := fresh in destruct (Z.sgn_spec c) as [[? E]|[[? E]|[? E]]]; rewrite E in H; clear E; try discriminate H; clear H end.

Lemma scan_same key fuel : forall i prev cur,
  same (scan_self compare key fuel i prev cur) (scan (fun k => cmp k key =? 0) (fun k => 0 <? cmp k key) fuel i prev cur).
Proof using A.
  induction fuel as [|f IH]; intros i prev cur; cbn [scan_self scan]; [apply same_nofuel|].
  destruct (is_nil cur); [apply same_ret|]. quietly. apply same_compare. intros r Hr.
  by_sign Hr.
  - destruct (Z.eqb_spec r 0), (Z.eqb_spec (cmp b key) 0), (Z.ltb_spec 0 r), (Z.ltb_spec 0 (cmp b key)); try lia. apply same_ret.
  - destruct (Z.eqb_spec r 0), (Z.eqb_spec (cmp b key) 0); try lia. apply same_ret.
  - destruct (Z.eqb_spec r 0), (Z.eqb_spec (cmp b key) 0), (Z.ltb_spec 0 r), (Z.ltb_spec 0 (cmp b key)); try lia. quietly. apply IH.
Qed.
Lemma scan_prev_same key fuel : forall i prev cur,
  same (r <- scan_prev_self compare key fuel i prev cur ;; ret (inr r)) (scan (fun _ => false) (fun k => 0 <=? cmp k key) fuel i prev cur).
Proof using A.
  induction fuel as [|f IH]; intros i prev cur; cbn [scan_prev_self scan]; [intros s x H; exists NoFuel, s, x; split; [reflexivity|]; split; [apply kept_refl|reflexivity]|].
  destruct (is_nil cur); [apply same_ret|].
  eapply same_ext; [intros s; apply Proof_SkipFx.bind_assoc|reflexivity|]. quietly.
  eapply same_ext; [intros s; apply Proof_SkipFx.bind_assoc|reflexivity|]. apply same_compare. intros r Hr.
  assert (E : (0 <=? r) = (0 <=? cmp b key)).
  { by_sign Hr; destruct (Z.leb_spec 0 r), (Z.leb_spec 0 (cmp b key)); auto; lia. }
  rewrite E. destruct (0 <=? cmp b key); [apply same_ret|].
  eapply same_ext; [intros s; apply Proof_SkipFx.bind_assoc|reflexivity|]. quietly. apply IH.
Qed.
Lemma lower_loop_same key fuel : forall level prev,
  same (lower_loop_self compare key fuel level prev) (descend (fun k => cmp k key =? 0) (fun k => 0 <? cmp k key) fuel level prev).
Proof using A.
  induction level as [|i IH]; intros prev; cbn [lower_loop_self descend]; [apply same_ret|].
  quietly. apply same_bind; [apply scan_same|]. intros [n|q]; [apply same_ret|apply IH].
Qed.
Lemma insert_loop_same key fuel prevs : forall level prev,
  same (insert_loop_self compare key fuel prevs level prev) (descend_prevs (fun k => cmp k key =? 0) (fun k => 0 <? cmp k key) fuel prevs level prev).
Proof using A.
  induction level as [|i IH]; intros prev; cbn [insert_loop_self descend_prevs]; [apply same_ret|].
  quietly. apply same_bind; [apply scan_same|]. intros [n|q]; [apply same_ret|]. quietly. apply IH.
Qed.
Lemma prev_loop_same key fuel prevs : forall level prev,
  same (r <- prev_loop_self compare key fuel prevs level prev ;; ret (inr r)) (descend_prevs (fun _ => false) (fun k => 0 <=? cmp k key) fuel prevs level prev).
Proof using A.
  induction level as [|i IH]; intros prev; cbn [prev_loop_self descend_prevs]; [apply same_ret|].
  eapply same_ext; [intros s; apply Proof_SkipFx.bind_assoc|reflexivity|]. quietly.
  eapply same_ext with (p' := r <- (r <- scan_prev_self compare key fuel i prev b ;; ret (inr r)) ;;
    match r with inl n => ret (inl n) | inr prev' =>
      quiet (prevs_set prevs i prev') ;; (r <- prev_loop_self compare key fuel prevs i prev' ;; ret (inr r)) end); [|reflexivity|].
  { intros s. rewrite !Proof_SkipFx.bind_assoc. apply Proof_SkipFx.bind_ext. intros b0 s1. rewrite Proof_SkipFx.bind_assoc. reflexivity. }
  apply same_bind; [apply scan_prev_same|]. intros [n|q]; [apply same_ret|]. quietly. apply IH.
Qed.
Lemma lowerBound_same key : same (lowerBound_self compare key) (fn_lowerBound cmp key).
Proof using A.
  unfold lowerBound_self, fn_lowerBound. do 3 quietly. apply same_bind; [apply lower_loop_same|].
  intros [n|q]; [apply same_ret|apply same_quiet; auto with inert].
Qed.
Lemma findNode_same key : same (findNode_self compare key) (fn_findNode cmp key).
Proof using A.
  unfold findNode_self, fn_findNode. apply same_bind; [apply lowerBound_same|]. intros node.
  destruct (is_nil node); [apply same_ret|]. quietly. apply same_compare. intros r Hr. rewrite (eq0_sign _ _ Hr).
  destruct (_ =? _); apply same_ret.
Qed.
Lemma upperBound_same key : same (upperBound_self compare key) (fn_upperBound cmp key).
Proof using A.
  unfold upperBound_self, fn_upperBound. apply same_bind; [apply lowerBound_same|]. intros node.
  destruct (is_nil node); [apply same_ret|]. quietly. apply same_compare. intros r Hr. rewrite (eq0_sign _ _ Hr).
  destruct (_ =? _); [apply same_quiet; auto with inert|apply same_ret].
Qed.
Lemma findInsertPoint_same key : same (findInsertPoint_self compare key) (fn_findInsertPoint cmp key).
Proof using A.
  unfold findInsertPoint_self, fn_findInsertPoint. do 4 quietly. apply same_bind; [apply insert_loop_same|].
  intros [n|q]; apply same_ret.
Qed.
Lemma findPrevNodes_same key : same (findPrevNodes_self compare key) (fn_findPrevNodes cmp key).
Proof using A.
  unfold findPrevNodes_self, fn_findPrevNodes. do 4 quietly.
  eapply same_ext with (p' := _ <- (r <- prev_loop_self compare key b b0 b2 b1 ;; ret (inr r)) ;; ret b0); [|reflexivity|].
  { intros s. rewrite Proof_SkipFx.bind_assoc. reflexivity. }
  apply same_bind; [apply prev_loop_same|]. intros _. apply same_ret.
Qed.
Lemma findRemovePoint_same key : same (findRemovePoint_self compare key) (fn_findRemovePoint cmp key).
Proof using A.
  unfold findRemovePoint_self, fn_findRemovePoint. apply same_bind; [apply findPrevNodes_same|]. intros prevs. do 2 quietly.
  destruct (is_nil _); [apply same_ret|]. quietly. apply same_compare. intros r Hr. rewrite (eq0_sign _ _ Hr).
  destruct (negb _); apply same_ret.
Qed.

(** A whole call. *)
Definition call_same {B} (p : FP B) (q : SP B) : Prop := forall s x, kept s0 s ->
  exists o s' x', p (s, x) = (o, (s', x')) /\ q s = (o, s').
Lemma same_call {B} (p : FP B) q : same p q -> call_same p q.
Proof. intros H s x G. destruct (H s x G) as (o & s' & x' & E & _ & Eq). eauto. Qed.
Lemma call_same_then {B D} (p : FP B) q (k : B -> SP D) : same p q -> call_same (b <- p ;; quiet (k b)) (b <- q ;; k b).
Proof.
  intros H s x G. destruct (H s x G) as (o & s1 & x1 & E & _ & Eq). unfold bind. rewrite E, Eq.
  destruct o as [b| |]; [|exists Panic, s1, x1; auto|exists NoFuel, s1, x1; auto].
  unfold quiet. cbn [fst snd]. destruct (k b s1) as [o s2]. exists o, s2, x1. auto.
Qed.
Lemma call_same_quiet {B} (q : SP B) : call_same (quiet q) q.
Proof. intros s x G. unfold quiet. cbn [fst snd]. destruct (q s) as [o s']. exists o, s', x. auto. Qed.
Lemma call_same_show {B R} (f : B -> R) (p : FP B) q : call_same p q -> call_same (show f p) (show f q).
Proof. intros H s x G. destruct (H s x G) as (o & s' & x' & E & Eq). unfold show. rewrite E, Eq. exists (omap f o), s', x'. auto. Qed.
Lemma call_same_walk p q : same p q -> call_same (walk_self p) (walk q).
Proof.
  intros H. unfold walk_self, walk. intros s x G.
  change ((fuel <- quiet heap_fuel ;; it <- p ;; quiet (iter_loop fuel it [])) (s, x)) with ((it <- p ;; quiet (iter_loop (S (length (fst s))) it [])) (s, x)).
  change ((fuel <- heap_fuel ;; it <- q ;; iter_loop fuel it []) s) with ((it <- q ;; iter_loop (S (length (fst s))) it []) s).
  exact (call_same_then p q (fun it => iter_loop (S (length (fst s))) it []) H s x G).
Qed.
Lemma Find_same key : same (Find_self compare key) (Find (implFunc cmp) key).
Proof using A. apply same_bind; [apply findNode_same|]. intros n. destruct (negb _); apply same_ret. Qed.
Lemma step_same {St} (o : mop K V St) : call_same (map_step_self compare o) (map_step (implFunc cmp) o).
Proof using A.
  destruct o; cbn [map_step_self map_step]; apply call_same_show; try apply call_same_quiet.
  - unfold Insert_self, Insert. eapply call_same_then. apply findInsertPoint_same.
  - unfold Remove_self, Remove. eapply call_same_then. apply findRemovePoint_same.
  - unfold find_get_self, find_get. eapply call_same_then. apply Find_same.
  - apply same_call. apply same_bind; [apply findNode_same|]. intros. apply same_ret.
  - unfold find_set_self, find_set. eapply call_same_then. apply Find_same.
  - apply call_same_walk. apply same_bind; [apply lowerBound_same|]. intros. apply same_ret.
  - apply call_same_walk. apply same_bind; [apply upperBound_same|]. intros. apply same_ret.
  - apply call_same_walk. apply same_bind; [apply lowerBound_same|]. intros.
    apply same_bind; [apply upperBound_same|]. intros. apply same_ret.
  - apply call_same_walk. apply same_quiet. apply inert_bind; [apply inert_hget|]. intros. apply inert_bind; [apply inert_next|]. intros. apply inert_ret.
Qed.
End Exact.

(** ** Comparison functions that may write prevsCache *)
Definition blind {K V B} (q : Nodes.P (slnode K V) sklist B) : Prop := forall s s', kept s s' -> fst (q s) = fst (q s').
Section Blind.
Context {K V : Type}.
Notation SP := (Nodes.P (slnode K V) sklist).
Lemma blind_ret {B} (b : B) : blind (K := K) (V := V) (ret b).
Proof. intros s s' _. reflexivity. Qed.
Lemma blind_nofuel {B} : blind (K := K) (V := V) (B := B) nofuel.
Proof. intros s s' _. reflexivity. Qed.
Lemma blind_panic {B} : blind (K := K) (V := V) (B := B) panic.
Proof. intros s s' _. reflexivity. Qed.
Lemma blind_bind {B D} (q : SP B) (k : B -> SP D) : blind q -> inert q -> (forall b, blind (k b)) -> blind (bind q k).
Proof.
  intros H I Hk s s' Kp. pose proof (H s s' Kp) as E. pose proof (I s) as I1. pose proof (I s') as I2. unfold bind.
  destruct (q s) as [[b| |] s1], (q s') as [[b'| |] s1']; cbn [fst snd] in *; try discriminate; auto. injection E as <-.
  apply Hk. apply (kept_trans s1 s s1'); [apply kept_sym; exact I1|]. apply (kept_trans s s' s1'); auto.
Qed.
Lemma blind_head : blind (K := K) (V := V) (hget sl_head).
Proof. intros s s' (_ & pc & _ & E). unfold hget. cbn [fst]. now rewrite E. Qed.
Lemma blind_level : blind (K := K) (V := V) (hget sl_level).
Proof. intros s s' (_ & pc & _ & E). unfold hget. cbn [fst]. now rewrite E. Qed.
Lemma blind_fuel : blind (K := K) (V := V) heap_fuel.
Proof. intros s s' (E & _). unfold heap_fuel. cbn [fst]. now rewrite E. Qed.
Lemma blind_load p : blind (K := K) (V := V) (pload p).
Proof. intros s s' (E & _). unfold pload. destruct p as [a|]; [|reflexivity]. rewrite E. destruct (nth_error (fst s) a); reflexivity. Qed.
Lemma blind_key p : blind (ld_key (K := K) (V := V) p).
Proof. apply blind_bind; [apply blind_load|apply inert_pload|intros; apply blind_ret]. Qed.
Lemma blind_value p : blind (ld_value (K := K) (V := V) p).
Proof. apply blind_bind; [apply blind_load|apply inert_pload|intros; apply blind_ret]. Qed.
Lemma blind_next p i : blind (ld_next (K := K) (V := V) p i).
Proof. apply blind_bind; [apply blind_load|apply inert_pload|]. intros n. destruct (nth_error (n_next n) i); [apply blind_ret|apply blind_panic]. Qed.
Lemma inert_value p : inert (ld_value (K := K) (V := V) p).
Proof. apply inert_bind; [apply inert_pload|intros; apply inert_ret]. Qed.
Lemma blind_iter_loop fuel : forall it seen, blind (iter_loop (K := K) (V := V) fuel it seen).
Proof.
  induction fuel as [|f IH]; intros it seen; cbn [iter_loop]; [apply blind_nofuel|]. destruct (IsNotEnd it); [|apply blind_ret].
  apply blind_bind; [apply blind_key|apply inert_key|]. intros k. apply blind_bind; [apply blind_value|apply inert_value|]. intros v.
  apply blind_bind; [|apply inert_bind; [apply inert_next|intros; apply inert_ret]|intros; apply IH].
  apply blind_bind; [apply blind_next|apply inert_next|intros; apply blind_ret].
Qed.
End Blind.

Section Near.
Context {K V X : Type}.
Variable compare : K -> K -> @Model_SkipFx.FP K V X Z.
Variable cmp : K -> K -> Z.
Variable s0 : list (slnode K V) * sklist.
Variable x0 : X.
Hypothesis A : keeps_on cmp compare s0.
Notation SP := (Nodes.P (slnode K V) sklist).
Notation FP := (@Model_SkipFx.FP K V X).
(** p returns what the pure q does; both leave all but prevsCache. *)
Definition near {B} (p : FP B) (q : SP B) : Prop := blind q /\ inert q /\
  forall s x, kept s0 s -> exists o s' x', p (s, x) = (o, (s', x')) /\ kept s s' /\ fst (q s) = o.
Lemma near_quiet {B} (q : SP B) : blind q -> inert q -> near (quiet q) q.
Proof.
  intros Bl I. split; [|split]; auto. intros s x H. unfold quiet. cbn [fst snd]. specialize (I s). destruct (q s) as [o s'] eqn:E. cbn [snd] in I. exists o, s', x. auto.
Qed.
Lemma near_ret {B} (b : B) : near (ret b) (ret b).
Proof. split; [apply blind_ret|]. split; [apply inert_ret|]. intros s x H. exists (Ok b), s, x. split; [reflexivity|]. split; [apply kept_refl|reflexivity]. Qed.
Lemma near_nofuel {B} : near (B := B) nofuel nofuel.
Proof. split; [apply blind_nofuel|]. split; [intros s; apply kept_refl|]. intros s x H. exists NoFuel, s, x. split; [reflexivity|]. split; [apply kept_refl|reflexivity]. Qed.
Lemma near_bind {B D} (p : FP B) q (k : B -> FP D) k' : near p q -> (forall b, near (k b) (k' b)) -> near (bind p k) (bind q k').
Proof.
  intros (B1 & I1 & H1) H2. split; [apply blind_bind; auto; intros b; apply H2|]. split; [apply inert_bind; auto; intros b; apply H2|].
  intros s x G. destruct (H1 s x G) as (o & s1 & x1 & E & K1 & Eq). specialize (I1 s). unfold bind. rewrite E. destruct (q s) as [o' s1']. cbn [fst snd] in *. subst o'. destruct o as [b| |].
  - destruct (H2 b) as (Bk & _ & Hk). destruct (Hk s1 x1) as (o & s2 & x2 & E2 & K2 & H); [eapply kept_trans; eauto|]. exists o, s2, x2. split; auto. split; [eapply kept_trans; eauto|].
    rewrite <- H. apply Bk. eapply kept_trans; [apply kept_sym; exact I1|exact K1].
  - exists Panic, s1, x1. auto.
  - exists NoFuel, s1, x1. auto.
Qed.
Lemma near_compare {D} a b (k : Z -> FP D) q :
  (forall r, Z.sgn r = Z.sgn (cmp a b) -> near (k r) q) -> near (bind (compare a b) k) q.
Proof using A x0.
  intros H. destruct (A s0 x0 a b (kept_refl s0)) as (r0 & _ & _ & _ & _ & Sg0). destruct (H r0 Sg0) as (Bq & Iq & _).
  split; [exact Bq|]. split; [exact Iq|]. intros s x G. destruct (A s x a b G) as (r & s1 & x' & E & G1 & Sg). unfold bind. rewrite E.
  destruct (H r Sg) as (_ & _ & Hk). destruct (Hk s1 x' G1) as (o & s2 & x2 & E2 & K2 & Ho).
  assert (Ks : kept s s1) by (eapply kept_trans; [apply kept_sym; exact G|exact G1]).
  exists o, s2, x2. split; auto. split; [eapply kept_trans; eauto|]. rewrite <- Ho. apply Bq. exact Ks.
Qed.
Ltac by_sign H := match type of H with Z.sgn ?r = Z.sgn ?c =>
  let E := fresh in destruct (Z.sgn_spec r) as [[? E]|[[? E]|[? E]]]; rewrite E in H; clear E;
  let E := fresh in destruct (Z.sgn_spec c) as [[? E]|[[? E]|[? E]]]; rewrite E in H; clear E; try discriminate H; clear H end.
Hint Resolve inert_hget inert_fuel inert_key inert_next blind_head blind_level blind_fuel blind_key blind_next : inert.
Ltac quietly := apply near_bind; [apply near_quiet; auto with inert|intros].
Lemma scan_near key fuel : forall i prev cur,
  near (scan_self compare key fuel i prev cur) (scan (fun k => cmp k key =? 0) (fun k => 0 <? cmp k key) fuel i prev cur).
Proof using A x0.
  induction fuel as [|f IH]; intros i prev cur; cbn [scan_self scan]; [apply near_nofuel|].
  destruct (is_nil cur); [apply near_ret|]. quietly. apply near_compare. intros r Hr.
  by_sign Hr.
  - destruct (Z.eqb_spec r 0), (Z.eqb_spec (cmp b key) 0), (Z.ltb_spec 0 r), (Z.ltb_spec 0 (cmp b key)); try lia. apply near_ret.
  - destruct (Z.eqb_spec r 0), (Z.eqb_spec (cmp b key) 0); try lia. apply near_ret.
  - destruct (Z.eqb_spec r 0), (Z.eqb_spec (cmp b key) 0), (Z.ltb_spec 0 r), (Z.ltb_spec 0 (cmp b key)); try lia. quietly. apply IH.
Qed.
Lemma lower_loop_near key fuel : forall level prev,
  near (lower_loop_self compare key fuel level prev) (descend (fun k => cmp k key =? 0) (fun k => 0 <? cmp k key) fuel level prev).
Proof using A x0.
  induction level as [|i IH]; intros prev; cbn [lower_loop_self descend]; [apply near_ret|].
  quietly. apply near_bind; [apply scan_near|]. intros [n|q]; [apply near_ret|apply IH].
Qed.
Lemma lowerBound_near key : near (lowerBound_self compare key) (fn_lowerBound cmp key).
Proof using A x0.
  unfold lowerBound_self, fn_lowerBound. do 3 quietly. apply near_bind; [apply lower_loop_near|].
  intros [n|q]; [apply near_ret|apply near_quiet; auto with inert].
Qed.
Lemma findNode_near key : near (findNode_self compare key) (fn_findNode cmp key).
Proof using A x0.
  unfold findNode_self, fn_findNode. apply near_bind; [apply lowerBound_near|]. intros node.
  destruct (is_nil node); [apply near_ret|]. quietly. apply near_compare. intros r Hr. rewrite (eq0_sign _ _ Hr).
  destruct (_ =? _); apply near_ret.
Qed.
Lemma upperBound_near key : near (upperBound_self compare key) (fn_upperBound cmp key).
Proof using A x0.
  unfold upperBound_self, fn_upperBound. apply near_bind; [apply lowerBound_near|]. intros node.
  destruct (is_nil node); [apply near_ret|]. quietly. apply near_compare. intros r Hr. rewrite (eq0_sign _ _ Hr).
  destruct (_ =? _); [apply near_quiet; auto with inert|apply near_ret].
Qed.
Lemma Find_near key : near (Find_self compare key) (Find (implFunc cmp) key).
Proof using A x0. apply near_bind; [apply findNode_near|]. intros n. destruct (negb _); apply near_ret. Qed.
Lemma near_walk p q : near p q -> near (walk_self p) (walk q).
Proof.
  intros H. apply near_bind; [apply near_quiet; auto with inert|]. intros fuel. apply near_bind; [exact H|]. intros it.
  apply near_quiet; [apply blind_iter_loop|apply iter_loop_inert].
Qed.
Lemma near_show {B R} (f : B -> R) (p : FP B) q : near p q -> near (show f p) (show f q).
Proof.
  intros (Bq & Iq & H). split; [|split].
  - intros s s' Kp. specialize (Bq s s' Kp). unfold show. destruct (q s), (q s'). cbn [fst] in *. now subst.
  - intros s. specialize (Iq s). unfold show. destruct (q s). exact Iq.
  - intros s x G. destruct (H s x G) as (o & s' & x' & E & Kp & Eq). unfold show. rewrite E. exists (omap f o), s', x'. split; auto. split; auto. destruct (q s). cbn [fst] in *. now subst.
Qed.
Lemma step_near {St} (o : mop K V St) : compares o = true -> (match o with MInsert _ _ _ | MRemove _ | MFindSet _ _ => False | _ => True end) ->
  near (map_step_self compare o) (map_step (implFunc cmp) o).
Proof using A x0.
  destruct o; cbn [compares]; intros H H'; try discriminate; try contradiction; cbn [map_step_self map_step]; apply near_show.
  - apply near_bind; [apply Find_near|]. intros p. apply near_quiet; destruct (is_nil p).
    + apply blind_ret.
    + apply blind_bind; [apply blind_value|apply inert_value|intros; apply blind_ret].
    + apply inert_ret.
    + apply inert_bind; [apply inert_value|intros; apply inert_ret].
  - apply near_bind; [apply findNode_near|]. intros. apply near_ret.
  - apply near_walk. apply near_bind; [apply lowerBound_near|]. intros. apply near_ret.
  - apply near_walk. apply near_bind; [apply upperBound_near|]. intros. apply near_ret.
  - apply near_walk. apply near_bind; [apply lowerBound_near|]. intros. apply near_bind; [apply upperBound_near|]. intros. apply near_ret.
Qed.
End Near.

(** Calls that compare no keys. *)
Lemma step_self_quiet {K V X St} (compare : K -> K -> @Model_SkipFx.FP K V X Z) cmp (o : mop K V St) s x : compares o = false ->
  map_step_self compare o (s, x) = (fst (map_step (implFunc cmp) o s), (snd (map_step (implFunc cmp) o s), x)).
Proof.
  destruct o; cbn [compares map_step_self map_step]; intros H; try discriminate H; try apply show_quiet.
  etransitivity; [|apply show_quiet]. unfold show at 1 2. change (@walk_self K V X) with (@walk_fx K V X). rewrite walk_quiet. reflexivity.
Qed.
