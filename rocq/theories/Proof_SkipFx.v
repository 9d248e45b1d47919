(** A SkipList whose key comparison function may panic: a call does what it does
    with a pure function, or panics having changed nothing but prevsCache. *)
From Verif Require Import BaseLemmas Spec Trace Spec_List Spec_Map Spec_Fx Spec_SkipFx Nodes Model_SkipList Proof_SkipList Model_SkipFx.
From Verif Require Model_Lookup.

Section Fx.
Context {K V X : Type}.
Variable keyCmp : K -> K -> M X Z.
Variables (P Q : X -> Prop) (cmp : K -> K -> Z).
Hypothesis C : contract_of P Q keyCmp.
Hypothesis A : answers_sign P cmp keyCmp.
Notation SP := (Nodes.P (slnode K V) sklist).
Notation FP := (@FP K V X).
Notation state := (list (slnode K V) * sklist)%type.

Lemma kept_refl (s : list (slnode K V) * sklist) : kept s s.
Proof. split; auto. exists (sl_prevs (snd s)). split; auto. destruct s as [h []]. reflexivity. Qed.
Lemma kept_trans (s1 s2 s3 : list (slnode K V) * sklist) : kept s1 s2 -> kept s2 s3 -> kept s1 s3.
Proof.
  intros (E1 & p1 & L1 & S1) (E2 & p2 & L2 & S2). split; [congruence|]. exists p2. rewrite S1 in *. cbn in *. split; [congruence|].
  rewrite S2. destruct (snd s1). reflexivity.
Qed.

(** p does what the pure q does, or panics because keyCmp did. *)
Definition tracks {B} (p : FP B) (q : SP B) : Prop := forall s x, P x ->
  exists o s' x', p (s, x) = (o, (s', x')) /\ kept s s' /\ ((q s = (o, s') /\ P x') \/ (o = Panic /\ Q x')).
Definition inert {B} (q : SP B) : Prop := forall s, kept s (snd (q s)).

Lemma tracks_quiet {B} (q : SP B) : inert q -> tracks (quiet q) q.
Proof.
  intros I s x H. unfold quiet. cbn [fst snd]. specialize (I s). destruct (q s) as [o s'] eqn:E. cbn [snd] in I.
  exists o, s', x. auto.
Qed.
Lemma tracks_ret {B} (b : B) : tracks (ret b) (ret b).
Proof. intros s x H. exists (Ok b), s, x. split; [reflexivity|]. split; [apply kept_refl|]. now left. Qed.
Lemma tracks_nofuel {B} : tracks (B := B) nofuel nofuel.
Proof. intros s x H. exists NoFuel, s, x. split; [reflexivity|]. split; [apply kept_refl|]. now left. Qed.
Lemma tracks_bind {B D} (p : FP B) q (k : B -> FP D) k' : tracks p q -> (forall b, tracks (k b) (k' b)) -> tracks (bind p k) (bind q k').
Proof.
  intros H1 H2 s x Hx. destruct (H1 s x Hx) as (o & s1 & x1 & E & K1 & [[Eq Px]|[-> Qx]]); unfold bind; rewrite E.
  - rewrite Eq. destruct o as [b| |].
    + destruct (H2 b s1 x1 Px) as (o & s2 & x2 & E2 & K2 & H). exists o, s2, x2. split; auto. split; auto. eapply kept_trans; eauto.
    + exists Panic, s1, x1. auto.
    + exists NoFuel, s1, x1. auto.
  - exists Panic, s1, x1. auto.
Qed.
(** One comparison followed by tests of the sign of its result. *)
Lemma tracks_compare {D} a b (k : Z -> FP D) q :
  (forall r, Z.sgn r = Z.sgn (cmp a b) -> tracks (k r) q) -> tracks (bind (compare keyCmp a b) k) q.
Proof.
  intros H s x Hx. pose proof (C a b x Hx) as Hc. pose proof (A a b x) as Ha. unfold bind, compare. cbn [fst snd].
  destruct (keyCmp a b x) as [[r| |] x'].
  - exact (H r (Ha r x' Hx eq_refl) s x' Hc).
  - exists Panic, s, x'. split; [reflexivity|]. split; [apply kept_refl|]. now right.
  - destruct Hc.
Qed.

Lemma inert_hget {B} (f : sklist -> B) : inert (hget f).
Proof. intros s. apply kept_refl. Qed.
Lemma inert_fuel : inert heap_fuel.
Proof. intros s. apply kept_refl. Qed.
Lemma inert_bind {B D} (p : SP B) (k : B -> SP D) : inert p -> (forall b, inert (k b)) -> inert (bind p k).
Proof.
  intros H1 H2 s. specialize (H1 s). unfold bind. destruct (p s) as [[b| |] s1]; cbn [snd] in *; auto.
  eapply kept_trans; [exact H1|apply H2].
Qed.
Lemma inert_pload p : inert (pload p).
Proof. intros s. unfold pload. destruct p as [a|]; [destruct (nth_error (fst s) a)|]; apply kept_refl. Qed.
Lemma inert_ret {B} (b : B) : inert (ret b).
Proof. intros s. apply kept_refl. Qed.
Lemma inert_panic {B} : inert (B := B) panic.
Proof. intros s. apply kept_refl. Qed.
Lemma inert_key p : inert (ld_key p).
Proof. apply inert_bind; [apply inert_pload|intros; apply inert_ret]. Qed.
Lemma inert_next p i : inert (ld_next p i).
Proof. apply inert_bind; [apply inert_pload|]. intros n. destruct (nth_error (n_next n) i); [apply inert_ret|apply inert_panic]. Qed.
Lemma inert_slice : inert prevs_slice.
Proof. repeat (apply inert_bind; [apply inert_hget|intros]). destruct (Nat.leb _ _); [apply inert_ret|apply inert_panic]. Qed.
Lemma inert_get n i : inert (prevs_get n i).
Proof. apply inert_bind; [apply inert_hget|intros c]. destruct (Nat.ltb _ _); [destruct (nth_error c i); [apply inert_ret|apply inert_panic]|apply inert_panic]. Qed.
Lemma inert_set n i q : inert (prevs_set n i q).
Proof.
  intros [h l]. unfold prevs_set, bind, hget. cbn [fst snd]. destruct (Nat.ltb i n); [|apply kept_refl].
  split; [reflexivity|]. exists (upd i q (sl_prevs l)). split; [apply upd_length|reflexivity].
Qed.
Hint Resolve inert_hget inert_fuel inert_key inert_next inert_slice inert_get inert_set : inert.
Ltac quietly := apply tracks_bind; [apply tracks_quiet; auto with inert|intros].

Ltac by_sign H := match type of H with Z.sgn ?r = Z.sgn ?c =>
  let E := fresh in destruct (Z.sgn_spec r) as [[? E]|[[? E]|[? E]]]; rewrite E in H; clear E;
  let E := fresh in destruct (Z.sgn_spec c) as [[? E]|[[? E]|[? E]]]; rewrite E in H; clear E; try discriminate H; clear H end.

Lemma scan_tracks key fuel : forall i prev cur,
  tracks (scan_fx keyCmp key fuel i prev cur) (scan (fun k => cmp k key =? 0) (fun k => 0 <? cmp k key) fuel i prev cur).
Proof.
  induction fuel as [|f IH]; intros i prev cur; cbn [scan_fx scan]; [apply tracks_nofuel|].
  destruct (is_nil cur); [apply tracks_ret|]. quietly. apply tracks_compare. intros r Hr.
  by_sign Hr.
  - destruct (Z.eqb_spec r 0), (Z.eqb_spec (cmp b key) 0), (Z.ltb_spec 0 r), (Z.ltb_spec 0 (cmp b key)); try lia. apply tracks_ret.
  - destruct (Z.eqb_spec r 0), (Z.eqb_spec (cmp b key) 0); try lia. apply tracks_ret.
  - destruct (Z.eqb_spec r 0), (Z.eqb_spec (cmp b key) 0), (Z.ltb_spec 0 r), (Z.ltb_spec 0 (cmp b key)); try lia. quietly. apply IH.
Qed.
Lemma tracks_ext {B} (p p' : FP B) q q' : (forall s, p s = p' s) -> (forall s, q s = q' s) -> tracks p' q' -> tracks p q.
Proof. intros E E' H s x Hx. rewrite E, E'. now apply H. Qed.
Lemma bind_assoc {S B D F} (p : M S B) (k : B -> M S D) (k' : D -> M S F) s : bind (bind p k) k' s = bind p (fun b => bind (k b) k') s.
Proof. unfold bind. destruct (p s) as [[b| |] s1]; auto. Qed.
Lemma bind_ext {S B D} (p : M S B) (k k' : B -> M S D) s : (forall b s, k b s = k' b s) -> bind p k s = bind p k' s.
Proof. intros H. unfold bind. destruct (p s) as [[b| |] s1]; auto. Qed.
Lemma tracks_quietly {B D} (q : SP B) (k : B -> FP D) k' : inert q -> (forall b, tracks (k b) (k' b)) -> tracks (bind (quiet q) k) (bind q k').
Proof. intros I H. apply tracks_bind; auto. now apply tracks_quiet. Qed.

Lemma scan_prev_tracks key fuel : forall i prev cur,
  tracks (r <- scan_prev_fx keyCmp key fuel i prev cur ;; ret (inr r)) (scan (fun _ => false) (fun k => 0 <=? cmp k key) fuel i prev cur).
Proof.
  induction fuel as [|f IH]; intros i prev cur; cbn [scan_prev_fx scan]; [intros s x H; exists NoFuel, s, x; split; [reflexivity|]; split; [apply kept_refl|now left]|].
  destruct (is_nil cur); [apply tracks_ret|].
  eapply tracks_ext; [intros s; apply bind_assoc|reflexivity|]. quietly.
  eapply tracks_ext; [intros s; apply bind_assoc|reflexivity|]. apply tracks_compare. intros r Hr.
  assert (E : (0 <=? r) = (0 <=? cmp b key)).
  { by_sign Hr; destruct (Z.leb_spec 0 r), (Z.leb_spec 0 (cmp b key)); auto; lia. }
  rewrite E. destruct (0 <=? cmp b key); [apply tracks_ret|].
  eapply tracks_ext; [intros s; apply bind_assoc|reflexivity|]. quietly. apply IH.
Qed.

Lemma lower_loop_tracks key fuel : forall level prev,
  tracks (lower_loop_fx keyCmp key fuel level prev) (descend (fun k => cmp k key =? 0) (fun k => 0 <? cmp k key) fuel level prev).
Proof.
  induction level as [|i IH]; intros prev; cbn [lower_loop_fx descend]; [apply tracks_ret|].
  quietly. apply tracks_bind; [apply scan_tracks|]. intros [n|q]; [apply tracks_ret|apply IH].
Qed.
Lemma insert_loop_tracks key fuel prevs : forall level prev,
  tracks (insert_loop_fx keyCmp key fuel prevs level prev) (descend_prevs (fun k => cmp k key =? 0) (fun k => 0 <? cmp k key) fuel prevs level prev).
Proof.
  induction level as [|i IH]; intros prev; cbn [insert_loop_fx descend_prevs]; [apply tracks_ret|].
  quietly. apply tracks_bind; [apply scan_tracks|]. intros [n|q]; [apply tracks_ret|]. quietly. apply IH.
Qed.
Lemma prev_loop_tracks key fuel prevs : forall level prev,
  tracks (r <- prev_loop_fx keyCmp key fuel prevs level prev ;; ret (inr r)) (descend_prevs (fun _ => false) (fun k => 0 <=? cmp k key) fuel prevs level prev).
Proof.
  induction level as [|i IH]; intros prev; cbn [prev_loop_fx descend_prevs]; [apply tracks_ret|].
  eapply tracks_ext; [intros s; apply bind_assoc|reflexivity|]. quietly.
  eapply tracks_ext with (p' := r <- (r <- scan_prev_fx keyCmp key fuel i prev b ;; ret (inr r)) ;;
    match r with inl n => ret (inl n) | inr prev' =>
      quiet (prevs_set prevs i prev') ;; (r <- prev_loop_fx keyCmp key fuel prevs i prev' ;; ret (inr r)) end); [|reflexivity|].
  { intros s. rewrite !bind_assoc. apply bind_ext. intros b0 s0. rewrite bind_assoc. reflexivity. }
  apply tracks_bind; [apply scan_prev_tracks|]. intros [n|q]; [apply tracks_ret|]. quietly. apply IH.
Qed.

Lemma lowerBound_tracks key : tracks (lowerBound_fx keyCmp key) (fn_lowerBound cmp key).
Proof.
  unfold lowerBound_fx, fn_lowerBound. do 3 quietly. apply tracks_bind; [apply lower_loop_tracks|].
  intros [n|q]; [apply tracks_ret|apply tracks_quiet; auto with inert].
Qed.
Lemma eq0_sign r c : Z.sgn r = Z.sgn c -> (r =? 0) = (c =? 0).
Proof. intros H. by_sign H; destruct (Z.eqb_spec r 0), (Z.eqb_spec c 0); auto; lia. Qed.
Lemma findNode_tracks key : tracks (findNode_fx keyCmp key) (fn_findNode cmp key).
Proof.
  unfold findNode_fx, fn_findNode. apply tracks_bind; [apply lowerBound_tracks|]. intros node.
  destruct (is_nil node); [apply tracks_ret|]. quietly. apply tracks_compare. intros r Hr. rewrite (eq0_sign _ _ Hr).
  destruct (_ =? _); apply tracks_ret.
Qed.
Lemma upperBound_tracks key : tracks (upperBound_fx keyCmp key) (fn_upperBound cmp key).
Proof.
  unfold upperBound_fx, fn_upperBound. apply tracks_bind; [apply lowerBound_tracks|]. intros node.
  destruct (is_nil node); [apply tracks_ret|]. quietly. apply tracks_compare. intros r Hr. rewrite (eq0_sign _ _ Hr).
  destruct (_ =? _); [apply tracks_quiet; auto with inert|apply tracks_ret].
Qed.
Lemma findInsertPoint_tracks key : tracks (findInsertPoint_fx keyCmp key) (fn_findInsertPoint cmp key).
Proof.
  unfold findInsertPoint_fx, fn_findInsertPoint. do 4 quietly. apply tracks_bind; [apply insert_loop_tracks|].
  intros [n|q]; apply tracks_ret.
Qed.
Lemma findPrevNodes_tracks key : tracks (findPrevNodes_fx keyCmp key) (fn_findPrevNodes cmp key).
Proof.
  unfold findPrevNodes_fx, fn_findPrevNodes. do 4 quietly.
  eapply tracks_ext with (p' := _ <- (r <- prev_loop_fx keyCmp key b b0 b2 b1 ;; ret (inr r)) ;; ret b0); [|reflexivity|].
  { intros s. rewrite bind_assoc. reflexivity. }
  apply tracks_bind; [apply prev_loop_tracks|]. intros _. apply tracks_ret.
Qed.
Lemma findRemovePoint_tracks key : tracks (findRemovePoint_fx keyCmp key) (fn_findRemovePoint cmp key).
Proof.
  unfold findRemovePoint_fx, fn_findRemovePoint. apply tracks_bind; [apply findPrevNodes_tracks|]. intros prevs. do 2 quietly.
  destruct (is_nil _); [apply tracks_ret|]. quietly. apply tracks_compare. intros r Hr. rewrite (eq0_sign _ _ Hr).
  destruct (negb _); apply tracks_ret.
Qed.

(** A whole call: it may change the list, but not when keyCmp panics. *)
Definition call_ok {B} (p : FP B) (q : SP B) : Prop := forall s x, P x ->
  exists o s' x', p (s, x) = (o, (s', x')) /\ ((q s = (o, s') /\ P x') \/ (o = Panic /\ kept s s' /\ Q x')).
Lemma tracks_call {B} (p : FP B) q : tracks p q -> call_ok p q.
Proof. intros H s x Hx. destruct (H s x Hx) as (o & s' & x' & E & Kp & [[? ?]|[? ?]]); exists o, s', x'; auto. Qed.
Lemma call_then {B D} (p : FP B) q (k : B -> SP D) : tracks p q -> call_ok (b <- p ;; quiet (k b)) (b <- q ;; k b).
Proof.
  intros H s x Hx. destruct (H s x Hx) as (o & s1 & x1 & E & Kp & [[Eq Px]|[-> Qx]]); unfold bind; rewrite E.
  - rewrite Eq. destruct o as [b| |]; [|exists Panic, s1, x1; auto|exists NoFuel, s1, x1; auto].
    unfold quiet. cbn [fst snd]. destruct (k b s1) as [o s2]. exists o, s2, x1. auto.
  - exists Panic, s1, x1. auto.
Qed.
Lemma call_quiet {B} (q : SP B) : call_ok (quiet q) q.
Proof. intros s x Hx. unfold quiet. cbn [fst snd]. destruct (q s) as [o s']. exists o, s', x. auto. Qed.
Lemma call_show {B R} (f : B -> R) (p : FP B) q : call_ok p q -> call_ok (show f p) (show f q).
Proof.
  intros H s x Hx. destruct (H s x Hx) as (o & s' & x' & E & Hc). unfold show. rewrite E. exists (omap f o), s', x'. split; auto.
  destruct Hc as [[Eq ?]|[-> [? ?]]]; [left; rewrite Eq; auto|right; auto].
Qed.
Lemma call_walk p q : tracks p q -> call_ok (walk_fx p) (walk q).
Proof.
  intros H. unfold walk_fx, walk. intros s x Hx.
  change ((fuel <- quiet heap_fuel ;; it <- p ;; quiet (iter_loop fuel it [])) (s, x)) with ((it <- p ;; quiet (iter_loop (S (length (fst s))) it [])) (s, x)).
  change ((fuel <- heap_fuel ;; it <- q ;; iter_loop fuel it []) s) with ((it <- q ;; iter_loop (S (length (fst s))) it []) s).
  exact (call_then p q (fun it => iter_loop (S (length (fst s))) it []) H s x Hx).
Qed.
Lemma Find_tracks key : tracks (Find_fx keyCmp key) (Find (implFunc cmp) key).
Proof. apply tracks_bind; [apply findNode_tracks|]. intros n. destruct (negb _); apply tracks_ret. Qed.

Lemma step_fx {St} (o : mop K V St) : call_ok (map_step_fx keyCmp o) (map_step (implFunc cmp) o).
Proof.
  destruct o; cbn [map_step_fx map_step]; apply call_show; try apply call_quiet.
  - unfold Insert_fx, Insert. eapply call_then. apply findInsertPoint_tracks.
  - unfold Remove_fx, Remove. eapply call_then. apply findRemovePoint_tracks.
  - unfold find_get_fx, find_get. eapply call_then. apply Find_tracks.
  - apply tracks_call. apply tracks_bind; [apply findNode_tracks|]. intros. apply tracks_ret.
  - unfold find_set_fx, find_set. eapply call_then. apply Find_tracks.
  - apply call_walk. apply tracks_bind; [apply lowerBound_tracks|]. intros. apply tracks_ret.
  - apply call_walk. apply tracks_bind; [apply upperBound_tracks|]. intros. apply tracks_ret.
  - apply call_walk. apply tracks_bind; [apply lowerBound_tracks|]. intros.
    apply tracks_bind; [apply upperBound_tracks|]. intros. apply tracks_ret.
  - apply call_walk. apply tracks_quiet. apply inert_bind; [apply inert_hget|]. intros. apply inert_bind; [apply inert_next|]. intros. apply inert_ret.
Qed.

(** Calls that compare no keys do not panic. *)
Lemma show_quiet {B R} (f : B -> R) (q : SP B) s (x : X) :
  show f (quiet q) (s, x) = (fst (show f q s), (snd (show f q s), x)).
Proof using Type. unfold show, quiet. cbn [fst snd]. destruct (q s). reflexivity. Qed.
Lemma walk_quiet q s (x : X) : walk_fx (quiet q) (s, x) = quiet (walk (K := K) (V := V) q) (s, x).
Proof using Type.
  unfold walk_fx, walk, bind, quiet, heap_fuel. cbn [fst snd]. destruct (q s) as [[it| |] s1]; reflexivity.
Qed.
Lemma step_fx_quiet {St} (o : mop K V St) s x : compares o = false ->
  map_step_fx keyCmp o (s, x) = (fst (map_step (implFunc cmp) o s), (snd (map_step (implFunc cmp) o s), x)).
Proof using Type.
  destruct o; cbn [compares map_step_fx map_step]; intros H; try discriminate H; try apply show_quiet.
  etransitivity; [|apply show_quiet]. unfold show at 1 2. rewrite walk_quiet. reflexivity.
Qed.
Lemma iter_loop_inert fuel : forall it seen, inert (iter_loop (K := K) (V := V) fuel it seen).
Proof using Type.
  induction fuel as [|f IH]; intros it seen; cbn [iter_loop]; [intros s; apply kept_refl|]. destruct (IsNotEnd it); [|apply inert_ret].
  apply inert_bind; [apply inert_key|]. intros k. apply inert_bind; [apply inert_bind; [apply inert_pload|intros; apply inert_ret]|]. intros v.
  apply inert_bind; [apply inert_bind; [apply inert_next|intros; apply inert_ret]|]. intros. apply IH.
Qed.
End Fx.

Lemma scan_inert {K V} hit stop fuel : forall i prev cur, inert (scan (K := K) (V := V) hit stop fuel i prev cur).
Proof.
  induction fuel as [|f IH]; intros i prev cur; cbn [scan]; [intros s; apply kept_refl|]. destruct (is_nil cur); [apply inert_ret|].
  apply inert_bind; [apply inert_key|]. intros k. destruct (hit k); [apply inert_ret|]. destruct (stop k); [apply inert_ret|].
  apply inert_bind; [apply inert_next|]. intros. apply IH.
Qed.
Lemma descend_inert {K V} hit stop fuel : forall level prev, inert (descend (K := K) (V := V) hit stop fuel level prev).
Proof.
  induction level as [|i IH]; intros prev; cbn [descend]; [apply inert_ret|]. apply inert_bind; [apply inert_next|]. intros cur.
  apply inert_bind; [apply scan_inert|]. intros [n|q]; [apply inert_ret|apply IH].
Qed.
Lemma range_inert {K V} (cmp : K -> K -> Z) a b : inert (walk (FindRange (V := V) (implFunc cmp) a b)).
Proof.
  assert (L : forall key, inert (fn_lowerBound (V := V) cmp key)).
  { intros key. apply inert_bind; [apply inert_fuel|]. intros. apply inert_bind; [apply inert_hget|]. intros. apply inert_bind; [apply inert_hget|]. intros.
    apply inert_bind; [apply descend_inert|]. intros [n|q]; [apply inert_ret|apply inert_next]. }
  apply inert_bind; [apply inert_fuel|]. intros. apply inert_bind; [|intros; apply iter_loop_inert].
  apply inert_bind; [apply L|]. intros. apply inert_bind; [|intros; apply inert_ret].
  apply inert_bind; [apply L|]. intros n. destruct (is_nil n); [apply inert_ret|]. apply inert_bind; [apply inert_key|]. intros k.
  destruct (_ =? _); [apply inert_next|apply inert_ret].
Qed.

Lemma Rel_kept {K V} lt fr (m : list (K * V)) s s' : Rel lt fr m s -> kept s s' -> Rel lt fr m s'.
Proof.
  intros (hd & ps & E & R & S) (Eh & pc & L & El). exists hd, ps. split; auto. split; auto.
  destruct s as [h l], s' as [h' l']. cbn [fst snd] in *. subst h' l'. apply rep_prevs; auto. rewrite L. exact (r_prevs _ _ _ _ R).
Qed.
