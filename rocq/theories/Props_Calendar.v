(** C141: bookings that do not overlap, in a SkipList. *)
From Coq Require Import Sorted.
From Verif Require Import Base BaseLemmas Spec Trace Spec_Map Nodes Model_SkipList Proof_SkipList Proof_Map Props_SkipList Spec_Calendar Model_Calendar Proof_Calendar.

Lemma crel_new zk zv h0 l0 : crel (nth_error h0) [] (fresh zk zv h0 l0).
Proof. exists []. split; [apply fresh_Rel|]. split; [split; [intros a b []|intros a b a' b' []]|intros a b; cbn; tauto]. Qed.
Lemma crel_run impl zk zv h0 l0 ops : kind impl Z.ltb ->
  fst (run (cal_step impl) ops (fresh zk zv h0 l0)) = fst (run cal_spec ops []) /\
  crel (nth_error h0) (snd (run cal_spec ops [])) (snd (run (cal_step impl) ops (fresh zk zv h0 l0))).
Proof. intros Hk. apply (run_sim _ _ (crel (nth_error h0))); [|apply crel_new]. intros l s o C. exact (step_ok impl Hk (nth_error h0) o l s C). Qed.

(** Every sequence of calls on a new calendar shows what a collection of bookings without
    order shows that is searched through for every call. *)
Theorem C141_calendar : forall impl zk zv h0 l0 ops, kind impl Z.ltb ->
  fst (run (cal_step impl) ops (fresh zk zv h0 l0)) = fst (run cal_spec ops []).
Proof. intros impl zk zv h0 l0 ops Hk. now apply crel_run. Qed.
Print Assumptions C141_calendar.

(** C141: after every sequence of calls, iterating over the list gives the bookings
    (ends first), none empty, and each ends before or when any later one starts. *)
Theorem C141_apart : forall impl zk zv h0 l0 ops, kind impl Z.ltb ->
  exists m, fst (walk Iterate (snd (run (cal_step impl) ops (fresh zk zv h0 l0)))) = Ok m /\
    (forall s e, In (e, s) m <-> In (s, e) (snd (run cal_spec ops []))) /\
    (forall s e, In (e, s) m -> s < e) /\ StronglySorted (fun p q => fst p <= snd q) m.
Proof.
  intros impl zk zv h0 l0 ops Hk. destruct (crel_run impl zk zv h0 l0 ops Hk) as [_ (m & R & [P1 P2] & Eq)]. exists m.
  split; [exact (call_iter impl Z.ltb Hk (nth_error h0) m _ R)|]. split; [intros s e; apply Eq|]. split; [exact P1|].
  apply Rel_sorted in R. clear Eq P1. induction R as [|[b a] m S IH F]; constructor.
  - apply IH. intros a1 b1 a2 b2 I1 I2. apply (P2 a1 b1 a2 b2); now right.
  - rewrite Forall_forall in *. intros [b' a'] I. specialize (F _ I). cbn in *. apply (P2 a b a' b'); [now left|now right|lia].
Qed.
Print Assumptions C141_apart.

Example C141_hyp : kind (V := Z) (implOrdered Z.ltb Z.eqb) Z.ltb.
Proof. left. exists Z.eqb. split; [reflexivity|apply Z_ordered]. Qed.
Example C141_runs : let ops := [CBook 10 20 1; CBook 20 25 0; CBook 15 16 0; CBook 5 11 0; CBook 7 10 3; CBook 3 3 0; CTaken 9; CTaken 25; CTaken 7; CCancel 10 20; CTaken 12; CCancel 12 25; CCancel 21 25; CBook 9 12 0; CBook 10 20 0] in
  let r := run (cal_step (implOrdered Z.ltb Z.eqb)) ops (fresh 0 0 [] (mkSL 0 0 None [])) in
  fst r = map Ok [true; true; false; false; true; false; true; false; true; true; false; false; false; false; true] /\
  fst (walk Iterate (snd r)) = Ok [(10, 7); (20, 10); (25, 20)].
Proof. vm_compute. split; reflexivity. Qed.
