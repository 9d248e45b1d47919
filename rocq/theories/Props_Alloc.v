(** C118: how much storage containers allocate while they grow.  Vector's PushBack and
    Append, Stack's Push and PriorityQueue's Push leave the growth to append: all the
    storage they ever allocate is in proportion to the capacity they end with, in a
    logarithmic number of allocations.  Vector's Insert, and Reserve before every push,
    allocate exactly what is needed: n single insertions take n (n + 1) / 2 slots. *)
From Verif Require Import BaseLemmas Trace Spec Spec_Vector Model_Vector Model_Stack Model_Heap Model_PriorityQueue Spec_Alloc Proof_Mem Proof_Vector Proof_Alloc.

Section Alloc.
Context {T : Type}.
Variable zero : T.
Variable grow : Z -> Z -> Z.

(** What was expected: a container that grew by n elements allocated at most c times as
    many slots, however they were added, for some c that is not itself as large as the
    containers are. *)
Definition C118_expected_linear (c : Z) (ops : nat -> list (vec_op T)) : Prop :=
  forall n, Z.of_nat n <= max_int -> slots (fst (snd (run (vec_step zero grow) (ops n) ([[]], nil_slice)))) <= c * (Z.of_nat n + 1).

Theorem C118_vector : forall k m h ops m' h' rs, 0 <= k -> grows k grow -> wf_slice m h -> Forall appending ops ->
  run (vec_step zero grow) ops (m, h) = (rs, (m', h')) -> thrifty k (flat_map args_of ops) m h m' h'.
Proof.
  intros k m h ops m' h' rs Hk G W F E. destruct (run_thrifty grow (vec_step zero grow) fst snd args_of appending k Hk G) with (ops := ops) (s := (m, h)) as [_ R]; auto.
  - intros o [m0 h0] A W0. destruct (step_took zero grow o m0 h0 W0 A) as (r & m1 & h1 & E1 & Tk & _). rewrite E1. cbn [fst snd]. rewrite with_args_eq in Tk. eauto.
  - rewrite E in R. exact R.
Qed.
Theorem C118_linear : forall b m h ops m' h' rs, 1 <= b -> not_more b grow -> wf_slice m h -> Forall (fun o => appending o /\ forward o) ops ->
  run (vec_step zero grow) ops (m, h) = (rs, (m', h')) -> fits b (total added ops) h h'.
Proof.
  intros b m h ops m' h' rs Hb G W F E.
  pose proof (run_fits grow (vec_step zero grow) fst snd args_of added (fun o => appending o /\ forward o) b Hb G) as R. specialize (R ltac:(intros []; cbn; try apply zlen_nonneg; lia)).
  assert (H : fits b (total added ops) (snd (m, h)) (snd (snd (run (vec_step zero grow) ops (m, h))))).
  { apply R; auto. intros o [m0 h0] [A Fw] W0. destruct (step_took zero grow o m0 h0 W0 A) as (r & m1 & h1 & E1 & _ & Tk). rewrite E1. cbn [fst snd]. rewrite with_args_eq in Tk. auto. }
  rewrite E in H. exact H.
Qed.
(** From an empty vector. *)
Theorem C118_total : forall k b m ops m' h' rs, 0 <= k -> 1 <= b -> grows k grow -> not_more b grow -> (0 < length m)%nat -> Forall (fun o => appending o /\ forward o) ops ->
  run (vec_step zero grow) ops (m, nil_slice) = (rs, (m', h')) -> slots m' <= slots m + slots (flat_map args_of ops) + (k + 1) * b * total added ops.
Proof.
  intros k b m ops m' h' rs Hk Hb G N L F E. pose proof (wf_nil m L) as W.
  destruct (C118_vector k m nil_slice ops m' h' rs) as (_ & S & _); auto. { eapply Forall_impl; [|exact F]. now intros o [A _]. }
  destruct (C118_linear b m nil_slice ops m' h' rs) as [_ C]; auto. cbn [nil_slice s_cap s_len] in *.
  assert (0 <= total added ops). { clear. induction ops as [|o r I]; [cbn; lia|change (total added (o :: r)) with (added o + total added r)]. destruct o; cbn [added]; try lia; pose proof (zlen_nonneg xs); lia. }
  rewrite Z.add_0_l in C. assert (s_cap h' <= b * total added ops) by nia. nia.
Qed.
Theorem C118_insert : forall m h ps, wf_slice m h -> s_cap h = s_len h -> positions (s_len h) ps -> s_len h + zlen ps <= max_int ->
  exists m' h', run (vec_step zero grow) (inserts ps) (m, h) = (map (fun _ => Ok ONone) ps, (m', h')) /\ s_len h' = s_len h + zlen ps /\ s_cap h' = s_len h' /\
    length m' = (length m + length (flat_map args_of (inserts ps)) + length ps)%nat /\
    2 * slots m' = 2 * (slots m + slots (flat_map args_of (inserts ps))) + zlen ps * (2 * s_len h + zlen ps + 1).
Proof.
  intros m h ps W C P L. destruct (inserts_cost zero grow ps m h W C P L) as (m' & h' & E & _ & A & B & D & F). exists m', h'. repeat (split; auto).
  assert (length (flat_map args_of (inserts ps)) = length ps) by (clear; induction ps as [|p r I]; cbn; [auto|f_equal; exact I]). lia.
Qed.
Theorem C118_reserve : forall m h xs, wf_slice m h -> s_cap h = s_len h ->
  exists m' h', run (vec_step zero grow) (reserved_pushes (s_len h) xs) (m, h) = (map (fun _ => Ok ONone) (reserved_pushes (s_len h) xs), (m', h')) /\
    s_len h' = s_len h + zlen xs /\ s_cap h' = s_len h' /\ length m' = (length m + length xs)%nat /\
    2 * slots m' = 2 * slots m + zlen xs * (2 * s_len h + zlen xs + 1).
Proof.
  intros m h xs W C. destruct (reserved_cost zero grow xs m h W C) as (m' & h' & E & _ & A). exists m', h'. auto.
Qed.
Theorem C118_refuted_insert : forall (x : T) c, c <= 2 ^ 61 -> ~ C118_expected_linear c (fun n => inserts (repeat (0, x) n)).
Proof.
  intros x c Hc H. set (n := Z.to_nat (2 * Z.max c 0 + 1)). assert (Hn : Z.of_nat n = 2 * Z.max c 0 + 1) by lia. clearbody n. specialize (H n). unfold max_int in H. specialize (H ltac:(lia)).
  assert (P : forall n i, 0 <= i -> positions i (repeat (0, x) n)) by (induction n0 as [|j I]; intros i Hi; cbn; [auto|split; [lia|apply I; lia]]).
  assert (L : zlen (repeat (0, x) n) = Z.of_nat n) by (unfold zlen; now rewrite repeat_length).
  destruct (C118_insert [[]] nil_slice (repeat (0, x) n)) as (m' & h' & E & _ & _ & _ & S); [apply wf_nil; cbn; lia|reflexivity|apply P; cbn; lia|rewrite L; unfold max_int; cbn; lia|].
  apply (f_equal (fun r => slots (fst (snd r)))) in E. cbn [fst snd] in E. assert (H' : slots m' <= c * (Z.of_nat n + 1)) by (rewrite <- E; exact H). clear H E. rewrite L in S. cbn [nil_slice s_len] in S. change (slots [[]]) with 0 in S.
  assert (0 <= slots (flat_map args_of (inserts (repeat (0, x) n)))). { generalize (flat_map args_of (inserts (repeat (0, x) n))). clear. induction l as [|a l I]; cbn [slots]; [lia|pose proof (zlen_nonneg a); lia]. }
  rewrite Hn in *. nia.
Qed.
Theorem C118_refuted_reserve : forall (x : T) c, c <= 2 ^ 61 -> ~ C118_expected_linear c (fun n => reserved_pushes 0 (repeat x n)).
Proof.
  intros x c Hc H. set (n := Z.to_nat (2 * Z.max c 0 + 1)). assert (Hn : Z.of_nat n = 2 * Z.max c 0 + 1) by lia. clearbody n. specialize (H n). unfold max_int in H. specialize (H ltac:(lia)).
  assert (L : zlen (repeat x n) = Z.of_nat n) by (unfold zlen; now rewrite repeat_length).
  destruct (C118_reserve [[]] nil_slice (repeat x n)) as (m' & h' & E & _ & _ & _ & S); [apply wf_nil; cbn; lia|reflexivity|].
  cbn [nil_slice s_len] in E, S. apply (f_equal (fun r => slots (fst (snd r)))) in E. cbn [fst snd] in E. assert (H' : slots m' <= c * (Z.of_nat n + 1)) by (rewrite <- E; exact H). clear H E. rewrite L in S. change (slots [[]]) with 0 in S. rewrite Hn in *. nia.
Qed.
Theorem C118_stack : forall k b m h ops m' h' rs, 0 <= k -> 1 <= b -> grows k grow -> not_more b grow -> wf_slice m h ->
  run (stack_step zero grow) ops (m, h) = (rs, (m', h')) -> thrifty k [] m h m' h' /\ fits b (total pushed ops) h h'.
Proof.
  intros k b m h ops m' h' rs Hk Hb G N W E.
  assert (St : forall o (c : cell T), True -> wf_slice (fst c) (snd c) -> took grow (s_len (snd c) + pushed o) (fst c ++ []) (snd c) (fst (snd (stack_step zero grow o c))) (snd (snd (stack_step zero grow o c))) /\ s_len (snd (snd (stack_step zero grow o c))) <= s_len (snd c) + pushed o).
  { intros o [m0 h0] _ W0. pose proof (stack_took zero grow o m0 h0 W0) as S. destruct (stack_step zero grow o (m0, h0)) as [r [m1 h1]]. cbn [fst snd] in *. now rewrite app_nil_r. }
  assert (F : Forall (fun _ : stack_op T => True) ops) by (apply Forall_forall; auto). split.
  - destruct (run_thrifty grow (stack_step zero grow) fst snd (fun _ => []) (fun _ => True) k Hk G) with (ops := ops) (s := (m, h)) as [_ R]; auto. { intros o c I W0. eexists. apply (proj1 (St o c I W0)). }
    rewrite E in R. cbn [fst snd] in R. assert (Z0 : flat_map (fun _ : stack_op T => @nil (list T)) ops = []) by (clear; induction ops; auto). now rewrite Z0 in R.
  - pose proof (run_fits grow (stack_step zero grow) fst snd (fun _ => []) pushed (fun _ => True) b Hb N ltac:(intros []; cbn; lia) St ops (m, h) F W) as R. rewrite E in R. exact R.
Qed.
Theorem C118_queue : forall k b q ops q' rs, 0 <= k -> 1 <= b -> grows k grow -> not_more b grow -> wf_slice (fst (pq_heap q)) (snd (pq_heap q)) ->
  run (pq_step zero grow) ops q = (rs, q') ->
  thrifty k [] (fst (pq_heap q)) (snd (pq_heap q)) (fst (pq_heap q')) (snd (pq_heap q')) /\ fits b (total queued ops) (snd (pq_heap q)) (snd (pq_heap q')).
Proof.
  intros k b q ops q' rs Hk Hb G N W E. set (memo := fun q : PriorityQueue T => fst (pq_heap q)). set (hdr := fun q : PriorityQueue T => snd (pq_heap q)).
  assert (St : forall o (c : PriorityQueue T), True -> wf_slice (memo c) (hdr c) -> took grow (s_len (hdr c) + queued o) (memo c ++ []) (hdr c) (memo (snd (pq_step zero grow o c))) (hdr (snd (pq_step zero grow o c))) /\ s_len (hdr (snd (pq_step zero grow o c))) <= s_len (hdr c) + queued o).
  { intros o c _ W0. rewrite app_nil_r. exact (pq_took zero grow o c W0). }
  assert (F : Forall (fun _ : pq_op T => True) ops) by (apply Forall_forall; auto). split.
  - destruct (run_thrifty grow (pq_step zero grow) memo hdr (fun _ => []) (fun _ => True) k Hk G) with (ops := ops) (s := q) as [_ R]; auto. { intros o c I W0. eexists. apply (proj1 (St o c I W0)). }
    rewrite E in R. assert (Z0 : flat_map (fun _ : pq_op T => @nil (list T)) ops = []) by (clear; induction ops; auto). now rewrite Z0 in R.
  - pose proof (run_fits grow (pq_step zero grow) memo hdr (fun _ => []) queued (fun _ => True) b Hb N ltac:(intros []; cbn; lia) St ops q F W) as R. rewrite E in R. exact R.
Qed.
End Alloc.
Print Assumptions C118_vector.
Print Assumptions C118_linear.
Print Assumptions C118_total.
Print Assumptions C118_insert.
Print Assumptions C118_reserve.
Print Assumptions C118_refuted_insert.
Print Assumptions C118_refuted_reserve.
Print Assumptions C118_stack.
Print Assumptions C118_queue.

(** Doubling meets both conditions on append, and so does growing by a quarter and one
    more; growing by one element does not. *)
Example C118_hyp_grow : grows 1 (fun c need => 2 * c) /\ not_more 2 (fun c need => 2 * c) /\ grows 5 (fun c need => c + c / 4 + 1) /\ not_more 2 (fun c need => c + c / 4 + 1) /\
  (forall k, ~ grows k (fun c need => c + 1)).
Proof.
  split; [intros c n H; lia|]. split; [intros c n H; lia|]. split; [intros c n H; pose proof (Z.div_mod c 4 ltac:(lia)); pose proof (Z.mod_pos_bound c 4 ltac:(lia)); lia|].
  split; [intros c n H; pose proof (Z.div_mod c 4 ltac:(lia)); pose proof (Z.mod_pos_bound c 4 ltac:(lia)); lia|].
  intros k H. destruct (Z_le_dec 0 k) as [P|P].
  - specialize (H (k + 1) (k + 2) ltac:(lia)). rewrite Z.max_l in H by lia. lia.
  - specialize (H 0 1 ltac:(lia)). rewrite Z.max_l in H by lia. lia.
Qed.
(** Twelve elements: pushed, with a removal and a clear between, 5 arrays, 31 slots at
    doubling growth; inserted at the front, 12 arrays and 78 slots besides the arguments. *)
Example C118_hyp :
  let g := fun c _ : Z => 2 * c in
  let pushes := map VPushBack [1; 2; 3; 4; 5; 6; 7; 8; 9] in
  let ops := pushes ++ [VRemove 3; VAppend [10; 11; 12]; VPopBack; VClear; VPushBack 1] in
  let s := snd (run (vec_step 0 g) ops ([[]], nil_slice)) in
  let s' := snd (run (vec_step 0 g) (inserts (repeat (0, 7) 12)) ([[]], nil_slice)) in
  let s3 := snd (run (vec_step 0 g) (reserved_pushes 0 (repeat 7 12)) ([[]], nil_slice)) in
  wf_slice ([[]] : mem Z) nil_slice /\ Forall (fun o => appending o /\ forward o) ops /\ positions 0 (repeat (0, 7) 12) /\
  (slots (fst s), length (fst s), s_cap (snd s), total added ops) = (34, 7%nat, 16, 13) /\
  (slots (fst s'), length (fst s'), s_cap (snd s')) = (78 + 12, 25%nat, 12) /\ (slots (fst s3), length (fst s3), s_cap (snd s3)) = (78, 13%nat, 12).
Proof.
  cbv zeta. split; [apply wf_nil; cbn; lia|]. split; [unfold max_int; repeat constructor; cbn; try lia; auto|]. split; [cbn; lia|]. vm_compute. auto.
Qed.
