(** C116: PriorityQueues whose less function uses the queue it compares elements
    for. *)
From Verif Require Import BaseLemmas Trace Spec Proof_Mem Model_Heap Model_PriorityQueue Model_PQSelf Spec_PQSelf Proof_PQSelf.

(** The queue made by NewPriorityQueueFunc, and a queue after some calls. *)
Definition new_queue {T X} (m : mem T) (x : X) : cell T * X := ((m, nil_slice), x).
Definition queue_after {T X} (zero : T) grow (less : T -> T -> @QP T X bool) ops m x : cell T * X := snd (run (pq_step_self zero grow less) ops (new_queue m x)).
(** What Len of a queue returns. *)
Definition len_is {T X} (s : cell T * X) (n : Z) : Prop := fst (on_queue (h <- get_hdr ;; ret (s_len h)) s) = Ok n.

(** A less function that only looks at the queue: every call shows what it shows
    with a less function that never does. *)
Theorem C116_looking : forall T X (f : T -> T -> bool) (less : T -> T -> @QP T X bool) zero grow m ops x,
  looks_as f (fun _ _ _ => True) less -> (0 < length m)%nat -> zlen (pushed ops) <= max_int -> exists c x',
  run (pq_step_self zero grow less) ops (new_queue m x) = (fst (run (pq_step zero grow) ops (NewPriorityQueueFunc f m)), (c, x')) /\
  snd (run (pq_step zero grow) ops (NewPriorityQueueFunc f m)) = mkPQ c (pqFunc f).
Proof.
  intros T X f less zero grow m ops x L Hm Hn. unfold NewPriorityQueueFunc, new_queue.
  assert (G : forall ops m h x, wf_slice m h -> s_len h + zlen (pushed ops) <= max_int -> exists c x',
    run (pq_step_self zero grow less) ops ((m, h), x) = (fst (run (pq_step zero grow) ops (mkPQ (m, h) (pqFunc f))), (c, x')) /\
    snd (run (pq_step zero grow) ops (mkPQ (m, h) (pqFunc f))) = mkPQ c (pqFunc f)).
  { clear m ops x Hm Hn. induction ops as [|o ops IH]; intros m h x W Hn; [exists (m, h), x; auto|].
    change (o :: ops) with ([o] ++ ops) in Hn. unfold pushed in Hn. rewrite flat_map_app in Hn. fold (pushed [o]) in Hn. fold (pushed ops) in Hn. rewrite zlen_app in Hn. pose proof (zlen_nonneg (pushed ops)).
    destruct (look_step f (fun _ _ _ => True) less L (fun _ _ => I) (fun _ _ _ _ _ _ => I) zero grow o m h x W) as (r & m1 & h1 & x1 & E & Ep & W1 & _ & L1).
    { destruct o; try (right; intros; discriminate). left. change (zlen (pushed [PPush v])) with 1 in Hn. lia. }
    cbn [run]. rewrite E, Ep. destruct (IH m1 h1 x1 W1 ltac:(lia)) as (c & x' & E2 & Ep2). rewrite E2. destruct (run (pq_step zero grow) ops (mkPQ (m1, h1) (pqFunc f))) as [rs q]. cbn [fst snd] in *. eauto. }
  apply G; [now apply wf_nil|exact Hn].
Qed.
Print Assumptions C116_looking.
(** Calls of Top, Len and IsEmpty only look. *)
Theorem C116_nested_looks : forall T (zero : T) grow plan f, (forall x a b, Forall looking (plan x a b)) -> forall n, looks_as f (fun _ _ _ => True) (pq_nest zero grow plan f n).
Proof.
  intros T zero grow plan f Hp n m h x a b W L0. destruct n as [|n]; cbn [pq_nest snd]; [eauto|].
  enough (H : forall ops x, Forall looking ops -> exists rs, run (pq_step_self zero grow (pq_nest zero grow plan f n)) ops ((m, h), x) = (rs, ((m, h), x))).
  { destruct (H (plan x a b) x (Hp x a b)) as (rs & E). rewrite E. eauto. }
  clear x a b. induction ops as [|o ops IH]; intros x F; [exists []; reflexivity|]. inversion F as [|? ? Fo Fr]; subst.
  assert (E : exists r, pq_step_self zero grow (pq_nest zero grow plan f n) o ((m, h), x) = (r, ((m, h), x))).
  { destruct o; try destruct Fo; cbn [pq_step_self]; unfold observe, on_queue, sload, bind, get_hdr, lift_mem, on_slice, wload, ret; cbn [fst snd]; eauto.
    destruct (zget (contents m h) 0); rewrite write_at_same by auto; eauto. }
  destruct E as (r & E). cbn [run]. rewrite E. destruct (IH x Fr) as (rs & E2). rewrite E2. eauto.
Qed.
Print Assumptions C116_nested_looks.

(** Seen from inside less, Len counts the element being pushed, and still counts
    the one being popped. *)
Definition spying {T} (f : T -> T -> bool) : T -> T -> @QP T (list Z) bool := fun a b =>
  n <- on_queue (h <- get_hdr ;; ret (s_len h)) ;; fun s => (Ok (f a b), (fst s, snd s ++ [n])).
Theorem C116_inside : forall T (f : T -> T -> bool) zero grow m ops o, (0 < length m)%nat -> zlen (pushed (ops ++ [o])) <= max_int ->
  let s := queue_after zero grow (spying f) ops m [] in
  exists n k, len_is s n /\ snd (snd (pq_step_self zero grow (spying f) o s)) = snd s ++ repeat (match o with PPush _ => n + 1 | _ => n end) k.
Proof.
  intros T f zero grow m ops o Hm Hn. cbn zeta.
  set (R := fun n (x y : list Z) => exists k, y = x ++ repeat n k).
  assert (L : looks_as f R (spying f)). { intros m' h x a b W L0. eexists. split; [reflexivity|]. exists 1%nat. reflexivity. }
  assert (Rr : forall n x, R n x x) by (intros n x; exists 0%nat; cbn; now rewrite app_nil_r).
  assert (Rt : forall n x y z, R n x y -> R n y z -> R n x z) by (intros n x y z (k & ->) (k' & ->); exists (k + k')%nat; now rewrite repeat_app, app_assoc).
  unfold pushed in Hn. rewrite flat_map_app, zlen_app in Hn. fold (pushed ops) in Hn. fold (pushed [o]) in Hn.
  assert (G : forall ops m h x, wf_slice m h -> s_len h + zlen (pushed ops) <= max_int -> exists m' h' x', snd (run (pq_step_self zero grow (spying f)) ops ((m, h), x)) = ((m', h'), x') /\ wf_slice m' h' /\ s_len h' <= s_len h + zlen (pushed ops)).
  { clear m ops o Hm Hn. induction ops as [|o ops IH]; intros m h x W Hn; [exists m, h, x; cbn; auto with zarith|].
    change (o :: ops) with ([o] ++ ops) in *. unfold pushed in *. rewrite flat_map_app, zlen_app in *. fold (pushed [o]) in *. fold (pushed ops) in *. pose proof (zlen_nonneg (pushed ops)).
    destruct (look_step f R (spying f) L Rr Rt zero grow o m h x W) as (r & m1 & h1 & x1 & E & _ & W1 & _ & L1).
    { destruct o; try (right; intros; discriminate). left. change (zlen (pushed [PPush v])) with 1 in Hn. lia. }
    cbn [run app]. rewrite E. destruct (IH m1 h1 x1 W1 ltac:(lia)) as (m' & h' & x' & E2 & W2 & L2). destruct (run (pq_step_self zero grow (spying f)) ops ((m1, h1), x1)) as [rs s2]. cbn [snd] in *. exists m', h', x'. split; auto. split; auto. lia. }
  pose proof (zlen_nonneg (pushed [o])) as Z0. destruct (G ops m nil_slice [] (wf_nil m Hm)) as (m' & h' & x' & E & W & Ln); [cbn [nil_slice s_len]; lia|]. unfold queue_after, new_queue. rewrite E. cbn [nil_slice s_len] in Ln.
  destruct (look_step f R (spying f) L Rr Rt zero grow o m' h' x' W) as (r & m1 & h1 & x1 & E1 & _ & _ & (k & Ek) & _).
  { destruct o; try (right; intros; discriminate). left. change (zlen (pushed [PPush v])) with 1 in Hn. lia. }
  exists (s_len h'), k. split; [reflexivity|]. rewrite E1. cbn [snd]. rewrite Ek. destruct o; reflexivity.
Qed.
Print Assumptions C116_inside.

(** *** Less functions that change the queue *)
(** Whatever less does, so long as it puts only elements P in, and returns or
    panics: every call returns or panics, and what Pop and Top return is P: an
    element that was pushed, never one of the spare capacity. *)
Theorem C116_any : forall T X (P : T -> Prop) mayfail (less : T -> T -> @QP T X bool) zero grow m ops x,
  keeps_elements P mayfail less -> (0 < length m)%nat -> Forall P (pushed ops) ->
  Forall (fun r => r <> NoFuel /\ forall e, r = Ok (OVal e) -> P e) (fst (run (pq_step_self zero grow less) ops (new_queue m x))).
Proof.
  intros T X P mayfail less zero grow m ops x C Hm F. unfold new_queue.
  assert (G : forall ops m h x, holds P m h -> Forall P (pushed ops) -> Forall (fun r => r <> NoFuel /\ forall e, r = Ok (OVal e) -> P e) (fst (run (pq_step_self zero grow less) ops ((m, h), x)))).
  { clear m ops x Hm F. induction ops as [|o ops IH]; intros m h x H F; [constructor|]. change (o :: ops) with ([o] ++ ops) in F. unfold pushed in F. rewrite flat_map_app in F. apply Forall_app in F. destruct F as [F1 F2].
    destruct (step_fine P mayfail less C zero grow o m h x H F1) as (r & m1 & h1 & x1 & E & H1 & _ & Hr & _). cbn [run]. rewrite E. specialize (IH m1 h1 x1 H1 F2). destruct (run (pq_step_self zero grow less) ops ((m1, h1), x1)) as [rs s2]. cbn [fst] in *.
    constructor; auto. destruct r as [v| |]; [|split; [discriminate|discriminate]|destruct Hr]. split; [discriminate|]. intros e Q. injection Q as ->. now apply Hr. }
  apply G; auto. split; [now apply wf_nil|]. split; [cbn; unfold max_int; lia|]. rewrite contents_nil. constructor.
Qed.
Print Assumptions C116_any.
Lemma any_state {T X} (P : T -> Prop) mayfail (less : T -> T -> @QP T X bool) zero grow m ops x :
  keeps_elements P mayfail less -> (0 < length m)%nat -> Forall P (pushed ops) ->
  exists m' h' x', queue_after zero grow less ops m x = ((m', h'), x') /\ holds P m' h'.
Proof.
  intros C Hm F. unfold queue_after, new_queue.
  assert (G : forall ops m h x, holds P m h -> Forall P (pushed ops) -> exists m' h' x', snd (run (pq_step_self zero grow less) ops ((m, h), x)) = ((m', h'), x') /\ holds P m' h').
  { clear m ops x Hm F. induction ops as [|o ops IH]; intros m h x H F; [exists m, h, x; auto|]. change (o :: ops) with ([o] ++ ops) in F. unfold pushed in F. rewrite flat_map_app in F. apply Forall_app in F. destruct F as [F1 F2].
    destruct (step_fine P mayfail less C zero grow o m h x H F1) as (r & m1 & h1 & x1 & E & H1 & _ & Hr & _). cbn [run]. rewrite E. destruct (IH m1 h1 x1 H1 F2) as (m' & h' & x' & E2 & H2). destruct (run (pq_step_self zero grow less) ops ((m1, h1), x1)) as [rs s2]. cbn [snd] in *. eauto. }
  apply G; auto. split; [now apply wf_nil|]. split; [cbn; unfold max_int; lia|]. rewrite contents_nil. constructor.
Qed.
(** A Pop that returns leaves one element less than there were when it was
    called, however many less has pushed or popped meanwhile. *)
Theorem C116_pop_len : forall T X mayfail (less : T -> T -> @QP T X bool) zero grow m ops x n v s',
  keeps_elements (fun _ => True) mayfail less -> (0 < length m)%nat ->
  let s := queue_after zero grow less ops m x in
  len_is s n -> pq_step_self zero grow less PPop s = (Ok v, s') -> len_is s' (n - 1).
Proof.
  intros T X mayfail less zero grow m ops x n v s' C Hm. cbn zeta. destruct (any_state (fun _ => True) mayfail less zero grow m ops x C Hm) as (m' & h' & x' & E & H); [apply Forall_forall; auto|]. rewrite E. intros Ln Ep.
  destruct (step_fine (fun _ => True) mayfail less C zero grow PPop m' h' x' H (Forall_nil _)) as (r & m1 & h1 & x1 & E1 & _ & _ & _ & Hl). rewrite E1 in Ep. injection Ep as -> <-. specialize (Hl v eq_refl eq_refl).
  unfold len_is, on_queue, bind, get_hdr, ret in *. cbn [fst snd] in *. injection Ln as <-. now rewrite Hl.
Qed.
Print Assumptions C116_pop_len.
(** Nested calls, of any methods, are such a function; a call panics only where it
    would anyway: Pop and Top of an empty queue, Push to a full one. *)
Theorem C116_nested : forall T (zero : T) grow plan f P, (forall x a b, Forall P (pushed (plan x a b))) -> forall n, keeps_elements P False (pq_nest zero grow plan f n).
Proof.
  intros T zero grow plan f P Hp. induction n as [|n IH]; intros m h x a b Pa Pb H; cbn [pq_nest snd]; [exists (Ok (f a b)), m, h, x; auto|].
  enough (G : forall ops m h x, holds P m h -> Forall P (pushed ops) -> exists rs m' h' x', run (pq_step_self zero grow (pq_nest zero grow plan f n)) ops ((m, h), x) = (rs, ((m', h'), x')) /\ holds P m' h' /\ forall k, holds P m k -> holds P m' k).
  { destruct (G (plan x a b) m h x H (Hp x a b)) as (rs & m' & h' & x' & E & H' & K). rewrite E. exists (Ok (f a b)), m', h'. eauto 10. }
  clear m h x a b Pa Pb H. induction ops as [|o ops IHo]; intros m h x H F; [exists [], m, h, x; auto|]. change (o :: ops) with ([o] ++ ops) in F. unfold pushed in F. rewrite flat_map_app in F. apply Forall_app in F. destruct F as [F1 F2].
  destruct (step_fine P False _ IH zero grow o m h x H F1) as (r & m1 & h1 & x1 & E & H1 & K1 & _). cbn [run]. rewrite E. destruct (IHo m1 h1 x1 H1 F2) as (rs & m2 & h2 & x2 & E2 & H2 & K2). rewrite E2. exists (r :: rs), m2, h2, x2. auto.
Qed.
Print Assumptions C116_nested.
Theorem C116_panics : forall T (zero : T) grow plan f d m ops o n, (0 < length m)%nat ->
  let less := pq_nest zero grow plan f d in let s := queue_after zero grow less ops m [] in
  len_is s n -> (fst (pq_step_self zero grow less o s) = Panic <-> match o with PPop | PTop => n = 0 | PPush _ => n = max_int | _ => False end).
Proof.
  intros T zero grow plan f d m ops o n Hm. cbn zeta. assert (TT : forall l : list T, Forall (fun _ => True) l) by (intros l; apply Forall_forall; auto).
  pose proof (C116_nested T zero grow plan f (fun _ => True) (fun _ _ _ => TT _) d) as C.
  destruct (any_state (fun _ => True) False _ zero grow m ops [] C Hm (TT _)) as (m' & h' & x' & E & H). rewrite E. intros Ln. unfold len_is, on_queue, bind, get_hdr, ret in Ln. cbn [fst snd] in Ln. injection Ln as <-.
  destruct (step_fine (fun _ => True) False _ C zero grow o m' h' x' H (TT _)) as (r & m1 & h1 & x1 & E1 & _ & _ & Hr & _). rewrite E1. cbn [fst].
  fold (bad_call o (s_len h')). destruct r as [v| |]; [|tauto|destruct Hr]. split; [discriminate|]. tauto.
Qed.
Print Assumptions C116_panics.
(** Pushes inside pushes: the queue holds every element that was pushed, and
    nothing else. *)
Theorem C116_pushes : forall T (zero : T) grow plan f d m ops, (0 < length m)%nat ->
  (forall x a b, Forall adding (plan x a b)) -> Forall adding ops ->
  let less := pq_nest zero grow plan f d in
  exists rs c x, run (pq_step_self zero grow less) ops (new_queue m []) = (rs, (c, x)) /\ Permutation (c_contents c) (came (combine ops rs) ++ came x).
Proof.
  intros T zero grow plan f d m ops Hm Hp Ho. cbn zeta. unfold new_queue.
  destruct (run_adds _ (nest_adds zero grow plan f Hp d) zero grow ops m nil_slice [] (wf_nil m Hm)) as (rs & m' & h' & y & E & _ & Pm); [cbn; unfold max_int; lia|auto|].
  rewrite contents_nil in Pm. exists rs, (m', h'), y. auto.
Qed.
Print Assumptions C116_pushes.

(** Expected: a less function that answers by one order, whatever else it does,
    makes a priority queue: what a Pop returns is the least of the elements held. *)
Definition C116_expected : Prop :=
  forall T (zero : T) grow plan f d m ops v s', strict_weak f -> (0 < length m)%nat -> (forall x a b, Forall adding (plan x a b)) -> Forall adding ops ->
  let less := pq_nest zero grow plan f d in let s := queue_after zero grow less ops m [] in
  pq_step_self zero grow less PPop s = (Ok (OVal v), s') -> forall e, In e (c_contents (fst s)) -> f e v = false.
Definition once : list (pq_op Z * outcome (obs Z)) -> Z -> Z -> list (pq_op Z) := fun x _ _ => match x with [] => [PPush 1] | _ => [] end.
Lemma Z_ltb_sw : strict_weak Z.ltb.
Proof. constructor; intros; rewrite ?Z.ltb_lt, ?Z.ltb_ge, ?Z.ltb_irrefl in *; try lia; auto. Qed.
(** 5 and 3 are pushed; comparing them, less pushes 1. *)
Theorem C116_refuted : ~ C116_expected.
Proof.
  intros H. set (gr := fun _ _ : Z => 8). set (ops := [PPush 5; PPush 3]).
  assert (E : exists s', pq_step_self 0 gr (pq_nest 0 gr once Z.ltb 1) PPop (queue_after 0 gr (pq_nest 0 gr once Z.ltb 1) ops [[]] []) = (Ok (OVal 3), s')) by (vm_compute; eauto).
  destruct E as (s' & E). specialize (H Z 0 gr once Z.ltb 1%nat [[]] ops 3 s' Z_ltb_sw ltac:(cbn; lia)). cbn zeta in H.
  assert (F : 1 <? 3 = false); [|discriminate]. apply H; auto.
  - intros x a b. unfold once. destruct x; repeat constructor.
  - repeat constructor.
  - vm_compute. auto.
Qed.
Print Assumptions C116_refuted.
(** Expected: no element is handed out twice.  Of 1, 2, 3, each pushed once, Pop
    returns 3, and so does the Pop that less makes meanwhile. *)
Definition C116_expected_once : Prop :=
  forall T (zero : T) grow plan f d m ops v s', strict_weak f -> (0 < length m)%nat -> (forall x a b, pushed (plan x a b) = []) ->
  let less := pq_nest zero grow plan f d in
  NoDup (pushed ops) -> pq_step_self zero grow less PPop (queue_after zero grow (pq_nest zero grow plan f 0) ops m []) = (Ok (OVal v), s') -> ~ In (PPop, Ok (OVal v)) (snd s').
Definition pop_once : list (pq_op Z * outcome (obs Z)) -> Z -> Z -> list (pq_op Z) := fun _ _ _ => [PPop].
Theorem C116_refuted_once : ~ C116_expected_once.
Proof.
  intros H. set (gr := fun _ _ : Z => 8). set (ops := [PPush 1; PPush 2; PPush 3]).
  assert (E : exists s', pq_step_self 0 gr (pq_nest 0 gr pop_once Z.ltb 1) PPop (queue_after 0 gr (pq_nest 0 gr pop_once Z.ltb 0) ops [[]] []) = (Ok (OVal 3), s') /\ In (PPop, Ok (OVal 3)) (snd s')).
  { eexists. split; [vm_compute; reflexivity|]. vm_compute. auto. }
  destruct E as (s' & E & I). refine (H Z 0 gr pop_once Z.ltb 1%nat [[]] ops 3 s' Z_ltb_sw _ _ _ E I); [cbn; lia|reflexivity|]. cbn. repeat constructor; cbn; lia.
Qed.
Print Assumptions C116_refuted_once.
(** Expected: what less pushes is not lost.  By C116_pop_len every element that
    less pushes during a Pop leaves one too few. *)
Definition C116_expected_kept : Prop :=
  forall T (zero : T) grow plan f d m ops v s' n, strict_weak f -> (0 < length m)%nat -> (forall x a b, Forall adding (plan x a b)) -> Forall adding ops ->
  let less := pq_nest zero grow plan f d in let s := queue_after zero grow (pq_nest zero grow plan f 0) ops m [] in
  len_is s n -> pq_step_self zero grow less PPop s = (Ok (OVal v), s') -> len_is s' (n - 1 + zlen (came (snd s'))).
Theorem C116_refuted_kept : ~ C116_expected_kept.
Proof.
  intros H. set (gr := fun _ _ : Z => 8). set (ops := [PPush 5; PPush 6; PPush 7]).
  assert (E : exists s', pq_step_self 0 gr (pq_nest 0 gr once Z.ltb 1) PPop (queue_after 0 gr (pq_nest 0 gr once Z.ltb 0) ops [[]] []) = (Ok (OVal 5), s') /\ came (snd s') = [1] /\ len_is s' 2).
  { eexists. split; [vm_compute; reflexivity|]. split; vm_compute; reflexivity. }
  destruct E as (s' & E & Ec & L). specialize (H Z 0 gr once Z.ltb 1%nat [[]] ops 5 s' 3 Z_ltb_sw ltac:(cbn; lia)). cbn zeta in H.
  assert (L4 : len_is s' (3 - 1 + zlen (came (snd s')))). { apply H; auto; [intros x a b; unfold once; destruct x; repeat constructor|repeat constructor|vm_compute; reflexivity]. }
  rewrite Ec in L4. unfold len_is in *. rewrite L in L4. discriminate.
Qed.
Print Assumptions C116_refuted_kept.

(** A case: less asks for the Top and the Len of the queue; then one that pushes. *)
Definition c116_look : list (pq_op Z * outcome (obs Z)) -> Z -> Z -> list (pq_op Z) := fun _ _ _ => [PTop; PLen].
Example C116_hyp :
  (forall x a b, Forall looking (c116_look x a b)) /\ looks_as Z.ltb (fun _ _ _ => True) (pq_nest 0 (fun _ _ => 8) c116_look Z.ltb 2) /\
  (let '(rs, (_, x)) := run (pq_step_self 0 (fun _ _ => 8) (pq_nest 0 (fun _ _ => 8) c116_look Z.ltb 1)) [PPush 4; PPush 2; PPush 9; PPop; PPop; PLen] (new_queue [[]] []) in
   rs = [Ok ONone; Ok ONone; Ok ONone; Ok (OVal 2); Ok (OVal 4); Ok (OInt 1)] /\
   x = [(PTop, Ok (OVal 4)); (PLen, Ok (OInt 2)); (PTop, Ok (OVal 2)); (PLen, Ok (OInt 3)); (PTop, Ok (OVal 9)); (PLen, Ok (OInt 3))]) /\
  keeps_elements (fun z => 0 < z) False (pq_nest 0 (fun _ _ => 8) once Z.ltb 1) /\ Forall (fun z => 0 < z) (pushed [PPush 5; PPush 3]) /\
  snd (queue_after 0 (fun _ _ => 8) (spying Z.ltb) [PPush 4; PPush 2; PPush 9; PPop] [[]] []) = [2; 3; 3].
Proof.
  split; [intros; repeat constructor|]. split; [apply C116_nested_looks; intros; repeat constructor|]. split; [vm_compute; split; reflexivity|].
  split; [apply C116_nested; intros x a b; unfold once; destruct x; repeat constructor; lia|]. split; [repeat constructor; lia|vm_compute; reflexivity].
Qed.
