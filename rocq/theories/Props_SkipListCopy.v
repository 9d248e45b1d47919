(** C109: SkipList structs that are copied by assignment, and zero values. *)
From Verif Require Import Base BaseLemmas Spec Trace Nodes Spec_List Spec_Map Model_SkipList Proof_SkipList Proof_Map Spec_SkipListCopy Model_SkipListCopy Proof_SkipListCopy.

Section C109.
Context {K V St : Type}.
Variables (zk : K) (zv : V) (ltb eqb : K -> K -> bool).

(** Copies show the same map as the original, with lengths of their own, if new
    keys are inserted through the original (or happen to get the lowest level). *)
Theorem C109_shared (ops : list (yop K V St)) : Forall (lawful ltb eqb) ops -> polite ltb ops ([], []) ->
  fst (run (y_step zk zv ltb eqb) ops ([], [])) = fst (run (view_spec ltb) ops ([], [])).
Proof. intros La Po. exact (proj1 (run_inv zk zv ltb eqb ops _ _ _ La Po inv_start)). Qed.

(** A copy through which nothing is inserted or removed and which is not asked
    for its length is another name for the map. *)
Theorem C109_readers (ops : list (yop K V St)) : Forall (lawful ltb eqb) ops -> reading ltb ops ([], []) ->
  fst (run (y_step zk zv ltb eqb) ops ([], [])) = fst (run (alias_spec ltb) ops ([], [])).
Proof. intros La Rd. destruct (read_run ltb eqb ops _ _ La Rd J_start) as [Po E]. rewrite <- E. now apply C109_shared. Qed.

(** A copy made of a list with the elements m: after calls through the original
    (inserts, removals, anything) the length the copy tells is still that of m, and
    it shows the map of the original. *)
Theorem C109_stale_len (cs ds : list (mop K V St)) k : lawful (V := V) (St := St) ltb eqb (YNew k) ->
  let m := snd (run (map_spec (ylt ltb k)) cs []) in
  let m' := snd (run (map_spec (ylt ltb k)) ds m) in
  let w := snd (run (y_step zk zv ltb eqb) (YNew k :: map (YCall 0) cs ++ YCopy 0 :: map (YCall 0) ds) ([], [])) in
  fst (y_step (St := St) zk zv ltb eqb (YCall 1 MLen) w) = Ok (MInt (zlen m)) /\
  fst (y_step (St := St) zk zv ltb eqb (YCall 1 MIter) w) = Ok (MSeq m') /\
  fst (y_step (St := St) zk zv ltb eqb (YCall 0 MLen) w) = Ok (MInt (zlen m')).
Proof.
  cbv zeta. intros La. set (lt := ylt ltb k). pose proof (ylt_weak ltb eqb k La) as SW. fold lt in SW.
  set (m := snd (run (map_spec lt) cs [])). set (m' := snd (run (map_spec lt) ds m)).
  assert (Calls : forall (os : list (mop K V St)) n0 tl, ksorted lt n0 -> polite ltb (map (YCall (K := K) (V := V) 0) os) ([(lt, n0)], mkView (Some O) true (zlen n0) :: tl) /\
    snd (run (view_spec ltb) (map (YCall 0) os) ([(lt, n0)], mkView (Some O) true (zlen n0) :: tl)) = ([(lt, snd (run (map_spec lt) os n0))], mkView (Some O) true (zlen (snd (run (map_spec lt) os n0))) :: tl)).
  { induction os as [|o os IH]; intros n0 tl S; [cbn; auto|]. pose proof (spec_sorted lt SW o n0 S) as S1. pose proof (len_spec lt SW o n0 S) as L1.
    cbn [map polite run]. cbn [view_spec fst snd nth_error v_map]. destruct (map_spec lt o n0) as [r n1]. cbn [fst snd upd v_orig v_len] in *. rewrite <- L1. destruct (IH n1 tl S1) as [P R]. split.
    - split; auto. destruct o; cbn; auto. intros u n lt' q E. injection E as <-. auto.
    - revert R. destruct (run (view_spec ltb) (map (YCall 0) os) _) as [r1 s1], (run (map_spec lt) os n1) as [r2 n2]. cbn. auto. }
  assert (S : ksorted lt m) by (apply (run_sorted lt SW cs); constructor).
  destruct (Calls cs [] [] ltac:(constructor)) as [P1 R1]. destruct (Calls ds m [mkView (Some O) false (zlen m)] S) as [P2 R2]. fold m in R1. fold m' in R2.
  set (ops := YNew k :: map (YCall 0) cs ++ YCopy 0 :: map (YCall 0) ds).
  assert (PA : forall a b s, polite (V := V) (St := St) ltb a s -> polite ltb b (snd (run (view_spec ltb) a s)) -> polite ltb (a ++ b) s).
  { induction a as [|o a IH]; intros b s Pa Pb; auto. destruct Pa as [Pa1 Pa2]. split; auto. apply IH; auto. cbn [run] in Pb. destruct (view_spec ltb o s) as [r s1]. cbn [snd] in *. now destruct (run (view_spec ltb) a s1). }
  assert (Fin : snd (run (view_spec ltb) ops ([], [])) = ([(lt, m')], [mkView (Some O) true (zlen m'); mkView (Some O) false (zlen m)])).
  { unfold ops. cbn [run]. cbn [view_spec fst snd app length]. fold lt. rewrite run_app. cbn [zlen length Z.of_nat] in R1. change (zlen (@nil (K * V))) with 0%Z in R1. destruct (run (view_spec ltb) (map (YCall 0) cs) _) as [r1 s1] eqn:E1. cbn [snd] in R1. subst s1.
    cbn [run]. cbn [view_spec fst snd nth_error app v_map v_len]. destruct (run (view_spec ltb) (map (YCall 0) ds) _) as [r2 s2] eqn:E2. cbn [snd] in *. exact R2. }
  assert (Po : polite ltb ops ([], [])).
  { unfold ops. cbn [polite polite1]. split; auto. cbn [view_spec fst snd app length]. fold lt. apply PA; [exact P1|]. change 0%Z with (zlen (@nil (K * V))). rewrite R1. cbn [polite polite1]. split; auto. }
  assert (Lw : Forall (lawful (V := V) (St := St) ltb eqb) ops).
  { unfold ops. constructor; auto. apply Forall_app. split; [|constructor; [exact I|]]; apply Forall_forall; intros x Ix; apply in_map_iff in Ix as (o & <- & _); exact I. }
  destruct (run_inv zk zv ltb eqb ops _ _ _ Lw Po inv_start) as (_ & L & Iv). rewrite Fin in Iv.
  split; [|split].
  - rewrite (proj1 (step_inv zk zv ltb eqb (YCall 1 MLen) _ _ _ I I Iv)). reflexivity.
  - rewrite (proj1 (step_inv zk zv ltb eqb (YCall 1 MIter) _ _ _ I I Iv)). reflexivity.
  - rewrite (proj1 (step_inv zk zv ltb eqb (YCall 0 MLen) _ _ _ I I Iv)). reflexivity.
Qed.

(** A SkipList that was not made by a New function. *)
Theorem C109_zero (o : mop K V St) (cs : list (mop K V St)) : fst (y_step zk zv ltb eqb (YCall 0 o) (snd (run (y_step zk zv ltb eqb) (YZero :: map (YCall 0) cs) ([], [])))) =
  match o with MLen => Ok (MInt 0) | MIsEmpty => Ok (MBool true) | MClear => Ok MNone | _ => Panic end.
Proof.
  assert (P : forall os : list (mop K V St), polite ltb (map (YCall (V := V) (St := St) 0) os) ([], [mkView None false 0]) /\ snd (run (view_spec ltb) (map (YCall 0) os) ([], [mkView None false 0])) = ([], [mkView None false 0])).
  { induction os as [|c os [IP IR]]; [cbn; auto|]. cbn [map polite run]. cbn [view_spec fst snd nth_error v_map]. split; [split; auto; destruct c; cbn; auto; intros u n lt q E; injection E as <-; discriminate|].
    destruct (run (view_spec ltb) (map (YCall 0) os) ([], [mkView None false 0])). exact IR. }
  destruct (P cs) as [P1 P2]. set (ops := YZero :: map (YCall 0) cs).
  assert (Lw : Forall (lawful (V := V) (St := St) ltb eqb) ops) by (constructor; [exact I|]; apply Forall_forall; intros x Ix; apply in_map_iff in Ix as (c & <- & _); exact I).
  assert (Po : polite ltb ops ([], [])) by (unfold ops; cbn [polite polite1]; split; [exact I|exact P1]).
  assert (Fin : snd (run (view_spec ltb) ops ([], [])) = ([], [mkView None false 0])).
  { unfold ops. cbn [run]. cbn [view_spec fst snd app]. destruct (run (view_spec ltb) (map (YCall 0) cs) ([], [mkView None false 0])). exact P2. }
  destruct (run_inv zk zv ltb eqb ops _ _ _ Lw Po inv_start) as (_ & L & Iv). rewrite Fin in Iv.
  assert (P0 : polite1 (YCall 0 o) (@nil ((K -> K -> bool) * list (K * V)), [mkView None false 0])) by (destruct o; cbn; auto; intros u n lt q E; injection E as <-; discriminate).
  rewrite (proj1 (step_inv zk zv ltb eqb (YCall 0 o) _ _ _ I P0 Iv)). reflexivity.
Qed.
End C109.
Print Assumptions C109_shared.
Print Assumptions C109_readers.
Print Assumptions C109_stale_len.
Print Assumptions C109_zero.

Notation zstep := (y_step (St := unit) 0 0 Z.ltb Z.eqb).
(** Draws that give the levels 1, 2 and 3. *)
Definition draw (level : Z) : Z := 2 ^ (40 - level).
Definition ins (i : nat) (k level : Z) : yop Z Z unit := YCall i (MInsert k k (draw level)).
(** A copy is a map of its own. *)
Definition C109_expected_own : Prop := forall ops : list (yop Z Z unit), fst (run zstep ops ([], [])) = fst (run (own_spec Z.ltb) ops []).
(** A copy is another name for the map. *)
Definition C109_expected_alias : Prop := forall ops : list (yop Z Z unit), fst (run zstep ops ([], [])) = fst (run (alias_spec Z.ltb) ops ([], [])).
(** Insert and Remove through an original or a copy do not panic. *)
Definition C109_expected_no_panic : Prop := forall (ops : list (yop Z Z unit)) k v r,
  last (fst (run zstep (YNew ByOrder :: YCopy 0 :: map (fun c => YCall 1 c) [MInsert k v r] ++ ops ++ [YCall 1 (MInsert k v r)]) ([], []))) Panic <> Panic /\
  last (fst (run zstep (YNew ByOrder :: YCopy 0 :: map (fun c => YCall 1 c) [MInsert k v r] ++ ops ++ [YCall 0 (MRemove k)]) ([], []))) Panic <> Panic.
(** A key that Remove has removed is not there. *)
Definition C109_expected_removed : Prop := forall (ops : list (yop Z Z unit)) k b,
  last (fst (run zstep (YNew ByOrder :: YCopy 0 :: ops ++ [YCall 0 (MRemove k)]) ([], []))) Panic = Ok (MBool b) -> forall k', k' <> k ->
  last (fst (run zstep (YNew ByOrder :: YCopy 0 :: ops ++ [YCall 0 (MRemove k); YCall 0 (MRemove k'); YCall 0 (MHas k)]) ([], []))) Panic = Ok (MBool false).
Definition ghost : list (yop Z Z unit) := [ins 0 1 2; ins 0 2 2; ins 0 3 2; ins 0 9 3; ins 1 5 2].
Theorem C109_refuted : ~ C109_expected_own /\ ~ C109_expected_alias /\ ~ C109_expected_no_panic /\ ~ C109_expected_removed.
Proof.
  split; [|split; [|split]]; intros H.
  - specialize (H [YNew ByOrder; YCopy 0; ins 0 1 1; YCall 1 (MHas 1)]). vm_compute in H. discriminate.
  - specialize (H [YNew ByOrder; YCopy 0; ins 0 1 1; YCall 1 MLen]). vm_compute in H. discriminate.
  - destruct (H [ins 1 2 2] 1 1 (draw 2)) as [_ H2]. apply H2. vm_compute. reflexivity.
  - specialize (H ghost 3 true ltac:(vm_compute; reflexivity) 1 ltac:(lia)). vm_compute in H. discriminate.
Qed.
Print Assumptions C109_refuted.

Lemma polite_cons {K V St} ltb (o : yop K V St) ops w : polite1 o w -> polite ltb ops (snd (view_spec ltb o w)) -> polite ltb (o :: ops) w.
Proof. now split. Qed.
Lemma reading_cons {K V St} ltb (o : yop K V St) ops w : reading1 o w -> reading ltb ops (snd (view_spec ltb o w)) -> reading ltb (o :: ops) w.
Proof. now split. Qed.
(** Inserting through original and copy, removing through the copy, a second list,
    a zero value, an overwritten copy; a copy that is only read; a panic and a
    key that comes back. *)
Example C109_hyp :
  let p : list (yop Z Z unit) := [YNew ByOrder; ins 0 1 2; YCopy 0; ins 0 2 3; ins 1 5 1; YCall 1 (MRemove 1); YNew (ByFunc (fun a b => b - a)); ins 2 7 1; ins 2 8 2; YZero; YCopy 2; YAssign 1 4; YCall 1 MIter; YCall 1 MLen; YCall 0 MIter; YCall 0 MLen; YCall 3 MLen; YCall 3 MIter; YCall 4 MClear; YCall 2 MIter; YCall 2 MLen] in
  let q : list (yop Z Z unit) := [YNew ByOrder; YCopy 0; ins 0 3 3; ins 0 1 2; YCall 1 (MHas 3); YCall 0 (MRemove 3); YCall 1 MIter; YCall 1 (MFindSet 1 9); YCall 0 (MFind 1); YCall 0 MLen] in
  Forall (lawful Z.ltb Z.eqb) p /\ polite Z.ltb p ([], []) /\
  fst (run zstep p ([], [])) = [Ok MNone; Ok MNone; Ok MNone; Ok MNone; Ok MNone; Ok (MBool true); Ok MNone; Ok MNone; Ok MNone; Ok MNone; Ok MNone; Ok MNone; Ok (MSeq [(8, 8); (7, 7)]); Ok (MInt 2); Ok (MSeq [(2, 2); (5, 5)]); Ok (MInt 2); Ok (MInt 0); Panic; Ok MNone; Ok (MSeq []); Ok (MInt 2)] /\
  Forall (lawful Z.ltb Z.eqb) q /\ reading Z.ltb q ([], []) /\
  fst (run zstep q ([], [])) = [Ok MNone; Ok MNone; Ok MNone; Ok MNone; Ok (MBool true); Ok (MBool true); Ok (MSeq [(1, 1)]); Ok (MBool true); Ok (MOpt (Some 9)); Ok (MInt 1)] /\
  fst (run zstep [YNew ByOrder; YCopy 0; ins 1 1 2; ins 1 2 2; YCall 1 MLen; YCall 0 MLen; YCall 0 MIter; YCall 0 (MRemove 1); YCall 0 MIter] ([], [])) =
    [Ok MNone; Ok MNone; Ok MNone; Panic; Ok (MInt 1); Ok (MInt 0); Ok (MSeq [(1, 1); (2, 2)]); Panic; Ok (MSeq [(2, 2)])] /\
  fst (run zstep (YNew ByOrder :: YCopy 0 :: ghost ++ [YCall 0 (MRemove 3); YCall 0 (MRemove 1); YCall 0 (MHas 3); YCall 0 (MFind 3); YCall 0 MIter]) ([], [])) =
    [Ok MNone; Ok MNone; Ok MNone; Ok MNone; Ok MNone; Ok MNone; Ok MNone; Ok (MBool true); Ok (MBool true); Ok (MBool true); Ok (MOpt (Some 3)); Ok (MSeq [(2, 2); (5, 5); (9, 9)])].
Proof.
  cbv zeta. assert (TW : three_way (fun a b : Z => b - a)) by (constructor; intros; lia).
  assert (L : forall p : list (yop Z Z unit), Forall (fun o => match o with YNew (ByFunc c) => three_way c | _ => True end) p -> Forall (lawful Z.ltb Z.eqb) p).
  { intros p F. eapply Forall_impl; [|exact F]. intros [[|c]| | | |] H; cbn; auto. exact Z_ordered. }
  split; [apply L; repeat (constructor; auto)|]. split; [|split; [vm_compute; reflexivity|]].
  { repeat (apply polite_cons; [cbn; auto; intros; repeat match goal with H : Some _ = Some _ |- _ => injection H as <- end; auto|cbn [view_spec fst snd nth_error app length v_map v_len v_orig];
      match goal with |- polite _ _ ?w => let v := eval vm_compute in w in replace w with v by (vm_compute; reflexivity) end]). exact I. }
  split; [apply L; repeat (constructor; auto)|]. split; [|repeat split; vm_compute; reflexivity].
  cbn. repeat split; auto; intros v E; injection E as <-; auto.
Qed.
