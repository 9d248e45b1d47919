(** C135: SkipListSet structs that are copied by assignment, and zero values. *)
From Verif Require Import Base BaseLemmas Spec Trace Nodes Spec_List Spec_Map Spec_Set Model_SkipList Proof_Map Spec_SkipListCopy Model_SkipListCopy Spec_SetCopy Model_SetCopy Proof_SetCopy.

Section C135.
Context {K St : Type}.
Variables (zk : K) (ltb eqb : K -> K -> bool).
(** Copies show the same set as the original, with lengths of their own, if new
    keys are inserted through the original (or happen to get the lowest level). *)
Theorem C135_shared (ops : list (zop K St)) : Forall (z_lawful ltb eqb) ops -> z_polite ltb ops ([], []) ->
  fst (run (z_step zk ltb eqb) ops ([], [])) = fst (run (z_view_spec ltb) ops ([], [])).
Proof. apply z_shared_ok. Qed.
(** A copy through which nothing is inserted or removed and which is not asked
    for its length or Keys is another name for the set. *)
Theorem C135_readers (ops : list (zop K St)) : Forall (z_lawful ltb eqb) ops -> z_reading ltb ops ([], []) ->
  fst (run (z_step zk ltb eqb) ops ([], [])) = fst (run (z_alias_spec ltb) ops ([], [])).
Proof. intros La Rd. destruct (zread_run ltb eqb ops _ _ La Rd ZJ_start) as [Po E]. rewrite <- E. now apply C135_shared. Qed.
(** A SkipListSet that was not made by a New function. *)
Theorem C135_zero (o : sop K St) (cs : list (sop K St)) :
  last (fst (run (z_step zk ltb eqb) (ZZero :: map (ZCall 0) cs ++ [ZCall 0 o]) ([], []))) Panic =
  match o with SLen | SInsertN [] | SRemoveN [] => Ok (SInt 0) | SIsEmpty => Ok (SBool true) | SClear => Ok SNone | _ => Panic end.
Proof.
  assert (P : forall os : list (sop K St), z_polite ltb (map (ZCall (St := St) 0) os) ([], [mkView None false 0]) /\
    run (z_view_spec ltb) (map (ZCall 0) os) ([], [mkView None false 0]) = (map z_zero_answer os, ([], [mkView None false 0]))).
  { induction os as [|c os [IP IR]]; [split; [exact I|reflexivity]|]. cbn [map z_polite run]. cbn [z_view_spec fst snd nth_error v_map]. split.
    - split; [destruct c; cbn; auto; intros v n lt m A; injection A as <-; discriminate|exact IP].
    - now rewrite IR. }
  change (map (ZCall 0) cs ++ [ZCall 0 o]) with (map (ZCall 0) cs ++ map (ZCall (St := St) 0) [o]). rewrite <- map_app. destruct (P (cs ++ [o])) as [P1 P2].
  rewrite C135_shared.
  - cbn [run]. cbn [z_view_spec fst snd app]. rewrite P2. cbn [fst]. rewrite map_app. cbn [map]. rewrite app_comm_cons, last_last. destruct o as [| [|] | | [|] | | | | | | | | | |]; reflexivity.
  - constructor; [exact I|]. apply Forall_forall. intros x Ix. apply in_map_iff in Ix as (c & <- & _). exact I.
  - split; [exact I|exact P1].
Qed.
End C135.
Print Assumptions C135_shared.
Print Assumptions C135_readers.
Print Assumptions C135_zero.

Notation zs_step := (z_step (St := unit) 0 Z.ltb Z.eqb).
(** Draws that give the levels 1, 2 and 3. *)
Definition zdraw (level : Z) : Z := 2 ^ (40 - level).
Definition zin (i : nat) (k level : Z) : zop Z unit := ZCall i (SInsert k (zdraw level)).
(** A copy is a set of its own. *)
Definition C135_expected_own : Prop := forall ops : list (zop Z unit), fst (run zs_step ops ([], [])) = fst (run (z_own_spec Z.ltb) ops []).
(** A copy is another name for the set. *)
Definition C135_expected_alias : Prop := forall ops : list (zop Z unit), fst (run zs_step ops ([], [])) = fst (run (z_alias_spec Z.ltb) ops ([], [])).
(** Keys never panics. *)
Definition C135_expected_keys : Prop := forall (calls : list (sop Z unit)) i k, (i < 2)%nat ->
  last (fst (run zs_step (ZNew ByOrder :: ZCopy 0 :: map (fun c => ZCall 0 c) calls ++ [ZCall 1 (SRemove k); ZCall i SKeys]) ([], []))) Panic <> Panic.
(** Insert never panics. *)
Definition C135_expected_insert : Prop := forall (ks : list (Z * Z)) k r,
  last (fst (run zs_step [ZNew ByOrder; ZCopy 0; ZCall 1 (SInsertN ks); ZCall 1 (SInsert k r)] ([], []))) Panic <> Panic.
(** A key that Remove has removed is not there. *)
Definition C135_expected_removed : Prop := forall (ops : list (zop Z unit)) k b,
  last (fst (run zs_step (ZNew ByOrder :: ZCopy 0 :: ops ++ [ZCall 0 (SRemove k)]) ([], []))) Panic = Ok (SBool b) -> forall k', k' <> k ->
  last (fst (run zs_step (ZNew ByOrder :: ZCopy 0 :: ops ++ [ZCall 0 (SRemove k); ZCall 0 (SRemove k'); ZCall 0 (SHas k)]) ([], []))) Panic = Ok (SBool false).
Definition zghost : list (zop Z unit) := [zin 0 1 2; zin 0 2 2; zin 0 3 2; zin 0 9 3; zin 1 5 2].
Theorem C135_refuted : ~ C135_expected_own /\ ~ C135_expected_alias /\ ~ C135_expected_keys /\ ~ C135_expected_insert /\ ~ C135_expected_removed.
Proof.
  repeat split; intros H.
  - specialize (H [ZNew ByOrder; ZCopy 0; zin 0 1 1; ZCall 1 (SHas 1)]). vm_compute in H. discriminate.
  - specialize (H [ZNew ByOrder; ZCopy 0; zin 0 1 1; ZCall 1 SLen]). vm_compute in H. discriminate.
  - apply (H [SInsert 5 (zdraw 1)] 1%nat 5 ltac:(lia)). vm_compute. reflexivity.
  - apply (H [(1, zdraw 2)] 2 (zdraw 2)). vm_compute. reflexivity.
  - specialize (H zghost 3 true ltac:(vm_compute; reflexivity) 1 ltac:(lia)). vm_compute in H. discriminate.
Qed.
Print Assumptions C135_refuted.

Lemma z_polite_cons {K St} ltb (o : zop K St) ops w : z_polite1 o w -> z_polite ltb ops (snd (z_view_spec ltb o w)) -> z_polite ltb (o :: ops) w.
Proof. now split. Qed.
(** Inserting through original and copy, removing several keys through the copy until
    its length is negative, a second set, a zero value, an overwritten copy. *)
Example C135_hyp :
  let p : list (zop Z unit) := [ZNew ByOrder; ZCopy 0; ZCall 0 (SInsertN [(1, zdraw 2); (2, zdraw 3); (1, zdraw 1); (4, zdraw 1)]); ZCall 1 (SInsertN [(5, zdraw 1); (2, zdraw 3)]); ZCall 1 SKeys;
    ZCall 1 (SRemoveN [2; 4; 2; 7]); ZCall 1 SLen; ZCall 1 SKeys; ZCall 0 SKeys; ZCall 0 SLen; ZNew (ByFunc (fun a b => b - a)); ZCall 2 (SInsertN [(7, zdraw 1); (8, zdraw 2)]);
    ZZero; ZCopy 2; ZAssign 1 4; ZCall 1 SKeys; ZCall 3 (SInsertN []); ZCall 3 SKeys; ZCall 4 SClear; ZCall 2 SKeys; ZCall 2 SLen; ZCall 0 (SLower 2)] in
  Forall (z_lawful Z.ltb Z.eqb) p /\ z_polite Z.ltb p ([], []) /\
  fst (run zs_step p ([], [])) = [Ok SNone; Ok SNone; Ok (SInt 3); Ok (SInt 1); Ok (SSeq [1; 2; 4; 5]);
    Ok (SInt 2); Ok (SInt (-1)); Panic; Ok (SSeq [1; 5]); Ok (SInt 3); Ok SNone; Ok (SInt 2);
    Ok SNone; Ok SNone; Ok SNone; Ok (SSeq [8; 7]); Ok (SInt 0); Panic; Ok SNone; Ok (SSeq []); Ok (SInt 2); Ok (SSeq [5])].
Proof.
  cbv zeta. split; [|split; [|vm_compute; reflexivity]].
  - assert (TW : three_way (fun a b : Z => b - a)) by (constructor; intros; lia).
    assert (L : forall p : list (zop Z unit), Forall (fun o => match o with ZNew (ByFunc c) => three_way c | _ => True end) p -> Forall (z_lawful Z.ltb Z.eqb) p).
    { intros p F. eapply Forall_impl; [|exact F]. intros [[|c]| | | |] H; cbn; auto. exact Z_ordered. }
    apply L. repeat (constructor; auto).
  - repeat (apply z_polite_cons;
      [first [exact I | intros v n lt m A B C; vm_compute in A; injection A as <-; vm_compute in B; injection B as <-; cbn in C; injection C as <- <-; vm_compute; repeat split; auto
             | intros v n lt m A B; vm_compute in A; injection A as <-; discriminate B
             | intros v A; vm_compute in A; injection A as <-; reflexivity]
      |match goal with |- z_polite _ _ ?w => let v := eval vm_compute in w in replace w with v by (vm_compute; reflexivity) end]).
    exact I.
Qed.
Example C135_hyp_readers :
  let q : list (zop Z unit) := [ZNew ByOrder; ZCopy 0; ZCall 0 (SInsertN [(3, zdraw 3); (1, zdraw 2); (3, zdraw 1)]); ZCall 1 (SHas 3); ZCall 0 (SRemove 3); ZCall 1 (SHas 3); ZCall 1 (SLower 0);
    ZCall 0 SKeys; ZCall 0 SLen; ZZero; ZCall 2 SLen; ZAssign 1 2; ZCall 1 (SHas 1)] in
  Forall (z_lawful Z.ltb Z.eqb) q /\ z_reading Z.ltb q ([], []) /\
  fst (run zs_step q ([], [])) = [Ok SNone; Ok SNone; Ok (SInt 2); Ok (SBool true); Ok (SBool true); Ok (SBool false); Ok (SSeq [1]); Ok (SSeq [1]); Ok (SInt 1); Ok SNone; Ok (SInt 0); Ok SNone; Panic].
Proof.
  cbv zeta. split; [|split; [|vm_compute; reflexivity]].
  - repeat (constructor; [first [exact Z_ordered | exact I]|]). constructor.
  - cbn. repeat split; auto; intros v E; injection E as <-; auto.
Qed.
