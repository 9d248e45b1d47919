(** C104: DList values that are copied by assignment. *)
From Verif Require Import Base BaseLemmas Spec Trace Spec_List Nodes Model_DList Spec_DListCopy Model_DListCopy Proof_DListCopy.

Section C104.
Context {T St : Type}.
Variable zero : T.

(** Every program with any number of variables, copies and assignments shows
    what the variables of Spec_DListCopy.v show. *)
Theorem C104_shared (ops : list (vop T St)) :
  fst (run (vars_step zero) ops ([], [])) = fst (run (share_spec zero) ops no_vars).
Proof. exact (proj1 (vars_run zero ops _ _ (wrel_init zero))). Qed.

(** As long as no other variable is used on its ring, a variable in order (a new
    one, or a copy of one in order) behaves as a sequence of its own. *)
Theorem C104_one_user (before ops : list (vop T St)) i xs :
  let w := snd (run (share_spec zero) before no_vars) in
  in_order w i xs -> only_user zero i ops w ->
  let rs := fst (run (vars_step zero) ops (snd (run (vars_step zero) before ([], [])))) in
  shown_through i ops rs = fst (run (dlist_spec zero) (calls_through i ops) xs) /\
  in_order (snd (run (share_spec zero) ops w)) i (snd (run (dlist_spec zero) (calls_through i ops) xs)).
Proof.
  cbv zeta. intros I U. destruct (vars_run zero before _ _ (wrel_init zero)) as [_ R]. rewrite (proj1 (vars_run zero ops _ _ R)).
  apply one_run; auto. apply wf_run. intros j k n E. destruct j; discriminate.
Qed.
(** A list handed over by assignment: the old variable's calls, then the new
    one's, are those of one sequence. *)
Theorem C104_handed_over (vs : list T) (first second : list (dop T St)) :
  let ops := VOf vs :: map (VCall 0) first ++ VCopy 0 :: map (VCall 1) second in
  let rs := fst (run (vars_step zero) ops ([], [])) in
  firstn (length first) (tl rs) ++ skipn (2 + length first) rs = fst (run (dlist_spec zero) (first ++ second) vs).
Proof.
  cbv zeta. rewrite C104_shared.
  assert (Calls : forall i (cs : list (dop T St)) w xs, wf_shared w -> in_order w i xs -> only_user zero i (map (VCall i) cs) w /\
    fst (run (share_spec zero) (map (VCall i) cs) w) = fst (run (dlist_spec zero) cs xs) /\ in_order (snd (run (share_spec zero) (map (VCall i) cs) w)) i (snd (run (dlist_spec zero) cs xs))).
  { intros i cs w xs W I. assert (U : forall (ds : list (dop T St)) w0, only_user zero i (map (VCall i) ds) w0) by (clear; induction ds as [|c ds IH]; intros w0; cbn; auto).
    destruct (one_run zero i (map (VCall i) cs) w xs W I (U cs w)) as [E1 E2].
    assert (C : calls_through i (map (VCall i) cs) = cs) by (clear; induction cs as [|c cs IH]; cbn; auto; now rewrite Nat.eqb_refl, IH).
    assert (Sh : forall (rs : list (outcome (res T St))), length rs = length cs -> shown_through i (map (VCall i) cs) rs = rs).
    { clear. induction cs as [|c cs IH]; intros [|r rs] L; try discriminate; cbn; auto. rewrite Nat.eqb_refl, IH; auto. }
    rewrite C in *. rewrite Sh in E1 by (rewrite run_length, map_length; reflexivity). auto. }
  set (w0 := snd (share_spec zero (VOf (St:=St) vs) no_vars)).
  assert (W0 : wf_shared w0) by (apply wf_step; intros j k n E; destruct j; discriminate).
  assert (I0 : in_order w0 0 vs) by (subst w0; destruct vs; cbn; auto).
  assert (E0 : share_spec zero (VOf (St:=St) vs) no_vars = (Ok (RObs ONone), w0)) by (subst w0; destruct vs; reflexivity).
  cbn [run]. rewrite E0. destruct (Calls O first w0 vs W0 I0) as (_ & E1 & I1). pose proof (wf_run zero (map (VCall 0) first) w0 W0) as W1.
  assert (L1 : length (vars (snd (run (share_spec zero) (map (VCall 0) first) w0))) = 1%nat).
  { assert (G : forall (cs : list (dop T St)) w, length (vars (snd (run (share_spec zero) (map (VCall 0) cs) w))) = length (vars w)).
    { clear. induction cs as [|c cs IH]; intros w; [reflexivity|]. cbn [map run].
      assert (E : length (vars (snd (share_spec zero (VCall 0 c) w))) = length (vars w)).
      { destruct w as [cs' vs]. cbn [share_spec rings vars]. destruct (nth_error vs 0) as [[[k|] n]|]; [| |reflexivity].
        - destruct (ring_call _ _ _ _) as [r [c' n']]. cbn [snd vars]. now rewrite upd_length.
        - destruct (dlist_spec zero c []) as [r [|y ys]]; cbn [snd vars]; [reflexivity|now rewrite upd_length]. }
      destruct (share_spec zero (VCall 0 c) w) as [r w']. cbn [snd] in E. specialize (IH w'). destruct (run (share_spec zero) (map (VCall 0) cs) w'). cbn [snd] in *. congruence. }
    rewrite G. subst w0. destruct vs; reflexivity. }
  rewrite run_app. cbn [run]. set (r1 := run (share_spec zero) (map (VCall 0) first) w0) in *. destruct r1 as [rs1 w1] eqn:Er1. cbn [fst snd] in *.
  destruct (vars w1) as [|v [|]] eqn:Ev; try discriminate. cbn [share_spec]. rewrite Ev. cbn [nth_error].
  set (w2 := mkShared (rings w1) ([v] ++ [v])).
  assert (I2 : in_order w2 1 (snd (run (dlist_spec zero) first vs))) by (unfold in_order in *; subst w2; rewrite Ev in I1; exact I1).
  assert (W2 : wf_shared w2).
  { intros j k n E. subst w2. cbn [vars rings] in *. apply (W1 0%nat k n). rewrite Ev. destruct j as [|[|j]]; cbn in E; try exact E. destruct j; discriminate. }
  destruct (Calls 1%nat second w2 _ W2 I2) as (_ & E2 & _). destruct (run (share_spec zero) (map (VCall 1) second) w2) as [rs2 w3]. cbn [fst snd] in *.
  assert (Lr : length rs1 = length first) by (rewrite E1, run_length; reflexivity).
  cbn [tl]. rewrite firstn_app, Lr, Nat.sub_diag, firstn_O, app_nil_r, <- Lr, firstn_all.
  assert (Sk : forall (x y : outcome (res T St)) rs, skipn (2 + length rs1) (x :: rs1 ++ y :: rs) = rs).
  { clear. intros x y rs. change (2 + length rs1)%nat with (S (S (length rs1))). generalize rs1. intros l. cbn [skipn]. induction l as [|z l IH]; [reflexivity|exact IH]. }
  rewrite Sk.
  rewrite run_app, E1, E2. destruct (run (dlist_spec zero) first vs) as [a b]. cbn [fst snd]. now destruct (run (dlist_spec zero) second b).
Qed.
End C104.
Print Assumptions C104_shared.
Print Assumptions C104_one_user.
Print Assumptions C104_handed_over.

(** A copy is a list of its own. *)
Definition C104_expected_own : Prop := forall (vs : list Z) (calls : list (dop Z unit)) o,
  last (fst (run (vars_step 0) (VOf vs :: VCopy 0 :: map (VCall 1) calls ++ [VCall 0 o]) ([], []))) Panic = fst (dlist_spec 0 o vs).
(** A copy is another name for the list. *)
Definition C104_expected_alias : Prop := forall (vs : list Z) (calls : list (dop Z unit)) o,
  last (fst (run (vars_step 0) (VOf vs :: VCopy 0 :: map (VCall 1) calls ++ [VCall 0 o]) ([], []))) Panic = fst (dlist_spec 0 o (snd (run (dlist_spec 0) calls vs))).
(** At least pushing is always possible. *)
Definition C104_expected_push : Prop := forall (ops : list (vop Z unit)) i v,
  (i < length (vars (snd (run (share_spec 0%Z) ops no_vars))))%nat ->
  last (fst (run (vars_step 0) (ops ++ [VCall i (DPushBack v)]) ([], []))) Panic = Ok (RObs ONone).
Theorem C104_refuted : ~ C104_expected_own /\ ~ C104_expected_alias /\ ~ C104_expected_push.
Proof.
  repeat split; intros H.
  - specialize (H [1] [DPushBack 2] DIter). vm_compute in H. discriminate.
  - specialize (H [1] [DPushBack 2] DLen). vm_compute in H. discriminate.
  - specialize (H [VOf [1]; VCopy 0; VCall 0 DPopFront; VCall 1 DTryPopFront] 0%nat 5 ltac:(vm_compute; lia)). vm_compute in H. discriminate.
Qed.
Print Assumptions C104_refuted.

(** Two variables on one ring, a third list assigned away and a fourth that
    never gets a ring before it is copied. *)
Example C104_hyp :
  fst (run (vars_step (St := unit) 0) [VOf [1; 2]; VCopy 0; VCall 1 (DPushBack 3); VCall 0 DLen; VCall 1 DLen; VCall 0 DIter; VCall 0 DPopBack; VCall 0 DPopFront; VCall 0 DPopFront;
    VCall 1 DIter; VCall 1 DFront; VCall 1 DTryPopBack; VCall 1 DLen; VCall 0 (DPushFront 9); VCall 0 DTryPopFront; VCall 1 DBack; VCall 0 DClear; VCall 1 DBack; VCall 1 DLen;
    VNew; VCopy 2; VCall 2 (DPushBack 7); VCall 3 DIter; VCall 3 (DPushBack 8); VCall 2 DIter; VAssign 3 2; VCall 3 DIter] ([], [])) =
  [Ok (RObs ONone); Ok (RObs ONone); Ok (RObs ONone); Ok (RObs (OInt 2)); Ok (RObs (OInt 3)); Ok (RObs (OSeq [1; 2; 3])); Ok (RObs (OVal 3)); Ok (RObs (OVal 1)); Panic;
   Ok (RObs (OSeq [2])); Ok (RObs (OVal 2)); Ok (RObs (OTry 2 true)); Ok (RObs (OInt 2)); Ok (RObs ONone); Ok (RObs (OTry 9 true)); Ok (RObs (OVal 0)); Ok (RObs ONone); Ok (RObs (OVal 0)); Ok (RObs (OInt 2));
   Ok (RObs ONone); Ok (RObs ONone); Ok (RObs ONone); Ok (RObs (OSeq [])); Ok (RObs ONone); Ok (RObs (OSeq [7])); Ok (RObs ONone); Ok (RObs (OSeq [7]))] /\
  (let before := [VOf [1; 2]; VCopy 0; VCopy 0; VCall 1 (DPushBack 3)] : list (vop Z unit) in
   let ops := [VCall 3 (DPushBack 3); VNew; VCopy 1; VCall 1 (DPushFront 5); VAssign 4 1; VCall 3 (DPushBack 8); VAssign 0 3; VCall 1 DPopFront] : list (vop Z unit) in
   in_order (snd (run (share_spec 0) before no_vars)) 1 [1; 2; 3] /\ only_user 0 1 ops (snd (run (share_spec 0) before no_vars)) /\ calls_through 1 ops = [DPushFront 5; DPopFront]).
Proof.
  split; [vm_compute; reflexivity|]. cbv zeta. split; [vm_compute; auto|]. split; [|reflexivity].
  cbn. repeat split; auto; try (intros E; discriminate E).
  - right. intros (k & n & m & E1 & E2). cbn in E2. discriminate.
  - right. intros (k & n & m & E1 & E2). cbn in E2. discriminate.
Qed.
