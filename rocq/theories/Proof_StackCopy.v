From Verif Require Import Base BaseLemmas Spec Trace Proof_Mem Model_Stack Spec_Containers Proof_StackPQ Spec_VecCopy Model_VecCopy Proof_VecCopy.
From Verif Require Proof_DListCopy Proof_SListCopy Proof_TransformMem.

Section Stk.
Context {T : Type}.
Variable zero : T.
Variable grow : Z -> Z -> Z.
Implicit Types (m : mem T) (s t : slice).
Definition k_args (k : stack_make) : Prop := match k with KNewCap c => 0 <= c | _ => True end.
(** On sequences from the bottom up. *)
Definition up_spec (l : list T) (o : stack_op T) (r : outcome (obs T)) (l' : list T) : Prop := stack_spec zero o (rev l) = (r, rev l').

Lemma k_make_ok k m : (0 < length m)%nat -> nth 0 m [] = [] -> k_args k -> exists s m', stack_new zero k m = (Ok s, m') /\ wf_slice m' s /\ contents m' s = [] /\
  extends m m' /\ (s_arr s = length m \/ s = nil_slice) /\ 0 <= 0.
Proof.
  intros L0 _ Hk. destruct k as [|c]; cbn [stack_new k_args] in *.
  - eexists _, _. split; [reflexivity|]. split; [now apply wf_nil|]. split; [apply contents_nil|]. split; [apply extends_refl|]. split; [auto|reflexivity].
  - destruct (Proof_TransformMem.fresh_make zero m 0 c ltac:(lia)) as (s & m1 & E' & (X & W & _) & C & L & Cp & A).
    exists s, m1. split; [exact E'|]. split; [auto|]. split; [exact C|]. split; [auto|]. split; [left; exact A|reflexivity].
Qed.

Lemma bind_Panic' {S A B} (p : M S A) (k : A -> M S B) (c c' : S) : p c = (Panic, c') -> bind p k c = (Panic, c').
Proof. intros H. unfold bind. now rewrite H. Qed.
(** Only Push writes. *)
Lemma k_writes o m s : wf_slice m s ->
  match o with
  | SPush x => exists s' m', append_list zero grow s [x] m = (Ok s', m') /\ snd (stack_step zero grow o (m, s)) = (m', s')
  | _ => fst (snd (stack_step zero grow o (m, s))) = m /\ same_place s (snd (snd (stack_step zero grow o (m, s))))
  end.
Proof.
  intros W. pose proof W as (V1 & V2 & V3 & V4). destruct o as [x| | | | | |]; cbn [stack_step]; rewrite ?observe_snd.
  - destruct (append_list_ok zero grow s [x] m W) as (s1 & m1 & E1 & _). exists s1, m1. split; [auto|]. unfold Stack_Push. rewrite bind_get_hdr. rewrite (bind_Ok _ _ _ _ _ (lift_mem_ok _ m s _ _ E1)). reflexivity.
  - unfold Stack_Pop. rewrite bind_get_hdr. destruct (zget (contents m s) (s_len s - 1)) as [v|] eqn:G.
    + rewrite (bind_Ok _ _ _ _ _ (lift_mem_ok _ m s _ _ (sload_ok _ _ _ _ W G))). pose proof (zget_Some_range _ _ _ G). rewrite zlen_contents in * by auto.
      unfold reslice_to. rewrite reslice_ok by lia. cbn. repeat split; auto; cbn; lia.
    + rewrite (bind_Panic' _ _ _ _ (lift_mem_panic _ m s m (sload_panic m s _ W G))). repeat split; auto.
  - unfold Stack_TryPop. rewrite bind_get_hdr. destruct (Z.eqb_spec (s_len s) 0) as [Q|Q]; [repeat split; auto|]. destruct (zget (contents m s) (s_len s - 1)) as [v|] eqn:G.
    + rewrite (bind_Ok _ _ _ _ _ (lift_mem_ok _ m s _ _ (sload_ok _ _ _ _ W G))). pose proof (zget_Some_range _ _ _ G). rewrite zlen_contents in * by auto.
      unfold reslice_to. rewrite reslice_ok by lia. cbn. repeat split; auto; cbn; lia.
    + rewrite (bind_Panic' _ _ _ _ (lift_mem_panic _ m s m (sload_panic m s _ W G))). repeat split; auto.
  - unfold Stack_Top. rewrite bind_get_hdr. unfold lift_mem. cbn [fst snd]. destruct (zget (contents m s) (s_len s - 1)) eqn:G; [rewrite (sload_ok _ _ _ _ W G)|rewrite (sload_panic _ _ _ W G)]; repeat split; auto.
  - repeat split; auto.
  - repeat split; auto.
  - unfold Stack_Clear. rewrite bind_get_hdr. rewrite reslice_ok by lia. cbn. repeat split; auto; cbn; lia.
Qed.

Lemma k_call_ok o m s : wf_slice m s -> True -> 0 + 0 <= 0 ->
  exists m' s', snd (stack_step zero grow o (m, s)) = (m', s') /\ wf_slice m' s' /\ up_spec (contents m s) o (fst (stack_step zero grow o (m, s))) (contents m' s') /\
    0 <= 0 + 0 /\ frame (stack_touched o (contents m s)) m m' s s'.
Proof.
  intros W _ _. pose proof (zlen_contents m s W) as Zl.
  destruct (stack_step_ok zero grow (rev (contents m s)) (m, s) o) as (Er & W' & C'); [split; auto; cbn; now rewrite rev_involutive|].
  pose proof (k_writes o m s W) as K. destruct (stack_step zero grow o (m, s)) as [r [m' s']]. cbn [fst snd] in *. unfold c_contents in C'. cbn [fst snd] in C'.
  exists m', s'. split; [auto|]. split; [auto|]. split; [unfold up_spec; rewrite C', rev_involutive, Er; apply surjective_pairing|]. split; [lia|].
  destruct o; cbn [stack_touched]; try (destruct K as [-> P]; split; [apply extends_refl|auto]).
  destruct K as (s1 & m1 & E & Q). injection Q as <- <-. destruct (append_kept zero grow s [t] m (s_len s) W ltac:(lia)) as (s2 & m2 & E2 & Kp & Pl & _). rewrite E in E2. injection E2 as <- <-.
  rewrite Zl. split; auto.
Qed.

Definition kinv := @inv T (fun _ => 0) 0.
Lemma sx_args_eq ops : Forall (@sx_args T) ops -> Forall (xargs (K:=stack_make) k_args (fun _ : stack_op T => True)) ops.
Proof. intros H. eapply Forall_impl; [|exact H]. intros [[]| | |]; cbn; auto. Qed.
Lemma sx_total_0 (ops : list (xop stack_make (stack_op T))) : xtotal (fun _ => 0) (fun _ => 0) ops = 0.
Proof. induction ops as [|[]]; cbn; auto; lia. Qed.
Lemma sx_run ops : Forall sx_args ops -> kinv (snd (run (sx_step zero grow) ops xstart)).
Proof.
  intros Fa. pose proof (run_inv (stack_new zero) (stack_step zero grow) (fun _ => []) up_spec stack_touched k_args (fun _ => True) (fun _ => 0) (fun _ => 0) (fun _ => 0) 0 (fun _ => Z.le_refl 0) (fun _ => Z.le_refl 0) k_make_ok k_call_ok
    ops 0 xstart (inv_start _) ltac:(lia) (sx_args_eq _ Fa)) as R. rewrite sx_total_0 in R. exact (R ltac:(lia)).
Qed.
Lemma sx_effect w i o s : kinv w -> nth_error (snd w) i = Some s ->
  let w' := snd (sx_step zero grow (XCall i o) w) in
  kinv w' /\ length (snd w') = length (snd w) /\ up_spec (shown w i) o (fst (sx_step zero grow (XCall i o) w)) (shown w' i) /\
  (forall j, j <> i -> nth_error (snd w') j = nth_error (snd w) j /\
     (forall k, (share w i j -> forall p, stack_touched o (shown w i) = Some p -> k < p) -> zget (shown w' j) k = zget (shown w j) k)).
Proof.
  intros I Ei.
  exact (call_effect (stack_new zero) (stack_step zero grow) (fun _ => []) up_spec stack_touched k_args (fun _ => True) (fun _ => 0) (fun _ => 0) (fun _ => 0) 0 (fun _ => Z.le_refl 0) k_make_ok k_call_ok 0 w i o s I Ei Logic.I ltac:(lia)).
Qed.
Lemma sx_polite ops : Forall sx_args ops -> polite_run stack_touched (sx_step zero grow) ops xstart ->
  accepts (own_copy (fun _ : stack_make => []) up_spec) [] ops (fst (run (sx_step zero grow) ops xstart)) (all_shown (snd (run (sx_step zero grow) ops xstart))).
Proof.
  intros Fa P. pose proof (run_polite (stack_new zero) (stack_step zero grow) (fun _ => []) up_spec stack_touched k_args (fun _ => True) (fun _ => 0) (fun _ => 0) (fun _ => 0) 0 (fun _ => Z.le_refl 0) (fun _ => Z.le_refl 0) k_make_ok k_call_ok
    ops 0 xstart (inv_start _) ltac:(lia) (sx_args_eq _ Fa)) as R. rewrite sx_total_0 in R. exact (R ltac:(lia) P).
Qed.

Lemma own_det ops : forall ls rs ls', accepts (own_copy (fun _ : stack_make => []) up_spec) ls ops rs ls' ->
  run (own_stack zero) ops (map (@rev T) ls) = (rs, map (@rev T) ls').
Proof.
  induction ops as [|o ops IH]; intros ls rs ls' A; inversion A as [|? ? r l1 ? rs' ? S A']; subst; cbn [run]; auto.
  assert (Q : own_stack zero o (map (@rev T) ls) = (r, map (@rev T) l1)).
  { destruct o as [k|i|i j|i o]; cbn [own_stack own_copy] in *; rewrite ?nth_error_map.
    - destruct S as [-> ->]. now rewrite map_app.
    - destruct (nth_error ls i); cbn; destruct S as [-> ->]; rewrite ?map_app; auto.
    - destruct (nth_error ls i); cbn; [|destruct S as [-> ->]; auto]. destruct (nth_error ls j); cbn; destruct S as [-> ->]; rewrite ?Proof_SListCopy.map_upd; auto.
    - destruct (nth_error ls i); cbn; [|destruct S as [-> ->]; auto]. destruct S as (l' & S & ->). unfold up_spec in S. rewrite S, Proof_SListCopy.map_upd. auto. }
  rewrite Q. rewrite (IH _ _ _ A'). reflexivity.
Qed.

(** Lengths. *)
Lemma spec_lengths o (l1 l2 : list T) : length l1 = length l2 ->
  forget (fst (stack_spec zero o l1)) = forget (fst (stack_spec zero o l2)) /\ length (snd (stack_spec zero o l1)) = length (snd (stack_spec zero o l2)).
Proof. intros H. destruct o, l1, l2; cbn in *; try discriminate; auto; unfold zlen; cbn; rewrite ?H; auto; injection H as ->; auto. Qed.

Definition lens_rel (sts : list (list T)) (w : xvars T) : Prop :=
  kinv w /\ Forall2 (fun st s => Z.of_nat (length st) = s_len s) sts (snd w).
Lemma lens_step o sts w : sx_args o -> lens_rel sts w ->
  forget (fst (sx_step zero grow o w)) = forget (fst (own_stack zero o sts)) /\ lens_rel (snd (own_stack zero o sts)) (snd (sx_step zero grow o w)).
Proof.
  intros Ha [I F]. pose proof (Proof_DListCopy.F2_len _ _ _ F) as Len.
  assert (I' : kinv (snd (sx_step zero grow o w))).
  { pose proof (step_inv (stack_new zero) (stack_step zero grow) (fun _ => []) up_spec stack_touched k_args (fun _ => True) (fun _ => 0) (fun _ => 0) (fun _ => 0) 0 (fun _ => Z.le_refl 0) (fun _ => Z.le_refl 0) k_make_ok k_call_ok 0 w o I ltac:(lia)) as R.
    assert (Xa : xargs k_args (fun _ : stack_op T => True) o) by (destruct o as [[]| | |]; cbn in *; auto). specialize (R Xa). destruct o; apply R; cbn; lia. }
  enough (H : forget (fst (sx_step zero grow o w)) = forget (fst (own_stack zero o sts)) /\ Forall2 (fun st s => Z.of_nat (length st) = s_len s) (snd (own_stack zero o sts)) (snd (snd (sx_step zero grow o w)))).
  { destruct H as [H1 H2]. split; [exact H1|]. split; [exact I'|exact H2]. }
  destruct w as [m hs]. cbn [fst snd] in *. destruct o as [k|i|i j|i o]; cbn [own_stack]; unfold sx_step in *; cbn [xvars_step fst snd] in *.
  - destruct I as (_ & L0 & N0 & _). destruct (k_make_ok k m L0 N0) as (s & m' & E & W & C & X & _); [destruct k; cbn in *; auto|]. rewrite E. cbn. split; auto.
    apply Forall2_app; auto. constructor; auto. pose proof (zlen_contents m' s W) as Z. rewrite C in Z. cbn. rewrite <- Z. reflexivity.
  - destruct (nth_error sts i) as [st|] eqn:E1.
    + destruct (Proof_DListCopy.F2_nth _ _ _ _ _ F E1) as (s & E2 & R). rewrite E2. cbn. split; auto. apply Forall2_app; auto.
    + rewrite (Proof_DListCopy.F2_nth_none _ _ _ _ F E1). cbn. auto.
  - destruct (nth_error sts i) as [st0|] eqn:E0; [|rewrite (Proof_DListCopy.F2_nth_none _ _ _ _ F E0); cbn; auto]. destruct (Proof_DListCopy.F2_nth _ _ _ _ _ F E0) as (s0 & E0' & _). rewrite E0'.
    destruct (nth_error sts j) as [st|] eqn:E1; [|rewrite (Proof_DListCopy.F2_nth_none _ _ _ _ F E1); cbn; auto]. destruct (Proof_DListCopy.F2_nth _ _ _ _ _ F E1) as (s & E1' & R). rewrite E1'. cbn.
    split; auto. apply Proof_DListCopy.F2_upd; auto.
  - destruct (nth_error sts i) as [st|] eqn:E1; [|rewrite (Proof_DListCopy.F2_nth_none _ _ _ _ F E1); cbn; auto]. destruct (Proof_DListCopy.F2_nth _ _ _ _ _ F E1) as (s & E1' & R). rewrite E1' in *.
    destruct I as ((W & _) & _). specialize (W _ _ E1'). cbn [fst] in W. destruct (k_call_ok o m s W Logic.I ltac:(lia)) as (m' & s' & E & W' & Sp & _ & _).
    destruct (stack_step zero grow o (m, s)) as [r c]. cbn [fst snd] in *. subst c. cbn [fst snd].
    destruct (spec_lengths o st (rev (contents m s))) as [Q1 Q2].
    { rewrite rev_length. pose proof (zlen_contents m s W) as Z. unfold zlen in Z. lia. }
    unfold up_spec in Sp. rewrite Sp in Q1, Q2. cbn [fst snd] in *. destruct (stack_spec zero o st) as [r' st']. cbn [fst snd] in *. split; [auto|].
    apply Proof_DListCopy.F2_upd; auto. rewrite Q2, rev_length. pose proof (zlen_contents m' s' W') as Z. unfold zlen in Z. lia.
Qed.
End Stk.
