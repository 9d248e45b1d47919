(** C107: Vector values that are copied by assignment. *)
From Verif Require Import Base BaseLemmas Spec Trace Proof_Mem Model_Vector Spec_Vector Proof_VectorOps Spec_VecCopy Model_VecCopy Proof_VecCopy.

Section C107.
Context {T : Type}.
Variable zero : T.
Variable grow : Z -> Z -> Z.
Notation prog := (list (xop (vec_make T) (vec_op T))).
Notation final ops := (snd (run (vx_step zero grow) ops xstart)).

(** In any program, a call does to its own variable what it should do on the
    sequence the variable shows; every other variable keeps its length, keeps all
    elements if it does not share the storage, and otherwise keeps those before
    the first position the call may change. *)
Theorem C107_call (before : prog) i o :
  Forall vx_args before -> vec_args o -> vx_total before + vec_growth o <= max_int ->
  let w := final before in let w' := final (before ++ [XCall i o]) in
  (i < length (snd w))%nat ->
  vec_spec zero (shown w i) o (last (fst (run (vx_step zero grow) (before ++ [XCall i o]) xstart)) Panic) (shown w' i) /\
  (forall j, j <> i -> zlen (shown w' j) = zlen (shown w j) /\
     (~ share w i j \/ vec_touched o (shown w i) = None -> shown w' j = shown w j) /\
     (forall p k, vec_touched o (shown w i) = Some p -> k < p -> zget (shown w' j) k = zget (shown w j) k)).
Proof.
  cbv zeta. intros Fa Ha Ht Hi. pose proof (vec_growth_nonneg o) as G. pose proof (vx_run zero grow before Fa ltac:(lia)) as I. rewrite run_app.
  destruct (run (vx_step zero grow) before xstart) as [rs w] eqn:Er. cbn [fst snd run] in *.
  destruct (nth_error (snd w) i) as [s|] eqn:Ei; [|apply nth_error_None in Ei; lia].
  destruct (vx_effect zero grow _ w i o s I Ei Ha Ht) as (I' & Len & Sp & Oth). destruct (vx_step zero grow (XCall i o) w) as [r w']. cbn [fst snd] in *.
  rewrite last_last. split; [exact Sp|]. intros j Nj. destruct (Oth j Nj) as [E C].
  assert (L : zlen (shown w' j) = zlen (shown w j)).
  { unfold shown. rewrite E. destruct (nth_error (snd w) j) as [t|] eqn:Ej; auto. destruct I as ((W & _) & _), I' as ((W' & _) & _). rewrite !zlen_contents; eauto. }
  split; [auto|]. split.
  - intros Hn. apply zlist_eq_len; [auto|]. intros k Hk. apply C. intros Sh p Hp. destruct Hn; [contradiction|congruence].
  - intros p k Hp Hk. apply C. intros _ q Hq. congruence.
Qed.

(** If every call changes only positions that no other variable with the same
    storage reaches, every variable behaves as a sequence of its own. *)
Theorem C107_independent (ops : prog) : Forall vx_args ops -> vx_total ops <= max_int -> polite_run vec_touched (vx_step zero grow) ops xstart ->
  exists ls, accepts (own_copy vec_made (vec_spec zero)) [] ops (fst (run (vx_step zero grow) ops xstart)) ls /\
    forall i l, nth_error ls i = Some l -> shown (final ops) i = l.
Proof.
  intros Fa Ht P. eexists. split; [exact (vx_polite zero grow ops Fa Ht P)|]. intros i l. rewrite nth_shown. unfold shown. destruct (nth_error _ i); congruence.
Qed.

(** So a function that gets a vector by value and only looks at it and appends to
    it does not change what the caller's variable shows, and sees a vector of its
    own. *)
Lemma append_calls b w i c calls : vinv b w -> i <> c -> (c < length (snd w))%nat -> Forall vec_args calls -> Forall vec_appends calls -> b + total_growth calls <= max_int ->
  zlen (shown w i) <= zlen (shown w c) ->
  let p := run (vx_step zero grow) (map (XCall c) calls) w in
  shown (snd p) i = shown w i /\ accepts (vec_spec zero) (shown w c) calls (fst p) (shown (snd p) c).
Proof.
  cbv zeta. revert b w. induction calls as [|o calls IH]; intros b w I Nc Hc Fa Fp Ht Hl; cbn [map run total_growth] in *; [split; [auto|constructor]|].
  inversion Fa as [|? ? Ha Fa']; subst. inversion Fp as [|? ? Hp Fp']; subst. pose proof (vec_growth_nonneg o) as G. pose proof (total_growth_nonneg calls) as G'.
  destruct (nth_error (snd w) c) as [s|] eqn:Ec; [|apply nth_error_None in Ec; lia].
  destruct (vx_effect zero grow b w c o s I Ec Ha ltac:(lia)) as (I' & Len & Sp & Oth). destruct (vx_step zero grow (XCall c o) w) as [r w']. cbn [fst snd] in *.
  destruct (Oth i Nc) as [E C].
  assert (L : zlen (shown w' i) = zlen (shown w i)).
  { unfold shown. rewrite E. destruct (nth_error (snd w) i) as [t|] eqn:Ej; auto. destruct I as ((W & _) & _), I' as ((W' & _) & _). rewrite !zlen_contents; eauto. }
  assert (Q : shown w' i = shown w i).
  { apply zlist_eq_len; [auto|]. intros k Hk. apply C. intros _ p Et. destruct o; cbn in Hp, Et; try contradiction; try discriminate; injection Et as <-; lia. }
  assert (Lc : zlen (shown w c) <= zlen (shown w' c)).
  { destruct o; cbn in Hp, Sp; try contradiction; try (destruct Sp as [Sp1 Sp2]; rewrite ?Sp1, ?Sp2, ?zlen_app; try pose proof (zlen_nonneg xs); try (change (zlen [x]) with 1); lia). }
  destruct (IH _ w' I' Nc ltac:(lia) Fa' Fp' ltac:(lia) ltac:(lia)) as [IH1 IH2]. destruct (run (vx_step zero grow) (map (XCall c) calls) w') as [rs w'']. cbn [fst snd] in *.
  split; [congruence|]. econstructor; eauto.
Qed.
Theorem C107_append_only (before : prog) i calls :
  Forall vx_args before -> Forall vec_args calls -> Forall vec_appends calls -> vx_total before + total_growth calls <= max_int ->
  let w := final before in let c := length (snd w) in
  (i < c)%nat ->
  let p := run (vx_step zero grow) (map (XCall c) calls) (final (before ++ [XCopy i])) in
  shown (snd p) i = shown w i /\ accepts (vec_spec zero) (shown w i) calls (fst p) (shown (snd p) c).
Proof.
  cbv zeta. intros Fa Fc Fp Ht Hi. pose proof (total_growth_nonneg calls) as G'. pose proof (vx_run zero grow (before ++ [XCopy i])) as I. rewrite run_app in *.
  assert (Et : vx_total (before ++ [XCopy i]) = vx_total before) by (clear; induction before; cbn; [auto|]; rewrite IHbefore; auto). rewrite Et in I.
  specialize (I ltac:(apply Forall_app; split; auto; repeat constructor) ltac:(lia)).
  destruct (run (vx_step zero grow) before xstart) as [rs w] eqn:Er. cbn [fst snd run] in *.
  destruct (nth_error (snd w) i) as [s|] eqn:Ei; [|apply nth_error_None in Ei; lia].
  assert (Ec : vx_step zero grow (XCopy i) w = (Ok ONone, (fst w, snd w ++ [s]))) by (unfold vx_step; cbn [xvars_step]; now rewrite Ei). rewrite Ec in *. cbn [fst snd] in *.
  assert (S1 : shown (fst w, snd w ++ [s]) i = shown w i) by (unfold shown; cbn [fst snd]; rewrite nth_error_app1 by lia; auto).
  assert (S2 : shown (fst w, snd w ++ [s]) (length (snd w)) = shown w i) by (unfold shown; cbn [fst snd]; rewrite nth_error_app2, Nat.sub_diag by lia; cbn; now rewrite Ei).
  destruct (append_calls _ _ i (length (snd w)) calls I) as [H1 H2]; auto; try lia.
  - cbn [snd]. rewrite app_length. cbn. lia.
  - rewrite S1, S2. lia.
  - rewrite S2 in H2. rewrite S1 in H1. auto.
Qed.

(** But removing elements through a copy changes what the original shows: the
    elements that remain, and then zero values up to its old length. *)
Theorem C107_removed (before : prog) i o :
  Forall vx_args before -> vec_args o -> vx_total before + vec_growth o <= max_int ->
  let w := final before in let c := length (snd w) in
  (i < c)%nat -> vec_removes o (shown w i) ->
  let w' := final (before ++ [XCopy i; XCall c o]) in
  shown w' i = shown w' c ++ repeat zero (Z.to_nat (zlen (shown w i) - zlen (shown w' c))) /\ zlen (shown w' c) <= zlen (shown w i).
Proof.
  cbv zeta. intros Fa Ha Ht Hi R. pose proof (vec_growth_nonneg o) as G. pose proof (vx_run zero grow before Fa ltac:(lia)) as I. rewrite run_app.
  destruct (run (vx_step zero grow) before xstart) as [rs [m hs]] eqn:Er. cbn [fst snd run] in *. unfold vx_step. cbn [xvars_step fst snd].
  destruct (nth_error hs i) as [s|] eqn:Ei; [|apply nth_error_None in Ei; lia]. cbn [fst snd]. rewrite nth_error_app2, Nat.sub_diag by lia. cbn [nth_error].
  assert (Sh0 : shown (m, hs) i = contents m s) by (unfold shown; cbn [fst snd]; now rewrite Ei). rewrite Sh0 in *.
  destruct I as ((W & _) & _ & _ & I). specialize (W _ _ Ei). cbn [fst] in W. destruct (I _ _ Ei) as [_ I2].
  destruct (removes_shrunk zero grow o m s W ltac:(lia) R) as (m' & s' & l' & E & Sh). destruct (vec_step zero grow o (m, s)) as [r c0]. cbn [snd] in E. subst c0. cbn [snd].
  pose proof Sh as (W' & C' & A1 & A2 & A3 & Z & SE).
  assert (X1 : shown (m', upd (length hs) s' (hs ++ [s])) i = contents m' s) by (unfold shown; cbn [fst snd]; rewrite nth_error_upd_ne, nth_error_app1 by lia; now rewrite Ei).
  assert (X2 : shown (m', upd (length hs) s' (hs ++ [s])) (length hs) = l') by (unfold shown; cbn [fst snd]; rewrite nth_error_upd_eq by (rewrite app_length; cbn; lia); auto).
  rewrite X1, X2, Z. rewrite zlen_contents by auto. assert (Lp : zlen l' = s_len s') by (rewrite <- C'; apply zlen_contents; auto). rewrite Lp. split; [auto|].
  assert (Ws : wf_slice m' s). { destruct SE as (_ & _ & S3 & S4). pose proof W as (V1 & V2 & V3 & V4). unfold wf_slice, arr_of in *. rewrite <- S3. repeat split; auto; lia. }
  pose proof (zlen_contents m' s Ws) as Q. rewrite Z, zlen_app, zlen_repeat in Q. lia.
Qed.

(** One element pushed through each of the two: with spare capacity the second
    replaces the first, without both are kept. *)
Theorem C107_pushed_twice (before : prog) i x y :
  Forall vx_args before -> vx_total before + 2 <= max_int ->
  let w := final before in let c := length (snd w) in
  forall s, nth_error (snd w) i = Some s ->
  let w' := final (before ++ [XCopy i; XCall i (VPushBack x); XCall c (VPushBack y)]) in
  shown w' c = shown w i ++ [y] /\ shown w' i = shown w i ++ [if s_len s <? s_cap s then y else x].
Proof.
  cbv zeta. intros Fa Ht s Ei. pose proof (vx_run zero grow before Fa ltac:(lia)) as I. rewrite run_app.
  destruct (run (vx_step zero grow) before xstart) as [rs [m hs]] eqn:Er. cbn [fst snd run] in *. unfold vx_step. cbn [xvars_step fst snd].
  assert (Li : (i < length hs)%nat) by (apply nth_error_Some; congruence).
  rewrite Ei. cbn [fst snd]. rewrite nth_error_app1, Ei by lia. cbn [vec_step].
  assert (Sh0 : shown (m, hs) i = contents m s) by (unfold shown; cbn [fst snd]; now rewrite Ei). rewrite Sh0 in *.
  destruct I as ((W & _) & _ & _ & I). specialize (W _ _ Ei). cbn [fst] in W.
  destruct (append_list_ok zero grow s [x] m W) as (s1 & m1 & E1 & W1 & C1 & L1 & R1).
  unfold observe, Vector_PushBack. rewrite bind_get_hdr. rewrite (bind_Ok _ _ _ _ _ (lift_mem_ok _ m s _ _ E1)). cbn [fst snd omap set_hdr].
  rewrite nth_error_upd_ne, nth_error_app2, Nat.sub_diag by lia. cbn [nth_error].
  change (zlen [x]) with 1 in *.
  assert (K : kept m m1 (s_arr s) (s_off s + s_len s)).
  { destruct (Z.leb_spec (s_len s + 1) (s_cap s)); [destruct R1 as (_ & _ & _ & ->); pose proof W as (_ & V2 & V3 & _); apply kept_write; auto; change (zlen [x]) with 1; lia|].
    destruct R1 as (_ & _ & _ & X). apply kept_extends; auto. apply W. }
  assert (Ws : wf_slice m1 s) by (exact (kept_wf _ _ _ _ _ K W)).
  assert (Cs : contents m1 s = contents m s) by (apply (kept_contents _ _ _ _ _ K W); lia).
  destruct (append_list_ok zero grow s [y] m1 Ws) as (s2 & m2 & E2 & W2 & C2 & L2 & R2).
  rewrite bind_get_hdr. rewrite (bind_Ok _ _ _ _ _ (lift_mem_ok _ m1 s _ _ E2)). cbn [fst snd omap set_hdr]. change (zlen [y]) with 1 in *.
  unfold shown. cbn [fst snd]. rewrite nth_error_upd_eq by (rewrite upd_length, app_length; cbn; lia).
  rewrite nth_error_upd_ne, nth_error_upd_eq by (rewrite ?app_length; lia). split; [congruence|].
  destruct (Z.leb_spec (s_len s + 1) (s_cap s)) as [Q|Q], (Z.ltb_spec (s_len s) (s_cap s)) as [Q'|Q']; try lia.
  - destruct R1 as (A1 & A2 & A3 & _), R2 as (B1 & B2 & B3 & _). replace s1 with s2 by (destruct s1, s2; cbn in *; congruence). congruence.
  - rewrite <- C1. apply extends_contents; [apply R2|apply W1].
Qed.
End C107.
Print Assumptions C107_call.
Print Assumptions C107_independent.
Print Assumptions C107_append_only.
Print Assumptions C107_removed.
Print Assumptions C107_pushed_twice.

(** A copy is a vector of its own: calls on it do not change the original. *)
Definition C107_expected_own : Prop := forall grow (ops : list (xop (vec_make Z) (vec_op Z))) i c o,
  (i < length (snd (snd (run (vx_step 0%Z grow) ops xstart))))%nat ->
  c = length (snd (snd (run (vx_step 0%Z grow) ops xstart))) ->
  shown (snd (run (vx_step 0%Z grow) (ops ++ [XCopy i; XCall c o]) xstart)) i = shown (snd (run (vx_step 0%Z grow) ops xstart)) i.
(** A copy is another name for the vector. *)
Definition C107_expected_alias : Prop := forall grow (ops : list (xop (vec_make Z) (vec_op Z))) i c o,
  (i < length (snd (snd (run (vx_step 0%Z grow) ops xstart))))%nat ->
  c = length (snd (snd (run (vx_step 0%Z grow) ops xstart))) ->
  let w := snd (run (vx_step 0%Z grow) (ops ++ [XCopy i; XCall c o]) xstart) in shown w i = shown w c.
(** What copies show does not depend on how append chooses capacities. *)
Definition C107_expected_capacity : Prop := forall grow1 grow2 (ops : list (xop (vec_make Z) (vec_op Z))),
  fst (run (vx_step 0 grow1) ops xstart) = fst (run (vx_step 0 grow2) ops xstart).
Theorem C107_refuted : ~ C107_expected_own /\ ~ C107_expected_alias /\ ~ C107_expected_capacity.
Proof.
  split; [|split]; intros H.
  - specialize (H (fun _ _ => 0) [XNew (VOf [1; 2])] 0%nat 1%nat VPopBack ltac:(vm_compute; lia) eq_refl). vm_compute in H. discriminate.
  - specialize (H (fun _ _ => 0) [XNew (VOf [1])] 0%nat 1%nat (VPushBack 2) ltac:(vm_compute; lia) eq_refl). vm_compute in H. discriminate.
  - specialize (H (fun _ _ => 0) (fun _ _ => 5) [XNew VMake; XCall 0 (VPushBack 1); XCopy 0; XCall 0 (VPushBack 2); XCall 1 (VPushBack 3); XCall 0 VBack]). vm_compute in H. discriminate.
Qed.
Print Assumptions C107_refuted.

Lemma polite_cons {T K Op} touched (step : xop K Op -> xvars T -> outcome (obs T) * xvars T) o ops w :
  polite_at touched o w -> polite_run touched step ops (snd (step o w)) -> polite_run touched step (o :: ops) w.
Proof. intros. split; auto. Qed.

(** A polite program with copies sharing storage (variable 1 is taken while
    variable 0 has two elements, variable 0 goes on growing and shrinking beyond
    them; variable 2 gets storage of its own by Reserve and is then changed
    freely); what an impolite one shows. *)
Example C107_hyp :
  let ops := [XNew (VMakeCap 8); XCall 0 (VAppend [1; 2]); XCopy 0; XCall 0 (VPushBack 3); XCall 0 (VPushBack 4); XCall 0 VPopBack; XCall 0 (VInsert 2 [7; 8]);
    XCopy 0; XCall 2 (VReserve 20); XCall 2 (VSet 0 9); XCall 2 (VRemove 1); XCall 0 (VRemoveRange 2 4); XCall 0 (VRemoveIf (fun x => x =? 3)); XNew VZero; XAssign 3 2; XCall 1 (VAt 1); XCall 2 VLen] : list (xop (vec_make Z) (vec_op Z)) in
  Forall vx_args ops /\ vx_total ops <= max_int /\ polite_run vec_touched (vx_step 0 (fun _ n => 2 * n)) ops xstart /\
  all_shown (snd (run (vx_step 0 (fun _ n => 2 * n)) ops xstart)) = [[1; 2]; [1; 2]; [9; 7; 8; 3]; [9; 7; 8; 3]] /\
  all_shown (snd (run (vx_step 0 (fun _ n => 2 * n)) [XNew (VOf [1; 2; 3; 4]); XCopy 0; XCall 1 (VRemove 0); XCall 1 (VRemoveIf (fun x => x =? 3))] xstart)) = [[2; 4; 0; 0]; [2; 4]] /\
  all_shown (snd (run (vx_step 0 (fun _ n => 2 * n)) [XNew (VMakeCap 2); XCall 0 (VPushBack 1); XCopy 0; XCall 0 (VPushBack 2); XCall 1 (VPushBack 3)] xstart)) = [[1; 3]; [1; 3]].
Proof.
  cbv zeta. split; [repeat (apply Forall_cons; [cbn [vx_args vec_args]; unfold is_int, max_int; try lia; auto|]); apply Forall_nil|]. split; [vm_compute; discriminate|]. split; [|repeat split; vm_compute; reflexivity].
  repeat (apply polite_cons; [|match goal with |- polite_run _ _ _ ?w => let v := eval vm_compute in w in replace w with v by (vm_compute; reflexivity) end]).
  all: try exact I.
  all: intros j p Nj Sh Et; unfold share in Sh; cbn [fst snd nth_error xstart] in Sh; vm_compute in Et; try discriminate Et; injection Et as <-;
    destruct j as [|[|[|[|j]]]]; cbn in Sh; try congruence; try contradiction; try discriminate; try (destruct j; contradiction); vm_compute; try discriminate.
Qed.
