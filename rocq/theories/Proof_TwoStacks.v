From Verif Require Import BaseLemmas Spec Trace Proof_Mem Model_Stack Spec_Containers Proof_StackPQ Model_TwoStacks Spec_TwoStacks.

Section TwoProof.
Context {T : Type}.
Variable zero : T.
Variable grow : Z -> Z -> Z.
Notation rel := (@stack_rel T).

(** Two slices that share no storage. *)
Definition apart (a b : slice) : Prop := s_cap a = 0 \/ s_cap b = 0 \/ s_arr a <> s_arr b.
Lemma apart_sym a b : apart a b -> apart b a.
Proof. unfold apart. intuition. Qed.

Lemma push_apart t sa sb m a b : rel sa (m, a) -> rel sb (m, b) -> apart a b ->
  exists m' a', Stack_Push zero grow t (m, a) = (Ok tt, (m', a')) /\ rel (t :: sa) (m', a') /\ rel sb (m', b) /\ apart a' b.
Proof.
  intros Ra Rb Ap. destruct (stack_step_ok zero grow sa (m, a) (SPush t) Ra) as [_ R']. cbn [stack_spec snd] in R'. unfold stack_step, observe in R'.
  pose proof Ra as [W C]. pose proof Rb as [Wb Cb]. cbn [fst snd] in W, Wb. destruct (Stack_Push_frame zero grow t m a W) as (m' & a' & E & L & F).
  rewrite E in R'. cbn [snd] in R'. exists m', a'. split; auto. split; auto. pose proof Wb as (B1 & B2 & B3 & B4). pose proof W as (A1 & A2 & A3 & A4).
  destruct (Z.leb_spec (s_len a + 1) (s_cap a)) as [H|H].
  - destruct F as (F1 & F2 & F3 & F4 & F5 & F6 & F7). split; [|unfold apart in *; rewrite F1, F3; auto].
    assert (Wb' : wf_slice m' b).
    { split; [lia|]. split; auto. split; auto. unfold arr_of in *. destruct (Nat.eq_dec (s_arr b) (s_arr a)) as [Eq|Ne]; [rewrite Eq in *; lia|rewrite <- F4; auto]. }
    split; auto. unfold c_contents in *. cbn [fst snd] in *. rewrite <- Cb. destruct Ap as [Z0|[Z0|Ne]]; [lia| |].
    + rewrite !contents_empty; auto; lia.
    + unfold contents, arr_of. rewrite <- F4; auto.
  - destruct F as (F1 & F2 & X). split; [|right; right; lia]. split; [eapply extends_wf; eauto|]. unfold c_contents in *. cbn [fst snd] in *. rewrite <- Cb. now apply extends_contents.
Qed.
Lemma pop_apart t sa m a : rel (t :: sa) (m, a) -> exists a', Stack_Pop (m, a) = (Ok t, (m, a')) /\ rel sa (m, a') /\ s_arr a' = s_arr a /\ s_cap a' = s_cap a.
Proof.
  intros [W C]. cbn [fst snd] in W. unfold c_contents in C. cbn [fst snd] in C. pose proof (zlen_contents m a W) as Hz. pose proof W as (A1 & A2 & A3 & A4).
  destruct (last_rev grow t sa _ _ C Hz) as [E1 E2]. assert (Hl : 1 <= s_len a) by (rewrite <- Hz, C; cbn [rev]; rewrite zlen_app; change (zlen [t]) with 1; pose proof (zlen_nonneg (rev sa)); lia).
  unfold Stack_Pop. rewrite bind_get_hdr, (bind_Ok _ _ _ _ _ (lift_mem_ok _ m a _ _ (sload_ok m a _ _ W E1))). unfold reslice_to. rewrite reslice_prefix by lia.
  eexists. split; [reflexivity|]. split; [|auto]. split; [apply wf_prefix; auto; lia|]. unfold c_contents. cbn [fst snd]. rewrite contents_prefix by (auto; lia). auto.
Qed.
Lemma pop_nil m a : rel [] (m, a) -> Stack_Pop (m, a) = (Panic, (m, a)).
Proof.
  intros [W C]. cbn [fst snd] in W. unfold c_contents in C. cbn [fst snd rev] in C. pose proof (zlen_contents m a W) as Hz. rewrite C in Hz. change (zlen (@nil T)) with 0 in Hz.
  unfold Stack_Pop. rewrite bind_get_hdr. unfold bind. rewrite (lift_mem_panic _ m a m); [reflexivity|]. apply sload_panic; auto. apply zget_None. rewrite C. change (zlen (@nil T)) with 0. lia.
Qed.
Lemma len_rel sa m a : rel sa (m, a) -> s_len a = zlen sa.
Proof. intros [W C]. cbn [fst snd] in W. unfold c_contents in C. cbn [fst snd] in C. rewrite <- (zlen_contents m a W), C. unfold zlen. now rewrite rev_length. Qed.

(** The queue [xs]: what is in the second stack, from the top, then what is in the first,
    from the bottom ([si] has the top first). *)
Definition holds (si so : list T) (s : two T) : Prop :=
  rel si (t_mem s, t_in s) /\ rel so (t_mem s, t_out s) /\ apart (t_in s) (t_out s).

Lemma transfer_ok si : forall so s n, holds si so s -> exists s', transfer zero grow (length si) n s = (Ok (n + zlen si), s') /\ holds [] (rev si ++ so) s'.
Proof.
  induction si as [|t si IH]; intros so [m i o] n (Ri & Ro & Ap); cbn [t_mem t_in t_out] in *; cbn [transfer length]; pose proof (len_rel _ _ _ Ri) as Li.
  - exists (mkTwo m i o). split; [|split; auto]. unfold bind, on_in, Stack_IsEmpty, get_hdr, bind, ret. cbn [t_mem t_in t_out fst snd]. rewrite Li. cbn. now rewrite Z.add_0_r.
  - destruct (pop_apart _ _ _ _ Ri) as (i' & E1 & Ri' & A1 & A2).
    assert (Ap' : apart o i') by (apply apart_sym; unfold apart in *; now rewrite A1, A2).
    destruct (push_apart t so si m o i' Ro Ri' Ap') as (m' & o' & E2 & Ro' & Ri2 & Ap2).
    destruct (IH (t :: so) (mkTwo m' i' o') (n + 1)) as (s' & E3 & H3); [split; auto; split; auto; now apply apart_sym|].
    exists s'. cbn [rev]. rewrite <- app_assoc. split; auto. rewrite zlen_cons in *. replace (n + (1 + zlen si)) with (n + 1 + zlen si) by lia. rewrite <- E3.
    unfold bind at 1. unfold on_in at 1, Stack_IsEmpty, get_hdr, bind at 1, ret at 1. cbn [t_mem t_in t_out fst snd]. replace (s_len i =? 0) with false by (pose proof (zlen_nonneg si); lia).
    unfold bind at 1, on_in at 1. cbn [t_mem t_in t_out]. rewrite E1. unfold bind, on_out. cbn [t_mem t_in t_out]. now rewrite E2.
Qed.

Lemma dequeue_eq m i o : dequeue zero grow (mkTwo m i o) =
  (k <- (if s_len o =? 0 then transfer zero grow (Z.to_nat (s_len i)) 0 else ret 0) ;; v <- on_out Stack_Pop ;; ret (v, k)) (mkTwo m i o).
Proof. reflexivity. Qed.
Lemma two_ok o si so s : holds si so s ->
  exists si' so', holds si' so' (snd (two_step zero grow o s)) /\ so' ++ rev si' = snd (fifo_spec o (so ++ rev si)) /\
    omap fst (fst (two_step zero grow o s)) = fst (fifo_spec o (so ++ rev si)) /\
    match fst (two_step zero grow o s) with Ok (_, k) => k | _ => 0 end + zlen si' <= zlen si + match o with TEnqueue _ => 1 | _ => 0 end.
Proof.
  destruct s as [m i q]. intros (Ri & Ro & Ap). cbn [t_mem t_in t_out] in *. pose proof (len_rel _ _ _ Ri) as Li. pose proof (len_rel _ _ _ Ro) as Lo. destruct o; cbn [two_step fifo_spec].
  - destruct (push_apart v si so m i q Ri Ro Ap) as (m' & i' & E & Ri' & Ro' & Ap'). unfold enqueue, on_in. cbn [t_mem t_in t_out]. rewrite E. cbn [fst snd omap].
    exists (v :: si), so. split; [split; auto|]. split; [cbn [rev]; now rewrite app_assoc|]. split; auto. rewrite zlen_cons. lia.
  - assert (Nn : Z.to_nat (zlen si) = length si) by (unfold zlen; now rewrite Nat2Z.id). pose proof (dequeue_eq m i q) as D. rewrite Lo, Li, Nn in D.
    destruct so as [|t so].
    + change (zlen (@nil T) =? 0) with true in D. cbn [app]. destruct (transfer_ok si [] (mkTwo m i q) 0) as ([m1 i1 q1] & E & Ri1 & Ro1 & Ap1); [split; auto|]. cbn [t_mem t_in t_out] in *. rewrite app_nil_r in Ro1.
      unfold bind, on_out in D. rewrite E in D. cbn [t_mem t_in t_out] in D. destruct (rev si) as [|t r] eqn:Er.
      * rewrite (pop_nil _ _ Ro1) in D. rewrite D. cbn [fst snd omap]. exists [], []. split; [split; auto|]. split; auto. split; auto. pose proof (zlen_nonneg si). change (zlen (@nil T)) with 0. lia.
      * destruct (pop_apart _ _ _ _ Ro1) as (q2 & E2 & Ro2 & A1 & A2). rewrite E2 in D. rewrite D. unfold ret. cbn [fst snd omap].
        exists [], r. split; [split; [auto|split; [auto|unfold apart in *; cbn [t_in t_out]; now rewrite A1, A2]]|]. split; [apply app_nil_r|]. split; auto. change (zlen (@nil T)) with 0. lia.
    + rewrite zlen_cons in D. replace (1 + zlen so =? 0) with false in D by (pose proof (zlen_nonneg so); lia). cbn [app].
      destruct (pop_apart _ _ _ _ Ro) as (q2 & E2 & Ro2 & A1 & A2). unfold bind, on_out, ret in D. cbn [t_mem t_in t_out] in D. rewrite E2 in D. rewrite D. cbn [fst snd omap].
      exists si, so. split; [split; [auto|split; [auto|unfold apart in *; cbn [t_in t_out]; now rewrite A1, A2]]|]. split; auto. split; auto. lia.
  - exists si, so. unfold queue_len, bind, on_in, on_out, Stack_Len, get_hdr, bind, ret. cbn [t_mem t_in t_out fst snd omap]. split; [split; auto|]. split; auto. split; [|lia].
    rewrite Li, Lo, zlen_app. unfold zlen. rewrite rev_length. now rewrite Z.add_comm.
Qed.
Lemma two_run ops : forall si so s, holds si so s ->
  map (omap fst) (fst (run (two_step zero grow) ops s)) = fst (run fifo_spec ops (so ++ rev si)) /\ moves (fst (run (two_step zero grow) ops s)) <= zlen si + enqueued ops.
Proof.
  induction ops as [|o ops IH]; intros si so s H; [cbn; pose proof (zlen_nonneg si); split; auto; lia|].
  destruct (two_ok o si so s H) as (si' & so' & H' & A & B & C). cbn [run enqueued fold_right]. specialize (IH _ _ _ H'). rewrite A in IH.
  destruct (two_step zero grow o s) as [r s1], (fifo_spec o (so ++ rev si)) as [r' x1]. cbn [fst snd] in *.
  destruct (run (two_step zero grow) ops s1) as [rs s2], (run fifo_spec ops x1) as [rs' x2]. cbn [fst snd] in *. destruct IH as [I1 I2]. split; [cbn [map]; congruence|].
  cbn [moves fold_right]. unfold enqueued, moves in *. lia.
Qed.
End TwoProof.
