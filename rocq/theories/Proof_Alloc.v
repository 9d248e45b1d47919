(** Proofs of C118. *)
From Verif Require Import BaseLemmas Trace Spec Proof_Mem Proof_Peek Proof_TransformMem Spec_Vector Model_Vector Model_Stack Model_Heap Model_PriorityQueue Proof_Vector Proof_Heap Proof_HeapOps Proof_HeapTotal Spec_Alloc.

Lemma slots_app {T} (m m' : mem T) : slots (m ++ m') = slots m + slots m'.
Proof. induction m; cbn [slots app]; lia. Qed.
Lemma slots_one {T} (m : mem T) l : slots (m ++ [l]) = slots m + zlen l.
Proof. rewrite slots_app. cbn. lia. Qed.
Lemma slots_shape {T} (m m' : mem T) : mshape m m' -> slots m' = slots m.
Proof.
  intros [L H]. revert m' L H. induction m as [|a m IH]; intros [|b m'] L H; try discriminate; auto.
  cbn [slots]. rewrite (IH m'); [|cbn in L; lia|intros k; exact (H (S k))]. specialize (H O). cbn in H. lia.
Qed.
Lemma slots_same {T} (m m' : mem T) a lo hi : same_except m m' a lo hi -> slots m' = slots m /\ length m' = length m.
Proof. intros (A & B & C & D). split; auto. apply slots_shape. split; auto. intros b. destruct (Nat.eq_dec b a) as [->|]; [auto|]. now rewrite A. Qed.

Section Thrift.
Context {T : Type}.
Variable zero : T.
Variable grow : Z -> Z -> Z.
Implicit Types (m : mem T) (h : slice).

(** A slice variable (m, h) became (m', h'), staying where it was or being moved
    once by append, which needed room for at most [most] elements. *)
Definition took most m h m' h' : Prop :=
  wf_slice m' h' /\ (forall t, wf_slice m t -> wf_slice m' t) /\
  ((length m' = length m /\ slots m' = slots m /\ s_cap h' = s_cap h) \/
   (length m' = S (length m) /\ slots m' = slots m + s_cap h' /\ exists need, s_cap h < need <= most /\ s_cap h' = Z.max need (grow (s_cap h) need))).
Lemma took_more a b m h m' h' : a <= b -> took a m h m' h' -> took b m h m' h'.
Proof using Type. intros L (A & B & C). split; auto. split; auto. destruct C as [C|(C1 & C2 & n & C3 & C4)]; [auto|]. right. split; auto. split; auto. exists n. split; auto. lia. Qed.
Lemma took_same a m h h' : wf_slice m h' -> s_cap h' = s_cap h -> took a m h m h'.
Proof using Type. intros A B. split; auto. Qed.
Lemma took_shape a m h m' h' : wf_slice m h' -> s_cap h' = s_cap h -> mshape m m' -> took a m h m' h'.
Proof using Type. intros A B S. split; [eapply wf_shape; eauto|]. split; [intros t; now apply wf_shape|]. left. split; [apply S|]. split; auto. now apply slots_shape. Qed.
Lemma shape_same m m' a lo hi : same_except m m' a lo hi -> mshape m m'.
Proof using Type. intros (A & B & C & D). split; auto. intros b. destruct (Nat.eq_dec b a) as [->|]; [auto|]. now rewrite A. Qed.
Lemma took_then a m h m1 h1 m2 : took a m h m1 h1 -> mshape m1 m2 -> took a m h m2 h1.
Proof using Type.
  intros (A & B & C) S. split; [eapply wf_shape; eauto|]. split; [intros t W; eapply wf_shape; eauto|]. rewrite (slots_shape _ _ S). destruct S as [S _]. rewrite S. exact C.
Qed.
Lemma append_took h xs m : wf_slice m h -> exists h' m', append_list zero grow h xs m = (Ok h', m') /\ took (s_len h + zlen xs) m h m' h' /\ s_len h' = s_len h + zlen xs.
Proof using Type.
  intros W. destruct (append_list_ok zero grow h xs m W) as (h' & m' & E & W' & _ & L & F). exists h', m'. split; auto. split; auto. pose proof W as (A1 & A2 & A3 & A4). pose proof (zlen_nonneg xs).
  destruct (Z.leb_spec (s_len h + zlen xs) (s_cap h)) as [Le|Gt].
  - destruct F as (F1 & F2 & F3 & ->). assert (S : mshape m (write_at m h (s_len h) xs)) by (apply mshape_write; auto; lia). split; auto. split; [intros t; now apply wf_shape|]. left. split; [apply S|]. split; auto. now apply slots_shape.
  - destruct F as (_ & _ & _ & X). split; auto. split; [intros t; now apply extends_wf|]. right. unfold append_list in E. destruct (Z.leb_spec (s_len h + zlen xs) (s_cap h)); [lia|]. unfold alloc in E.
    set (need := s_len h + zlen xs) in *. set (c := Z.max need (grow (s_cap h) need)) in *.
    set (l := contents m h ++ xs ++ repeat zero (Z.to_nat (c - need))) in *. assert (Hl : zlen l = c).
    { unfold l. rewrite !zlen_app, zlen_contents, zlen_repeat by auto. lia. }
    injection E as <- <-. cbn [s_cap s_len] in *. split; [rewrite app_length; cbn; lia|]. split; [apply slots_one|]. exists need. split; [lia|]. exact Hl.
Qed.
Lemma RemoveRange_took i j m h : wf_slice m h -> exists r m' h', Vector_RemoveRange zero grow i j (m, h) = (r, (m', h')) /\
  took (s_cap h + s_len h) m h m' h' /\ (i <= j -> took 0 m h m' h' /\ s_len h' <= s_len h).
Proof using Type.
  intros W. pose proof W as (A1 & A2 & A3 & A4). destruct (Z_le_dec 0 i) as [Pi|Pi], (Z_le_dec i j) as [Pj|Pj], (Z_le_dec j (s_len h)) as [Pl|Pl].
  1:{ destruct (RemoveRange_ok zero grow i j m h W ltac:(lia) Pl) as (m' & h' & E & Sh). exists (Ok tt), m', h'. split; auto. destruct Sh as (B1 & B2 & B3 & B4 & B5 & B6 & B7).
      assert (forall a, took a m h m' h').
      { intros a. split; auto. split; [intros t; apply wf_shape; eapply shape_same; eauto|]. left. apply slots_same in B7. tauto. }
      split; auto. intros _. split; auto. rewrite <- (zlen_contents _ _ B1), B2, zlen_app, !zlen_zsub by (rewrite ?zlen_contents; auto; lia). lia. }
  all: unfold Vector_RemoveRange; rewrite bind_get_hdr; unfold reslice_to, reslice_from.
  all: try (assert (N : ~ 0 <= i <= s_cap h \/ 0 <= i <= s_cap h) by lia; destruct N as [N|N];
    [rewrite (bind_lift_o_panic _ _ _ (reslice_panic h 0 i ltac:(lia))); exists Panic, m, h; split; [reflexivity|]; split; [now apply took_same|]; intros _; split; [now apply took_same|lia]|]).
  all: try lia.
  all: rewrite (bind_lift_o _ _ _ _ (reslice_prefix h i ltac:(lia))); set (p := mkSlice _ _ i _).
  all: assert (N' : ~ 0 <= j <= s_len h \/ 0 <= j <= s_len h) by lia; destruct N' as [N'|N'];
    [rewrite (bind_lift_o_panic _ _ _ (reslice_panic h j (s_len h) ltac:(lia))); exists Panic, m, h; split; [reflexivity|]; split; [now apply took_same|]; intros _; split; [now apply took_same|lia]|].
  all: try lia.
  rewrite (bind_lift_o _ _ _ _ (reslice_ok h j (s_len h) ltac:(lia) ltac:(lia))). set (q := mkSlice _ _ _ _).
  assert (Wp : wf_slice m p) by (apply wf_prefix; auto). assert (Wq : wf_slice m q) by (apply wf_reslice; auto; lia).
  assert (Zq : zlen (contents m q) = s_len h - j) by (rewrite zlen_contents; auto).
  destruct (append_took p (contents m q) m Wp) as (h' & m' & E & Tk & L). rewrite (bind_lift_mem (append_slice zero grow p q) _ _ _ h' m' E). rewrite bind_set_hdr.
  rewrite (bind_lift_o_panic _ _ _ (reslice_panic h (s_len h') (s_len h) ltac:(rewrite L, Zq; cbn; lia))). exists Panic, m', h'. split; [reflexivity|]. split; [|lia].
  eapply took_more; [|exact Tk]. rewrite Zq. cbn. lia.
Qed.
(** The memory with the arguments of the call. *)
Definition with_args (o : vec_op T) m : mem T := match o with VAppend xs | VInsert _ xs => m ++ [xs] | _ => m end.
Lemma with_args_eq o m : with_args o m = m ++ args_of o.
Proof using Type. destruct o; cbn; now rewrite ?app_nil_r. Qed.
Lemma lit_wf (xs : list T) m h : wf_slice m h -> wf_slice (m ++ [xs]) h.
Proof using Type. apply extends_wf, extends_app. Qed.
Lemma step_took o m h : wf_slice m h -> appending o -> exists r m' h', vec_step zero grow o (m, h) = (r, (m', h')) /\
  took (s_cap h + s_len h + added o + 1) (with_args o m) h m' h' /\ (forward o -> took (s_len h + added o) (with_args o m) h m' h' /\ s_len h' <= s_len h + added o).
Proof using Type.
  intros W A. pose proof W as (A1 & A2 & A3 & A4). pose proof (zlen_contents m h W) as Hz.
  assert (Shrink : forall A (p : M (cell T) A) (o : A -> obs T) w, (exists r m' h', p (m, h) = (r, (m', h')) /\ wf_slice m' h' /\ s_cap h' = s_cap h /\ s_len h' <= s_len h /\ mshape m m') ->
    exists r m' h', observe o p (m, h) = (r, (m', h')) /\ took (s_cap h + s_len h + 0 + 1) m h m' h' /\ (w -> took (s_len h + 0) m h m' h' /\ s_len h' <= s_len h + 0)).
  { intros B p ob w (r & m' & h' & E & B1 & B2 & B3 & B4). assert (Tk : forall a, took a m h m' h').
    { intros a. split; auto. split; [intros t; now apply wf_shape|]. left. split; [apply B4|]. split; auto. now apply slots_shape. }
    unfold observe. rewrite E. eexists _, m', h'. split; [reflexivity|]. split; auto. intros _. split; auto. lia. }
  assert (Range : forall i j w, (w -> i <= j \/ ~ 0 <= i <= s_cap h) -> exists r m' h', observe (fun _ => @ONone T) (Vector_RemoveRange zero grow i j) (m, h) = (r, (m', h')) /\ took (s_cap h + s_len h + 0 + 1) m h m' h' /\ (w -> took (s_len h + 0) m h m' h' /\ s_len h' <= s_len h + 0)).
  { intros i j w Hw. destruct (RemoveRange_took i j m h W) as (r & m' & h' & E & Tk & Tf). assert (Eo : exists r', observe (fun _ => @ONone T) (Vector_RemoveRange zero grow i j) (m, h) = (r', (m', h'))) by (unfold observe; rewrite E; eauto). destruct Eo as (r' & Eo). exists r', m', h'. split; auto. split; [eapply took_more; [|exact Tk]; lia|].
    intros Hf. destruct (Hw Hf) as [Le|N].
    - destruct (Tf Le) as [T1 T2]. split; [eapply took_more; [|exact T1]; lia|lia].
    - assert (E2 : Vector_RemoveRange zero grow i j (m, h) = (Panic, (m, h))). { unfold Vector_RemoveRange. rewrite bind_get_hdr. apply bind_lift_o_panic, reslice_panic. lia. }
      rewrite E2 in E. injection E as <- <- <-. split; [now apply took_same|lia]. }
  destruct o; try destruct A; cbn [vec_step added with_args forward].
  - destruct (append_took h [x] m W) as (h' & m' & E & Tk & L). unfold observe, Vector_PushBack. rewrite bind_get_hdr, (bind_lift_mem _ _ _ _ _ _ E). unfold set_hdr. cbn [fst]. change (zlen [x]) with 1 in *. eexists _, m', h'. split; [reflexivity|]. split; [eapply took_more; [|exact Tk]; lia|]. intros _. split; auto. lia.
  - unfold observe, Vector_Append. rewrite (bind_lift_mem (lit_slice xs) _ m h (mkSlice (length m) 0 (zlen xs) (zlen xs)) (m ++ [xs]) eq_refl), bind_get_hdr. set (x := mkSlice _ _ _ _). pose proof (lit_wf xs m h W) as W1.
    assert (Cx : contents (m ++ [xs]) x = xs). { unfold contents, x, arr_of. cbn [s_arr s_off s_len]. rewrite app_nth2, Nat.sub_diag by lia. cbn [nth]. apply zsub_full. }
    destruct (append_took h xs (m ++ [xs]) W1) as (h' & m' & E & Tk & L). assert (E' : append_slice zero grow h x (m ++ [xs]) = (Ok h', m')) by (unfold append_slice; now rewrite Cx).
    rewrite (bind_lift_mem _ _ _ _ _ _ E'). unfold set_hdr. cbn [fst]. eexists _, m', h'. split; [reflexivity|]. split; [eapply took_more; [|exact Tk]; lia|]. intros _. split; auto. lia.
  - apply Shrink. destruct (contents m h) as [|y l] eqn:Ec using rev_ind; [|clear IHl].
    + exists Panic, m, h. rewrite PopBack_panic by auto. repeat split; auto; lia.
    + destruct (PopBack_ok zero m h y l W Ec) as (m' & h' & E & Sh). destruct Sh as (B1 & B2 & B3 & B4 & B5 & B6 & B7). exists (Ok y), m', h'. split; auto. split; auto. split; auto. split; [|eapply shape_same; eauto]. rewrite <- (zlen_contents _ _ B1), B2. rewrite zlen_app in Hz. change (zlen [y]) with 1 in Hz. lia.
  - apply Shrink. unfold Vector_TryPopBack, Vector_IsEmpty. destruct (Z.eqb_spec (s_len h) 0) as [E0|E0].
    + exists (Ok (zero, false)), m, h. unfold bind, get_hdr, ret. cbn. rewrite E0. cbn. repeat split; auto; lia.
    + destruct (contents m h) as [|y l] eqn:Ec using rev_ind; [change (zlen []) with 0 in Hz; lia|clear IHl]. destruct (PopBack_ok zero m h y l W Ec) as (m' & h' & E & Sh). destruct Sh as (B1 & B2 & B3 & B4 & B5 & B6 & B7). exists (Ok (y, true)), m', h'.
      assert (Eb : (v <- get_hdr ;; ret (s_len v =? 0)) (m, h) = (Ok false, (m, h))) by (unfold bind, get_hdr, ret; cbn; apply Z.eqb_neq in E0; now rewrite E0).
      rewrite (bind_Ok _ _ _ _ _ Eb), (bind_Ok _ _ _ _ _ E). split; auto. split; auto. split; auto. split; [|eapply shape_same; eauto]. rewrite <- (zlen_contents _ _ B1), B2. rewrite zlen_app in Hz. change (zlen [y]) with 1 in Hz. lia.
  - apply Shrink. unfold Vector_Back. rewrite bind_get_hdr. destruct (zget (contents m h) (s_len h - 1)) eqn:G.
    + rewrite (lift_mem_ok _ _ h _ _ (sload_ok _ _ _ _ W G)). eexists _, m, h. split; [reflexivity|]. split; auto. split; auto. split; [lia|apply mshape_refl].
    + rewrite (lift_mem_panic _ _ h _ (sload_panic _ _ _ W G)). eexists _, m, h. split; [reflexivity|]. split; auto. split; auto. split; [lia|apply mshape_refl].
  - apply Shrink. unfold Vector_At. rewrite bind_get_hdr. destruct (zget (contents m h) i) eqn:G.
    + rewrite (lift_mem_ok _ _ h _ _ (sload_ok _ _ _ _ W G)). eexists _, m, h. split; [reflexivity|]. split; auto. split; auto. split; [lia|apply mshape_refl].
    + rewrite (lift_mem_panic _ _ h _ (sload_panic _ _ _ W G)). eexists _, m, h. split; [reflexivity|]. split; auto. split; auto. split; [lia|apply mshape_refl].
  - apply Shrink. unfold Vector_Set. rewrite bind_get_hdr. destruct (Z_le_dec 0 i) as [P|P]; [destruct (Z_lt_dec i (s_len h)) as [Q|Q]|].
    + rewrite (lift_mem_ok _ _ h _ _ (sstore_ok m h i x W (conj P Q))). assert (S : mshape m (write_at m h 0 (zupd (contents m h) i x))) by (apply mshape_write; auto; rewrite ?zlen_zupd; lia).
      eexists _, _, h. split; [reflexivity|]. split; [eapply wf_shape; eauto|]. split; auto. split; [lia|auto].
    + rewrite (lift_mem_panic _ _ h _ (sstore_panic m h i x W ltac:(lia))). eexists _, m, h. split; [reflexivity|]. split; auto. split; auto. split; [lia|apply mshape_refl].
    + rewrite (lift_mem_panic _ _ h _ (sstore_panic m h i x W ltac:(lia))). eexists _, m, h. split; [reflexivity|]. split; auto. split; auto. split; [lia|apply mshape_refl].
  - apply Range. intros F. left. rewrite wrap64_id by (unfold is_int, max_int in *; lia). lia.
  - apply Range. auto.
  - apply Range. intros F. left. rewrite wrap64_id by (unfold is_int, max_int in *; lia). lia.
  - apply Shrink. destruct (VRemoveIf_ok zero (fun (s : unit) x => (p x, s)) tt m h W) as (m' & h' & E & Sh). destruct Sh as (B1 & B2 & B3 & B4 & B5 & B6 & B7). eexists _, m', h'. split; [exact E|]. split; auto. split; auto. split; [|eapply shape_same; eauto].
    pose proof (zlen_contents _ _ (wf_shape _ _ _ (shape_same _ _ _ _ _ B7) W)) as Z6. rewrite B6, zlen_app, <- B2, zlen_contents in Z6 by auto. pose proof (zlen_nonneg (repeat zero (Z.to_nat (s_len h - s_len h')))). lia.
  - apply Shrink. exists (Ok (s_len h)), m, h. split; [reflexivity|]. split; auto. split; auto. split; [lia|apply mshape_refl].
  - apply Shrink. exists (Ok (s_len h =? 0)), m, h. split; [reflexivity|]. split; auto. split; auto. split; [lia|apply mshape_refl].
  - apply Shrink. destruct (Clear_ok zero m h W) as (m' & h' & E & Sh). destruct Sh as (B1 & B2 & B3 & B4 & B5 & B6 & B7). eexists _, m', h'. split; [exact E|]. split; auto. split; auto. split; [|eapply shape_same; eauto]. rewrite <- (zlen_contents _ _ B1), B2. change (zlen []) with 0. lia.
Qed.

(** *** Any step that is thrifty. *)
Section Runs.
Context {S Op R : Type} (step : Op -> S -> R * S) (memo : S -> mem T) (hdr : S -> slice) (args : Op -> list (list T)) (adds : Op -> Z) (good : Op -> Prop).
Variables k b : Z.
Hypothesis Hk : 0 <= k.
Hypothesis Hb : 1 <= b.
Lemma run_thrifty : grows k grow -> (forall o s, good o -> wf_slice (memo s) (hdr s) -> exists most, took most (memo s ++ args o) (hdr s) (memo (snd (step o s))) (hdr (snd (step o s)))) ->
  forall ops s, Forall good ops -> wf_slice (memo s) (hdr s) ->
  let s' := snd (run step ops s) in wf_slice (memo s') (hdr s') /\ thrifty k (flat_map args ops) (memo s) (hdr s) (memo s') (hdr s').
Proof using Hk.
  clear b Hb adds. intros G H. induction ops as [|o ops IH]; intros s F W.
  - cbn. split; auto. split; [lia|]. split; [cbn; lia|]. exists O. split; [cbn; lia|]. split; [cbn; lia|]. discriminate.
  - inversion F; subst. destruct (H o s) as (most & W1 & _ & C); auto. cbn [run flat_map]. destruct (step o s) as [r s1]. cbn [snd] in *. destruct (IH s1) as (W2 & I1 & I2 & a & I3 & I4 & I5); auto.
    destruct (run step ops s1) as [rs s2]. cbn [snd] in *. split; auto. pose proof W as (_ & _ & Wc & _). unfold thrifty. rewrite slots_app, app_length.
    destruct C as [(C1 & C2 & C3)|(C1 & C2 & need & C3 & C4)]; rewrite slots_app, app_length in *.
    + rewrite <- C3. split; auto. split; [lia|]. exists a. split; [lia|]. auto.
    + pose proof (G (s_cap (hdr s)) need ltac:(lia)) as Gn. rewrite <- C4 in Gn. split; [lia|]. split; [nia|]. exists (Datatypes.S a). split; [lia|].
      assert (P : 0 <= (k + 1) ^ Z.of_nat a) by (apply Z.pow_nonneg; lia). split.
      * rewrite !Nat2Z.inj_succ, !Z.pow_succ_r by lia. nia.
      * intros a' [= <-]. assert (1 <= s_cap (hdr s1)) by lia. nia.
Qed.
Lemma run_fits : not_more b grow -> (forall o, 0 <= adds o) -> (forall o s, good o -> wf_slice (memo s) (hdr s) -> took (s_len (hdr s) + adds o) (memo s ++ args o) (hdr s) (memo (snd (step o s))) (hdr (snd (step o s))) /\ s_len (hdr (snd (step o s))) <= s_len (hdr s) + adds o) ->
  forall ops s, Forall good ops -> wf_slice (memo s) (hdr s) -> fits b (total adds ops) (hdr s) (hdr (snd (run step ops s))).
Proof using Hb.
  clear k Hk. intros G N H. assert (Nt : forall ops, 0 <= total adds ops) by (induction ops as [|o r I]; [cbn; lia|change (total adds (o :: r)) with (adds o + total adds r); specialize (N o); lia]).
  induction ops as [|o ops IH]; intros s F W.
  - cbn. split; lia.
  - inversion F; subst. destruct (H o s) as ((W1 & _ & C) & L); auto. change (total adds (o :: ops)) with (adds o + total adds ops). cbn [run]. destruct (step o s) as [r s1]. cbn [snd] in *. destruct (IH s1) as (I1 & I2); auto.
    destruct (run step ops s1) as [rs s2]. cbn [snd] in *. specialize (Nt ops). specialize (N o). pose proof W as (_ & _ & Wc & _). unfold fits. split; [lia|].
    assert (b * (s_len (hdr s1) + total adds ops) <= b * (s_len (hdr s) + (adds o + total adds ops))) by nia.
    destruct C as [(C1 & C2 & C3)|(C1 & C2 & need & C3 & C4)]; [lia|].
    pose proof (G (s_cap (hdr s)) need ltac:(lia)). assert (b * need <= b * (s_len (hdr s) + (adds o + total adds ops))) by nia. assert (need <= b * need) by nia. lia.
Qed.
End Runs.

(** *** Insert and Reserve. *)
Lemma make_shape n c m r m' : make_slice zero n c m = (Ok r, m') -> length m' = S (length m) /\ slots m' = slots m + c.
Proof using Type.
  clear grow. unfold make_slice. destruct ((0 <=? n) && (n <=? c)) eqn:E; [|discriminate]. unfold alloc. intros [= <- <-]. split; [rewrite app_length; cbn; lia|]. rewrite slots_one, zlen_repeat; lia.
Qed.
Lemma Insert_cost i x m s : wf_slice m s -> wf_slice m x -> 0 <= i <= s_len s -> s_len s + s_len x <= max_int -> s_cap s < s_len s + s_len x ->
  exists m' s2, Vector_Insert zero i x (m, s) = (Ok tt, (m', s2)) /\ wf_slice m' s2 /\ s_len s2 = s_len s + s_len x /\ s_cap s2 = s_len s + s_len x /\ length m' = S (length m) /\ slots m' = slots m + (s_len s + s_len x).
Proof using Type.
  clear grow. intros Hs Hx Hi Hmax Hcap. pose proof Hs as (S1 & S2 & S3 & S4). pose proof Hx as (X1 & X2 & X3 & X4).
  unfold Vector_Insert. rewrite bind_get_hdr.
  rewrite wrap64_id by (unfold is_int, max_int in *; lia). cbv zeta.
  destruct (Z.leb_spec (s_len s + s_len x) (s_cap s)); [lia|].
  destruct (fresh_make zero m (s_len s + s_len x) (s_len s + s_len x)) as (s2 & m0 & E & (X & W & _) & C & L & Cp & A); [lia|].
  destruct (make_shape _ _ _ _ _ E) as [K1 K2].
  rewrite (bind_lift_mem _ _ _ _ _ _ E).
  unfold reslice_to, reslice_from. pose proof W as (W1 & W2 & W3 & W4).
  rewrite (bind_lift_o _ _ _ _ (reslice_prefix s i ltac:(lia))). set (r1 := mkSlice _ _ _ _).
  pose proof (extends_wf _ _ _ X Hs) as Hs0. pose proof (extends_wf _ _ _ X Hx) as Hx0.
  assert (Wr1 : wf_slice m0 r1) by (apply wf_prefix; auto; lia).
  destruct (copy_slice_ok m0 s2 r1 W Wr1) as (m1 & E1 & Sh1 & P1). rewrite (bind_lift_mem _ _ _ _ _ _ E1).
  rewrite (bind_lift_o _ _ _ _ (reslice_ok s2 i (s_len s2) ltac:(lia) ltac:(lia))). set (d2 := mkSlice _ _ _ _).
  assert (Wd2 : wf_slice m0 d2) by (apply wf_reslice; auto; lia).
  destruct (copy_slice_ok m1 d2 x (wf_shape _ _ _ Sh1 Wd2) (wf_shape _ _ _ Sh1 Hx0)) as (m2 & E2 & Sh2 & P2).
  rewrite (bind_lift_mem _ _ _ _ _ _ E2).
  rewrite wrap64_id by (unfold is_int, max_int in *; lia).
  rewrite (bind_lift_o _ _ _ _ (reslice_ok s2 (i + s_len x) (s_len s2) ltac:(lia) ltac:(lia))). set (d3 := mkSlice _ _ _ _).
  rewrite (bind_lift_o _ _ _ _ (reslice_ok s i (s_len s) ltac:(lia) ltac:(lia))). set (r3 := mkSlice _ _ (s_len s - i) _).
  pose proof (mshape_trans _ _ _ Sh1 Sh2) as Sh12.
  assert (Wd3 : wf_slice m0 d3) by (apply wf_reslice; auto; lia).
  assert (Wr3 : wf_slice m0 r3) by (apply wf_reslice; auto; lia).
  destruct (copy_slice_ok m2 d3 r3 (wf_shape _ _ _ Sh12 Wd3) (wf_shape _ _ _ Sh12 Wr3)) as (m3 & E3 & Sh3 & P3).
  rewrite (bind_lift_mem _ _ _ _ _ _ E3).
  pose proof (mshape_trans _ _ _ Sh12 Sh3) as Sh.
  exists m3, s2. split; [reflexivity|]. split; [apply (wf_shape _ _ _ Sh); auto|]. split; auto. split; auto. rewrite (slots_shape _ _ Sh). destruct Sh as [-> _]. auto.
Qed.
Lemma Reserve_cost l m s : wf_slice m s -> s_cap s < l -> exists m' s2, Vector_Reserve zero l (m, s) = (Ok tt, (m', s2)) /\ wf_slice m' s2 /\ s_len s2 = s_len s /\ s_cap s2 = l /\ length m' = S (length m) /\ slots m' = slots m + l.
Proof using Type.
  clear grow. intros Hs Hl. pose proof Hs as (S1 & S2 & S3 & S4). unfold Vector_Reserve. rewrite bind_get_hdr. destruct (Z.ltb_spec (s_cap s) l); [|lia].
  destruct (fresh_make zero m (s_len s) l) as (s2 & m0 & E & (X & W & _) & C & L & Cp & A); [lia|]. destruct (make_shape _ _ _ _ _ E) as [K1 K2]. rewrite (bind_lift_mem _ _ _ _ _ _ E).
  destruct (copy_slice_ok m0 s2 s W (extends_wf _ _ _ X Hs)) as (m1 & E1 & Sh1 & P1). rewrite (bind_lift_mem _ _ _ _ _ _ E1).
  exists m1, s2. split; [reflexivity|]. split; [apply (wf_shape _ _ _ Sh1); auto|]. split; auto. split; auto. rewrite (slots_shape _ _ Sh1). destruct Sh1 as [-> _]. auto.
Qed.
Lemma inserts_cost ps : forall m h, wf_slice m h -> s_cap h = s_len h -> positions (s_len h) ps -> s_len h + zlen ps <= max_int ->
  exists m' h', run (vec_step zero grow) (inserts ps) (m, h) = (map (fun _ => Ok ONone) ps, (m', h')) /\ wf_slice m' h' /\ s_len h' = s_len h + zlen ps /\ s_cap h' = s_len h' /\
    length m' = (length m + 2 * length ps)%nat /\ 2 * slots m' = 2 * (slots m + slots (flat_map args_of (inserts ps))) + zlen ps * (2 * s_len h + zlen ps + 1).
Proof using Type.
  induction ps as [|[i x] ps IH]; intros m h W E P Mx.
  - exists m, h. split; [reflexivity|]. split; auto. split; [cbn; lia|]. split; auto. split; [cbn; lia|]. cbn [inserts map flat_map slots]. rewrite ?(eq_refl : @zlen (Z * T) [] = 0), ?(eq_refl : @zlen T [] = 0). lia.
  - destruct P as [P1 P2]. cbn [fst] in P1. rewrite zlen_cons in Mx. pose proof (zlen_nonneg ps).
    set (a := mkSlice (length m) 0 1 1). assert (Wa : wf_slice (m ++ [[x]]) a).
    { unfold wf_slice, a, arr_of. cbn [s_arr s_off s_len s_cap]. rewrite app_length, app_nth2, Nat.sub_diag by lia. cbn. lia. }
    destruct (Insert_cost i a (m ++ [[x]]) h) as (m1 & h1 & E1 & W1 & L1 & C1 & N1 & S1); auto; try (cbn [a s_len]; lia). { now apply lit_wf. }
    cbn [a s_len] in *. rewrite slots_one, app_length in *. change (zlen [x]) with 1 in *. cbn [length] in *.
    destruct (IH m1 h1) as (m' & h' & E2 & W2 & L2 & C2 & N2 & S2); auto; try lia. { rewrite L1. auto. }
    exists m', h'. cbn [inserts map run fst snd]. assert (Eo : vec_step zero grow (VInsert i [x]) (m, h) = (Ok ONone, (m1, h1))).
    { cbn [vec_step]. unfold observe. rewrite (bind_lift_mem (lit_slice [x]) _ m h a (m ++ [[x]]) eq_refl). fold a in E1. now rewrite E1. }
    rewrite Eo. fold (inserts ps). rewrite E2. split; [reflexivity|]. split; auto. rewrite zlen_cons. split; [lia|]. split; auto. split; [cbn [length]; lia|].
    cbn [flat_map args_of app slots]. change (zlen [x]) with 1. nia.
Qed.
Lemma reserved_cost xs : forall m h, wf_slice m h -> s_cap h = s_len h ->
  exists m' h', run (vec_step zero grow) (reserved_pushes (s_len h) xs) (m, h) = (map (fun _ => Ok ONone) (reserved_pushes (s_len h) xs), (m', h')) /\ wf_slice m' h' /\ s_len h' = s_len h + zlen xs /\ s_cap h' = s_len h' /\
    length m' = (length m + length xs)%nat /\ 2 * slots m' = 2 * slots m + zlen xs * (2 * s_len h + zlen xs + 1).
Proof using Type.
  induction xs as [|x xs IH]; intros m h W E.
  - exists m, h. split; [reflexivity|]. split; auto. split; [cbn; lia|]. split; auto. split; [cbn; lia|]. cbn [inserts map flat_map slots]. rewrite ?(eq_refl : @zlen (Z * T) [] = 0), ?(eq_refl : @zlen T [] = 0). lia.
  - destruct (Reserve_cost (s_len h + 1) m h W ltac:(lia)) as (m1 & h1 & E1 & W1 & L1 & C1 & N1 & S1).
    destruct (append_took h1 [x] m1 W1) as (h2 & m2 & E2 & (W2 & _ & Tk) & L2). change (zlen [x]) with 1 in *.
    destruct Tk as [(T1 & T2 & T3)|(_ & _ & need & T3 & _)]; [|lia].
    destruct (IH m2 h2 W2 ltac:(lia)) as (m' & h' & E3 & W3 & L3 & C3 & N3 & S3). rewrite L2, L1 in *.
    exists m', h'. cbn [reserved_pushes map run vec_step]. unfold observe at 1. rewrite E1. cbn [omap]. unfold observe at 1, Vector_PushBack. rewrite bind_get_hdr, (bind_lift_mem _ _ _ _ _ _ E2). unfold set_hdr at 1. cbn [omap fst].
    rewrite E3. split; [reflexivity|]. split; auto. rewrite zlen_cons. split; [lia|]. split; auto. split; [cbn [length]; lia|]. nia.
Qed.

(** *** Stack and PriorityQueue. *)
Lemma stack_took o m h : wf_slice m h -> let '(_, (m', h')) := stack_step zero grow o (m, h) in took (s_len h + pushed o) m h m' h' /\ s_len h' <= s_len h + pushed o.
Proof using Type.
  intros W. pose proof W as (A1 & A2 & A3 & A4).
  assert (Ld : forall i, exists r, sload h i m = (r, m) /\ (r = Panic \/ (exists v, r = Ok v) /\ 0 <= i < s_len h)).
  { intros i. destruct (zget (contents m h) i) eqn:G; [rewrite (sload_ok _ _ _ _ W G)|rewrite (sload_panic _ _ _ W G)]; eexists; split; eauto. right. split; eauto. apply zget_Some_range in G. rewrite zlen_contents in G; auto. }
  assert (Id : forall n, 0 <= n -> took (s_len h + n) m h m h /\ s_len h <= s_len h + n) by (intros n Hn; split; [now apply took_same|lia]).
  assert (Rs : forall n, 0 <= n <= s_len h -> took (s_len h + 0) m h m (mkSlice (s_arr h) (s_off h) n (s_cap h)) /\ n <= s_len h + 0) by (intros n Hn; split; [apply took_same; auto; now apply wf_prefix; auto; lia|lia]).
  destruct o; cbn [stack_step pushed]; unfold observe.
  - destruct (append_took h [t] m W) as (h' & m' & E & Tk & L). unfold Stack_Push. rewrite bind_get_hdr, (bind_lift_mem _ _ _ _ _ _ E). unfold set_hdr. cbn [fst]. change (zlen [t]) with 1 in *. split; auto. lia.
  - unfold Stack_Pop. rewrite bind_get_hdr. destruct (Ld (s_len h - 1)) as (r & E & [-> | [[v ->] G]]).
    + unfold bind, lift_mem. cbn [fst snd]. rewrite E. apply Id. lia.
    + rewrite (bind_lift_mem _ _ _ _ _ _ E). unfold reslice_to. rewrite (bind_lift_o _ _ _ _ (reslice_prefix h (s_len h - 1) ltac:(lia))). unfold bind, set_hdr, ret. cbn [fst]. apply (Rs (s_len h - 1)). lia.
  - unfold Stack_TryPop. rewrite bind_get_hdr. destruct (Z.eqb_spec (s_len h) 0); [apply Id; lia|]. destruct (Ld (s_len h - 1)) as (r & E & [-> | [[v ->] G]]).
    + unfold bind, lift_mem. cbn [fst snd]. rewrite E. apply Id. lia.
    + rewrite (bind_lift_mem _ _ _ _ _ _ E). unfold reslice_to. rewrite (bind_lift_o _ _ _ _ (reslice_prefix h (s_len h - 1) ltac:(lia))). unfold bind, set_hdr, ret. cbn [fst]. apply (Rs (s_len h - 1)). lia.
  - unfold Stack_Top. rewrite bind_get_hdr. destruct (Ld (s_len h - 1)) as (r & E & _). unfold lift_mem. cbn [fst snd]. rewrite E. destruct r; apply Id; lia.
  - apply Id. lia.
  - apply Id. lia.
  - unfold Stack_Clear. rewrite bind_get_hdr, (bind_lift_o _ _ _ _ (reslice_prefix h 0 ltac:(lia))). unfold set_hdr. cbn [fst]. apply (Rs 0). lia.
Qed.
(** Programs on a window do not change its length. *)
Definition steady {A} (p : W T A) : Prop := forall l, zlen (snd (p l)) = zlen l.
Lemma steady_ret {A} (a : A) : steady (ret a). Proof using Type. intros l. reflexivity. Qed.
Lemma steady_bind {A B} (p : W T A) (f : A -> W T B) : steady p -> (forall a, steady (f a)) -> steady (bind p f).
Proof using Type. intros P F l. unfold bind. specialize (P l). destruct (p l) as [[a| |] l1]; cbn [snd] in *; auto. rewrite (F a). auto. Qed.
Lemma steady_load i : steady (wload (T := T) i). Proof using Type. intros l. unfold wload. now destruct (zget l i). Qed.
Lemma steady_swap i j : steady (heapSwap (T := T) i j).
Proof using Type.
  assert (S : forall i (v : T), steady (wstore i v)) by (intros i' v l; unfold wstore; destruct (zget l i'); auto; apply zlen_zupd).
  unfold heapSwap, wswap. repeat (apply steady_bind; [try apply steady_load; auto|intros ?]). auto.
Qed.
Lemma steady_up less fuel : forall j, steady (heapUpFunc_loop (T := T) less fuel j).
Proof using Type.
  induction fuel as [|n IH]; intros j; [intros l; reflexivity|]. cbn [heapUpFunc_loop]. destruct (_ =? _); [apply steady_ret|]. apply steady_bind; [apply steady_load|intros x]. apply steady_bind; [apply steady_load|intros y]. destruct (negb _); [apply steady_ret|]. apply steady_bind; [apply steady_swap|auto].
Qed.
Lemma steady_down less fuel : forall i0 n i, steady (heapDownFunc_loop (T := T) less fuel i0 n i).
Proof using Type.
  induction fuel as [|f IH]; intros i0 n i; [intros l; reflexivity|]. cbn [heapDownFunc_loop]. destruct (_ || _); [apply steady_ret|].
  apply steady_bind; [destruct (_ <? _); [|apply steady_ret]; apply steady_bind; [apply steady_load|intros x]; apply steady_bind; [apply steady_load|intros y; apply steady_ret]|intros r].
  apply steady_bind; [apply steady_load|intros x]. apply steady_bind; [apply steady_load|intros y]. destruct (negb _); [apply steady_ret|]. apply steady_bind; [apply steady_swap|auto].
Qed.
Lemma on_steady {A} (p : W T A) h m : wf_slice m h -> steady p -> exists r m', on_slice h p m = (r, m') /\ mshape m m'.
Proof using Type.
  intros W P. pose proof W as (A1 & A2 & A3 & A4). unfold on_slice. specialize (P (contents m h)). rewrite zlen_contents in P by auto. destruct (p (contents m h)) as [r w]. cbn [snd] in P. eexists _, _. split; [reflexivity|]. apply mshape_write; auto; lia.
Qed.
Lemma push_took less v m h : wf_slice m h -> let '(_, (m', h')) := PushHeapFunc zero grow v less (m, h) in took (s_len h + 1) m h m' h' /\ s_len h' <= s_len h + 1.
Proof using Type.
  intros W. destruct (append_took h [v] m W) as (h' & m' & E & Tk & L). change (zlen [v]) with 1 in *. unfold PushHeapFunc. rewrite bind_get_hdr, (bind_lift_mem _ _ _ _ _ _ E), bind_set_hdr.
  destruct (on_steady (heapUpFunc less (s_len h' - 1)) h' m' (proj1 Tk) (steady_up _ _ _)) as (r & m2 & E2 & Sh). unfold lift_mem. cbn [fst snd]. rewrite E2. split; [eapply took_then; eauto|lia].
Qed.
Lemma pop_took less m h : wf_slice m h -> let '(_, (m', h')) := PopHeapFunc less (m, h) in took (s_len h + 0) m h m' h' /\ s_len h' <= s_len h + 0.
Proof using Type.
  clear zero. intros W. pose proof W as (A1 & A2 & A3 & A4). unfold PopHeapFunc. rewrite bind_get_hdr. cbv zeta. set (n := s_len h - 1).
  assert (Id : forall m', mshape m m' -> took (s_len h + 0) m h m' h /\ s_len h <= s_len h + 0) by (intros m' Sh; split; [now apply took_shape|lia]).
  destruct (on_steady (heapSwap 0 n) h m W (steady_swap _ _)) as (r1 & m1 & E1 & S1). unfold bind at 1, lift_mem at 1. cbn [fst snd]. rewrite E1. destruct r1; try (now apply Id).
  destruct (on_steady (heapDownFunc less 0 n) h m1 (wf_shape _ _ _ S1 W) (steady_down _ _ _ _ _)) as (r2 & m2 & E2 & S2). pose proof (mshape_trans _ _ _ S1 S2) as S12. unfold bind at 1, lift_mem at 1. cbn [fst snd]. rewrite E2. destruct r2; try (now apply Id).
  destruct (Z_le_dec 0 n) as [P|P].
  - rewrite (bind_lift_o _ _ _ _ (reslice_prefix h n ltac:(lia))), bind_set_hdr. destruct (on_steady (wload n) h m2 (wf_shape _ _ _ S12 W) (steady_load _)) as (r3 & m3 & E3 & S3). unfold lift_mem. cbn [fst snd]. rewrite E3. split; [|cbn [s_len]; lia].
    apply took_shape; [apply wf_prefix; auto; lia|reflexivity|]. eapply mshape_trans; eauto.
  - rewrite (bind_lift_o_panic _ _ _ (reslice_panic h 0 n ltac:(lia))). now apply Id.
Qed.
Lemma pq_took o q : wf_slice (fst (pq_heap q)) (snd (pq_heap q)) -> let q' := snd (pq_step zero grow o q) in
  took (s_len (snd (pq_heap q)) + queued o) (fst (pq_heap q)) (snd (pq_heap q)) (fst (pq_heap q')) (snd (pq_heap q')) /\ s_len (snd (pq_heap q')) <= s_len (snd (pq_heap q)) + queued o.
Proof using Type.
  destruct q as [[m h] im]. cbn [pq_heap fst snd]. intros W. pose proof W as (A1 & A2 & A3 & A4).
  assert (Id : took (s_len h + 0) m h m h /\ s_len h <= s_len h + 0) by (split; [now apply took_same|lia]).
  destruct o; cbn [pq_step queued]; unfold observe.
  - pose proof (fun less => push_took less v m h W) as P. unfold PQ_Push, on_heap. destruct im as [f|f]; specialize (P f); cbn [pq_impl pq_heap].
    + change (PushMinHeap zero grow f v (m, h)) with (PushHeapFunc zero grow v f (m, h)). destruct (PushHeapFunc zero grow v f (m, h)) as [r [m' h']]. exact P.
    + destruct (PushHeapFunc zero grow v f (m, h)) as [r [m' h']]. exact P.
  - pose proof (fun less => pop_took less m h W) as P. unfold PQ_Pop, on_heap. destruct im as [f|f]; specialize (P f); cbn [pq_impl pq_heap].
    + change (PopMinHeap f (m, h)) with (PopHeapFunc f (m, h)). destruct (PopHeapFunc f (m, h)) as [r [m' h']]. exact P.
    + destruct (PopHeapFunc f (m, h)) as [r [m' h']]. exact P.
  - unfold PQ_Top, on_heap. cbn [pq_heap]. rewrite bind_get_hdr. unfold lift_mem. cbn [fst]. destruct (zget (contents m h) 0) eqn:G; [rewrite (sload_ok _ _ _ _ W G)|rewrite (sload_panic _ _ _ W G)]; exact Id.
  - exact Id.
  - exact Id.
  - unfold PQ_Clear, on_heap. cbn [pq_heap]. rewrite bind_get_hdr, (bind_lift_o _ _ _ _ (reslice_prefix h 0 ltac:(lia))). unfold set_hdr. cbn [fst snd pq_heap]. split; [|cbn; lia]. apply took_same; auto. now apply wf_prefix; auto; lia.
Qed.
End Thrift.
