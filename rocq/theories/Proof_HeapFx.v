(** The Func heap functions with a comparison function that may panic. *)
From Verif Require Import BaseLemmas Spec Spec_Fx Proof_Mem Model_Heap Proof_Heap Proof_HeapOps Proof_HeapTotal Model_HeapFx.

Lemma bind_stop {S A B} (p : M S A) (k : A -> M S B) s s' : p s = (Panic, s') -> bind p k s = (Panic, s').
Proof. intros E. unfold bind. now rewrite E. Qed.

Section HeapFx.
Context {T St : Type}.
Variable less : T -> T -> M St bool.
Variables (D : T -> Prop) (P Q : St -> Prop).
Hypothesis C : contract D P Q less.
Implicit Types (l w : list T) (m : mem T) (h : slice) (st : St).

Lemma bind_win {A B} (p : W T A) (k : A -> WF B) l st a l' :
  p l = (Ok a, l') -> bind (win p) k (l, st) = k a (l', st).
Proof. intros H. unfold bind, win. cbn. now rewrite H. Qed.

(** One call of less on elements. *)
Lemma call_cases a b l st : D a -> D b -> P st ->
  (exists r st', call less a b (l, st) = (Ok r, (l, st')) /\ P st' /\ (forall f, answers D P f less -> r = f a b)) \/
  (exists st', call less a b (l, st) = (Panic, (l, st')) /\ Q st').
Proof.
  intros Ha Hb HP. pose proof (C a b st Ha Hb HP) as H. unfold call. cbn.
  destruct (less a b st) as [[r| |] st'] eqn:E; [left|right|destruct H].
  - exists r, st'. split; [auto|]. split; [auto|]. intros f Hf. exact (Hf a b st r st' Ha Hb HP E).
  - exists st'. auto.
Qed.

Lemma get_D l i a : Forall D l -> zget l i = Some a -> D a.
Proof.
  intros H G. rewrite Forall_forall in H. apply H. unfold zget in G.
  destruct (i <? 0); [discriminate|]. eapply nth_error_In; eauto.
Qed.
Lemma swap_D l i j : Forall D l -> Forall D (zswap l i j).
Proof. intros H. eapply Permutation_Forall; [symmetry; apply zswap_perm|auto]. Qed.

Lemma down_loop_fx fuel : forall l n i0 i st,
  0 <= i <= n -> n <= zlen l -> n <= max_int ->
  (1 <= fuel)%nat -> n < (i + 1) * 2 ^ Z.of_nat fuel -> Forall D l -> P st ->
  exists o l' st', heapDownFx_loop less fuel i0 n i (l, st) = (o, (l', st')) /\
    Permutation l' l /\ zlen l' = zlen l /\ above_same l l' n /\ ends_in P Q o st' /\
    (forall f, answers D P f less -> o = Panic \/ heapDownFunc_loop f fuel i0 n i l = (o, l')).
Proof.
  induction fuel as [|fu IH]; intros l n i0 i st Hi Hn Hmax Hf1 Hf HD HP; [lia|].
  cbn [heapDownFx_loop heapDownFunc_loop]. cbv zeta.
  pose proof (wrap64_child i n ltac:(lia) Hmax ltac:(lia)) as Hw. cbv zeta in Hw.
  destruct ((wrap64 (2 * i + 1) >=? n) || (wrap64 (2 * i + 1) <? 0)) eqn:Ebr.
  { exists (Ok (i >? i0)), l, st. repeat split; auto. }
  destruct Hw as [-> Hj1]. clear Ebr.
  destruct (zget_range l (2 * i + 1)) as [h1 E1]; [lia|].
  destruct (zget_range l i) as [hi Ei]; [lia|].
  (* the first comparison *)
  assert (Hright :
    (exists r st1,
      (if 2 * i + 1 + 1 <? n
       then h2 <- win (wload (2 * i + 1 + 1));; h1 <- win (wload (2 * i + 1));; call less h2 h1
       else ret false) (l, st) = (Ok r, (l, st1)) /\ P st1 /\ (if r then 2 * i + 2 < n else True) /\
      (forall f, answers D P f less ->
        (if 2 * i + 1 + 1 <? n
         then h2 <- wload (2 * i + 1 + 1);; h1 <- wload (2 * i + 1);; ret (f h2 h1)
         else ret false) l = (Ok r, l))) \/
    (exists st1,
      (if 2 * i + 1 + 1 <? n
       then h2 <- win (wload (2 * i + 1 + 1));; h1 <- win (wload (2 * i + 1));; call less h2 h1
       else ret false) (l, st) = (Panic, (l, st1)) /\ Q st1)).
  { destruct (Z.ltb_spec (2 * i + 1 + 1) n) as [L2|L2].
    - destruct (zget_range l (2 * i + 1 + 1)) as [h2 E2]; [lia|].
      rewrite (bind_win _ _ _ _ _ _ (wload_ok _ _ _ E2)), (bind_win _ _ _ _ _ _ (wload_ok _ _ _ E1)).
      destruct (call_cases h2 h1 l st) as [(r & st1 & Er & HP1 & Hr)|(st1 & Er & HQ)];
        eauto using get_D.
      left. exists r, st1. split; [auto|]. split; [auto|]. split; [destruct r; auto; lia|].
      intros f Af. rewrite (bind_Ok _ _ _ _ _ (wload_ok _ _ _ E2)), (bind_Ok _ _ _ _ _ (wload_ok _ _ _ E1)).
      unfold ret. now rewrite (Hr f Af).
    - left. exists false, st. repeat split; auto. }
  destruct Hright as [(r & st1 & Er & HP1 & Hrn & Hr)|(st1 & Er & HQ)].
  2:{ unfold bind at 1. rewrite Er. exists Panic, l, st1. repeat split; auto. }
  rewrite (bind_Ok _ _ _ _ _ Er).
  set (j := if r then 2 * i + 1 + 1 else 2 * i + 1) in *.
  assert (Hj : j = 2 * i + 1 \/ j = 2 * i + 2) by (unfold j; destruct r; lia).
  assert (Hjn : j < n) by (unfold j; destruct r; lia).
  destruct (zget_range l j) as [hj Ej]; [lia|].
  rewrite (bind_win _ _ _ _ _ _ (wload_ok _ _ _ Ej)), (bind_win _ _ _ _ _ _ (wload_ok _ _ _ Ei)).
  destruct (call_cases hj hi l st1) as [(b & st2 & Eb & HP2 & Hb)|(st2 & Eb & HQ)]; eauto using get_D.
  2:{ unfold bind at 1. rewrite Eb. exists Panic, l, st2. repeat split; auto. }
  rewrite (bind_Ok _ _ _ _ _ Eb).
  assert (Hpure : forall f, answers D P f less -> forall k : bool -> W T bool,
    (right <- (if 2 * i + 1 + 1 <? n
               then h2 <- wload (2 * i + 1 + 1);; h1 <- wload (2 * i + 1);; ret (f h2 h1)
               else ret false);;
     hj <- wload (if right : bool then 2 * i + 1 + 1 else 2 * i + 1) ;; hi <- wload i ;;
     if negb (f hj hi) then ret (i >? i0) else k right) l = (if b then k r else ret (i >? i0)) l).
  { intros f Af k. rewrite (bind_Ok _ _ _ _ _ (Hr f Af)). fold j.
    rewrite (bind_Ok _ _ _ _ _ (wload_ok _ _ _ Ej)), (bind_Ok _ _ _ _ _ (wload_ok _ _ _ Ei)).
    rewrite <- (Hb f Af). now destruct b. }
  destruct b; cbn [negb] in *.
  2:{ exists (Ok (i >? i0)), l, st2. do 5 (split; [auto; now intros ? ?|]).
      intros f Af. right. now rewrite (Hpure f Af). }
  rewrite (bind_win _ _ _ _ _ _ (wswap_ok l i j ltac:(lia) ltac:(lia))).
  destruct (IH (zswap l i j) n i0 j st2) as (o & l' & st' & Hrun & Hperm & Hlen & Habove & Hend & Hp);
    rewrite ?zlen_zswap; try lia; auto using swap_D.
  - destruct fu; [|lia]. simpl in Hf. lia.
  - rewrite Nat2Z.inj_succ, Z.pow_succ_r in Hf by lia.
    assert (0 < 2 ^ Z.of_nat fu) by (apply Z.pow_pos_nonneg; lia). nia.
  - exists o, l', st'. split; [auto|]. split; [rewrite Hperm; apply zswap_perm|].
    split; [rewrite Hlen; apply zlen_zswap|].
    split; [intros k Hk; rewrite Habove by auto; apply (above_same_swap l i j n); lia|].
    split; [auto|]. intros f Af. rewrite (Hpure f Af). fold j.
    unfold heapSwap. rewrite (bind_Ok _ _ _ _ _ (wswap_ok l i j ltac:(lia) ltac:(lia))). auto.
Qed.

Lemma down_fx l n i0 st :
  0 <= i0 <= n -> n <= zlen l -> n <= max_int -> Forall D l -> P st ->
  exists o l' st', heapDownFx less i0 n (l, st) = (o, (l', st')) /\
    Permutation l' l /\ zlen l' = zlen l /\ above_same l l' n /\ ends_in P Q o st' /\
    (forall f, answers D P f less -> o = Panic \/ heapDownFunc f i0 n l = (o, l')).
Proof.
  intros H0 Hn Hmax HD HP. apply down_loop_fx; auto; try lia.
  pose proof (pow2_gt_S n ltac:(lia)). nia.
Qed.

Lemma up_loop_fx fuel : forall l j st,
  0 <= j < zlen l -> j + 1 < 2 ^ Z.of_nat fuel -> Forall D l -> P st ->
  exists o l' st', heapUpFx_loop less fuel j (l, st) = (o, (l', st')) /\
    Permutation l' l /\ zlen l' = zlen l /\ above_same l l' (j + 1) /\ ends_in P Q o st' /\
    (forall f, answers D P f less -> o = Panic \/ heapUpFunc_loop f fuel j l = (o, l')).
Proof.
  induction fuel as [|fu IH]; intros l j st Hj Hf HD HP; [simpl in Hf; lia|].
  cbn [heapUpFx_loop heapUpFunc_loop]. cbv zeta.
  destruct (Z.eqb_spec (Z.quot (j - 1) 2) j) as [E|E].
  { exists (Ok tt), l, st. repeat split; auto. }
  assert (0 < j).
  { destruct (Z.eq_dec j 0) as [->|]; [cbv in E|]; lia. }
  rewrite quot_parent in * by lia. set (i := (j - 1) / 2) in *.
  destruct (zget_range l j) as [xj Ej]; [lia|]. destruct (zget_range l i) as [xi Ei]; [lia|].
  rewrite (bind_win _ _ _ _ _ _ (wload_ok _ _ _ Ej)), (bind_win _ _ _ _ _ _ (wload_ok _ _ _ Ei)).
  destruct (call_cases xj xi l st) as [(b & st2 & Eb & HP2 & Hb)|(st2 & Eb & HQ)]; eauto using get_D.
  2:{ unfold bind at 1. rewrite Eb. exists Panic, l, st2. repeat split; auto. }
  rewrite (bind_Ok _ _ _ _ _ Eb).
  assert (Hpure : forall f, answers D P f less -> forall k : W T unit,
    (hj <- wload j ;; hi <- wload i ;; if negb (f hj hi) then ret tt else k) l = (if b then k else ret tt) l).
  { intros f Af k. rewrite (bind_Ok _ _ _ _ _ (wload_ok _ _ _ Ej)), (bind_Ok _ _ _ _ _ (wload_ok _ _ _ Ei)).
    rewrite <- (Hb f Af). now destruct b. }
  destruct b; cbn [negb] in *.
  2:{ exists (Ok tt), l, st2. do 5 (split; [auto; now intros ? ?|]).
      intros f Af. right. now rewrite (Hpure f Af). }
  rewrite (bind_win _ _ _ _ _ _ (wswap_ok l i j ltac:(lia) ltac:(lia))).
  destruct (IH (zswap l i j) i st2) as (o & l' & st' & Hrun & Hp & Hl & Ha & Hend & Hpu);
    rewrite ?zlen_zswap; try lia; auto using swap_D.
  - rewrite Nat2Z.inj_succ, Z.pow_succ_r in Hf by lia. lia.
  - exists o, l', st'. split; [auto|]. split; [rewrite Hp; apply zswap_perm|].
    split; [rewrite Hl; apply zlen_zswap|].
    split; [intros k Hk; rewrite Ha by lia; apply (above_same_swap l i j (j + 1)); lia|].
    split; [auto|]. intros f Af. rewrite (Hpure f Af).
    unfold heapSwap. rewrite (bind_Ok _ _ _ _ _ (wswap_ok l i j ltac:(lia) ltac:(lia))). auto.
Qed.

Lemma up_fx l j st :
  0 <= j < zlen l -> Forall D l -> P st ->
  exists o l' st', heapUpFx less j (l, st) = (o, (l', st')) /\
    Permutation l' l /\ zlen l' = zlen l /\ above_same l l' (j + 1) /\ ends_in P Q o st' /\
    (forall f, answers D P f less -> o = Panic \/ heapUpFunc f j l = (o, l')).
Proof.
  intros Hj HD HP. apply up_loop_fx; auto.
  pose proof (pow2_gt_S j ltac:(lia)). rewrite (Nat2Z.inj_succ (S _)), Z.pow_succ_r by lia. lia.
Qed.

Lemma perm_D l l' : Permutation l' l -> Forall D l -> Forall D l'.
Proof. intros H. apply Permutation_Forall. now symmetry. Qed.

Lemma make_loop_fx fuel : forall l i st,
  -1 <= i -> i < Z.of_nat fuel -> i < zlen l -> zlen l <= max_int -> Forall D l -> P st ->
  exists o l' st', MakeHeapFx_loop less fuel (zlen l) i (l, st) = (o, (l', st')) /\
    Permutation l' l /\ zlen l' = zlen l /\ ends_in P Q o st' /\
    (forall f, answers D P f less -> o = Panic \/ MakeHeapFunc_loop f fuel (zlen l) i l = (o, l')).
Proof.
  induction fuel as [|fu IH]; intros l i st Hi Hf Hil Hmax HD HP.
  - assert (i = -1) as -> by lia. exists (Ok tt), l, st. repeat split; auto.
  - cbn [MakeHeapFx_loop MakeHeapFunc_loop]. destruct (i >=? 0) eqn:E.
    2:{ assert (i = -1) as -> by lia. exists (Ok tt), l, st. repeat split; auto. }
    destruct (down_fx l (zlen l) i st) as (o & l1 & st1 & Hrun & Hp & Hl & Ha & Hend & Hpu); try lia; auto.
    destruct o as [b| |]; [| |destruct Hend].
    + rewrite (bind_Ok _ _ _ _ _ Hrun).
      destruct (IH l1 (i - 1) st1) as (o & l' & st' & Hrun' & Hp' & Hl' & Hend' & Hpu'); try lia; eauto using perm_D.
      exists o, l', st'. rewrite <- Hl at 1. split; [auto|]. split; [now rewrite Hp', Hp|]. split; [lia|].
      split; [auto|]. intros f Af. destruct (Hpu f Af) as [|Ep]; [discriminate|].
      rewrite (bind_Ok _ _ _ _ _ Ep). rewrite <- Hl. auto.
    + exists Panic, l1, st1. unfold bind at 1. rewrite Hrun. repeat split; auto.
Qed.

Lemma make_fx l st :
  zlen l <= max_int -> Forall D l -> P st ->
  exists o l' st', MakeHeapFx less (l, st) = (o, (l', st')) /\
    Permutation l' l /\ ends_in P Q o st' /\
    (forall f, answers D P f less -> o = Panic \/ MakeHeapFunc f l = (o, l')).
Proof.
  intros Hmax HD HP. pose proof (zlen_nonneg l).
  destruct (make_loop_fx (Z.to_nat (zlen l)) l (Z.quot (zlen l) 2 - 1) st) as (o & l' & st' & E & Hp & _ & He & Hpu);
    rewrite ?Z.quot_div_nonneg by lia; try lia; auto.
  exists o, l', st'. auto.
Qed.

Lemma is_loop_fx fuel : forall l p c st,
  0 <= p -> (0 < c -> p <= c) -> 0 < c -> zlen l - c <= Z.of_nat fuel -> Forall D l -> P st ->
  exists o st', IsHeapFx_loop less fuel p c (l, st) = (o, (l, st')) /\ ends_in P Q o st' /\
    (forall f, answers D P f less -> o = Panic \/ IsHeapFunc_loop f fuel l p c = o).
Proof.
  induction fuel as [|fu IH]; intros l p c st Hp Hpc Hc Hf HD HP;
    cbn [IsHeapFx_loop IsHeapFunc_loop]; rewrite (bind_win wlen _ l st _ l eq_refl);
    destruct (Z.ltb_spec c (zlen l)).
  - simpl in Hf. lia.
  - exists (Ok true), st. repeat split; auto.
  - destruct (zget_range l p) as [ap Ea]; [lia|]. destruct (zget_range l c) as [ac Ec]; [lia|].
    rewrite (bind_win _ _ _ _ _ _ (wload_ok _ _ _ Ea)), (bind_win _ _ _ _ _ _ (wload_ok _ _ _ Ec)).
    unfold at_. rewrite Ea, Ec. cbn [obind].
    destruct (call_cases ap ac l st) as [(b & st2 & Eb & HP2 & Hb)|(st2 & Eb & HQ)]; eauto using get_D.
    2:{ unfold bind at 1. rewrite Eb. exists Panic, st2. repeat split; auto. }
    rewrite (bind_Ok _ _ _ _ _ Eb). destruct b; cbn [negb].
    + destruct (IH l (if Z.land c 1 =? 0 then p + 1 else p) (c + 1) st2) as (o & st' & E & He & Hpu); auto;
        try (destruct (Z.land c 1 =? 0); lia).
      exists o, st'. split; [auto|]. split; [auto|]. intros f Af. rewrite <- (Hb f Af). cbn [negb]. auto.
    + exists (Ok false), st2. split; [auto|]. split; [auto|]. intros f Af. rewrite <- (Hb f Af). cbn [negb]. auto.
  - exists (Ok true), st. repeat split; auto.
Qed.

Lemma is_fx l st : Forall D l -> P st ->
  exists o st', IsHeapFx less (l, st) = (o, (l, st')) /\ ends_in P Q o st' /\
    (forall f, answers D P f less -> o = Panic \/ IsHeapFunc l f = o).
Proof.
  intros HD HP. unfold IsHeapFx, IsHeapFunc. rewrite (bind_win wlen _ l st _ l eq_refl).
  replace (length l) with (Z.to_nat (zlen l)) by (unfold zlen; lia).
  apply is_loop_fx; auto; unfold zlen; lia.
Qed.

(** ** On a slice variable *)

Lemma bind_on_cell {A B} (p : M (cell T) A) (k : A -> M (cell T * St) B) c st a c' :
  p c = (Ok a, c') -> bind (on_cell p) k (c, st) = k a (c', st).
Proof. intros H. unfold bind, on_cell. cbn. now rewrite H. Qed.

Lemma on_win_at {A} m h0 h w (p : WF A) st o w' st' :
  wf_slice m h -> zlen w = s_len h -> p (w, st) = (o, (w', st')) -> zlen w' = s_len h ->
  on_win h p ((write_at m h 0 w, h0), st) = (o, ((write_at m h 0 w', h0), st')).
Proof.
  intros Hwf Hw Hp Hw'. unfold on_win. cbn [fst snd]. rewrite contents_write_at by auto. rewrite Hp.
  f_equal. f_equal. f_equal.
  assert (E : on_slice h (fun _ => (Ok tt, w')) (write_at m h 0 w) = (Ok tt, write_at m h 0 w'))
    by (apply on_slice_at; auto).
  unfold on_slice in E. congruence.
Qed.
Lemma on_win_start {A} m h0 h (p : WF A) st o w' st' :
  wf_slice m h -> p (contents m h, st) = (o, (w', st')) ->
  on_win h p ((m, h0), st) = (o, ((write_at m h 0 w', h0), st')).
Proof. intros Hwf Hp. unfold on_win. cbn [fst snd]. now rewrite Hp. Qed.

Lemma lift_mem_at {A} (p : M (mem T) A) m h o m' :
  p m = (o, m') -> lift_mem p (m, h) = (o, (m', h)).
Proof. intros H. unfold lift_mem. cbn [fst snd]. now rewrite H. Qed.

Lemma push_fx zero grow v m h st :
  wf_slice m h -> Forall D (v :: contents m h) -> P st ->
  exists o m' h' st', PushHeapFx zero grow less v ((m, h), st) = (o, ((m', h'), st')) /\
    wf_slice m' h' /\ Permutation (contents m' h') (v :: contents m h) /\
    append_frame m m' h h' (s_len h + 1) /\ ends_in P Q o st' /\
    (forall f, answers D P f less -> o = Panic \/ PushHeapFunc zero grow v f (m, h) = (o, (m', h'))).
Proof.
  intros Hwf HD HP. unfold PushHeapFx, PushHeapFunc. rewrite (bind_on_cell get_hdr _ (m, h) st h (m, h) eq_refl).
  destruct (append_list_ok zero grow h [v] m Hwf) as (h1 & m1 & Happ & Hwf1 & Hc1 & Hlen1 & Hfr).
  change (zlen [v]) with 1 in *.
  rewrite (bind_on_cell _ _ _ _ _ _ (lift_mem_ok _ m h _ _ Happ)).
  rewrite (bind_on_cell (set_hdr h1) _ (m1, h) st tt (m1, h1) eq_refl).
  pose proof Hwf as (Q1 & Q2 & Q3 & Q4). pose proof Hwf1 as (R1 & R2 & R3 & R4).
  assert (Hz1 : zlen (contents m1 h1) = s_len h1) by (apply zlen_contents; auto).
  assert (Hpm : Permutation (contents m1 h1) (v :: contents m h))
    by (rewrite Hc1; apply Permutation_sym, Permutation_cons_append).
  destruct (up_fx (contents m1 h1) (s_len h1 - 1) st) as (o & w & st' & Hrun & Hp & Hl & Ha & He & Hpu);
    try lia; eauto using perm_D.
  exists o, (write_at m1 h1 0 w), h1, st'. split; [exact (on_win_start m1 h1 h1 _ st _ _ _ Hwf1 Hrun)|].
  split; [apply wf_write_self; auto; lia|].
  rewrite contents_write_at by (auto; lia).
  split; [now rewrite Hp|].
  split.
  { split; [lia|]. destruct (Z.leb_spec (s_len h + 1) (s_cap h)).
    - destruct Hfr as (F1 & F2 & F3 & F4). do 3 (split; [auto|]).
      apply same_except_trans with m1.
      + rewrite F4. change (zlen [v]) with 1. apply same_except_write_at; auto; change (zlen [v]) with 1; lia.
      + rewrite <- F1. apply same_except_write_at; auto; lia.
    - destruct Hfr as (F1 & F2 & F3 & F4). repeat split; auto; try lia; try apply F4.
      + rewrite write_at_length. apply F4.
      + intros a Ha'. rewrite write_at_nth_other by lia. now apply F4. }
  split; [auto|]. intros f Af. destruct (Hpu f Af) as [|Ep]; [auto|right].
  rewrite bind_get_hdr, (bind_Ok _ _ _ _ _ (lift_mem_ok _ m h _ _ Happ)), bind_set_hdr.
  exact (lift_mem_at _ m1 h1 _ _ (on_slice_run h1 _ m1 _ _ Ep)).
Qed.

(** Common end of Pop and Remove. *)
Lemma finish_fx m h w n x st :
  wf_slice m h -> zlen w = s_len h -> s_len h = n + 1 -> 0 <= n -> zget w n = Some x ->
  (h' <- lift_o (reslice h 0 n) ;; on_cell (set_hdr h') ;; on_win h (win (wload n))) ((write_at m h 0 w, h), st)
   = (Ok x, ((write_at m h 0 w, mkSlice (s_arr h) (s_off h) n (s_cap h)), st)).
Proof.
  intros Hwf Hw Hn Hn0 Hx. pose proof Hwf as (Q1 & Q2 & Q3 & Q4).
  rewrite reslice_ok by lia. unfold lift_o, bind at 1. cbv beta iota.
  rewrite Z.add_0_r, !Z.sub_0_r.
  match goal with |- bind (on_cell (set_hdr ?s)) _ _ = _ => set (h' := s) end.
  rewrite (bind_on_cell (set_hdr h') _ (write_at m h 0 w, h) st tt (write_at m h 0 w, h') eq_refl).
  apply (on_win_at m h' h w _ st (Ok x) w st); auto.
  unfold win. cbn [fst snd]. now rewrite (wload_ok _ _ _ Hx).
Qed.

Lemma removal_ok m h w x :
  wf_slice m h -> 0 < s_len h -> zlen w = s_len h -> Permutation w (contents m h) ->
  zget w (s_len h - 1) = Some x -> removal m h x (Ok x) (write_at m h 0 w) (shrunk h).
Proof.
  intros Hwf Hl Hw Hp Hx. split; [apply same_except_write; auto|]. split.
  { pose proof (wf_write_self m h w Hwf ltac:(lia)) as (K1 & K2 & K3 & K4).
    pose proof Hwf as (Q1 & Q2 & Q3 & Q4). unfold wf_slice, arr_of, shrunk in *. simpl. lia. }
  left. split; [auto|]. split; [auto|]. unfold shrunk. rewrite contents_sub by (auto; lia).
  rewrite <- (perm_last w (s_len h - 1) x) by (auto; lia). auto.
Qed.
Lemma removal_panic m h w x :
  wf_slice m h -> zlen w = s_len h -> Permutation w (contents m h) ->
  removal m h x Panic (write_at m h 0 w) h.
Proof.
  intros Hwf Hw Hp. split; [apply same_except_write; auto|]. split; [apply wf_write_self; auto|].
  right. rewrite contents_write_at by auto. auto.
Qed.

Lemma pop_fx m h st x :
  wf_slice m h -> 0 < s_len h <= max_int -> Forall D (contents m h) -> P st ->
  zget (contents m h) 0 = Some x ->
  exists o m' h' st', PopHeapFx less ((m, h), st) = (o, ((m', h'), st')) /\
    removal m h x o m' h' /\ ends_in P Q o st' /\
    (forall f, answers D P f less -> o = Panic \/ PopHeapFunc f (m, h) = (o, (m', h'))).
Proof.
  intros Hwf Hlen HD HP Hx. pose proof Hwf as (Q1 & Q2 & Q3 & Q4).
  unfold PopHeapFx, PopHeapFunc. rewrite (bind_on_cell get_hdr _ (m, h) st h (m, h) eq_refl). cbv zeta.
  set (l := contents m h) in *. set (n := s_len h - 1).
  assert (Hz : zlen l = s_len h) by now apply zlen_contents.
  pose proof (wswap_ok l 0 n ltac:(lia) ltac:(lia)) as Hsw.
  assert (Hsw2 : win (wswap 0 n) (l, st) = (Ok tt, (zswap l 0 n, st))) by (unfold win; cbn [fst snd]; now rewrite Hsw).
  rewrite (bind_Ok _ _ _ _ _ (on_win_start m h h _ st _ _ _ Hwf Hsw2)).
  destruct (down_fx (zswap l 0 n) n 0 st) as (o & w & st' & Hrun & Hp & Hl & Ha & He & Hpu);
    rewrite ?zlen_zswap; try lia; auto using swap_D.
  assert (Hsl : zlen (zswap l 0 n) = s_len h) by (rewrite zlen_zswap; auto).
  rewrite zlen_zswap in Hl. assert (Hlw : zlen w = s_len h) by lia.
  assert (Hwn : zget w n = Some x) by (rewrite (Ha n) by lia; rewrite zget_zswap by lia; now rewrite Z.eqb_refl).
  assert (Hpl : Permutation w l) by (rewrite Hp; apply zswap_perm).
  pose proof (on_win_at m h h _ _ _ _ _ _ Hwf Hsl Hrun Hlw) as Erun.
  destruct o as [b| |]; [| |destruct He].
  - exists (Ok x), (write_at m h 0 w), (shrunk h), st'.
    split; [rewrite (bind_Ok _ _ _ _ _ Erun); apply finish_fx; auto; lia|].
    split; [apply removal_ok; auto; lia|]. split; [auto|].
    intros f Af. destruct (Hpu f Af) as [|Ep]; [discriminate|right].
    rewrite bind_get_hdr. fold n.
    rewrite (bind_Ok _ _ _ _ _ (lift_mem_ok _ m h _ _ (on_slice_start m h (heapSwap 0 n) _ _ Hwf Hsw))).
    rewrite (bind_Ok _ _ _ _ _ (lift_mem_ok _ _ h _ _ (on_slice_at m h _ (heapDownFunc f 0 n) _ _ Hwf Hsl Ep Hlw))).
    apply finish_remove; auto; lia.
  - exists Panic, (write_at m h 0 w), h, st'.
    split; [unfold bind at 1; rewrite Erun; reflexivity|].
    split; [apply removal_panic; auto|]. split; [exact He|]. auto.
Qed.

Lemma remove_fx i m h st x :
  wf_slice m h -> 0 <= i < s_len h -> s_len h <= max_int -> Forall D (contents m h) -> P st ->
  zget (contents m h) i = Some x ->
  exists o m' h' st', RemoveHeapFx less i ((m, h), st) = (o, ((m', h'), st')) /\
    removal m h x o m' h' /\ ends_in P Q o st' /\
    (forall f, answers D P f less -> o = Panic \/ RemoveHeapFunc i f (m, h) = (o, (m', h'))).
Proof.
  intros Hwf Hi Hmax HD HP Hx. pose proof Hwf as (Q1 & Q2 & Q3 & Q4).
  unfold RemoveHeapFx, RemoveHeapFunc. rewrite (bind_on_cell get_hdr _ (m, h) st h (m, h) eq_refl). cbv zeta.
  set (l := contents m h) in *. set (n := s_len h - 1).
  assert (Hz : zlen l = s_len h) by now apply zlen_contents.
  assert (Hmid : exists o w st',
    (if n =? i then ret tt
     else on_win h (win (wswap i n)) ;;
        b <- on_win h (heapDownFx less i n) ;;
        if b : bool then ret tt else on_win h (heapUpFx less i)) ((m, h), st)
    = (o, ((write_at m h 0 w, h), st')) /\
    zlen w = s_len h /\ zget w n = Some x /\ Permutation w l /\ ends_in P Q o st' /\
    (forall f, answers D P f less -> o = Panic \/
      (if n =? i then ret tt
       else lift_mem (on_slice h (heapSwap i n)) ;;
        b <- lift_mem (on_slice h (heapDownFunc f i n)) ;;
        if b : bool then ret tt else lift_mem (on_slice h (heapUpFunc f i))) (m, h)
      = (o, (write_at m h 0 w, h)))).
  { destruct (Z.eqb_spec n i) as [E|E].
    - exists (Ok tt), l, st. assert (write_at m h 0 l = m) as -> by now apply write_at_same.
      split; [reflexivity|]. split; [auto|]. split; [congruence|]. repeat split; auto.
    - pose proof (wswap_ok l i n ltac:(lia) ltac:(lia)) as Hsw.
      assert (Hsw2 : win (wswap i n) (l, st) = (Ok tt, (zswap l i n, st))) by (unfold win; cbn [fst snd]; now rewrite Hsw).
      rewrite (bind_Ok _ _ _ _ _ (on_win_start m h h _ st _ _ _ Hwf Hsw2)).
      destruct (down_fx (zswap l i n) n i st) as (o & w & st' & Hrun & Hp & Hl & Ha & He & Hpu);
        rewrite ?zlen_zswap; try lia; auto using swap_D.
      assert (Hsl : zlen (zswap l i n) = s_len h) by (rewrite zlen_zswap; auto).
      rewrite zlen_zswap in Hl. assert (Hlw : zlen w = s_len h) by lia.
      assert (Hwn : zget w n = Some x) by (rewrite (Ha n) by lia; rewrite zget_zswap by lia; now rewrite Z.eqb_refl).
      assert (Hpl : Permutation w l) by (rewrite Hp; apply zswap_perm).
      pose proof (on_win_at m h h _ _ _ _ _ _ Hwf Hsl Hrun Hlw) as Erun.
      destruct o as [b| |]; [| |destruct He].
      2:{ exists Panic, w, st'. unfold bind at 1. rewrite Erun. repeat split; auto. }
      rewrite (bind_Ok _ _ _ _ _ Erun). destruct b.
      + exists (Ok tt), w, st'. do 4 (split; [auto|]). split; [auto|].
        intros f Af. destruct (Hpu f Af) as [|Ep]; [discriminate|right].
        rewrite (bind_Ok _ _ _ _ _ (lift_mem_ok _ m h _ _ (on_slice_start m h (heapSwap i n) _ _ Hwf Hsw))).
        now rewrite (bind_Ok _ _ _ _ _ (lift_mem_ok _ _ h _ _ (on_slice_at m h _ (heapDownFunc f i n) _ _ Hwf Hsl Ep Hlw))).
      + destruct (up_fx w i st') as (o2 & w2 & st2 & Hrun2 & Hp2 & Hl2 & Ha2 & He2 & Hpu2);
          try lia; eauto using perm_D.
        assert (Hlw2 : zlen w2 = s_len h) by lia.
        exists o2, w2, st2. split; [exact (on_win_at m h h _ _ _ _ _ _ Hwf Hlw Hrun2 Hlw2)|].
        split; [lia|]. split; [rewrite (Ha2 n) by lia; auto|]. split; [now rewrite Hp2|]. split; [auto|].
        intros f Af. destruct (Hpu f Af) as [|Ep]; [discriminate|].
        destruct (Hpu2 f Af) as [|Ep2]; [auto|right].
        rewrite (bind_Ok _ _ _ _ _ (lift_mem_ok _ m h _ _ (on_slice_start m h (heapSwap i n) _ _ Hwf Hsw))).
        rewrite (bind_Ok _ _ _ _ _ (lift_mem_ok _ _ h _ _ (on_slice_at m h _ (heapDownFunc f i n) _ _ Hwf Hsl Ep Hlw))).
        exact (lift_mem_at _ _ h _ _ (on_slice_at m h _ (heapUpFunc f i) _ _ Hwf Hlw Ep2 Hlw2)). }
  destruct Hmid as (o & w & st' & Hrun & Hlw & Hwn & Hp & He & Hpu).
  destruct o as [[]| |]; [| |destruct He].
  - exists (Ok x), (write_at m h 0 w), (shrunk h), st'.
    split; [rewrite (bind_Ok _ _ _ _ _ Hrun); apply finish_fx; auto; lia|].
    split; [apply removal_ok; auto; lia|]. split; [auto|].
    intros f Af. destruct (Hpu f Af) as [|Ep]; [discriminate|right].
    rewrite bind_get_hdr. fold n. rewrite (bind_Ok _ _ _ _ _ Ep). apply finish_remove; auto; lia.
  - exists Panic, (write_at m h 0 w), h, st'.
    split; [exact (bind_stop _ _ _ _ Hrun)|].
    split; [apply removal_panic; auto|]. split; [exact He|]. auto.
Qed.

(** Pop and Remove with nothing to remove panic before less is called. *)
Lemma swap_panic_fx m h i j st : wf_slice m h -> ~ (0 <= i < s_len h /\ 0 <= j < s_len h) ->
  on_win h (win (St := St) (wswap i j)) ((m, h), st) = (Panic, ((m, h), st)).
Proof.
  intros Hwf Hr. pose proof (swap_panic m h i j Hwf Hr) as E.
  unfold lift_mem, on_slice, heapSwap in E. unfold on_win, win. cbn [fst snd] in *.
  destruct (wswap i j (contents m h)) as [o w]. cbn in *. congruence.
Qed.
Lemma pop_empty_fx m h st :
  wf_slice m h -> s_len h = 0 -> PopHeapFx less ((m, h), st) = (Panic, ((m, h), st)).
Proof.
  intros Hwf Hl. unfold PopHeapFx. rewrite (bind_on_cell get_hdr _ (m, h) st h (m, h) eq_refl). cbv zeta.
  unfold bind at 1. rewrite swap_panic_fx; auto. lia.
Qed.
Lemma remove_out_fx i m h st :
  wf_slice m h -> ~ (0 <= i < s_len h) -> RemoveHeapFx less i ((m, h), st) = (Panic, ((m, h), st)).
Proof.
  intros Hwf Hi. pose proof Hwf as (Q1 & Q2 & Q3 & Q4).
  unfold RemoveHeapFx. rewrite (bind_on_cell get_hdr _ (m, h) st h (m, h) eq_refl). cbv zeta.
  destruct (Z.eqb_spec (s_len h - 1) i).
  - unfold bind, ret. unfold lift_o. rewrite reslice_panic by lia. reflexivity.
  - unfold bind. rewrite swap_panic_fx; auto. lia.
Qed.
End HeapFx.
