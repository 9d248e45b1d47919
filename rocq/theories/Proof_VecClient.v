(** Clients of a Vector that keep iterators and pointers follow vw_spec. *)
From Verif Require Import BaseLemmas Spec Trace Proof_Mem Proof_Peek Model_Transform Proof_Transform Proof_TransformMem Model_Vector Spec_Vector Proof_Vector Proof_VectorOps Spec_Client Proof_Client Spec_VecClient Model_VecClient.

Lemma zget_rep {T} (x : T) n i : 0 <= i < Z.of_nat n -> zget (repeat x n) i = Some x.
Proof. intros H. rewrite zget_repeat. destruct (Z.leb_spec 0 i), (Z.ltb_spec i (Z.of_nat n)); auto; lia. Qed.
Lemma zget_nil {T} i : zget (@nil T) i = None.
Proof. unfold zget. destruct (i <? 0); auto. destruct (Z.to_nat i); auto. Qed.
Lemma zsub_front {T} (l l' : list T) : zsub (l ++ l') 0 (zlen l) = l.
Proof. unfold zsub. rewrite Z.sub_0_r. change (Z.to_nat 0) with 0%nat. cbn [skipn]. unfold zlen. rewrite Nat2Z.id, firstn_app, Nat.sub_diag, firstn_all. cbn [firstn]. apply app_nil_r. Qed.

Section Rel.
Context {T : Type}.
Variables (m0 : mem T) (s0 : slice).
Implicit Types (m : mem T) (s t : slice) (w : vworld T).
(** *** The relation *)
Definition full s := mkSlice (s_arr s) (s_off s) (s_cap s) (s_cap s).
Definition win m t (l : list T) : Prop := wf_slice m t /\ s_len t = s_cap t /\ contents m t = l.
(** Windows of the vector: the first one and fresh ones. *)
Definition mine t : Prop := (length m0 <= s_arr t)%nat \/ (s_arr t = s_arr s0 /\ s_off t = s_off s0 /\ s_cap t = s_cap s0).
Definition frame m : Prop := old_same_except m0 m (s_arr s0) (s_off s0) (s_off s0 + s_cap s0).
Definition le (k k' : list slice) : Prop := exists x, k' = k ++ x.
Definition Rs (k : list slice) (c : cell T) w : Prop :=
  wf_slice (fst c) (snd c) /\ (s_len (snd c) = vw_len w /\ s_len (snd c) <= max_int) /\ (exists old, k = old ++ [full (snd c)]) /\
  Forall2 (win (fst c)) k (storages w) /\ NoDup (map s_arr k) /\ Forall mine k /\ frame (fst c).
Definition Rp (k : list slice) (it : vectorIterator) (p : vpos) : Prop :=
  exists t, nth_error k (vp_gen p) = Some t /\ vi_v it = mkSlice (s_arr t) (s_off t) (vp_len p) (s_cap t) /\ 0 <= vp_len p <= s_cap t /\ vi_i it = vp_i p.

Lemma le_refl k : le k k.
Proof. exists []. now rewrite app_nil_r. Qed.
Lemma le_trans a b c : le a b -> le b c -> le a c.
Proof. intros [x ->] [y ->]. exists (x ++ y). apply app_assoc_reverse. Qed.
Lemma Rp_le a b p q : le a b -> Rp a p q -> Rp b p q.
Proof.
  intros [x ->] (t & Ht & H). exists t. split; [|exact H]. rewrite nth_error_app1; auto. apply nth_error_Some. congruence.
Qed.

Lemma win_other m m' t l (a : nat) lo hi : win m t l -> s_arr t <> a -> old_same_except m m' a lo hi -> win m' t l.
Proof.
  intros (W & F & C) N (A & B & _). pose proof W as (W1 & W2 & W3 & W4).
  assert (E : arr_of m' t = arr_of m t) by (unfold arr_of; apply B; auto).
  split; [|split; auto].
  - unfold wf_slice. rewrite E. split; [lia|auto].
  - unfold contents in *. now rewrite E.
Qed.
Lemma win_ext m m' t l : win m t l -> extends m m' -> win m' t l.
Proof. intros (W & F & C) X. split; [eapply extends_wf; eauto|]. split; auto. rewrite (extends_contents _ _ _ X); auto. apply W. Qed.
Lemma wf_ose m m' t (a : nat) lo hi : wf_slice m t -> old_same_except m m' a lo hi -> wf_slice m' t.
Proof.
  intros (W1 & W2 & W3 & W4) (A & B & C & D). unfold wf_slice. split; [lia|]. split; [auto|]. split; [auto|].
  unfold arr_of in *. destruct (Nat.eq_dec (s_arr t) a) as [<-|N]; [rewrite D by auto; auto|rewrite B by auto; auto].
Qed.
Lemma touch k : forall ls g t l' m m', Forall2 (win m) k ls -> NoDup (map s_arr k) -> nth_error k g = Some t ->
  old_same_except m m' (s_arr t) (s_off t) (s_off t + s_cap t) -> contents m' t = l' -> Forall2 (win m') k (upd g l' ls).
Proof.
  induction k as [|u k IH]; intros ls g t l' m m' F N Hg O C; [destruct g; discriminate|].
  inversion F as [|? x ? ls' Hu Hk]; subst. inversion N as [|? ? Nu Nk]; subst. destruct g as [|g]; cbn [nth_error upd] in *.
  - inversion Hg; subst u. constructor.
    + destruct Hu as (A & B & _). split; [|split; auto]. eapply wf_ose; eauto.
    + clear - Hk Nu O. induction Hk; constructor; [|apply IHHk; intros I; apply Nu; right; auto].
      eapply win_other; [exact H| |exact O]. intros E. apply Nu. left. auto.
  - constructor.
    + eapply win_other; [exact Hu| |exact O]. intros E. apply Nu. rewrite E. apply in_map. eapply nth_error_In; eauto.
    + eapply IH; eauto.
Qed.
Lemma frame_touch t m m' : mine t -> frame m -> old_same_except m m' (s_arr t) (s_off t) (s_off t + s_cap t) -> frame m'.
Proof.
  intros Hm (A & B & C & D) (E & F & G & H). split; [lia|]. destruct Hm as [Hm|(M1 & M2 & M3)].
  - split; [|split].
    + intros b Hb Hn. rewrite F by lia. auto.
    + intros i Ha Hi Ho. rewrite F by lia. auto.
    + intros Ha. rewrite F by lia. auto.
  - rewrite M1, M2, M3 in *. split; [|split].
    + intros b Hb Hn. rewrite F by lia. auto.
    + intros i Ha Hi Ho. rewrite G by (auto; lia). auto.
    + intros Ha. rewrite H by lia. auto.
Qed.
Lemma Rs_parts k m s w : Rs k (m, s) w -> exists old, k = old ++ [full s] /\ length old = length (vw_old w) /\ Forall2 (win m) old (vw_old w) /\ win m (full s) (vw_now w).
Proof.
  intros (W & L & (old & ->) & F & _). exists old. split; auto. cbn [fst snd] in *. unfold storages in F.
  apply Forall2_app_inv_l in F as (l1 & l2 & F1 & F2 & E). inversion F2 as [|? y ? ? Hy Hn]; subst. inversion Hn; subst.
  apply app_inj_tail in E as [-> ->]. split; [|auto]. clear - F1. induction F1; cbn; congruence.
Qed.
Lemma Rs_room k m s w : Rs k (m, s) w -> room w = s_cap s.
Proof. intros H. destruct (Rs_parts _ _ _ _ H) as (old & _ & _ & _ & (W & _ & C)). unfold room. rewrite <- C. apply zlen_contents; auto. Qed.
Lemma Rs_now k m s w : Rs k (m, s) w -> contents m (full s) = vw_now w.
Proof. intros H. destruct (Rs_parts _ _ _ _ H) as (old & _ & _ & _ & (W & _ & C)). exact C. Qed.
Lemma Rs_elems k m s w : Rs k (m, s) w -> elems w = contents m s.
Proof.
  intros H. unfold elems. rewrite <- (Rs_now _ _ _ _ H). destruct H as (W & L & _). cbn [fst snd] in *. rewrite <- (proj1 L).
  pose proof W as (W1 & W2 & W3 & W4). rewrite <- (contents_prefix m (full s) (s_len s)); [destruct s; reflexivity|apply wf_prefix; auto; lia|cbn; lia].
Qed.
Lemma Rs_wf k m s w : Rs k (m, s) w -> wf_slice m s.
Proof. intros H. apply H. Qed.
Lemma Rs_len k m s w : Rs k (m, s) w -> s_len s = vw_len w.
Proof. intros H. apply H. Qed.
Lemma fits k m s w : Rs k (m, s) w -> s_len s <= max_int.
Proof. intros H. apply H. Qed.
Lemma Rs_ext k m m' s w : Rs k (m, s) w -> extends m m' -> Rs k (m', s) w.
Proof.
  intros (W & L & K & F & N & M & Fr) X. cbn [fst snd] in *. split; [eapply extends_wf; eauto|]. split; auto. split; auto.
  split; [clear - F X; induction F; constructor; auto; eapply win_ext; eauto|]. split; auto. split; auto. eapply ose_extends; eauto.
Qed.
Lemma upd_last {A} (l : list A) x y : upd (length l) y (l ++ [x]) = l ++ [y].
Proof. induction l; cbn; congruence. Qed.
(** The vector stays where it is. *)
Lemma Rs_stay k m s w m' s' l : Rs k (m, s) w -> wf_slice m' s' -> s_arr s' = s_arr s -> s_off s' = s_off s -> s_cap s' = s_cap s -> s_len s' <= max_int ->
  old_same_except m m' (s_arr s) (s_off s) (s_off s + s_cap s) -> contents m' (full s) = l ->
  Rs k (m', s') (mkVW l (s_len s') (vw_old w)).
Proof.
  intros H W' A O C B X N. destruct (Rs_parts _ _ _ _ H) as (old & -> & Lo & Fo & Wn). destruct H as (W & L & _ & F & Nd & M & Fr). cbn [fst snd] in *.
  assert (Ef : full s' = full s) by (unfold full; congruence).
  split; [exact W'|]. split; [split; [reflexivity|exact B]|]. cbn [fst snd]. split; [exists old; now rewrite Ef|]. split.
  - unfold storages in *. cbn [vw_old vw_now]. rewrite <- (upd_last (vw_old w) (vw_now w) l), <- Lo.
    eapply touch with (t := full s); [exact F|exact Nd| |exact X|exact N]. rewrite nth_error_app2, Nat.sub_diag by lia. reflexivity.
  - split; [auto|]. split; [auto|]. eapply frame_touch; [|exact Fr|]. 2: exact X. apply Forall_app in M as [_ M]. inversion M as [|? ? M1]; subst. exact M1.
Qed.
(** The vector moves. *)
Lemma Rs_move k m s w m' s' l : Rs k (m, s) w -> extends m m' -> wf_slice m' s' -> (length m <= s_arr s')%nat -> s_len s' <= max_int -> cap_contents m' s' = l ->
  Rs (k ++ [full s']) (m', s') (mkVW l (s_len s') (vw_old w ++ [vw_now w])).
Proof.
  intros H X W' A B C. pose proof (Rs_ext _ _ _ _ _ H X) as (W & L & K & F & Nd & M & Fr). cbn [fst snd] in *.
  split; [exact W'|]. split; [split; [reflexivity|exact B]|]. cbn [fst snd]. split; [exists k; auto|]. split; [|split; [|split; auto]].
  - unfold storages in *. cbn [vw_old vw_now]. apply Forall2_app; auto. constructor; [|constructor]. pose proof W' as (V1 & V2 & V3 & V4).
    split; [apply wf_prefix; auto; lia|]. split; [reflexivity|]. exact C.
  - rewrite map_app. cbn [map full s_arr].
    assert (Ni : ~ In (s_arr s') (map s_arr k)).
    { destruct H as (_ & _ & _ & F0 & _). cbn [fst] in F0. intros I. apply in_map_iff in I as (u & Eu & Iu).
      assert (Bu : (s_arr u < length m)%nat).
      { clear - F0 Iu. induction F0; [contradiction|]. destruct Iu as [->|Iu]; auto. apply H. }
      lia. }
    clear - Nd Ni. induction (map s_arr k) as [|a r IH]; cbn [app].
    + constructor; [intros []|constructor].
    + inversion Nd; subst. constructor; [|apply IH; auto; intros I; apply Ni; right; auto].
      intros I. apply in_app_iff in I as [I|[I|[]]]; [contradiction|]. apply Ni. left. auto.
  - apply Forall_app. split; auto. constructor; [|constructor]. left. cbn [full s_arr].
    destruct H as (_ & _ & _ & _ & _ & _ & (Hf & _)). cbn [fst] in Hf. lia.
Qed.
End Rel.

Section VC.
Context {T : Type}.
Variable zero : T.
Variable grow : Z -> Z -> Z.
Implicit Types (m : mem T) (s t : slice) (w : vworld T).

(** *** Reallocating calls: what the new storage holds *)
Lemma ose_of_same m m' (a : nat) lo hi : same_except m m' a lo hi -> old_same_except m m' a lo hi.
Proof. intros H. eapply ose_same; [apply ose_refl|exact H|apply H]. Qed.
Lemma cap_full m s : cap_contents m s = contents m (mkSlice (s_arr s) (s_off s) (s_cap s) (s_cap s)).
Proof. reflexivity. Qed.
Lemma alloc_last m (l : list T) n : 0 <= n <= zlen l ->
  let s := mkSlice (length m) 0 n (zlen l) in
  wf_slice (m ++ [l]) s /\ contents (m ++ [l]) s = zsub l 0 n /\ cap_contents (m ++ [l]) s = l /\ extends m (m ++ [l]).
Proof.
  intros Hn s. assert (A : arr_of (m ++ [l]) s = l) by (unfold arr_of; cbn [s_arr s]; rewrite app_nth2 by lia; now rewrite Nat.sub_diag).
  split; [|split; [|split]].
  - unfold wf_slice. rewrite A. cbn [s s_arr s_off s_len s_cap]. rewrite app_length. cbn [length]. lia.
  - unfold contents. rewrite A. reflexivity.
  - unfold cap_contents. rewrite A. cbn [s s_off s_cap]. apply zsub_full.
  - apply extends_app.
Qed.
Lemma append_move s xs m : wf_slice m s -> s_cap s < s_len s + zlen xs ->
  let need := s_len s + zlen xs in let c := Z.max need (grow (s_cap s) need) in
  exists s' m', append_list zero grow s xs m = (Ok s', m') /\ wf_slice m' s' /\ s_len s' = need /\ extends m m' /\ (length m <= s_arr s')%nat /\
    cap_contents m' s' = (contents m s ++ xs) ++ repeat zero (Z.to_nat (c - zlen (contents m s ++ xs))).
Proof.
  intros W Hc need c. pose proof (zlen_contents m s W) as Zs. pose proof (zlen_nonneg xs). pose proof W as (W1 & W2 & W3 & W4).
  unfold append_list. fold need. destruct (Z.leb_spec need (s_cap s)); [unfold need in *; lia|]. fold c. unfold alloc.
  eexists _, _. split; [reflexivity|].
  set (a := contents m s ++ xs ++ repeat zero (Z.to_nat (c - need))).
  assert (Za : zlen a = c) by (unfold a; rewrite !zlen_app, zlen_repeat, Zs; unfold need in *; lia).
  destruct (alloc_last m a need ltac:(unfold need in *; lia)) as (A & _ & C & X).
  split; [exact A|]. split; [reflexivity|]. split; [exact X|]. split; [cbn; lia|].
  rewrite C. unfold a. rewrite <- app_assoc. repeat f_equal. rewrite zlen_app, Zs. reflexivity.
Qed.
Lemma Reserve_move c m s : wf_slice m s -> s_cap s < c ->
  exists m' s', Vector_Reserve zero c (m, s) = (Ok tt, (m', s')) /\ wf_slice m' s' /\ s_len s' = s_len s /\ extends m m' /\ (length m <= s_arr s')%nat /\
    cap_contents m' s' = contents m s ++ repeat zero (Z.to_nat (c - zlen (contents m s))).
Proof.
  intros W L. pose proof W as (W1 & W2 & W3 & W4). pose proof (zlen_contents m s W) as Zs.
  unfold Vector_Reserve. rewrite bind_get_hdr. destruct (Z.ltb_spec (s_cap s) c); [|lia].
  set (b := repeat zero (Z.to_nat c)). assert (Zb : zlen b = c) by (unfold b; rewrite zlen_repeat; lia).
  set (t := mkSlice (length m) 0 (s_len s) c).
  assert (E : make_slice zero (s_len s) c m = (Ok t, m ++ [b])).
  { unfold make_slice. destruct (Z.leb_spec 0 (s_len s)), (Z.leb_spec (s_len s) c); try lia. cbn [andb]. unfold alloc. fold b. rewrite Zb. reflexivity. }
  rewrite (bind_lift_mem _ _ _ _ _ _ E). pose proof (alloc_last m b (s_len s) ltac:(lia)) as (A & B & C & X). rewrite Zb in A, B, C. fold t in A, B, C.
  pose proof (extends_wf _ _ _ X W) as Ws.
  set (m1 := write_at (m ++ [b]) t 0 (contents m s)).
  assert (E1 : copy_slice t s (m ++ [b]) = (Ok tt, m1)).
  { unfold copy_slice. rewrite (extends_contents _ _ _ X) by auto. cbn [s_len t]. rewrite Z.min_id. rewrite <- Zs at 1. rewrite zsub_full. reflexivity. }
  rewrite (bind_lift_mem _ _ _ _ _ _ E1). exists m1, t. split; [reflexivity|].
  split; [apply wf_write_self; auto|]. split; [reflexivity|]. split; [apply extends_write; auto|]. split; [cbn; lia|].
  rewrite cap_full. cbn [t s_arr s_off s_cap].
  assert (Wf : wf_slice (m ++ [b]) (mkSlice (length m) 0 c c)) by (apply (wf_prefix _ t c A); cbn; lia).
  assert (Ha : s_off t + 0 + zlen (contents m s) <= zlen (arr_of (m ++ [b]) t)).
  { unfold arr_of. cbn [t s_arr s_off]. rewrite app_nth2 by lia. rewrite Nat.sub_diag. cbn [nth]. lia. }
  assert (M1 : mshape (m ++ [b]) m1) by (apply mshape_write; [apply A|cbn; lia|exact Ha]).
  apply zlist_eq. intros i Hi. rewrite zget_contents_peek by (now apply (wf_shape _ _ _ M1)). cbn [s_len s_arr s_off].
  unfold m1. rewrite peek_write by (first [apply A|exact Ha|cbn; lia]).
  cbn [t s_arr s_off]. rewrite Nat.eqb_refl, Zs. cbn [andb].
  destruct (Z.leb_spec 0 i); [|lia]. cbn [andb].
  destruct (Z.ltb_spec i (s_len s)).
  - destruct (Z.ltb_spec i c); [|lia]. destruct (Z.leb_spec (0 + 0) (0 + i)), (Z.ltb_spec (0 + i) (0 + 0 + s_len s)); try lia. cbn [andb].
    rewrite zget_app_l by lia. f_equal. lia.
  - destruct (Z.ltb_spec i c).
    + destruct (Z.leb_spec (0 + 0) (0 + i)), (Z.ltb_spec (0 + i) (0 + 0 + s_len s)); try lia; cbn [andb].
      unfold peek. rewrite app_nth2 by lia. rewrite Nat.sub_diag. cbn [nth]. rewrite zget_app_r by lia. unfold b. rewrite !zget_rep by lia. reflexivity.
    + symmetry. apply zget_None. rewrite zlen_app, zlen_repeat. lia.
Qed.
Lemma Shrink_move m s : wf_slice m s -> s_len s < s_cap s ->
  exists m' s', Vector_Shrink zero grow (m, s) = (Ok tt, (m', s')) /\ wf_slice m' s' /\ s_len s' = s_len s /\ extends m m' /\ (length m <= s_arr s')%nat /\
    cap_contents m' s' = contents m s ++ repeat zero (Z.to_nat ((if s_len s =? 0 then 0 else Z.max (s_len s) (grow 0 (s_len s))) - zlen (contents m s))).
Proof.
  intros W L. pose proof W as (W1 & W2 & W3 & W4). pose proof (zlen_contents m s W) as Zs.
  destruct (Z.eqb_spec (s_len s) 0) as [Z|Z].
  - destruct (Shrink_ok zero grow m s W) as (m' & s' & E & W' & C & X & _ & F). destruct (F L) as (F1 & F2). rewrite Z in F2. cbn [Z.eqb] in F2.
    exists m', s'. split; [exact E|]. split; [exact W'|]. pose proof (zlen_contents m' s' W') as Zs'. rewrite C in Zs'.
    split; [lia|]. split; [exact X|]. split; [exact F1|]. rewrite Zs, Z. cbn [Z.sub Z.to_nat repeat Z.opp Z.add]. rewrite app_nil_r, <- C.
    unfold cap_contents, contents. rewrite F2. f_equal. lia.
  - unfold Vector_Shrink. rewrite bind_get_hdr. rewrite Z.gtb_ltb. destruct (Z.ltb_spec (s_len s) (s_cap s)); [|lia].
    destruct (lit_ok m []) as (E & We & C & X). set (e := mkSlice _ _ _ _) in *. rewrite (bind_lift_mem _ _ _ _ _ _ E).
    pose proof (extends_wf _ _ _ X W) as Ws. pose proof (extends_contents _ _ _ X W1) as Cs.
    destruct (append_move e (contents (m ++ [[]]) s) (m ++ [[]]) We) as (s' & m' & E1 & W' & L' & X' & A' & C').
    { rewrite Cs, Zs. cbn [e s_cap s_len]. change (zlen (@nil T)) with 0. lia. }
    cbn [e s_cap s_len] in C', L'. change (zlen (@nil T)) with 0 in *. rewrite C, Cs, ?Zs in C'. rewrite Cs, Zs in L'. cbn [app] in C'. rewrite Zs in C'.
    rewrite Z.add_0_l in *.
    assert (E2 : append_slice zero grow e s (m ++ [[]]) = (Ok s', m')) by exact E1.
    rewrite (bind_lift_mem _ _ _ _ _ _ E2). exists m', s'. split; [reflexivity|]. split; [auto|]. split; [auto|].
    split; [eapply extends_trans; [exact X|exact X']|]. split; [rewrite app_length in A'; lia|]. rewrite Zs. exact C'.
Qed.

Section Step.
Variables (m0 : mem T) (s0 : slice).
Notation Rs := (Rs m0 s0).
Lemma Rs_keep k m s w m' s' l : Rs k (m, s) w -> wf_slice m' s' -> s_arr s' = s_arr s -> s_off s' = s_off s -> s_cap s' = s_cap s -> s_len s' <= max_int ->
  old_same_except m m' (s_arr s) (s_off s) (s_off s + Z.max (s_len s) (s_len s')) -> contents m' s' = l ->
  (forall i, s_len s' <= i < s_len s -> peek m' (s_arr s) (s_off s + i) = Some zero) ->
  Rs k (m', s') (keep zero w l).
Proof.
  intros H W' A O C B X Hl Hz. pose proof (zlen_contents m' s' W') as Zl. rewrite Hl in Zl. unfold keep. rewrite Zl.
  pose proof (Rs_len _ _ _ _ _ _ H) as L. pose proof (Rs_room _ _ _ _ _ _ H) as R. pose proof (Rs_now _ _ _ _ _ _ H) as N. pose proof (Rs_wf _ _ _ _ _ _ H) as W.
  pose proof W as (W1 & W2 & W3 & W4). pose proof W' as (V1 & V2 & V3 & V4). rewrite C in V3.
  apply Rs_stay with (m := m) (s := s); auto.
  - eapply ose_weaken; [exact X|lia|lia].
  - assert (Wf : wf_slice m (full s)) by (apply wf_prefix; auto; lia).
    assert (Wf' : wf_slice m' (full s)) by (replace (full s) with (full s') by (unfold full; congruence); apply wf_prefix; auto; lia).
    apply zlist_eq. intros i Hi. rewrite zget_contents_peek by auto. cbn [full s_len s_arr s_off]. destruct (Z.leb_spec 0 i); [|lia]. cbn [andb].
    destruct (Z.ltb_spec i (s_cap s)).
    + destruct (Z.ltb_spec i (s_len s')).
      * rewrite zget_app_l by lia. rewrite <- Hl. rewrite zget_contents_peek by auto. destruct (Z.leb_spec 0 i), (Z.ltb_spec i (s_len s')); try lia. cbn [andb]. congruence.
      * rewrite zget_app_r by lia. rewrite Zl. destruct (Z.ltb_spec i (s_len s)).
        -- rewrite zget_app_l by (rewrite zlen_repeat; lia). rewrite zget_rep by lia. apply Hz. lia.
        -- rewrite zget_app_r by (rewrite zlen_repeat; lia). rewrite zlen_repeat. rewrite zget_zsub by lia.
           destruct (Z.ltb_spec (i - s_len s' - Z.of_nat (Z.to_nat (vw_len w - s_len s'))) (room w - Z.max (vw_len w) (s_len s'))); [|lia].
           rewrite <- N, zget_contents_peek by auto. cbn [full s_len s_arr s_off].
           replace (Z.max (vw_len w) (s_len s') + (i - s_len s' - Z.of_nat (Z.to_nat (vw_len w - s_len s')))) with i by lia.
           destruct (Z.leb_spec 0 i), (Z.ltb_spec i (s_cap s)); try lia. cbn [andb].
           destruct X as (_ & _ & X & _). apply X; auto; lia.
    + symmetry. apply zget_None. rewrite !zlen_app, zlen_repeat. unfold room in *. rewrite zlen_zsub; lia.
Qed.
Lemma Rs_shrunk k m s w m' s' l : Rs k (m, s) w -> shrunk zero m m' s s' l -> s_len s' <= s_len s -> Rs k (m', s') (keep zero w l).
Proof.
  intros H (W' & C & A & O & Cp & Cz & X) Hn. pose proof (Rs_wf _ _ _ _ _ _ H) as W. pose proof W' as (V1 & V2 & V3 & V4).
  eapply Rs_keep; eauto.
  - pose proof (fits _ _ _ _ _ _ H). lia.
  - apply ose_of_same. eapply same_except_weaken; [exact X|lia|lia].
  - intros i Hi. assert (Ws : wf_slice m' s) by (eapply wf_ose; [exact W|apply ose_of_same, X]).
    assert (G : zget (contents m' s) i = Some zero).
    { rewrite Cz. pose proof (zlen_contents m' s' W') as Zl. rewrite C in Zl. rewrite zget_app_r by lia. apply zget_rep. lia. }
    rewrite zget_contents_peek in G by auto. destruct (Z.leb_spec 0 i), (Z.ltb_spec i (s_len s)); try lia. exact G.
Qed.

Notation ag := (agree (list slice) le Rs (@same (list slice) (obs T))).
Lemma ag_stay k c w (r : outcome (obs T)) : Rs k c w -> ag k (r, c) (r, w).
Proof. intros H. exists k. split; [apply le_refl|]. split; [exact H|]. cbn [fst]. destruct r; [reflexivity|exact I|exact I]. Qed.
Lemma ag_le k k' c w (r : outcome (obs T)) : le k k' -> Rs k' c w -> ag k (r, c) (r, w).
Proof. intros Hl H. exists k'. split; [exact Hl|]. split; [exact H|]. cbn [fst]. destruct r; [reflexivity|exact I|exact I]. Qed.

Lemma Rs_moves k m s w m' s' l c : Rs k (m, s) w -> extends m m' -> wf_slice m' s' -> (length m <= s_arr s')%nat -> s_len s' <= max_int -> s_len s' = zlen l ->
  cap_contents m' s' = l ++ repeat zero (Z.to_nat (c - zlen l)) -> Rs (k ++ [full s']) (m', s') (move zero w l c).
Proof. intros H X W A B L C. unfold move. rewrite <- C, <- L. eapply Rs_move; eauto. Qed.
Lemma Rs_append k m s w xs : Rs k (m, s) w -> s_len s + zlen xs <= max_int ->
  exists m' s', append_list zero grow s xs m = (Ok s', m') /\
    exists k', le k k' /\ Rs k' (m', s') (put zero w (elems w ++ xs) (grown grow (room w) (vw_len w + zlen xs))).
Proof.
  intros H Hm. pose proof (Rs_wf _ _ _ _ _ _ H) as W. pose proof W as (W1 & W2 & W3 & W4). pose proof (Rs_len _ _ _ _ _ _ H) as L. pose proof (Rs_room _ _ _ _ _ _ H) as R.
  pose proof (zlen_contents m s W) as Zs. pose proof (zlen_nonneg xs). rewrite (Rs_elems _ _ _ _ _ _ H). unfold put. rewrite R, zlen_app, Zs.
  destruct (Z.leb_spec (s_len s + zlen xs) (s_cap s)) as [Q|Q].
  - destruct (append_list_ok zero grow s xs m W) as (s' & m' & E & W' & C & L' & F). exists m', s'. split; [exact E|]. exists k. split; [apply le_refl|].
    destruct (Z.leb_spec (s_len s + zlen xs) (s_cap s)); [|lia]. destruct F as (F1 & F2 & F3 & F4).
    eapply Rs_keep; eauto; [lia| |].
    + apply ose_of_same. rewrite F4. apply same_except_write_at; auto; lia.
    + intros i Hi. lia.
  - destruct (append_move s xs m W Q) as (s' & m' & E & W' & L' & X & A & C). exists m', s'. split; [exact E|]. exists (k ++ [full s']). split; [eexists; reflexivity|].
    eapply Rs_moves; [exact H|exact X|exact W'|exact A|lia|rewrite zlen_app, Zs; exact L'|]. rewrite C, <- L. reflexivity.
Qed.

Lemma removed_ok k m s w i j : Rs k (m, s) w -> i <= j -> ag k (observe (fun _ => ONone) (Vector_RemoveRange zero grow i j) (m, s)) (removed zero w i j).
Proof.
  intros H Hij. pose proof (Rs_wf _ _ _ _ _ _ H) as W. pose proof W as (W1 & W2 & W3 & W4). pose proof (Rs_len _ _ _ _ _ _ H) as L. pose proof (zlen_contents m s W) as Zs.
  unfold removed. rewrite (Rs_elems _ _ _ _ _ _ H), <- L.
  destruct (Z.leb_spec 0 i), (Z.leb_spec i j), (Z.leb_spec j (s_len s)); try lia; cbn [andb].
  1:{ destruct (RemoveRange_ok zero grow i j m s W ltac:(lia) ltac:(lia)) as (m' & s' & E & Sh). rewrite (observe_eq _ _ _ _ _ E). apply ag_stay.
      eapply Rs_shrunk; [exact H|exact Sh|]. destruct Sh as (W' & C & _). pose proof (zlen_contents m' s' W') as Z'. rewrite C, zlen_app, !zlen_zsub in Z'; lia. }
  all: destruct (RemoveRange_panic zero grow i j m s W ltac:(lia)) as (c' & E & F); rewrite (observe_eq _ _ _ _ _ E);
    destruct (Z.ltb_spec j i); [lia|]; rewrite ?andb_false_r in F; cbn [andb] in F; subst c'; apply ag_stay; exact H.
Qed.
Lemma call_ok k m s w o : Rs k (m, s) w -> in_scope (s_len s) (s_cap s) o = true -> ag k (vec_step zero grow o (m, s)) (vw_step zero grow o w).
Proof.
  intros H Sc. pose proof (Rs_wf _ _ _ _ _ _ H) as W. pose proof W as (W1 & W2 & W3 & W4). pose proof (Rs_len _ _ _ _ _ _ H) as L. pose proof (zlen_contents m s W) as Zs.
  pose proof (Rs_elems _ _ _ _ _ _ H) as El. pose proof (Rs_room _ _ _ _ _ _ H) as R.
  destruct o as [x|xs|i xs| | | |i|i x|i|i j|i n|p| | | |r|]; cbn [vec_step vw_step in_scope] in *.
  - (* PushBack *) apply Z.leb_le in Sc. destruct (Rs_append k m s w [x] H Sc) as (m' & s' & E & k' & Hl & H').
    rewrite (observe_eq _ _ _ (m', s') (Ok tt)) by (unfold Vector_PushBack; rewrite bind_get_hdr, (bind_lift_mem _ _ _ _ _ _ E); reflexivity).
    eapply ag_le; eauto.
  - (* Append *) apply Z.leb_le in Sc. destruct (lit_ok m xs) as (E0 & W0 & C0 & X0). set (x := mkSlice _ _ _ _) in *. pose proof (Rs_ext _ _ _ _ _ _ _ H X0) as H0.
    destruct (Rs_append k (m ++ [xs]) s w xs H0 Sc) as (m' & s' & E & k' & Hl & H').
    assert (E1 : append_slice zero grow s x (m ++ [xs]) = (Ok s', m')) by (unfold append_slice; rewrite C0; exact E).
    rewrite (observe_eq _ _ _ (m', s') (Ok tt)) by (rewrite (bind_lift_mem _ _ _ _ _ _ E0); unfold Vector_Append; rewrite bind_get_hdr, (bind_lift_mem _ _ _ _ _ _ E1); reflexivity).
    eapply ag_le; eauto.
  - (* Insert *) apply andb_prop in Sc as [Si Sl]. unfold int_b in Si. apply andb_prop in Si as [Si1 Si2]. apply Z.leb_le in Sl, Si1, Si2.
    destruct (lit_ok m xs) as (E0 & W0 & C0 & X0). set (x := mkSlice _ _ _ _) in *. pose proof (Rs_ext _ _ _ _ _ _ _ H X0) as H0.
    pose proof (Rs_wf _ _ _ _ _ _ H0) as Ws. pose proof (Rs_elems _ _ _ _ _ _ H0) as El0. rewrite El0, <- L.
    pose proof (zlen_nonneg xs) as Zx. pose proof (zlen_contents _ _ Ws) as Zs0.
    destruct ((0 <=? i) && (i <=? s_len s)) eqn:B.
    + apply andb_prop in B as [B1 B2]. apply Z.leb_le in B1, B2.
      assert (Zn : zlen (zsub (contents (m ++ [xs]) s) 0 i ++ xs ++ zsub (contents (m ++ [xs]) s) i (s_len s)) = s_len s + zlen xs) by (rewrite !zlen_app, !zlen_zsub; lia).
      destruct (Insert_ok zero i x _ s Ws W0 ltac:(lia) ltac:(cbn [x s_len]; lia)) as (m' & s' & E & W' & C' & F).
      { left. cbn [x s_arr]. lia. }
      rewrite C0 in C'. rewrite (observe_eq _ _ _ (m', s') (Ok tt)) by (rewrite (bind_lift_mem _ _ _ _ _ _ E0); exact E).
      unfold put. rewrite Zn, R. cbn [x s_len] in F. pose proof (zlen_contents _ _ W') as Z'. rewrite C', Zn in Z'.
      destruct (Z.leb_spec (s_len s + zlen xs) (s_cap s)).
      * destruct F as (F1 & F2 & F3 & F4). apply ag_stay. eapply Rs_keep; eauto; [lia| |].
        -- apply ose_of_same. eapply same_except_weaken; [exact F4|lia|lia].
        -- intros q Hq. lia.
      * destruct (Insert_realloc zero i x _ s Ws W0 ltac:(lia) ltac:(cbn [x s_len]; lia) ltac:(cbn [x s_len]; lia)) as (m2 & s2 & E2 & W2' & C2 & A2 & Cp2 & X2).
        rewrite E in E2. inversion E2; subst m2 s2. eapply ag_le; [eexists; reflexivity|]. eapply Rs_moves; eauto; [lia|lia|lia|].
        rewrite Zn, Z.sub_diag. cbn [Z.to_nat repeat]. rewrite app_nil_r, <- C'. unfold cap_contents, contents. rewrite Cp2. cbn [x s_len]. now rewrite Z'.
    + assert (B' : ~ (0 <= i <= s_len s)).
      { intros [B1 B2]. apply Z.leb_le in B1, B2. rewrite B1, B2 in B. discriminate. }
      destruct (Insert_panic zero i x _ s Ws W0 (conj Si1 Si2) B' ltac:(cbn [x s_len]; lia)) as (m' & E & X').
      rewrite (observe_eq _ _ _ (m', s) Panic) by (rewrite (bind_lift_mem _ _ _ _ _ _ E0); exact E).
      apply ag_stay. eapply Rs_ext; eauto.
  - (* PopBack *) rewrite El, <- L. destruct (list_snoc (contents m s)) as [C|(l' & x & C)].
    + rewrite (observe_eq _ _ _ _ _ (PopBack_panic zero m s W C)). rewrite C, zget_nil. apply ag_stay. exact H.
    + rewrite C in Zs. rewrite zlen_snoc in Zs. pose proof (zlen_nonneg l').
      destruct (PopBack_ok zero m s x l' W C) as (m' & s' & E & Sh). rewrite (observe_eq _ _ _ _ _ E).
      rewrite C. replace (s_len s - 1) with (zlen l') by lia. rewrite (zget_mid l' x []), zsub_front by lia. apply ag_stay.
      eapply Rs_shrunk; [exact H|exact Sh|]. destruct Sh as (W' & C' & _). pose proof (zlen_contents m' s' W') as Z'. rewrite C' in Z'. lia.
  - (* TryPopBack *) rewrite El, <- L. unfold Vector_TryPopBack, Vector_IsEmpty. destruct (list_snoc (contents m s)) as [C|(l' & x & C)].
    + rewrite C in *. rewrite zlen_nil in Zs. rewrite (observe_eq _ _ _ (m, s) (Ok (zero, false))).
      2:{ unfold bind, get_hdr, ret. cbn [fst snd]. rewrite <- Zs. reflexivity. }
      rewrite zget_nil. apply ag_stay. exact H.
    + rewrite C in Zs. rewrite zlen_snoc in Zs. pose proof (zlen_nonneg l').
      destruct (PopBack_ok zero m s x l' W C) as (m' & s' & E & Sh).
      rewrite (observe_eq _ _ _ (m', s') (Ok (x, true))).
      2:{ unfold bind at 1. unfold bind at 1, get_hdr, ret. cbn [fst snd]. destruct (Z.eqb_spec (s_len s) 0); [lia|]. rewrite (bind_Ok _ _ _ _ _ E). reflexivity. }
      rewrite C. replace (s_len s - 1) with (zlen l') by lia. rewrite (zget_mid l' x []), zsub_front by lia. apply ag_stay.
      eapply Rs_shrunk; [exact H|exact Sh|]. destruct Sh as (W' & C' & _). pose proof (zlen_contents m' s' W') as Z'. rewrite C' in Z'. lia.
  - (* Back *) rewrite El, <- L. unfold Vector_Back. destruct (zget (contents m s) (s_len s - 1)) as [x|] eqn:G.
    + rewrite (observe_eq _ _ _ (m, s) (Ok x)) by (rewrite bind_get_hdr; apply lift_mem_ok, sload_ok; auto). apply ag_stay. exact H.
    + rewrite (observe_eq _ _ _ (m, s) Panic) by (rewrite bind_get_hdr; apply lift_mem_panic, sload_panic; auto). apply ag_stay. exact H.
  - (* At *) rewrite El. unfold Vector_At. destruct (zget (contents m s) i) as [x|] eqn:G.
    + rewrite (observe_eq _ _ _ (m, s) (Ok x)) by (rewrite bind_get_hdr; apply lift_mem_ok, sload_ok; auto). apply ag_stay. exact H.
    + rewrite (observe_eq _ _ _ (m, s) Panic) by (rewrite bind_get_hdr; apply lift_mem_panic, sload_panic; auto). apply ag_stay. exact H.
  - (* Set *) rewrite El. unfold Vector_Set. destruct (zget (contents m s) i) as [y|] eqn:G.
    + pose proof (zget_Some_range _ _ _ G). assert (Zu : zlen (zupd (contents m s) i x) = s_len s) by (rewrite zlen_zupd; auto).
      rewrite (observe_eq _ _ _ (write_at m s 0 (zupd (contents m s) i x), s) (Ok tt)) by (rewrite bind_get_hdr; apply lift_mem_ok, sstore_ok; auto; lia). apply ag_stay.
      eapply Rs_keep; [exact H|now apply wf_write_self|auto|auto|auto|apply (fits _ _ _ _ _ _ H)| |now apply contents_write_at|intros; lia].
      apply ose_of_same. rewrite Z.max_id. now apply same_except_write.
    + apply zget_None in G.
      rewrite (observe_eq _ _ _ (m, s) Panic) by (rewrite bind_get_hdr; apply lift_mem_panic, sstore_panic; auto; lia). apply ag_stay. exact H.
  - (* Remove *) unfold Vector_Remove, int_b in *. apply andb_prop in Sc as [Si1 Si2]. apply Z.leb_le in Si1, Si2. destruct (Z.eq_dec i max_int) as [->|N].
    + replace (wrap64 (max_int + 1)) with (- 2^63) by reflexivity. pose proof (RemoveRange_panic zero grow max_int (- 2^63) m s W ltac:(unfold max_int; lia)) as (c' & E & F).
      cbn [Z.leb] in F. destruct (0 <=? - 2 ^ 63) eqn:Q; [discriminate|]. cbn [andb] in F. subst c'. rewrite (observe_eq _ _ _ _ _ E).
      unfold removed. rewrite <- L. destruct (Z.leb_spec (max_int + 1) (s_len s)) as [Q2|Q2]; [|rewrite andb_false_r; apply ag_stay; exact H].
      exfalso. pose proof (fits _ _ _ _ _ _ H) as Hf. lia.
    + rewrite wrap64_id by (unfold is_int, max_int in *; lia). apply removed_ok; [exact H|lia].
  - (* RemoveRange *) apply andb_prop in Sc as [_ Sc]. apply Z.leb_le in Sc. apply removed_ok; auto.
  - (* RemoveLength *) unfold Vector_RemoveLength. apply andb_prop in Sc as [Sc Sn]. apply andb_prop in Sc as [Si Sj]. unfold int_b in *. apply andb_prop in Si as [Si1 Si2]. apply andb_prop in Sj as [Sj1 Sj2]. apply Z.leb_le in Si1, Si2, Sj1, Sj2, Sn.
    destruct (Z_lt_le_dec max_int (i + n)) as [P|P].
    + pose proof (wrap64_over i n (conj Si1 Si2) (conj Sj1 Sj2) P) as Hw. set (j := wrap64 (i + n)) in *.
      pose proof (RemoveRange_panic zero grow i j m s W ltac:(lia)) as (c' & E & F). destruct (Z.leb_spec 0 j); [lia|]. cbn [andb] in F. subst c'. rewrite (observe_eq _ _ _ _ _ E).
      unfold removed. rewrite <- L. destruct (Z.leb_spec (i + n) (s_len s)) as [Q2|Q2]; [|rewrite andb_false_r; apply ag_stay; exact H].
      exfalso. pose proof (fits _ _ _ _ _ _ H) as Hf. lia.
    + rewrite wrap64_id by (unfold is_int, max_int in *; lia). apply removed_ok; [exact H|lia].
  - (* RemoveIf *) destruct (VRemoveIf_ok zero (fun (u : unit) (y : T) => (p y, u)) tt m s W) as (m' & s' & E & Sh).
    rewrite (observe_eq _ _ _ _ _ E). rewrite reject_filter in Sh. rewrite El. apply ag_stay.
    eapply Rs_shrunk; [exact H|exact Sh|]. destruct Sh as (W' & C' & _). pose proof (zlen_contents m' s' W') as Z'. rewrite C' in Z'. rewrite <- Z', <- Zs.
    clear. induction (contents m s) as [|a l IH]; cbn [filter]; [lia|]. destruct (negb (p a)); rewrite ?zlen_cons; lia.
  - (* Len *) rewrite <- L. apply (ag_stay k (m, s) w (Ok (OInt (s_len s))) H).
  - (* IsEmpty *) rewrite <- L. apply (ag_stay k (m, s) w (Ok (OBool (s_len s =? 0))) H).
  - (* Clear *) destruct (Clear_ok zero m s W) as (m' & s' & E & Sh). rewrite (observe_eq _ _ _ _ _ E). apply ag_stay.
    eapply Rs_shrunk; [exact H|exact Sh|]. destruct Sh as (W' & C' & _). pose proof (zlen_contents m' s' W') as Z'. rewrite C', zlen_nil in Z'. lia.
  - (* Reserve *) rewrite R, El. destruct (Z.ltb_spec (s_cap s) r).
    + destruct (Reserve_move r m s W ltac:(lia)) as (m' & s' & E & W' & L' & X & A & C). rewrite (observe_eq _ _ _ _ _ E).
      eapply ag_le; [eexists; reflexivity|]. pose proof (fits _ _ _ _ _ _ H). eapply Rs_moves; eauto; lia.
    + destruct (Reserve_ok zero r m s W) as (m' & s' & E & _ & _ & _ & _ & F & _). destruct (F ltac:(lia)) as [-> ->]. rewrite (observe_eq _ _ _ _ _ E). apply ag_stay. exact H.
  - (* Shrink *) rewrite R, El, <- L. destruct (Z.ltb_spec (s_len s) (s_cap s)).
    + destruct (Shrink_move m s W ltac:(lia)) as (m' & s' & E & W' & L' & X & A & C). rewrite (observe_eq _ _ _ _ _ E).
      eapply ag_le; [eexists; reflexivity|]. pose proof (fits _ _ _ _ _ _ H). eapply Rs_moves; eauto; lia.
    + destruct (Shrink_ok zero grow m s W) as (m' & s' & E & _ & _ & _ & F & _). destruct (F ltac:(lia)) as [-> ->]. rewrite (observe_eq _ _ _ _ _ E). apply ag_stay. exact H.
Qed.

(** *** Iterators *)
Lemma F2_nth {A B} (R : A -> B -> Prop) l l' : Forall2 R l l' -> forall n a, nth_error l n = Some a -> exists b, nth_error l' n = Some b /\ R a b.
Proof. induction 1; intros [|n] a E; try discriminate; cbn in *; [injection E as <-; eauto|auto]. Qed.
Lemma slot_ok k m s w it p : Rs k (m, s) w -> Rp k it p ->
  wf_slice m (vi_v it) /\ zget (contents m (vi_v it)) (vi_i it) = vw_slot w p.
Proof.
  intros H (t & Ht & Ev & Hn & Ei). destruct H as (_ & _ & _ & F & _). cbn [fst] in F. destruct (F2_nth _ _ _ F _ _ Ht) as (l & El & (Wt & Lt & Ct)).
  rewrite Ev, Ei. assert (W : wf_slice m (mkSlice (s_arr t) (s_off t) (vp_len p) (s_cap t))) by (apply wf_prefix; auto; lia). split; [exact W|].
  unfold vw_slot. rewrite (nth_error_nth _ _ [] El), <- Ct. rewrite !zget_contents_peek by auto. cbn [s_len s_arr s_off].
  destruct (Z.leb_spec 0 (vp_i p)), (Z.ltb_spec (vp_i p) (vp_len p)), (Z.ltb_spec (vp_i p) (s_len t)); cbn [andb]; auto; lia.
Qed.
Lemma upd_front {A} (l l' : list A) n x : (n < length l)%nat -> upd n x (l ++ l') = upd n x l ++ l'.
Proof. revert n. induction l as [|a l IH]; intros n Hn; [cbn in Hn; lia|]. destruct n; cbn in *; auto. rewrite IH by lia. reflexivity. Qed.
Lemma storages_write w p v : (vp_gen p < length (storages w))%nat -> storages (vw_write w p v) = upd (vp_gen p) (zupd (nth (vp_gen p) (storages w) []) (vp_i p) v) (storages w).
Proof.
  intros Hn. unfold vw_write. destruct (Nat.eqb_spec (vp_gen p) (length (vw_old w))) as [E|E].
  - unfold storages in *. cbn [vw_old vw_now]. rewrite E. now rewrite upd_last.
  - set (l := zupd _ _ _). unfold storages in *. cbn [vw_old vw_now]. rewrite app_length in Hn. cbn [length] in Hn. rewrite upd_front by lia. reflexivity.
Qed.
Lemma store_ok k m s w it p v : Rs k (m, s) w -> Rp k it p ->
  match vw_slot w p with
  | Some _ => exists m', vi_write it v m = (Ok tt, m') /\ Rs k (m', s) (vw_write w p v)
  | None => vi_write it v m = (Panic, m)
  end.
Proof.
  intros H Hp. pose proof (slot_ok _ _ _ _ _ _ H Hp) as (W & G). destruct Hp as (t & Ht & Ev & Hn & Ei).
  pose proof (zlen_contents _ _ W) as Zc. destruct (vw_slot w p) as [y|] eqn:Q.
  - pose proof (zget_Some_range _ _ _ G) as Hi. destruct it as [v0 i0]. cbn [vi_v vi_i] in *. subst v0 i0. rewrite Zc in Hi.
    destruct (vi_write_ok m _ _ v W ltac:(exact Hi)) as (m' & E & C & _ & X). exists m'. split; [exact E|]. cbn [s_len s_arr s_off] in *.
    pose proof H as (Ws & (L & Hm) & K & F & N & M & Fr). cbn [fst snd] in *. destruct (F2_nth _ _ _ F _ _ Ht) as (l & El & (Wt & Lt & Ct)).
    assert (O : old_same_except m m' (s_arr t) (s_off t) (s_off t + s_cap t)) by (eapply ose_weaken; [apply ose_of_same; exact X|lia|lia]).
    assert (Wt' : wf_slice m' t) by (eapply wf_ose; eauto).
    assert (Ll : (vp_gen p < length (storages w))%nat) by (apply nth_error_Some; congruence).
    assert (Wv' : wf_slice m' (mkSlice (s_arr t) (s_off t) (vp_len p) (s_cap t))) by (apply wf_prefix; auto; lia).
    assert (Cn : contents m' t = zupd l (vp_i p) v).
    { apply zlist_eq. intros i Hi0. destruct (Z.eq_dec i (vp_i p)) as [->|Ni].
      - rewrite zget_zupd_eq by (rewrite <- Ct, zlen_contents by auto; lia).
        assert (G1 : zget (contents m' (mkSlice (s_arr t) (s_off t) (vp_len p) (s_cap t))) (vp_i p) = Some v) by (rewrite C; apply zget_zupd_eq; lia).
        rewrite zget_contents_peek in G1 by auto. rewrite zget_contents_peek by auto. cbn [s_len s_arr s_off] in G1.
        destruct (Z.leb_spec 0 (vp_i p)), (Z.ltb_spec (vp_i p) (vp_len p)), (Z.ltb_spec (vp_i p) (s_len t)); cbn [andb] in *; auto; lia.
      - rewrite zget_zupd_ne by auto. rewrite <- Ct. rewrite !zget_contents_peek by auto. destruct (_ && _); auto. symmetry. destruct Wt as (_ & K2 & _). apply X; lia. }
    split; [eapply wf_ose; eauto|]. cbn [fst snd]. split; [split; [|exact Hm]|].
    { unfold vw_write. destruct (_ =? _)%nat; exact L. }
    split; [exact K|]. split; [|split; [exact N|split; [exact M|]]].
    + rewrite storages_write by exact Ll. rewrite (nth_error_nth _ _ [] El), <- Cn. eapply touch; eauto.
    + eapply frame_touch with (t := t); eauto. eapply Forall_forall; [exact M|]. eapply nth_error_In; eauto.
  - apply zget_None in G. apply sstore_panic; auto. lia.
Qed.
Notation AG := (agree (list slice) le Rs).
Theorem vec_sims : sims (vec_listing zero grow) (vw_spec zero grow) (list slice) le Rs Rp.
Proof.
  constructor.
  - intros k c k' [m s] w _ H. destruct c as [o|].
    + cbn [l_call vec_listing vw_spec fst snd]. rewrite (Rs_room _ _ _ _ _ _ H), <- (Rs_len _ _ _ _ _ _ H). destruct (in_scope _ _ o) eqn:Sc; [now apply call_ok|]. apply ag_stay. exact H.
    + cbn [l_call vec_listing vw_spec]. rewrite (Rs_room _ _ _ _ _ _ H). apply (ag_stay k' (m, s) w (Ok (OInt (s_cap s))) H).
  - intros k k' [m s] w _ H. exists k'. split; [apply le_refl|]. split; [exact H|]. cbn.
    destruct (Rs_parts _ _ _ _ _ _ H) as (old & -> & Lo & _). pose proof (Rs_wf _ _ _ _ _ _ H) as (W1 & W2 & W3 & W4). rewrite <- (Rs_len _ _ _ _ _ _ H).
    exists (full s). cbn [vp_gen vp_len vp_i]. rewrite <- Lo, nth_error_app2, Nat.sub_diag by lia. split; [reflexivity|]. split; [destruct s; reflexivity|]. split; [exact W3|reflexivity].
  - intros k p q Hp k' [m s] w Hl H. assert (Hp' : Rp k' p q) by (eapply Rp_le; eauto). destruct (slot_ok _ _ _ _ _ _ H Hp') as (W & G).
    exists k'. split; [apply le_refl|]. cbn [l_pointer vec_listing vw_spec]. unfold lift_mem, bind, vi_Value, ret. cbn [fst snd]. destruct (vw_slot w q) as [v|].
    + rewrite (sload_ok _ _ _ _ W G). split; [exact H|]. reflexivity.
    + rewrite (sload_panic _ _ _ W G). split; [exact H|]. exact I.
  - intros k p q (t & Ht & Ev & Hn & Ei) k' [m s] w Hl H. exists k'. split; [apply le_refl|]. split; [exact H|]. cbn. unfold vi_IsNotEnd. rewrite Ev, Ei. reflexivity.
  - intros k p q (t & Ht & Ev & Hn & Ei) k' [m s] w Hl H. exists k'. split; [apply le_refl|]. split; [exact H|]. cbn. eapply Rp_le; [exact Hl|]. exists t. cbn [vp_gen vp_len vp_i vi_MoveToNext vi_v vi_i]. rewrite Ei. auto.
  - intros k p q Hp k' [m s] w Hl H. assert (Hp' : Rp k' p q) by (eapply Rp_le; eauto). destruct (slot_ok _ _ _ _ _ _ H Hp') as (W & G).
    exists k'. split; [apply le_refl|]. cbn [l_value vec_listing vw_spec]. unfold lift_mem, vi_Value. cbn [fst snd]. destruct (vw_slot w q) as [v|].
    + rewrite (sload_ok _ _ _ _ W G). split; [exact H|]. reflexivity.
    + rewrite (sload_panic _ _ _ W G). split; [exact H|]. exact I.
  - intros k p q v Hp k' [m s] w Hl H. assert (Hp' : Rp k' p q) by (eapply Rp_le; eauto). pose proof (store_ok _ _ _ _ _ _ v H Hp') as G.
    exists k'. split; [apply le_refl|]. cbn [l_store vec_listing vw_spec]. unfold lift_mem. cbn [fst snd]. destruct (vw_slot w q) as [y|].
    + destruct G as (m' & E & H'). rewrite E. split; [exact H'|]. reflexivity.
    + rewrite G. split; [exact H|]. exact I.
Qed.
End Step.
End VC.
Lemma Rs_init {T} (m : mem T) s : wf_slice m s -> s_len s <= max_int -> Rs m s [full s] (m, s) (mkVW (cap_contents m s) (s_len s) []).
Proof.
  intros W Hm. pose proof W as (W1 & W2 & W3 & W4). split; [exact W|]. split; [split; [reflexivity|exact Hm]|]. cbn [fst snd]. split; [exists []; reflexivity|].
  split; [|split; [|split]].
  - constructor; [|constructor]. split; [apply wf_prefix; auto; lia|]. split; reflexivity.
  - constructor; [intros []|constructor].
  - constructor; [|constructor]. right. auto.
  - apply ose_refl.
Qed.

