(** Proofs of C117. *)
From Verif Require Import BaseLemmas Spec Proof_Mem Model_Heap Proof_Heap Proof_HeapOps Spec_HeapUpdate Model_HeapUpdate.

Section Changed.
Context {T T' : Type}.
Variables (less : T -> T -> bool) (less' : T' -> T' -> bool).
Hypothesis SW : strict_weak less.
Lemma but_one_down i l l' : min_heap less l -> but_one i less l less' l' -> down_inv less' l' (zlen l') 0 i.
Proof.
  intros Hh (Hl & Hc). pose proof (zlen_nonneg l). split.
  - intros c Hr _ Hp Hi a b Ga Gb. destruct (zget_range l ((c - 1) / 2)) as [a0 Ha]; [lia|]. destruct (zget_range l c) as [b0 Hb]; [lia|].
    rewrite (Hc c ((c - 1) / 2) b0 a0 b a); auto. apply (Hh c a0 b0); auto; lia.
  - intros Hi0 _ c a b Hr Hp Ga Gb. destruct (zget_range l ((i - 1) / 2)) as [a0 Ha]; [lia|]. destruct (zget_range l c) as [b0 Hb]; [lia|]. destruct (zget_range l i) as [x Hx]; [lia|].
    rewrite (Hc c ((i - 1) / 2) b0 a0 b a); auto; try lia. apply (sw_negtrans _ SW b0 x a0).
    + apply (Hh c x b0); auto; [lia|now rewrite Hp].
    + apply (Hh i a0 x); auto.
Qed.
End Changed.

Lemma upd_perm {T} (l : list T) i v x : nth_error l i = Some x -> Permutation (x :: upd i v l) (v :: l).
Proof. revert i. induction l as [|a l IH]; intros [|i] G; cbn in G; try discriminate; [injection G as ->; apply perm_swap|]. cbn [upd]. rewrite perm_swap, (IH i G). apply perm_swap. Qed.
Lemma zupd_perm {T} (l : list T) i v x : zget l i = Some x -> Permutation (x :: zupd l i v) (v :: l).
Proof. intros G. unfold zget, zupd in *. destruct (i <? 0); [discriminate|]. now apply upd_perm. Qed.

Section Remove.
Context {T : Type}.
Variable less : T -> T -> bool.
Hypothesis SW : strict_weak less.
Lemma remove_changed i m h :
  wf_slice m h -> down_inv less (contents m h) (s_len h) 0 i -> 0 <= i < s_len h -> s_len h <= max_int ->
  exists x m' h', RemoveHeapFunc i less (m, h) = (Ok x, (m', h')) /\
    zget (contents m h) i = Some x /\
    wf_slice m' h' /\ min_heap less (contents m' h') /\
    Permutation (x :: contents m' h') (contents m h) /\
    h' = mkSlice (s_arr h) (s_off h) (s_len h - 1) (s_cap h) /\
    same_except m m' (s_arr h) (s_off h) (s_off h + s_len h).
Proof.
  intros Hwf [D1 D2] Hi Hmax. pose proof Hwf as (Q1 & Q2 & Q3 & Q4).
  unfold RemoveHeapFunc. rewrite bind_get_hdr. cbv zeta.
  set (l := contents m h) in *. set (n := s_len h - 1).
  assert (Hz : zlen l = s_len h) by now apply zlen_contents.
  destruct (zget_range l i) as [x Hx]; [lia|].
  assert (Hmid : exists w,
    (if n =? i then ret tt
     else lift_mem (on_slice h (heapSwap i n)) ;;
        b <- lift_mem (on_slice h (heapDownFunc less i n)) ;;
        if b : bool then ret tt else lift_mem (on_slice h (heapUpFunc less i))) (m, h)
    = (Ok tt, (write_at m h 0 w, h)) /\
    zlen w = s_len h /\ zget w n = Some x /\ Permutation w l /\ heap_from less w n 0).
  { destruct (Z.eqb_spec n i) as [E|E].
    - exists l. unfold l. rewrite write_at_same by auto. fold l. split; [reflexivity|]. split; [auto|].
      split; [congruence|]. split; [auto|]. intros c Hc _. apply D1; lia.
    - pose proof (wswap_ok l i n ltac:(lia) ltac:(lia)) as Hsw.
      rewrite (bind_Ok _ _ _ _ _ (lift_mem_ok _ m h _ _ (on_slice_start m h (heapSwap i n) _ _ Hwf Hsw))).
      assert (Hg : forall c, c <> i -> c < n -> zget (zswap l i n) c = zget l c).
      { intros c H1 H2. rewrite zget_zswap by lia.
        destruct (Z.eqb_spec c n); [lia|]. destruct (Z.eqb_spec c i); [lia|auto]. }
      assert (Hch : 0 < i -> forall c a b, 0 < c < n -> (c - 1) / 2 = i ->
        zget (zswap l i n) ((i - 1) / 2) = Some a -> zget (zswap l i n) c = Some b -> less b a = false).
      { intros Hi0 c a b Hc Hpc Ga Gb. rewrite Hg in Ga, Gb by lia. apply (D2 Hi0 ltac:(lia) c a b); auto; lia. }
      destruct (heapDownFunc_spec less SW (zswap l i n) n 0 i) as (b & w & Hrun & Hp & Hl & Ha & Hb0 & Hb1 & Hr);
        rewrite ?zlen_zswap; try lia.
      { split; [|intros K1 _; apply Hch, K1].
        intros c Hc _ Hpc Hc0 a b Ga Gb. rewrite Hg in Ga, Gb by lia. apply (D1 c ltac:(lia) ltac:(lia) Hpc Hc0 a b); auto. }
      assert (Hsl : zlen (zswap l i n) = s_len h) by (rewrite zlen_zswap; auto).
      rewrite zlen_zswap in Hl.
      assert (Hlw : zlen w = s_len h) by lia.
      assert (Hwn : zget w n = Some x).
      { rewrite (Ha n) by lia. rewrite zget_zswap by lia. now rewrite Z.eqb_refl. }
      rewrite (bind_Ok _ _ _ _ _ (lift_mem_ok _ _ h _ _ (on_slice_at m h _ (heapDownFunc less i n) _ _ Hwf Hsl Hrun Hlw))).
      destruct b.
      + exists w. split; [reflexivity|]. split; [auto|]. split; [auto|].
        split; [rewrite Hp; apply zswap_perm|]. now apply Hb1.
      + specialize (Hb0 eq_refl). subst w.
        destruct (heapUpFunc_spec less SW (zswap l i n) n i) as (w & Hrun2 & Hp2 & Hl2 & Ha2 & Hh2); try lia.
        { split; [|auto]. intros c Hc Hne. apply Hr; auto; lia. }
        exists w. rewrite (lift_mem_ok _ _ h _ _ (on_slice_at m h _ (heapUpFunc less i) _ _ Hwf Hsl Hrun2 ltac:(lia))).
        split; [reflexivity|]. split; [lia|]. split; [rewrite (Ha2 n) by lia; auto|].
        split; [rewrite Hp2; apply zswap_perm|auto]. }
  destruct Hmid as (w & Hrun & Hlw & Hwn & Hp & Hhp).
  rewrite (bind_Ok _ _ _ _ _ Hrun).
  rewrite (finish_remove m h w n x) by (auto; lia).
  exists x, (write_at m h 0 w), (mkSlice (s_arr h) (s_off h) n (s_cap h)).
  split; [reflexivity|]. split; [auto|].
  split.
  { pose proof (wf_write_self m h w Hwf ltac:(lia)) as (K1 & K2 & K3 & K4).
    unfold wf_slice, arr_of in *. simpl. lia. }
  rewrite contents_sub by (auto; lia).
  split; [apply heap_from_sub; [lia|auto]|].
  split; [rewrite <- (perm_last w n x) by (auto; lia); auto|].
  split; [auto|]. apply same_except_write; auto.
Qed.
Lemma pop_changed m h :
  wf_slice m h -> down_inv less (contents m h) (s_len h) 0 0 -> 0 < s_len h <= max_int ->
  exists x m' h', PopHeapFunc less (m, h) = (Ok x, (m', h')) /\
    zget (contents m h) 0 = Some x /\
    wf_slice m' h' /\ min_heap less (contents m' h') /\
    Permutation (x :: contents m' h') (contents m h) /\
    h' = mkSlice (s_arr h) (s_off h) (s_len h - 1) (s_cap h) /\
    same_except m m' (s_arr h) (s_off h) (s_off h + s_len h).
Proof.
  intros Hwf [D1 _] Hlen. pose proof Hwf as (Q1 & Q2 & Q3 & Q4).
  unfold PopHeapFunc. rewrite bind_get_hdr. cbv zeta.
  set (l := contents m h) in *. set (n := s_len h - 1).
  assert (Hz : zlen l = s_len h) by now apply zlen_contents.
  pose proof (wswap_ok l 0 n ltac:(lia) ltac:(lia)) as Hsw.
  rewrite (bind_Ok _ _ _ _ _ (lift_mem_ok _ m h _ _ (on_slice_start m h (heapSwap 0 n) _ _ Hwf Hsw))).
  destruct (zget_range l 0) as [x Hx]; [lia|].
  destruct (heapDownFunc_spec less SW (zswap l 0 n) n 0 0) as (b & w & Hrun & Hp & Hl & Ha & _ & _ & Hr);
    rewrite ?zlen_zswap; try lia.
  { split; [|intros; lia].
    intros c Hc _ Hpc Hc0 a b Ga Gb. rewrite zget_zswap in Ga, Gb by lia.
    destruct (Z.eqb_spec ((c - 1) / 2) n); [lia|]. destruct (Z.eqb_spec ((c - 1) / 2) 0); [lia|].
    destruct (Z.eqb_spec c n); [lia|]. destruct (Z.eqb_spec c 0); [lia|].
    apply (D1 c ltac:(lia) ltac:(lia) Hpc Hc0 a b); auto. }
  assert (Hsl : zlen (zswap l 0 n) = s_len h) by (rewrite zlen_zswap; auto).
  rewrite zlen_zswap in Hl.
  rewrite (bind_Ok _ _ _ _ _ (lift_mem_ok _ _ h _ _ (on_slice_at m h _ (heapDownFunc less 0 n) _ _ Hwf Hsl Hrun ltac:(lia)))).
  assert (Hwn : zget w n = Some x).
  { rewrite (Ha n) by lia. rewrite zget_zswap by lia. now rewrite Z.eqb_refl. }
  rewrite (finish_remove m h w n x) by (auto; lia).
  exists x, (write_at m h 0 w), (mkSlice (s_arr h) (s_off h) n (s_cap h)).
  split; [reflexivity|]. split; [auto|].
  split.
  { pose proof (wf_write_self m h w Hwf ltac:(lia)) as (K1 & K2 & K3 & K4).
    unfold wf_slice, arr_of in *. simpl. lia. }
  rewrite contents_sub by (auto; lia).
  split; [apply heap_from_sub; [lia|]; intros c Hc _; apply Hr; lia|].
  split; [rewrite <- (perm_last w n x) by (auto; lia); rewrite Hp; apply zswap_perm|].
  split; [auto|]. apply same_except_write; auto. lia.
Qed.
Lemma zget_here (l : list T) p y : zget l p = Some y -> In y l.
Proof using Type. intros G. apply in_zget. exists p. split; auto. now apply zget_Some_range in G. Qed.
Lemma store_one i v l : 0 <= i < zlen l -> but_one i less l less (zupd l i v).
Proof using Type.
  intros Hi. split; [apply zlen_zupd|]. intros p q a b a' b' Hp Hq Ga Gb Ga' Gb'. rewrite zget_zupd_ne in Ga', Gb' by auto. congruence.
Qed.
Lemma update_ok zero grow i v m h :
  wf_slice m h -> min_heap less (contents m h) -> 0 <= i < s_len h -> s_len h <= max_int ->
  exists m' h', update_elem zero grow less i v (m, h) = (Ok tt, (m', h')) /\ wf_slice m' h' /\ min_heap less (contents m' h') /\
    Permutation (contents m' h') (zupd (contents m h) i v) /\ h' = h /\ same_except m m' (s_arr h) (s_off h) (s_off h + s_len h).
Proof.
  intros Hwf Hh Hi Hmax. pose proof Hwf as (Q1 & Q2 & Q3 & Q4). pose proof (zlen_contents m h Hwf) as Hz.
  unfold update_elem. set (l1 := zupd (contents m h) i v). set (m1 := write_at m h 0 l1).
  assert (Hl1 : zlen l1 = s_len h) by (unfold l1; now rewrite zlen_zupd).
  assert (E : store_elem i v (m, h) = (Ok tt, (m1, h))).
  { unfold store_elem. rewrite bind_get_hdr. apply lift_mem_ok. apply on_slice_start; auto. apply wstore_ok. lia. }
  rewrite (bind_Ok _ _ _ _ _ E).
  assert (W1 : wf_slice m1 h) by now apply wf_write_self.
  assert (C1 : contents m1 h = l1) by now apply contents_write_at.
  destruct (remove_changed i m1 h W1) as (x & m2 & h2 & E2 & G2 & W2 & H2 & P2 & -> & S2); auto.
  { rewrite C1. rewrite <- Hl1. apply (but_one_down less less SW i (contents m h)); auto. apply store_one. lia. }
  rewrite (bind_Ok _ _ _ _ _ E2).
  destruct (PushHeapFunc_ok less SW zero grow x m2 _ W2 H2) as (m3 & h3 & E3 & W3 & H3 & P3 & F3). exists m3, h3. split; auto. split; auto. split; auto.
  split; [now rewrite P3, P2, C1|]. destruct F3 as [F0 F3]. cbn [s_len s_cap s_arr s_off] in *. replace (s_len h - 1 + 1) with (s_len h) in * by lia. destruct (Z.leb_spec (s_len h) (s_cap h)); [|lia]. destruct F3 as (F1 & F2 & F3 & F4).
  split; [destruct h, h3; cbn in *; congruence|]. apply same_except_trans with m1; [apply same_except_write; auto|]. apply same_except_trans with m2; auto.
Qed.
Lemma top_changed (less0 : T -> T -> bool) i l0 l r x : strict_weak less0 -> min_heap less0 l0 -> but_one i less0 l0 less l -> i <> 0 ->
  zget l 0 = Some r -> zget l i = Some x -> least less l r <-> less x r = false.
Proof.
  intros SW0 Hh (Hl & Hc) Hi Gr Gx. split; [intros (_ & H); apply H; eapply zget_here; eauto|]. intros Hx. split; [eapply zget_here; eauto|].
  intros y Hy. apply in_zget in Hy. destruct Hy as (p & Hp & Gy). destruct (Z.eq_dec p i) as [->|N]; [congruence|].
  destruct (zget_range l0 0) as [r0 Gr0]; [lia|]. destruct (zget_range l0 p) as [y0 Gy0]; [lia|]. rewrite (Hc p 0 y0 r0 y r); auto. apply (heap_root_min less0 SW0 l0); auto. eapply zget_here; eauto.
Qed.
End Remove.
