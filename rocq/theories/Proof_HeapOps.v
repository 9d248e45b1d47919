(** Push, Pop and Remove of heap.go on a slice variable. *)
From Verif Require Import BaseLemmas Spec Proof_Mem Model_Heap Proof_Heap.

Section HeapOps.
Context {T : Type}.
Variable less : T -> T -> bool.
Hypothesis SW : strict_weak less.
Implicit Types (l w : list T) (m : mem T) (h : slice).

Lemma PushHeapFunc_ok zero grow v m h :
  wf_slice m h -> min_heap less (contents m h) ->
  exists m' h', PushHeapFunc zero grow v less (m, h) = (Ok tt, (m', h')) /\
    wf_slice m' h' /\ min_heap less (contents m' h') /\
    Permutation (contents m' h') (v :: contents m h) /\
    append_frame m m' h h' (s_len h + 1).
Proof.
  intros Hwf Hh. unfold PushHeapFunc. rewrite bind_get_hdr.
  destruct (append_list_ok zero grow h [v] m Hwf) as (h1 & m1 & Happ & Hwf1 & Hc1 & Hlen1 & Hfr).
  change (zlen [v]) with 1 in *.
  rewrite (bind_Ok _ _ _ _ _ (lift_mem_ok _ m h _ _ Happ)).
  rewrite bind_set_hdr.
  pose proof Hwf as (Q1 & Q2 & Q3 & Q4). pose proof Hwf1 as (R1 & R2 & R3 & R4).
  assert (Hz : zlen (contents m h) = s_len h) by now apply zlen_contents.
  assert (Hz1 : zlen (contents m1 h1) = s_len h + 1) by (rewrite zlen_contents; auto).
  destruct (heapUpFunc_spec less SW (contents m1 h1) (s_len h + 1) (s_len h)) as (w & Hrun & Hp & Hl & Ha & Hhp); try lia.
  { split.
    - intros c Hc Hne a b Ga Gb. rewrite Hc1 in Ga, Gb.
      rewrite zget_app_l in Ga, Gb by lia. apply (Hh c a b); auto; lia.
    - intros; lia. }
  replace (s_len h1 - 1) with (s_len h) by lia.
  rewrite (lift_mem_ok _ m1 h1 _ _ (on_slice_start m1 h1 _ _ _ Hwf1 Hrun)).
  assert (Hlw : zlen w = s_len h1) by lia.
  exists (write_at m1 h1 0 w), h1. split; [reflexivity|].
  split; [now apply wf_write_self|].
  rewrite contents_write_at by auto.
  split; [apply (heap_from_min_heap less w); now rewrite Hlw, Hlen1|].
  split; [rewrite Hp, Hc1; apply Permutation_sym, Permutation_cons_append|].
  split; [lia|].
  destruct (Z.leb_spec (s_len h + 1) (s_cap h)).
  - destruct Hfr as (F1 & F2 & F3 & F4). do 3 (split; [auto|]).
    apply same_except_trans with m1.
    + rewrite F4. change (zlen [v]) with 1. apply same_except_write_at; auto; change (zlen [v]) with 1; lia.
    + rewrite <- F1. apply same_except_write_at; auto; lia.
  - destruct Hfr as (F1 & F2 & F3 & F4). repeat split; auto; try lia; try apply F4.
    + rewrite write_at_length. apply F4.
    + intros a Ha'. rewrite write_at_nth_other by lia. now apply F4.
Qed.

Lemma perm_last w n x : zget w n = Some x -> zlen w = n + 1 -> Permutation w (x :: zsub w 0 n).
Proof using Type.
  intros Hx Hl. pose proof (zget_Some_range _ _ _ Hx) as Hr.
  assert (w = zsub w 0 n ++ [x]) as E.
  { apply zlist_eq. intros i Hi. rewrite zget_app, zlen_zsub by lia.
    destruct (Z.ltb_spec i (n - 0)).
    - rewrite zget_zsub by lia. destruct (Z.ltb_spec i (n - 0)); [auto|lia].
    - destruct (Z.eq_dec i n) as [->|].
      + replace (n - (n - 0)) with 0 by lia. auto.
      + rewrite (proj2 (zget_None w i)) by lia. symmetry. apply zget_None. change (zlen [x]) with 1. lia. }
  rewrite E at 1. rewrite <- Permutation_cons_append. auto.
Qed.

(** Common tail: n+1 window w, reslice to n, read h[n]. *)
Lemma finish_remove m h w n x :
  wf_slice m h -> zlen w = s_len h -> s_len h = n + 1 -> 0 <= n ->
  zget w n = Some x ->
  (h' <- lift_o (reslice h 0 n) ;; set_hdr h' ;; lift_mem (on_slice h (wload n))) (write_at m h 0 w, h)
   = (Ok x, (write_at m h 0 w, mkSlice (s_arr h) (s_off h) n (s_cap h))).
Proof using Type.
  intros Hwf Hw Hn Hn0 Hx. pose proof Hwf as (Q1 & Q2 & Q3 & Q4).
  rewrite reslice_ok by lia. unfold lift_o, bind at 1. cbv beta iota.
  rewrite Z.add_0_r, !Z.sub_0_r.
  match goal with |- bind (set_hdr ?s) _ _ = _ => set (h' := s) end.
  rewrite bind_set_hdr.
  apply lift_mem_ok. apply on_slice_at; auto. now apply wload_ok.
Qed.

Lemma PopHeapFunc_ok m h :
  wf_slice m h -> min_heap less (contents m h) -> 0 < s_len h <= max_int ->
  exists x m' h', PopHeapFunc less (m, h) = (Ok x, (m', h')) /\
    zget (contents m h) 0 = Some x /\
    wf_slice m' h' /\ min_heap less (contents m' h') /\
    Permutation (x :: contents m' h') (contents m h) /\
    h' = mkSlice (s_arr h) (s_off h) (s_len h - 1) (s_cap h) /\
    same_except m m' (s_arr h) (s_off h) (s_off h + s_len h).
Proof.
  intros Hwf Hh Hlen. pose proof Hwf as (Q1 & Q2 & Q3 & Q4).
  unfold PopHeapFunc. rewrite bind_get_hdr. cbv zeta.
  set (l := contents m h) in *. set (n := s_len h - 1).
  assert (Hz : zlen l = s_len h) by now apply zlen_contents.
  pose proof (wswap_ok l 0 n ltac:(lia) ltac:(lia)) as Hsw.
  rewrite (bind_Ok _ _ _ _ _ (lift_mem_ok _ m h _ _ (on_slice_start m h (heapSwap 0 n) _ _ Hwf Hsw))).
  destruct (zget_range l 0) as [x Hx]; [lia|].
  destruct (heapDownFunc_spec less SW (zswap l 0 n) n 0 0) as (b & w & Hrun & Hp & Hl & Ha & _ & _ & Hr);
    rewrite ?zlen_zswap; try lia.
  { split; [|intros; lia].
    intros c Hc _ Hpc Hc0 a b Ga Gb. rewrite zget_zswap in Ga, Gb by lia.
    destruct (Z.eqb_spec ((c - 1) / 2) n); [lia|]. destruct (Z.eqb_spec ((c - 1) / 2) 0); [lia|].
    destruct (Z.eqb_spec c n); [lia|]. destruct (Z.eqb_spec c 0); [lia|].
    apply (Hh c a b); auto; lia. }
  assert (Hsl : zlen (zswap l 0 n) = s_len h) by (rewrite zlen_zswap; auto).
  rewrite zlen_zswap in Hl.
  rewrite (bind_Ok _ _ _ _ _ (lift_mem_ok _ _ h _ _ (on_slice_at m h _ (heapDownFunc less 0 n) _ _ Hwf Hsl Hrun ltac:(lia)))).
  assert (Hwn : zget w n = Some x).
  { rewrite (Ha n) by lia. rewrite zget_zswap by lia. now rewrite Z.eqb_refl. }
  rewrite (finish_remove m h w n x) by (auto; lia).
  exists x, (write_at m h 0 w), (mkSlice (s_arr h) (s_off h) n (s_cap h)).
  split; [reflexivity|]. split; [auto|].
  split.
  { pose proof (wf_write_self m h w Hwf ltac:(lia)) as (K1 & K2 & K3 & K4).
    unfold wf_slice, arr_of in *. simpl. lia. }
  rewrite contents_sub by (auto; lia).
  split; [apply heap_from_sub; [lia|]; intros c Hc _; apply Hr; lia|].
  split; [rewrite <- (perm_last w n x) by (auto; lia); rewrite Hp; apply zswap_perm|].
  split; [auto|]. apply same_except_write; auto. lia.
Qed.

Lemma RemoveHeapFunc_ok i m h :
  wf_slice m h -> min_heap less (contents m h) -> 0 <= i < s_len h -> s_len h <= max_int ->
  exists x m' h', RemoveHeapFunc i less (m, h) = (Ok x, (m', h')) /\
    zget (contents m h) i = Some x /\
    wf_slice m' h' /\ min_heap less (contents m' h') /\
    Permutation (x :: contents m' h') (contents m h) /\
    h' = mkSlice (s_arr h) (s_off h) (s_len h - 1) (s_cap h) /\
    same_except m m' (s_arr h) (s_off h) (s_off h + s_len h).
Proof.
  intros Hwf Hh Hi Hmax. pose proof Hwf as (Q1 & Q2 & Q3 & Q4).
  unfold RemoveHeapFunc. rewrite bind_get_hdr. cbv zeta.
  set (l := contents m h) in *. set (n := s_len h - 1).
  assert (Hz : zlen l = s_len h) by now apply zlen_contents.
  destruct (zget_range l i) as [x Hx]; [lia|].
  assert (Hmid : exists w,
    (if n =? i then ret tt
     else lift_mem (on_slice h (heapSwap i n)) ;;
        b <- lift_mem (on_slice h (heapDownFunc less i n)) ;;
        if b : bool then ret tt else lift_mem (on_slice h (heapUpFunc less i))) (m, h)
    = (Ok tt, (write_at m h 0 w, h)) /\
    zlen w = s_len h /\ zget w n = Some x /\ Permutation w l /\ heap_from less w n 0).
  { destruct (Z.eqb_spec n i) as [E|E].
    - exists l. unfold l. rewrite write_at_same by auto. fold l. split; [reflexivity|]. split; [auto|].
      split; [congruence|]. split; [auto|]. intros c Hc _ a b Ga Gb. apply (Hh c a b); auto; lia.
    - pose proof (wswap_ok l i n ltac:(lia) ltac:(lia)) as Hsw.
      rewrite (bind_Ok _ _ _ _ _ (lift_mem_ok _ m h _ _ (on_slice_start m h (heapSwap i n) _ _ Hwf Hsw))).
      assert (Hg : forall c, c <> i -> c < n -> zget (zswap l i n) c = zget l c).
      { intros c H1 H2. rewrite zget_zswap by lia.
        destruct (Z.eqb_spec c n); [lia|]. destruct (Z.eqb_spec c i); [lia|auto]. }
      assert (Hch : 0 < i -> forall c a b, 0 < c < n -> (c - 1) / 2 = i ->
        zget (zswap l i n) ((i - 1) / 2) = Some a -> zget (zswap l i n) c = Some b -> less b a = false).
      { intros Hi0 c a b Hc Hpc Ga Gb. rewrite Hg in Ga, Gb by lia.
        apply (sw_negtrans _ SW b x a).
        - apply (Hh c x b); auto; [lia|now rewrite Hpc].
        - apply (Hh i a x); auto; lia. }
      destruct (heapDownFunc_spec less SW (zswap l i n) n 0 i) as (b & w & Hrun & Hp & Hl & Ha & Hb0 & Hb1 & Hr);
        rewrite ?zlen_zswap; try lia.
      { split; [|intros K1 _; apply Hch, K1].
        intros c Hc _ Hpc Hc0 a b Ga Gb. rewrite Hg in Ga, Gb by lia. apply (Hh c a b); auto; lia. }
      assert (Hsl : zlen (zswap l i n) = s_len h) by (rewrite zlen_zswap; auto).
      rewrite zlen_zswap in Hl.
      assert (Hlw : zlen w = s_len h) by lia.
      assert (Hwn : zget w n = Some x).
      { rewrite (Ha n) by lia. rewrite zget_zswap by lia. now rewrite Z.eqb_refl. }
      rewrite (bind_Ok _ _ _ _ _ (lift_mem_ok _ _ h _ _ (on_slice_at m h _ (heapDownFunc less i n) _ _ Hwf Hsl Hrun Hlw))).
      destruct b.
      + exists w. split; [reflexivity|]. split; [auto|]. split; [auto|].
        split; [rewrite Hp; apply zswap_perm|]. now apply Hb1.
      + specialize (Hb0 eq_refl). subst w.
        destruct (heapUpFunc_spec less SW (zswap l i n) n i) as (w & Hrun2 & Hp2 & Hl2 & Ha2 & Hh2); try lia.
        { split; [|auto]. intros c Hc Hne. apply Hr; auto; lia. }
        exists w. rewrite (lift_mem_ok _ _ h _ _ (on_slice_at m h _ (heapUpFunc less i) _ _ Hwf Hsl Hrun2 ltac:(lia))).
        split; [reflexivity|]. split; [lia|]. split; [rewrite (Ha2 n) by lia; auto|].
        split; [rewrite Hp2; apply zswap_perm|auto]. }
  destruct Hmid as (w & Hrun & Hlw & Hwn & Hp & Hhp).
  rewrite (bind_Ok _ _ _ _ _ Hrun).
  rewrite (finish_remove m h w n x) by (auto; lia).
  exists x, (write_at m h 0 w), (mkSlice (s_arr h) (s_off h) n (s_cap h)).
  split; [reflexivity|]. split; [auto|].
  split.
  { pose proof (wf_write_self m h w Hwf ltac:(lia)) as (K1 & K2 & K3 & K4).
    unfold wf_slice, arr_of in *. simpl. lia. }
  rewrite contents_sub by (auto; lia).
  split; [apply heap_from_sub; [lia|auto]|].
  split; [rewrite <- (perm_last w n x) by (auto; lia); auto|].
  split; [auto|]. apply same_except_write; auto.
Qed.

(** Panics *)
Lemma swap_panic m h i j :
  wf_slice m h -> ~ (0 <= i < s_len h /\ 0 <= j < s_len h) ->
  lift_mem (on_slice h (heapSwap i j)) (m, h) = (Panic, (m, h)).
Proof using Type.
  intros Hwf Hr. unfold lift_mem. simpl.
  rewrite (on_slice_run h (heapSwap i j) m Panic (contents m h)).
  - now rewrite write_at_same.
  - pose proof (zlen_contents m h Hwf) as Hz. unfold heapSwap, wswap, bind, wload.
    destruct (zget (contents m h) j) eqn:Ej; auto.
    destruct (zget (contents m h) i) eqn:Ei; auto.
    exfalso. apply Hr. apply zget_Some_range in Ei, Ej. lia.
Qed.

Lemma PopHeapFunc_panic m h :
  wf_slice m h -> s_len h = 0 -> PopHeapFunc less (m, h) = (Panic, (m, h)).
Proof using Type.
  intros Hwf Hl. unfold PopHeapFunc. rewrite bind_get_hdr. cbv zeta.
  unfold bind at 1. rewrite swap_panic; auto. lia.
Qed.

Lemma RemoveHeapFunc_panic i m h :
  wf_slice m h -> ~ (0 <= i < s_len h) -> RemoveHeapFunc i less (m, h) = (Panic, (m, h)).
Proof using Type.
  intros Hwf Hi. pose proof Hwf as (Q1 & Q2 & Q3 & Q4).
  unfold RemoveHeapFunc. rewrite bind_get_hdr. cbv zeta.
  destruct (Z.eqb_spec (s_len h - 1) i).
  - unfold bind, ret. unfold lift_o. rewrite reslice_panic by lia. reflexivity.
  - unfold bind. rewrite swap_panic; auto. lia.
Qed.

(** *** IsHeapFunc: what it computes *)
Lemma IsHeapFunc_loop_spec fuel : forall l c,
  0 < c -> zlen l <= c + Z.of_nat fuel ->
  (forall d a b, 0 < d < c -> zget l ((d - 1) / 2) = Some a -> zget l d = Some b -> less a b = true) ->
  exists b, IsHeapFunc_loop less fuel l ((c - 1) / 2) c = Ok b /\
    (b = true <-> forall d a b, 0 < d -> zget l ((d - 1) / 2) = Some a -> zget l d = Some b -> less a b = true).
Proof using Type.
  induction fuel as [|f IH]; intros l c Hc Hf H.
  - simpl. destruct (Z.ltb_spec c (zlen l)); [lia|]. exists true. split; auto. split; auto.
    intros _ d a b Hd Ga Gb. pose proof (zget_Some_range _ _ _ Gb). apply (H d); auto; lia.
  - cbn [IsHeapFunc_loop]. destruct (Z.ltb_spec c (zlen l)) as [L|L].
    2:{ exists true. split; auto. split; auto.
        intros _ d a b Hd Ga Gb. pose proof (zget_Some_range _ _ _ Gb). apply (H d); auto; lia. }
    unfold at_. destruct (zget_range l ((c - 1) / 2)) as [a Ea]; [lia|].
    destruct (zget_range l c) as [b Eb]; [lia|]. rewrite Ea, Eb. simpl.
    destruct (less a b) eqn:El; simpl.
    + rewrite land1_odd.
      replace (if c mod 2 =? 0 then (c - 1) / 2 + 1 else (c - 1) / 2) with ((c + 1 - 1) / 2)
        by (destruct (Z.eqb_spec (c mod 2) 0); lia).
      apply IH; try lia. intros d x y Hd Hx Hy. destruct (Z.eq_dec d c) as [->|].
      * congruence.
      * apply (H d); auto; lia.
    + exists false. split; auto. split; [discriminate|]. intros K.
      rewrite (K c a b) in El; auto.
Qed.

Lemma IsHeapFunc_spec l : exists b, IsHeapFunc l less = Ok b /\
  (b = true <-> forall d a b, 0 < d -> zget l ((d - 1) / 2) = Some a -> zget l d = Some b -> less a b = true).
Proof using Type.
  unfold IsHeapFunc. apply (IsHeapFunc_loop_spec (length l) l 1); try (unfold zlen; lia).
Qed.

(** *** Popping until empty *)
Lemma drain_sorted : forall n m h,
  wf_slice m h -> min_heap less (contents m h) -> s_len h = Z.of_nat n -> s_len h <= max_int ->
  exists out m' h', drain (PopHeapFunc less) n (m, h) = (Ok out, (m', h')) /\
    s_len h' = 0 /\ Permutation out (contents m h) /\ sorted_by less out.
Proof.
  induction n as [|n IH]; intros m h Hwf Hh Hl Hmax.
  - exists [], m, h. split; [reflexivity|]. split; [auto|].
    pose proof (zlen_contents m h Hwf) as Hz. rewrite Hl in Hz.
    destruct (contents m h); [|rewrite zlen_cons in Hz; pose proof (zlen_nonneg l); lia].
    split; auto. intros i j a b _ Ha. pose proof (zget_Some_range _ _ _ Ha) as K. simpl in K. unfold zlen in K. simpl in K. lia.
  - destruct (PopHeapFunc_ok m h Hwf Hh ltac:(lia)) as (x & m1 & h1 & Hrun & Hx & Hwf1 & Hh1 & Hp & Hh1eq & _).
    destruct (IH m1 h1 Hwf1 Hh1) as (out & m2 & h2 & Hrun2 & Hl2 & Hp2 & Hs2); [rewrite Hh1eq; simpl; lia..|].
    exists (x :: out), m2, h2. cbn [drain]. rewrite (bind_Ok _ _ _ _ _ Hrun), (bind_Ok _ _ _ _ _ Hrun2).
    split; [reflexivity|]. split; [auto|]. split; [rewrite Hp2; auto|].
    intros i j a b Hij Ha Hb. destruct (Z.eq_dec i 0) as [->|].
    + rewrite zget_cons_0 in Ha. inversion Ha; subst a. apply (heap_root_min less SW (contents m h)); auto.
      assert (In b (x :: out)) as Hin by (apply in_zget; exists j; split; auto; apply zget_Some_range in Hb; auto).
      rewrite <- Hp. rewrite <- Hp2. auto.
    +
      rewrite zget_cons_S in Ha, Hb by lia. apply (Hs2 (i - 1) (j - 1) a b); auto; lia.
Qed.

End HeapOps.
