(** heap.go under an arbitrary less function (inconsistent comparators, floats
    with NaN): no panic, no endless loop, nothing lost. *)
From Verif Require Import BaseLemmas Spec Proof_Mem Model_Heap Proof_Heap Proof_HeapOps.

Section Total.
Context {T : Type}.
Variable less : T -> T -> bool.
Implicit Types (l w : list T) (m : mem T) (h : slice).

Lemma down_loop_total fuel : forall l n i0 i,
  0 <= i <= n -> n <= zlen l -> n <= max_int ->
  (1 <= fuel)%nat -> n < (i + 1) * 2 ^ Z.of_nat fuel ->
  exists b l', heapDownFunc_loop less fuel i0 n i l = (Ok b, l') /\
    Permutation l' l /\ zlen l' = zlen l /\ above_same l l' n.
Proof.
  induction fuel as [|f IH]; intros l n i0 i Hi Hn Hmax Hf1 Hf; [lia|].
  cbn [heapDownFunc_loop]. cbv zeta.
  pose proof (wrap64_child i n ltac:(lia) Hmax ltac:(lia)) as Hw. cbv zeta in Hw.
  destruct ((wrap64 (2 * i + 1) >=? n) || (wrap64 (2 * i + 1) <? 0)) eqn:Ebr.
  { exists (i >? i0), l. repeat split; auto. }
  destruct Hw as [-> Hj1]. clear Ebr.
  destruct (zget_range l (2 * i + 1)) as [h1 E1]; [lia|].
  destruct (zget_range l i) as [hi Ei]; [lia|].
  assert (Hright : exists r : bool,
    (if 2 * i + 1 + 1 <? n
     then h2 <- wload (2 * i + 1 + 1);; h1 <- wload (2 * i + 1);; ret (less h2 h1)
     else ret false) l = (Ok r, l) /\
    (if r then 2 * i + 2 < n else True)).
  { destruct (Z.ltb_spec (2 * i + 1 + 1) n) as [L2|L2].
    - destruct (zget_range l (2 * i + 1 + 1)) as [h2 E2]; [lia|].
      exists (less h2 h1). unfold bind. rewrite (wload_ok _ _ _ E2), (wload_ok _ _ _ E1).
      split; [reflexivity|]. destruct (less h2 h1); auto; lia.
    - exists false. split; [reflexivity|auto]. }
  destruct Hright as (r & Er & Hrn).
  rewrite (bind_Ok _ _ _ _ _ Er).
  set (j := if r then 2 * i + 1 + 1 else 2 * i + 1) in *.
  assert (Hj : j = 2 * i + 1 \/ j = 2 * i + 2) by (unfold j; destruct r; lia).
  assert (Hjn : j < n) by (unfold j; destruct r; lia).
  destruct (zget_range l j) as [hj Ej]; [lia|].
  rewrite (bind_Ok _ _ _ _ _ (wload_ok _ _ _ Ej)).
  rewrite (bind_Ok _ _ _ _ _ (wload_ok _ _ _ Ei)).
  destruct (less hj hi) eqn:Eless; cbn [negb].
  2:{ exists (i >? i0), l. repeat split; auto. }
  unfold heapSwap. rewrite (bind_Ok _ _ _ _ _ (wswap_ok l i j ltac:(lia) ltac:(lia))).
  destruct (IH (zswap l i j) n i0 j) as (b & l' & Hrun & Hperm & Hlen & Habove);
    rewrite ?zlen_zswap; try lia.
  - destruct f; [|lia]. simpl in Hf. lia.
  - rewrite Nat2Z.inj_succ, Z.pow_succ_r in Hf by lia.
    assert (0 < 2 ^ Z.of_nat f) by (apply Z.pow_pos_nonneg; lia). nia.
  - exists b, l'. split; [auto|]. split; [rewrite Hperm; apply zswap_perm|].
    split; [rewrite Hlen; apply zlen_zswap|].
    intros k Hk; rewrite Habove by auto; apply (above_same_swap l i j n); lia.
Qed.

Lemma down_total l n i0 :
  0 <= i0 <= n -> n <= zlen l -> n <= max_int ->
  exists b l', heapDownFunc less i0 n l = (Ok b, l') /\
    Permutation l' l /\ zlen l' = zlen l /\ above_same l l' n.
Proof.
  intros H0 Hn Hmax. apply down_loop_total; auto; try lia.
  pose proof (pow2_gt_S n ltac:(lia)). nia.
Qed.

Lemma up_loop_total fuel : forall l j,
  0 <= j < zlen l -> j + 1 < 2 ^ Z.of_nat fuel ->
  exists l', heapUpFunc_loop less fuel j l = (Ok tt, l') /\
    Permutation l' l /\ zlen l' = zlen l /\ above_same l l' (j + 1).
Proof.
  induction fuel as [|f IH]; intros l j Hj Hf; [simpl in Hf; lia|].
  cbn [heapUpFunc_loop]. cbv zeta.
  destruct (Z.eqb_spec (Z.quot (j - 1) 2) j) as [E|E].
  { exists l. repeat split; auto. }
  assert (0 < j).
  { destruct (Z.eq_dec j 0) as [->|]; [cbv in E|]; lia. }
  rewrite quot_parent in * by lia. set (i := (j - 1) / 2) in *.
  destruct (zget_range l j) as [xj Ej]; [lia|]. destruct (zget_range l i) as [xi Ei]; [lia|].
  rewrite (bind_Ok _ _ _ _ _ (wload_ok _ _ _ Ej)). rewrite (bind_Ok _ _ _ _ _ (wload_ok _ _ _ Ei)).
  destruct (less xj xi) eqn:El; cbn [negb].
  2:{ exists l. repeat split; auto. }
  unfold heapSwap. rewrite (bind_Ok _ _ _ _ _ (wswap_ok l i j ltac:(lia) ltac:(lia))).
  destruct (IH (zswap l i j) i) as (l' & Hrun & Hp & Hl & Ha); rewrite ?zlen_zswap; try lia.
  - rewrite Nat2Z.inj_succ, Z.pow_succ_r in Hf by lia. lia.
  - exists l'. split; [auto|]. split; [rewrite Hp; apply zswap_perm|].
    split; [rewrite Hl; apply zlen_zswap|].
    intros k Hk. rewrite Ha by lia. apply (above_same_swap l i j (j + 1)); lia.
Qed.

Lemma up_total l j :
  0 <= j < zlen l ->
  exists l', heapUpFunc less j l = (Ok tt, l') /\
    Permutation l' l /\ zlen l' = zlen l /\ above_same l l' (j + 1).
Proof.
  intros Hj. apply up_loop_total; auto.
  pose proof (pow2_gt_S j ltac:(lia)). rewrite (Nat2Z.inj_succ (S _)), Z.pow_succ_r by lia. lia.
Qed.

Lemma make_loop_total fuel : forall l i,
  -1 <= i -> i < Z.of_nat fuel -> i < zlen l -> zlen l <= max_int ->
  exists l', MakeHeapFunc_loop less fuel (zlen l) i l = (Ok tt, l') /\
    Permutation l' l /\ zlen l' = zlen l.
Proof.
  induction fuel as [|f IH]; intros l i Hi Hf Hil Hmax.
  - assert (i = -1) as -> by lia. simpl. exists l. repeat split; auto.
  - cbn [MakeHeapFunc_loop]. destruct (i >=? 0) eqn:E.
    2:{ assert (i = -1) as -> by lia. exists l. repeat split; auto. }
    destruct (down_total l (zlen l) i) as (b & l1 & Hrun & Hp & Hl & Ha); try lia.
    rewrite (bind_Ok _ _ _ _ _ Hrun). rewrite <- Hl.
    destruct (IH l1 (i - 1)) as (l' & Hrun' & Hp' & Hl'); try lia.
    exists l'. split; [auto|]. split; [now rewrite Hp', Hp|]. lia.
Qed.

Lemma make_total l :
  zlen l <= max_int -> exists l', MakeHeapFunc less l = (Ok tt, l') /\ Permutation l' l /\ zlen l' = zlen l.
Proof.
  intros Hmax. unfold MakeHeapFunc, bind, wlen. pose proof (zlen_nonneg l).
  apply make_loop_total; rewrite ?Z.quot_div_nonneg by lia; lia.
Qed.

Lemma push_total zero grow v m h :
  wf_slice m h ->
  exists m' h', PushHeapFunc zero grow v less (m, h) = (Ok tt, (m', h')) /\
    wf_slice m' h' /\ Permutation (contents m' h') (v :: contents m h).
Proof.
  intros Hwf. unfold PushHeapFunc. rewrite bind_get_hdr.
  destruct (append_list_ok zero grow h [v] m Hwf) as (h1 & m1 & Happ & Hwf1 & Hc1 & Hlen1 & Hfr).
  change (zlen [v]) with 1 in *.
  rewrite (bind_Ok _ _ _ _ _ (lift_mem_ok _ m h _ _ Happ)), bind_set_hdr.
  pose proof Hwf as (Q1 & Q2 & Q3 & Q4).
  assert (Hz1 : zlen (contents m1 h1) = s_len h1) by (apply zlen_contents; auto).
  destruct (up_total (contents m1 h1) (s_len h1 - 1)) as (w & Hrun & Hp & Hl & Ha); try lia.
  rewrite (lift_mem_ok _ m1 h1 _ _ (on_slice_start m1 h1 _ _ _ Hwf1 Hrun)).
  exists (write_at m1 h1 0 w), h1. split; [reflexivity|].
  split; [apply wf_write_self; auto; lia|].
  rewrite contents_write_at by (auto; lia).
  rewrite Hp, Hc1. apply Permutation_sym, Permutation_cons_append.
Qed.

Lemma pop_total m h :
  wf_slice m h -> 0 < s_len h <= max_int ->
  exists x m' h', PopHeapFunc less (m, h) = (Ok x, (m', h')) /\
    zget (contents m h) 0 = Some x /\ wf_slice m' h' /\
    Permutation (x :: contents m' h') (contents m h).
Proof.
  intros Hwf Hlen. pose proof Hwf as (Q1 & Q2 & Q3 & Q4).
  unfold PopHeapFunc. rewrite bind_get_hdr. cbv zeta.
  set (l := contents m h) in *. set (n := s_len h - 1).
  assert (Hz : zlen l = s_len h) by now apply zlen_contents.
  pose proof (wswap_ok l 0 n ltac:(lia) ltac:(lia)) as Hsw.
  rewrite (bind_Ok _ _ _ _ _ (lift_mem_ok _ m h _ _ (on_slice_start m h (heapSwap 0 n) _ _ Hwf Hsw))).
  destruct (zget_range l 0) as [x Hx]; [lia|].
  destruct (down_total (zswap l 0 n) n 0) as (b & w & Hrun & Hp & Hl & Ha); rewrite ?zlen_zswap; try lia.
  assert (Hsl : zlen (zswap l 0 n) = s_len h) by (rewrite zlen_zswap; auto).
  rewrite zlen_zswap in Hl.
  rewrite (bind_Ok _ _ _ _ _ (lift_mem_ok _ _ h _ _ (on_slice_at m h _ (heapDownFunc less 0 n) _ _ Hwf Hsl Hrun ltac:(lia)))).
  assert (Hwn : zget w n = Some x).
  { rewrite (Ha n) by lia. rewrite zget_zswap by lia. now rewrite Z.eqb_refl. }
  rewrite (finish_remove m h w n x) by (auto; lia).
  exists x, (write_at m h 0 w), (mkSlice (s_arr h) (s_off h) n (s_cap h)).
  split; [reflexivity|]. split; [auto|].
  split.
  { pose proof (wf_write_self m h w Hwf ltac:(lia)) as (K1 & K2 & K3 & K4).
    unfold wf_slice, arr_of in *. simpl. lia. }
  rewrite contents_sub by (auto; lia).
  rewrite <- (perm_last w n x) by (auto; lia); rewrite Hp; apply zswap_perm.
Qed.

Lemma remove_total i m h :
  wf_slice m h -> 0 <= i < s_len h -> s_len h <= max_int ->
  exists x m' h', RemoveHeapFunc i less (m, h) = (Ok x, (m', h')) /\
    zget (contents m h) i = Some x /\ wf_slice m' h' /\
    Permutation (x :: contents m' h') (contents m h).
Proof.
  intros Hwf Hi Hmax. pose proof Hwf as (Q1 & Q2 & Q3 & Q4).
  unfold RemoveHeapFunc. rewrite bind_get_hdr. cbv zeta.
  set (l := contents m h) in *. set (n := s_len h - 1).
  assert (Hz : zlen l = s_len h) by now apply zlen_contents.
  destruct (zget_range l i) as [x Hx]; [lia|].
  assert (Hmid : exists w,
    (if n =? i then ret tt
     else lift_mem (on_slice h (heapSwap i n)) ;;
        b <- lift_mem (on_slice h (heapDownFunc less i n)) ;;
        if b : bool then ret tt else lift_mem (on_slice h (heapUpFunc less i))) (m, h)
    = (Ok tt, (write_at m h 0 w, h)) /\
    zlen w = s_len h /\ zget w n = Some x /\ Permutation w l).
  { destruct (Z.eqb_spec n i) as [E|E].
    - exists l. unfold l. rewrite write_at_same by auto. fold l. split; [reflexivity|]. split; [auto|].
      split; [congruence|]. auto.
    - pose proof (wswap_ok l i n ltac:(lia) ltac:(lia)) as Hsw.
      rewrite (bind_Ok _ _ _ _ _ (lift_mem_ok _ m h _ _ (on_slice_start m h (heapSwap i n) _ _ Hwf Hsw))).
      destruct (down_total (zswap l i n) n i) as (b & w & Hrun & Hp & Hl & Ha);
        rewrite ?zlen_zswap; try lia.
      assert (Hsl : zlen (zswap l i n) = s_len h) by (rewrite zlen_zswap; auto).
      rewrite zlen_zswap in Hl.
      assert (Hlw : zlen w = s_len h) by lia.
      assert (Hwn : zget w n = Some x).
      { rewrite (Ha n) by lia. rewrite zget_zswap by lia. now rewrite Z.eqb_refl. }
      rewrite (bind_Ok _ _ _ _ _ (lift_mem_ok _ _ h _ _ (on_slice_at m h _ (heapDownFunc less i n) _ _ Hwf Hsl Hrun Hlw))).
      destruct b.
      + exists w. split; [reflexivity|]. split; [auto|]. split; [auto|].
        rewrite Hp; apply zswap_perm.
      + destruct (up_total w i) as (w2 & Hrun2 & Hp2 & Hl2 & Ha2); try lia.
        exists w2. rewrite (lift_mem_ok _ _ h _ _ (on_slice_at m h _ (heapUpFunc less i) _ _ Hwf Hlw Hrun2 ltac:(lia))).
        split; [reflexivity|]. split; [lia|]. split; [rewrite (Ha2 n) by lia; auto|].
        rewrite Hp2, Hp; apply zswap_perm. }
  destruct Hmid as (w & Hrun & Hlw & Hwn & Hp).
  rewrite (bind_Ok _ _ _ _ _ Hrun).
  rewrite (finish_remove m h w n x) by (auto; lia).
  exists x, (write_at m h 0 w), (mkSlice (s_arr h) (s_off h) n (s_cap h)).
  split; [reflexivity|]. split; [auto|].
  split.
  { pose proof (wf_write_self m h w Hwf ltac:(lia)) as (K1 & K2 & K3 & K4).
    unfold wf_slice, arr_of in *. simpl. lia. }
  rewrite contents_sub by (auto; lia).
  rewrite <- (perm_last w n x) by (auto; lia); auto.
Qed.

(** Loop bounds *)
Lemma down_steps l n i0 i :
  0 <= i0 -> 0 <= i <= n -> n <= zlen l -> n <= max_int ->
  fst (heapDownFunc_loop less (Z.to_nat (Z.log2 (n / (i + 1) + 1) + 1)) i0 n i l) <> NoFuel.
Proof.
  intros Hi0 Hi Hn Hmax.
  assert (0 <= n / (i + 1)) by (apply Z.div_pos; lia).
  pose proof (Z.log2_spec (n / (i + 1) + 1) ltac:(lia)) as [_ HL].
  pose proof (Z.log2_nonneg (n / (i + 1) + 1)).
  destruct (down_loop_total (Z.to_nat (Z.log2 (n / (i + 1) + 1) + 1)) l n i0 i) as (b & l' & Hrun & _); auto; try lia.
  - rewrite Z2Nat.id by lia. replace (Z.log2 (n / (i + 1) + 1) + 1) with (Z.succ (Z.log2 (n / (i + 1) + 1))) by lia.
    pose proof (Z.mul_succ_div_gt n (i + 1) ltac:(lia)). nia.
  - rewrite Hrun. discriminate.
Qed.

Lemma up_steps l j :
  0 <= j < zlen l ->
  fst (heapUpFunc_loop less (Z.to_nat (Z.log2 (j + 1) + 1)) j l) <> NoFuel.
Proof.
  intros Hj. pose proof (Z.log2_spec (j + 1) ltac:(lia)) as [_ HL]. pose proof (Z.log2_nonneg (j + 1)).
  destruct (up_loop_total (Z.to_nat (Z.log2 (j + 1) + 1)) l j) as (l' & Hrun & _); auto.
  - rewrite Z2Nat.id by lia. replace (Z.log2 (j + 1) + 1) with (Z.succ (Z.log2 (j + 1))) by lia. auto.
  - rewrite Hrun. discriminate.
Qed.
End Total.

(** *** Forms used in Props_Heap.v *)
Lemma MakeHeap_mem T (less : T -> T -> bool) m s :
  strict_weak less -> wf_slice m s -> s_len s <= max_int ->
  exists m', on_slice s (MakeHeapFunc less) m = (Ok tt, m') /\ wf_slice m' s /\
    min_heap less (contents m' s) /\ Permutation (contents m' s) (contents m s) /\
    same_except m m' (s_arr s) (s_off s) (s_off s + s_len s).
Proof.
  intros SW Hwf Hmax. pose proof (zlen_contents m s Hwf) as Hz.
  destruct (MakeHeapFunc_spec less SW (contents m s)) as (w & Hrun & Hp & Hh); [lia|].
  assert (Hw : zlen w = s_len s) by (unfold zlen in *; now rewrite (Permutation_length Hp)).
  exists (write_at m s 0 w). rewrite (on_slice_start m s _ _ _ Hwf Hrun). split; [auto|].
  rewrite contents_write_at by auto. auto using wf_write_self, same_except_write.
Qed.

Lemma PopHeap_min T (less : T -> T -> bool) : strict_weak less ->
  forall m h, wf_slice m h -> min_heap less (contents m h) -> 0 < s_len h <= max_int ->
  exists x m' h', PopHeapFunc less (m, h) = (Ok x, (m', h')) /\
    (forall y, In y (contents m h) -> less y x = false) /\
    wf_slice m' h' /\ min_heap less (contents m' h') /\
    Permutation (x :: contents m' h') (contents m h) /\
    h' = mkSlice (s_arr h) (s_off h) (s_len h - 1) (s_cap h) /\
    same_except m m' (s_arr h) (s_off h) (s_off h + s_len h).
Proof.
  intros SW m h Hwf Hh Hl. destruct (PopHeapFunc_ok less SW m h Hwf Hh Hl) as (x & m' & h' & H1 & H2 & H3).
  exists x, m', h'. split; auto. split; auto. intros y Hy. eapply heap_root_min; eauto.
Qed.

Lemma IsHeapFunc_rejects :
  exists l, min_heap Z.ltb l /\ MakeHeapFunc Z.ltb l = (Ok tt, l) /\ IsHeapFunc l Z.ltb = Ok false.
Proof.
  exists [1; 1]. split; [|split; reflexivity].
  destruct (IsMinHeap_spec Z.ltb [1; 1]) as (b & Hb & Hs). apply Hs. cbv in Hb. congruence.
Qed.

Lemma IsHeapFunc_sound T (less : T -> T -> bool) l :
  strict_weak less -> IsHeapFunc l less = Ok true -> min_heap less l.
Proof.
  intros SW H. destruct (IsHeapFunc_spec less l) as (b & Hb & Hs).
  rewrite H in Hb. inversion Hb; subst b. intros c p x Hc Hp Hx.
  apply (less_asym less SW). exact (proj1 Hs eq_refl c p x Hc Hp Hx).
Qed.

Lemma push_total2 T (less : T -> T -> bool) zero grow v m h :
  wf_slice m h ->
  exists m' h', PushMinHeap zero grow less v (m, h) = (Ok tt, (m', h')) /\
    PushHeapFunc zero grow v less (m, h) = (Ok tt, (m', h')) /\
    wf_slice m' h' /\ Permutation (contents m' h') (v :: contents m h).
Proof.
  intros Hwf. destruct (push_total less zero grow v m h Hwf) as (m' & h' & H). exists m', h'.
  rewrite PushMinHeap_eq. tauto.
Qed.
Lemma pop_total2 T (less : T -> T -> bool) m h :
  wf_slice m h -> 0 < s_len h <= max_int ->
  exists x m' h', PopMinHeap less (m, h) = (Ok x, (m', h')) /\
    PopHeapFunc less (m, h) = (Ok x, (m', h')) /\
    zget (contents m h) 0 = Some x /\ wf_slice m' h' /\
    Permutation (x :: contents m' h') (contents m h).
Proof.
  intros Hwf Hl. destruct (pop_total less m h Hwf Hl) as (x & m' & h' & H). exists x, m', h'.
  rewrite PopMinHeap_eq. tauto.
Qed.
Lemma remove_total2 T (less : T -> T -> bool) i m h :
  wf_slice m h -> 0 <= i < s_len h -> s_len h <= max_int ->
  exists x m' h', RemoveMinHeap less i (m, h) = (Ok x, (m', h')) /\
    RemoveHeapFunc i less (m, h) = (Ok x, (m', h')) /\
    zget (contents m h) i = Some x /\ wf_slice m' h' /\
    Permutation (x :: contents m' h') (contents m h).
Proof.
  intros Hwf Hl Hm. destruct (remove_total less i m h Hwf Hl Hm) as (x & m' & h' & H). exists x, m', h'.
  rewrite RemoveMinHeap_eq. tauto.
Qed.

Lemma heap_case_ok :
  let m := [[9; 1; 3; 2; 3; 7; 0]] in let h := mkSlice 0 1 5 6 in
  strict_weak Z.ltb /\ wf_slice m h /\ min_heap Z.ltb (contents m h) /\ contents m h = [1; 3; 2; 3; 7].
Proof.
  cbv zeta. split; [exact Z_ltb_strict_weak|]. split; [unfold wf_slice, arr_of, zlen; simpl; lia|].
  split; [|reflexivity].
  match goal with |- min_heap _ ?l => destruct (IsMinHeap_spec Z.ltb l) as (b & Hb & Hs) end.
  apply Hs. cbv in Hb. congruence.
Qed.
