From Verif Require Import BaseLemmas Spec Proof_Mem Model_Heap.

Section HeapProof.
Context {T : Type}.
Variable less : T -> T -> bool.
Hypothesis SW : strict_weak less.
Implicit Types (l : list T).

Lemma less_asym a b : less a b = true -> less b a = false.
Proof.
  intros H. destruct (less b a) eqn:E; auto.
  pose proof (sw_trans _ SW _ _ _ H E) as K. rewrite (sw_irrefl _ SW) in K. discriminate.
Qed.

(** child at index c respects its parent *)
Definition okc l c : Prop :=
  forall a b, zget l ((c - 1) / 2) = Some a -> zget l c = Some b -> less b a = false.

(** all children c < n with parent >= lo are fine *)
Definition heap_from l n lo : Prop :=
  forall c, 0 < c < n -> lo <= (c - 1) / 2 -> okc l c.

(** fine except around i: nothing is known of i vs its parent, nor of i's
    children vs i, but i's children respect i's parent *)
Definition down_inv l n lo i : Prop :=
  (forall c, 0 < c < n -> lo <= (c - 1) / 2 -> (c - 1) / 2 <> i -> c <> i -> okc l c) /\
  (0 < i -> lo <= (i - 1) / 2 ->
   forall c a b, 0 < c < n -> (c - 1) / 2 = i ->
     zget l ((i - 1) / 2) = Some a -> zget l c = Some b -> less b a = false).

Definition up_inv l n j : Prop :=
  (forall c, 0 < c < n -> c <> j -> okc l c) /\
  (0 < j ->
   forall c a b, 0 < c < n -> (c - 1) / 2 = j ->
     zget l ((j - 1) / 2) = Some a -> zget l c = Some b -> less b a = false).

Lemma wrap64_child i n :
  0 <= i -> n <= max_int -> i <= n ->
  let j1 := wrap64 (2 * i + 1) in
  (if (j1 >=? n) || (j1 <? 0) then 2 * i + 1 >= n else j1 = 2 * i + 1 /\ 2 * i + 1 < n).
Proof.
  intros Hi Hn Hin. unfold wrap64, max_int in *. cbv zeta.
  destruct (Z_lt_le_dec (2 * i + 1) (2^63)).
  - rewrite Z.mod_small by lia. replace (2 * i + 1 + 2 ^ 63 - 2 ^ 63) with (2 * i + 1) by lia.
    destruct (2 * i + 1 >=? n) eqn:E1, (Z.ltb_spec (2 * i + 1) 0); cbn [orb]; lia.
  - replace ((2 * i + 1 + 2 ^ 63) mod 2 ^ 64) with (2 * i + 1 + 2^63 - 2^64).
    2:{ rewrite <- (Z.mod_small (2 * i + 1 + 2 ^ 63 - 2 ^ 64) (2^64)) by lia.
        replace (2 * i + 1 + 2 ^ 63) with (2 * i + 1 + 2 ^ 63 - 2 ^ 64 + 1 * 2 ^ 64) at 2 by lia.
        now rewrite Z.mod_add by lia. }
    destruct (2 * i + 1 + 2 ^ 63 - 2 ^ 64 - 2 ^ 63 >=? n) eqn:E1,
      (Z.ltb_spec (2 * i + 1 + 2 ^ 63 - 2 ^ 64 - 2 ^ 63) 0); cbn [orb]; lia.
Qed.

(** swap of i with its smaller child j keeps the invariant, now around j *)
Lemma down_step l n lo i j :
  0 <= i -> lo <= i -> (j = 2 * i + 1 \/ j = 2 * i + 2) -> j < n -> n <= zlen l ->
  down_inv l n lo i ->
  (forall c a b, 0 < c < n -> (c - 1) / 2 = i -> zget l j = Some a -> zget l c = Some b -> less b a = false) ->
  down_inv (zswap l i j) n lo j.
Proof.
  intros Hi Hlo0 Hj Hjn Hn [D1 D2] Hmin.
  assert (Hpj : (j - 1) / 2 = i) by lia.
  split.
  - intros c Hc Hlo Hpc Hcj a b Ha Hb.
    rewrite zget_zswap in Ha by lia. rewrite zget_zswap in Hb by lia.
    destruct (Z.eqb_spec ((c - 1) / 2) j); [lia|].
    destruct (Z.eqb_spec c j); [lia|].
    destruct (Z.eqb_spec ((c - 1) / 2) i) as [E|E].
    + destruct (Z.eqb_spec c i); [lia|]. eapply (Hmin c); eauto; lia.
    + destruct (Z.eqb_spec c i) as [->|E2].
      * eapply (D2 ltac:(lia) Hlo j); eauto; lia.
      * eapply (D1 c); eauto; lia.
  - intros _ _ c a b Hc Hcj Ha Hb. rewrite Hpj in Ha.
    rewrite zget_zswap in Ha by lia. rewrite zget_zswap in Hb by lia.
    destruct (Z.eqb_spec i j); [lia|]. destruct (Z.eqb_spec i i); [|lia].
    destruct (Z.eqb_spec c j); [lia|]. destruct (Z.eqb_spec c i); [lia|].
    apply (D1 c ltac:(lia) ltac:(lia) ltac:(lia) ltac:(lia) a b); auto. now rewrite Hcj.
Qed.

Definition above_same l l' n : Prop := forall k, n <= k -> zget l' k = zget l k.

Lemma above_same_swap l i j n : i < n -> j < n -> above_same l (zswap l i j) n.
Proof.
  intros Hi Hj k Hk. destruct (zget l i) eqn:Ei, (zget l j) eqn:Ej.
  2-4: unfold zswap; rewrite ?Ei, ?Ej; auto.
  apply zget_Some_range in Ei, Ej. rewrite zget_zswap by lia.
  destruct (Z.eqb_spec k j), (Z.eqb_spec k i); auto; lia.
Qed.

Lemma heapDownFunc_loop_spec fuel : forall l n lo i0 i,
  0 <= i0 <= i -> lo <= i -> i <= n -> n <= zlen l -> n <= max_int ->
  (1 <= fuel)%nat -> n < (i + 1) * 2 ^ Z.of_nat fuel ->
  down_inv l n lo i ->
  (i0 < i -> 0 < i -> i < n -> lo <= (i - 1) / 2 -> okc l i) ->
  exists b l', heapDownFunc_loop less fuel i0 n i l = (Ok b, l') /\
    Permutation l' l /\ zlen l' = zlen l /\ above_same l l' n /\
    (b = false -> i = i0 /\ l' = l) /\
    (b = true -> heap_from l' n lo) /\
    (forall c, 0 < c < n -> lo <= (c - 1) / 2 -> c <> i0 -> okc l' c).
Proof.
  induction fuel as [|f IH]; intros l n lo i0 i Hi0 Hlo Hin Hn Hmax Hf1 Hf D Hoki; [lia|].
  cbn [heapDownFunc_loop]. cbv zeta.
  pose proof (wrap64_child i n ltac:(lia) Hmax Hin) as Hw. cbv zeta in Hw.
  destruct ((wrap64 (2 * i + 1) >=? n) || (wrap64 (2 * i + 1) <? 0)) eqn:Ebr.
  - (* no child *)
    exists (i >? i0), l. split; [reflexivity|]. split; [auto|]. split; [auto|].
    split; [intros k _; auto|].
    assert (Hall : forall c, 0 < c < n -> lo <= (c - 1) / 2 -> c <> i -> okc l c).
    { intros c Hc Hcl Hci. apply (proj1 D); auto. lia. }
    split; [intros Hb; split; [lia|auto]|].
    split.
    + intros Hb c Hc Hcl. destruct (Z.eq_dec c i) as [->|]; auto.
      apply Hoki; lia.
    + intros c Hc Hcl Hci0. destruct (Z.eq_dec c i) as [->|]; auto.
      apply Hoki; lia.
  - destruct Hw as [-> Hj1]. clear Ebr.
    destruct (zget_range l (2 * i + 1)) as [h1 E1]; [lia|].
    destruct (zget_range l i) as [hi Ei]; [lia|].
    assert (Hright : exists r : bool,
      (if 2 * i + 1 + 1 <? n
       then h2 <- wload (2 * i + 1 + 1);; h1 <- wload (2 * i + 1);; ret (less h2 h1)
       else ret false) l = (Ok r, l) /\
      (if r then 2 * i + 2 < n else True) /\
      forall j, j = (if r then 2 * i + 1 + 1 else 2 * i + 1) ->
      (forall c a b, 0 < c < n -> (c - 1) / 2 = i -> zget l j = Some a -> zget l c = Some b -> less b a = false)).
    { destruct (Z.ltb_spec (2 * i + 1 + 1) n) as [L2|L2].
      - destruct (zget_range l (2 * i + 1 + 1)) as [h2 E2]; [lia|].
        exists (less h2 h1). unfold bind. rewrite (wload_ok _ _ _ E2), (wload_ok _ _ _ E1).
        split; [reflexivity|]. split; [destruct (less h2 h1); auto; lia|].
        intros j -> c a b Hc Hpc Ha Hb.
        assert (c = 2 * i + 1 \/ c = 2 * i + 1 + 1) as [->| ->] by lia;
        destruct (less h2 h1) eqn:E; rewrite ?E1, ?E2 in *; inversion Ha; inversion Hb; subst;
        auto using less_asym, (sw_irrefl _ SW).
      - exists false. split; [reflexivity|]. split; [auto|].
        intros j -> c a b Hc Hpc Ha Hb. assert (c = 2 * i + 1) as -> by lia.
        rewrite Ha in Hb. inversion Hb; subst. apply (sw_irrefl _ SW). }
    destruct Hright as (r & Er & Hrn & Hmin).
    rewrite (bind_Ok _ _ _ _ _ Er).
    set (j := if r then 2 * i + 1 + 1 else 2 * i + 1) in *. specialize (Hmin j eq_refl).
    assert (Hj : j = 2 * i + 1 \/ j = 2 * i + 2) by (unfold j; destruct r; lia).
    assert (Hjn : j < n) by (unfold j; destruct r; lia).
    destruct (zget_range l j) as [hj Ej]; [lia|].
    rewrite (bind_Ok _ _ _ _ _ (wload_ok _ _ _ Ej)).
    rewrite (bind_Ok _ _ _ _ _ (wload_ok _ _ _ Ei)).
    destruct (less hj hi) eqn:Eless; cbn [negb].
    + (* swap and continue *)
      unfold heapSwap. rewrite (bind_Ok _ _ _ _ _ (wswap_ok l i j ltac:(lia) ltac:(lia))).
      destruct (IH (zswap l i j) n lo i0 j) as (b & l' & Hrun & Hperm & Hlen & Habove & Hb0 & Hb1 & Hrest);
        rewrite ?zlen_zswap; try lia.
      * destruct f; [|lia]. simpl in Hf. lia.
      * rewrite Nat2Z.inj_succ, Z.pow_succ_r in Hf by lia.
        assert (0 < 2 ^ Z.of_nat f) by (apply Z.pow_pos_nonneg; lia). nia.
      * apply down_step; auto; lia.
      * intros _ _ _ _ a b Ha Hb. replace ((j - 1) / 2) with i in Ha by lia.
        rewrite zget_zswap in Ha, Hb by lia.
        destruct (Z.eqb_spec i j); [lia|]. rewrite Z.eqb_refl in Ha, Hb.
        rewrite Ej in Ha. rewrite Ei in Hb. inversion Ha; inversion Hb; subst.
        now apply less_asym.
      * exists b, l'. split; [auto|]. split; [rewrite Hperm; apply zswap_perm|].
        split; [rewrite Hlen; apply zlen_zswap|].
        split; [intros k Hk; rewrite Habove by auto; apply (above_same_swap l i j n); lia|].
        split; [intros Hb; destruct (Hb0 Hb); lia|]. split; auto.
    + exists (i >? i0), l. split; [reflexivity|]. split; [auto|]. split; [auto|].
      split; [intros k _; auto|].
      assert (Hall : forall c, 0 < c < n -> lo <= (c - 1) / 2 -> c <> i -> okc l c).
      { intros c Hc Hcl Hci. destruct (Z.eq_dec ((c - 1) / 2) i) as [E|E].
        - intros a b Ha Hb. rewrite E in Ha. rewrite Ei in Ha. inversion Ha; subst a.
          pose proof (Hmin c hj b Hc E Ej Hb) as Hm.
          apply (sw_negtrans _ SW _ _ _ Hm Eless).
        - apply (proj1 D); auto. }
      split; [intros Hb; split; [lia|auto]|].
      split.
      * intros Hb c Hc Hcl. destruct (Z.eq_dec c i) as [->|]; auto.
        apply Hoki; lia.
      * intros c Hc Hcl Hci0. destruct (Z.eq_dec c i) as [->|]; auto.
        apply Hoki; lia.
Qed.

Lemma pow2_gt n : 0 <= n -> n < 2 ^ Z.of_nat (Z.to_nat n).
Proof. intros. rewrite Z2Nat.id by lia. apply Z.pow_gt_lin_r; lia. Qed.

Lemma pow2_gt_S n : 0 <= n -> n < 2 ^ Z.of_nat (S (Z.to_nat n)).
Proof.
  intros H. pose proof (pow2_gt n H). rewrite Nat2Z.inj_succ, Z.pow_succ_r by lia. lia.
Qed.

Lemma heapDownFunc_spec l n lo i0 :
  0 <= i0 -> lo <= i0 -> i0 <= n -> n <= zlen l -> n <= max_int ->
  down_inv l n lo i0 ->
  exists b l', heapDownFunc less i0 n l = (Ok b, l') /\
    Permutation l' l /\ zlen l' = zlen l /\ above_same l l' n /\
    (b = false -> l' = l) /\
    (b = true -> heap_from l' n lo) /\
    (forall c, 0 < c < n -> lo <= (c - 1) / 2 -> c <> i0 -> okc l' c).
Proof.
  intros H0 Hlo Hin Hn Hmax D. unfold heapDownFunc.
  destruct (heapDownFunc_loop_spec (S (Z.to_nat n)) l n lo i0 i0) as (b & l' & Hrun & Hp & Hl & Ha & Hb0 & Hb1 & Hr); auto; try lia.
  - pose proof (pow2_gt_S n ltac:(lia)). nia.
  - exists b, l'. repeat (split; auto). intros Hb. apply Hb0; auto.
Qed.

(** *** heapUp *)
Lemma quot_parent j : 0 < j -> Z.quot (j - 1) 2 = (j - 1) / 2.
Proof. intros. rewrite Z.quot_div_nonneg; lia. Qed.

Lemma up_step l n j :
  0 < j < n -> n <= zlen l -> up_inv l n j ->
  (forall a b, zget l j = Some a -> zget l ((j - 1) / 2) = Some b -> less a b = true) ->
  up_inv (zswap l ((j - 1) / 2) j) n ((j - 1) / 2).
Proof.
  intros Hj Hn [U1 U2] Hless. set (i := (j - 1) / 2) in *.
  assert (Hi : 0 <= i < j) by (unfold i; lia).
  destruct (zget_range l j) as [xj Ej]; [lia|]. destruct (zget_range l i) as [xi Ei]; [lia|].
  pose proof (Hless _ _ Ej Ei) as Hlt.
  split.
  - intros c Hc Hci a b Ha Hb. rewrite zget_zswap in Ha, Hb by lia.
    destruct (Z.eqb_spec ((c - 1) / 2) j) as [E1|E1].
    + (* child of j *)
      destruct (Z.eqb_spec c j); [lia|]. destruct (Z.eqb_spec c i); [lia|].
      apply (U2 ltac:(lia) c a b); auto.
    + destruct (Z.eqb_spec ((c - 1) / 2) i) as [E2|E2].
      * rewrite Ej in Ha. inversion Ha; subst a. clear Ha.
        destruct (Z.eqb_spec c j) as [->|E3].
        { rewrite Ei in Hb. inversion Hb; subst. now apply less_asym. }
        destruct (Z.eqb_spec c i); [lia|].
        destruct (less b xj) eqn:E; auto.
        pose proof (sw_trans _ SW _ _ _ E Hlt) as K.
        rewrite (U1 c ltac:(lia) ltac:(lia) xi b) in K; auto. rewrite E2. auto.
      * destruct (Z.eqb_spec c j) as [->|E3]; [unfold i in E2; lia|].
        destruct (Z.eqb_spec c i); [lia|]. apply (U1 c); auto.
  - intros Hi0 c a b Hc Hpc Ha Hb. rewrite zget_zswap in Ha, Hb by lia.
    destruct (Z.eqb_spec ((i - 1) / 2) j); [lia|].
    destruct (Z.eqb_spec ((i - 1) / 2) i); [lia|].
    assert (Hia : less xi a = false) by (apply (U1 i ltac:(lia) ltac:(lia)); auto).
    destruct (Z.eqb_spec c j) as [->|E3].
    + rewrite Ei in Hb. inversion Hb; subst. auto.
    + destruct (Z.eqb_spec c i); [lia|].
      assert (less b xi = false) by (apply (U1 c ltac:(lia) ltac:(lia)); auto; rewrite Hpc; auto).
      eapply (sw_negtrans _ SW); eauto.
Qed.

Lemma heapUpFunc_loop_spec fuel : forall l n j,
  0 <= j < n -> n <= zlen l -> j + 1 < 2 ^ Z.of_nat fuel -> up_inv l n j ->
  exists l', heapUpFunc_loop less fuel j l = (Ok tt, l') /\
    Permutation l' l /\ zlen l' = zlen l /\ above_same l l' (j + 1) /\ heap_from l' n 0.
Proof.
  induction fuel as [|f IH]; intros l n j Hj Hn Hf U; [simpl in Hf; lia|].
  cbn [heapUpFunc_loop]. cbv zeta.
  destruct (Z.eqb_spec (Z.quot (j - 1) 2) j) as [E|E].
  - assert (j = 0) as ->.
    { destruct (Z.eq_dec j 0); auto. rewrite quot_parent in E by lia. lia. }
    exists l. split; [reflexivity|]. split; [auto|]. split; [auto|]. split; [intros k _; auto|].
    intros c Hc _. apply (proj1 U); lia.
  - assert (0 < j).
    { destruct (Z.eq_dec j 0) as [->|]; [cbv in E|]; lia. }
    rewrite quot_parent in * by lia. set (i := (j - 1) / 2) in *.
    destruct (zget_range l j) as [xj Ej]; [lia|]. destruct (zget_range l i) as [xi Ei]; [lia|].
    rewrite (bind_Ok _ _ _ _ _ (wload_ok _ _ _ Ej)). rewrite (bind_Ok _ _ _ _ _ (wload_ok _ _ _ Ei)).
    destruct (less xj xi) eqn:El; cbn [negb].
    + unfold heapSwap. rewrite (bind_Ok _ _ _ _ _ (wswap_ok l i j ltac:(lia) ltac:(lia))).
      destruct (IH (zswap l i j) n i) as (l' & Hrun & Hp & Hl & Ha & Hh); rewrite ?zlen_zswap; try lia.
      * rewrite Nat2Z.inj_succ, Z.pow_succ_r in Hf by lia. lia.
      * apply up_step; auto; try lia. intros a b Ha Hb. fold i in Hb. congruence.
      * exists l'. split; [auto|]. split; [rewrite Hp; apply zswap_perm|].
        split; [rewrite Hl; apply zlen_zswap|]. split; auto.
        intros k Hk. rewrite Ha by lia. apply (above_same_swap l i j (j + 1)); lia.
    + exists l. split; [reflexivity|]. split; [auto|]. split; [auto|]. split; [intros k _; auto|].
      intros c Hc _. destruct (Z.eq_dec c j) as [->|].
      * intros a b Ha Hb. fold i in Ha. congruence.
      * apply (proj1 U); lia.
Qed.

Lemma heapUpFunc_spec l n j :
  0 <= j < n -> n <= zlen l -> up_inv l n j ->
  exists l', heapUpFunc less j l = (Ok tt, l') /\
    Permutation l' l /\ zlen l' = zlen l /\ above_same l l' (j + 1) /\ heap_from l' n 0.
Proof.
  intros Hj Hn U. apply heapUpFunc_loop_spec; auto.
  pose proof (pow2_gt_S j ltac:(lia)). rewrite (Nat2Z.inj_succ (S _)), Z.pow_succ_r by lia. lia.
Qed.

(** *** heap_from and min_heap *)
Lemma heap_from_min_heap l : heap_from l (zlen l) 0 <-> min_heap less l.
Proof.
  split.
  - intros H c a b Hc Ha Hb. pose proof (zget_Some_range _ _ _ Hb). apply (H c ltac:(lia) ltac:(lia) a b); auto.
  - intros H c Hc _ a b Ha Hb. apply (H c a b); auto; lia.
Qed.

Lemma heap_from_sub l n : 0 <= n <= zlen l -> heap_from l n 0 -> min_heap less (zsub l 0 n).
Proof.
  intros Hn H c a b Hc Ha Hb. pose proof (zget_Some_range _ _ _ Hb) as Hr. rewrite zlen_zsub in Hr by lia.
  rewrite zget_zsub in Ha, Hb by lia. simpl in *.
  destruct (Z.ltb_spec c (n - 0)), (Z.ltb_spec ((c - 1) / 2) (n - 0)); try lia.
  apply (H c ltac:(lia) ltac:(lia) a b); auto.
Qed.

Lemma heap_root_min_aux l n : heap_from l n 0 -> 0 < n <= zlen l ->
  forall k, 0 <= k < n -> forall r x, zget l 0 = Some r -> zget l k = Some x -> less x r = false.
Proof.
  intros H Hn k. pattern k. apply (well_founded_induction (Z.lt_wf 0)).
  intros c IH Hc r x Hr Hx. destruct (Z.eq_dec c 0) as [->|].
  - assert (r = x) by congruence. subst. apply (sw_irrefl _ SW).
  - destruct (zget_range l ((c - 1) / 2)) as [p Hp]; [lia|].
    apply (sw_negtrans _ SW x p r).
    + apply (H c ltac:(lia) ltac:(lia) p x); auto.
    + apply (IH ((c - 1) / 2) ltac:(lia) ltac:(lia)); auto.
Qed.

Lemma heap_root_min l r : min_heap less l -> zget l 0 = Some r -> forall x, In x l -> less x r = false.
Proof.
  intros H Hr x Hx. apply in_zget in Hx. destruct Hx as (i & Hi & Hx).
  apply heap_from_min_heap in H. pose proof (zget_Some_range _ _ _ Hr).
  apply (heap_root_min_aux l (zlen l) H ltac:(lia) i ltac:(lia) r x); auto.
Qed.

(** *** MakeHeap *)
Lemma MakeHeapFunc_loop_spec fuel : forall l i,
  -1 <= i -> i < Z.of_nat fuel -> i < zlen l -> zlen l <= max_int ->
  heap_from l (zlen l) (i + 1) ->
  exists l', MakeHeapFunc_loop less fuel (zlen l) i l = (Ok tt, l') /\
    Permutation l' l /\ zlen l' = zlen l /\ heap_from l' (zlen l') 0.
Proof.
  induction fuel as [|f IH]; intros l i Hi Hf Hil Hmax H.
  - assert (i = -1) as -> by lia. simpl. exists l. repeat split; auto.
  - cbn [MakeHeapFunc_loop]. destruct (i >=? 0) eqn:E.
    2:{ assert (i = -1) as -> by lia. exists l. repeat split; auto. }
    destruct (heapDownFunc_spec l (zlen l) i i) as (b & l1 & Hrun & Hp & Hl & Ha & Hb0 & Hb1 & Hr); try lia.
    { split.
      - intros c Hc Hlo Hpc _. apply H; auto; lia.
      - intros; lia. }
    unfold bind. rewrite Hrun. rewrite <- Hl.
    destruct (IH l1 (i - 1)) as (l' & Hrun' & Hp' & Hl' & Hh'); try lia.
    { intros c Hc Hlo. replace (i - 1 + 1) with i in Hlo by lia. apply Hr; auto; lia. }
    exists l'. split; [auto|]. split; [now rewrite Hp', Hp|]. split; [lia|auto].
Qed.

Lemma MakeHeapFunc_spec l :
  zlen l <= max_int ->
  exists l', MakeHeapFunc less l = (Ok tt, l') /\ Permutation l' l /\ min_heap less l'.
Proof.
  intros Hmax. unfold MakeHeapFunc, bind, wlen. pose proof (zlen_nonneg l).
  destruct (MakeHeapFunc_loop_spec (Z.to_nat (zlen l)) l (Z.quot (zlen l) 2 - 1)) as (l' & Hrun & Hp & Hl & Hh);
    rewrite ?Z.quot_div_nonneg in * by lia; try lia.
  - intros c Hc Hlo. lia.
  - exists l'. split; [auto|]. split; [auto|]. now apply heap_from_min_heap.
Qed.

(** *** IsHeap *)
Lemma land1_odd c : Z.land c 1 = c mod 2.
Proof. change 1 with (Z.ones 1). now rewrite Z.land_ones by lia. Qed.

Lemma IsMinHeap_loop_spec fuel : forall l c,
  0 < c -> zlen l <= c + Z.of_nat fuel ->
  heap_from l c 0 ->
  exists b, IsMinHeap_loop less fuel l ((c - 1) / 2) c = Ok b /\ (b = true <-> heap_from l (zlen l) 0).
Proof.
  induction fuel as [|f IH]; intros l c Hc Hf H.
  - simpl. destruct (Z.ltb_spec c (zlen l)); [lia|]. exists true. split; auto. split; auto.
    intros _ d Hd. apply H. lia.
  - cbn [IsMinHeap_loop]. destruct (Z.ltb_spec c (zlen l)) as [L|L].
    2:{ exists true. split; auto. split; auto. intros _ d Hd. apply H. lia. }
    unfold at_. destruct (zget_range l ((c - 1) / 2)) as [a Ea]; [lia|].
    destruct (zget_range l c) as [b Eb]; [lia|]. rewrite Ea, Eb. simpl.
    destruct (less b a) eqn:El.
    + exists false. split; auto. split; [discriminate|]. intros K.
      rewrite (K c ltac:(lia) ltac:(lia) a b) in El; auto.
    + rewrite land1_odd.
      replace (if c mod 2 =? 0 then (c - 1) / 2 + 1 else (c - 1) / 2) with ((c + 1 - 1) / 2)
        by (destruct (Z.eqb_spec (c mod 2) 0); lia).
      apply IH; try lia. intros d Hd _. destruct (Z.eq_dec d c) as [->|].
      * intros x y Hx Hy. congruence.
      * apply H; lia.
Qed.

Lemma IsMinHeap_spec l : exists b, IsMinHeap less l = Ok b /\ (b = true <-> min_heap less l).
Proof.
  unfold IsMinHeap. destruct (IsMinHeap_loop_spec (length l) l 1) as (b & Hb & Hs); try (unfold zlen; lia).
  - intros c Hc. lia.
  - exists b. split; auto. rewrite Hs. apply heap_from_min_heap.
Qed.

End HeapProof.

(** *** Ordered versions coincide with the Func versions at less := <: the Go
    code is textually the same up to < versus less. *)
Section Same.
Context {T : Type}.
Variable less : T -> T -> bool.
Variable zero : T.
Variable grow : Z -> Z -> Z.

Lemma MakeMinHeap_eq (l : list T) : MakeMinHeap less l = MakeHeapFunc less l.
Proof. reflexivity. Qed.
Lemma PushMinHeap_eq v c : PushMinHeap zero grow less v c = PushHeapFunc zero grow v less c.
Proof. reflexivity. Qed.
Lemma PopMinHeap_eq (c : cell T) : PopMinHeap less c = PopHeapFunc less c.
Proof. reflexivity. Qed.
Lemma RemoveMinHeap_eq i (c : cell T) : RemoveMinHeap less i c = RemoveHeapFunc i less c.
Proof. reflexivity. Qed.
End Same.
