(** Sums over all sequences of random draws, and the expected number of nodes a
    search visits on each level of a skip list (backwards analysis). *)
From Coq Require Import Permutation.
From Verif Require Import BaseLemmas Spec Model_SkipList Proof_SkipList Proof_HeapLinear.

(** *** The height of a node, as a function of the draw *)
Definition open (j : nat) (len : Z) : bool := Nat.leb j 40 && (Nat.leb j 3 || (2 ^ Z.of_nat (j - 3) <=? len)).
Lemma open_mono j len : open (S j) len = true -> open j len = true.
Proof.
  unfold open. rewrite !andb_true_iff, !orb_true_iff, !Nat.leb_le, !Z.leb_le. intros [L O]. split; [lia|].
  destruct (Nat.le_gt_cases j 3); [now left|]. right. destruct O as [O|O]; [lia|].
  assert (2 ^ Z.of_nat (j - 3) <= 2 ^ Z.of_nat (S j - 3)) by (apply Z.pow_le_mono_r; lia). lia.
Qed.
Lemma cut_level_ge len : forall level j, (j <= cut_level level len)%nat <-> (j <= level)%nat /\ ((j <= 3)%nat \/ 2 ^ Z.of_nat (j - 3) <= len).
Proof.
  induction level as [|level IH]; intros j; [cbn; split; [intros H; split; [lia|left; lia]|lia]|].
  cbn [cut_level]. destruct (Nat.ltb_spec 3 (S level)) as [L|L]; cbn [andb]; [|split; [intros H; split; [lia|left; lia]|lia]].
  destruct (Z.ltb_spec len (2 ^ Z.of_nat (S level - 3))) as [C|C].
  - rewrite IH. split; [intros [H1 H2]; split; auto|]. intros [H1 H2]. split; [|auto]. destruct (Nat.eq_dec j (S level)) as [->|]; [|lia]. destruct H2; lia.
  - split; [intros H; split; auto|intros H; apply H]. destruct (Nat.le_gt_cases j 3); [now left|right].
    assert (2 ^ Z.of_nat (j - 3) <= 2 ^ Z.of_nat (S level - 3)) by (apply Z.pow_le_mono_r; lia). lia.
Qed.
Lemma level_ge r len j : (1 <= j)%nat -> ((j <= randomLevel r len)%nat <-> r mod 2 ^ 40 < 2 ^ (41 - Z.of_nat j) /\ open j len = true).
Proof.
  intros Hj. unfold randomLevel. change (2 ^ Z.of_nat skipListMaxLevel - 1) with (Z.ones 40). rewrite Z.land_ones by lia. set (k := r mod 2 ^ 40).
  assert (B : 0 <= k < 2 ^ 40) by (apply Z.mod_pos_bound; lia). change (Z.of_nat skipListMaxLevel) with 40. change skipListMaxLevel with 40%nat.
  set (n := Z.to_nat (40 - bits_Len64 k + 1)).
  assert (Hn : (j <= 40)%nat -> ((j <= n)%nat <-> k < 2 ^ (41 - Z.of_nat j))).
  { intros Hj2. pose proof (bits_Len64_bound k 40 B ltac:(lia)) as Bb. unfold n, bits_Len64 in *. destruct (Z.eqb_spec k 0) as [K0|K0].
    - assert (0 < 2 ^ (41 - Z.of_nat j)) by (apply Z.pow_pos_nonneg; lia). lia.
    - pose proof (Z.log2_nonneg k). rewrite Z.log2_lt_pow2 by lia. lia. }
  unfold open. rewrite andb_true_iff, orb_true_iff, !Nat.leb_le, Z.leb_le.
  pose proof (cut_level_ge len n j) as C.
  destruct (Nat.ltb_spec 40 (cut_level n len)) as [L|L].
  - split; [|lia]. intros H. assert (j <= cut_level n len)%nat by lia. apply C in H0 as [H0 H1]. apply Hn in H0; auto.
  - rewrite C. split.
    + intros [H1 H2]. assert (j <= cut_level n len)%nat by (apply C; auto). split; [apply Hn; [lia|auto]|split; [lia|auto]].
    + intros (H1 & H2 & H3). split; [now apply Hn|auto].
Qed.

(** *** Finite sums *)
Lemma sum_below_scale c f k : sum_below (fun i => c * f i) k = c * sum_below f k.
Proof. induction k as [|k IH]; cbn [sum_below]; lia. Qed.
Lemma sum_below_split f a b : sum_below f (a + b) = sum_below f a + sum_below (fun i => f (Z.of_nat a + i)) b.
Proof. induction b as [|b IH]; [rewrite Nat.add_0_r; cbn; lia|]. rewrite Nat.add_succ_r. cbn [sum_below]. rewrite IH, Nat2Z.inj_add. lia. Qed.
Lemma sum_below_swap (g : Z -> Z -> Z) a b : sum_below (fun r => sum_below (fun s => g r s) b) a = sum_below (fun s => sum_below (fun r => g r s) a) b.
Proof.
  induction a as [|a IH]; cbn [sum_below]; [now rewrite sum_below_const|]. rewrite IH, <- sum_below_add. reflexivity.
Qed.
Definition bit (b : bool) : Z := if b then 1 else 0.
(** How many numbers below k are less than c. *)
Lemma count_lt c k : 0 <= c <= Z.of_nat k -> sum_below (fun r => bit (r <? c)) k = c.
Proof.
  intros H. replace k with (Z.to_nat c + (k - Z.to_nat c))%nat by lia. rewrite sum_below_split.
  rewrite (sum_below_ext _ (fun _ => 1)) by (intros i Hi; destruct (Z.ltb_spec i c); cbn; lia).
  rewrite (sum_below_ext (fun i => bit (Z.of_nat (Z.to_nat c) + i <? c)) (fun _ => 0)) by (intros i Hi; destruct (Z.ltb_spec (Z.of_nat (Z.to_nat c) + i) c); cbn; lia).
  rewrite !sum_below_const. lia.
Qed.
Lemma count_mod c p w : 0 <= c <= Z.of_nat p -> (0 < p)%nat -> sum_below (fun r => bit (r mod Z.of_nat p <? c)) (w * p) = Z.of_nat w * c.
Proof.
  intros H Hp. induction w as [|w IH]; [reflexivity|]. cbn [Nat.mul]. rewrite Nat.add_comm, sum_below_split, IH.
  rewrite (sum_below_ext _ (fun r => bit (r <? c))); [rewrite count_lt by auto; lia|].
  intros i Hi. rewrite Nat2Z.inj_mul, Z.add_comm, Z.mod_add, Z.mod_small by lia. reflexivity.
Qed.

(** How many elements satisfy f. *)
Definition count {A} (f : A -> bool) (l : list A) : Z := zlen (filter f l).
Lemma count_cons {A} (f : A -> bool) x l : count f (x :: l) = bit (f x) + count f l.
Proof. unfold count, zlen. cbn [filter]. destruct (f x); cbn [length bit]; lia. Qed.

(** A node: the number of its draw, and the length of the list at the insertion. *)
Notation slot := (nat * Z)%type.

(** *** Sums over the draws named xs *)
Section Draws.
Variables w p : nat.
Hypothesis Hp : Z.of_nat p = 2 ^ 40.
Definition width : nat := (w * p)%nat.
Notation R := width.
Definition set_draw (x : nat) (r : Z) (rho : nat -> Z) : nat -> Z := fun y => if Nat.eqb x y then r else rho y.
Fixpoint E (xs : list nat) (f : (nat -> Z) -> Z) : Z :=
  match xs with
  | [] => f (fun _ => 0)
  | x :: xs' => sum_below (fun r => E xs' (fun rho => f (set_draw x r rho))) R
  end.
Definition T (n : nat) : Z := Z.of_nat R ^ Z.of_nat n.
Lemma T_S n : T (S n) = Z.of_nat R * T n.
Proof. unfold T. rewrite Nat2Z.inj_succ, Z.pow_succ_r; lia. Qed.
Lemma T_nonneg n : 0 <= T n.
Proof. unfold T. apply Z.pow_nonneg. lia. Qed.
Lemma E_ext xs : forall f g, (forall rho, f rho = g rho) -> E xs f = E xs g.
Proof. induction xs as [|x xs IH]; intros f g H; cbn [E]; auto. apply sum_below_ext. intros i _. now apply IH. Qed.
Lemma E_le xs : forall f g, (forall rho, f rho <= g rho) -> E xs f <= E xs g.
Proof. induction xs as [|x xs IH]; intros f g H; cbn [E]; auto. apply sum_below_le. intros i _. now apply IH. Qed.
Lemma E_add xs : forall f g, E xs (fun rho => f rho + g rho) = E xs f + E xs g.
Proof. induction xs as [|x xs IH]; intros f g; cbn [E]; auto. rewrite <- sum_below_add. apply sum_below_ext. intros i _. apply IH. Qed.
Lemma E_const xs c : E xs (fun _ => c) = c * T (length xs).
Proof.
  induction xs as [|x xs IH]; cbn [E length]; [unfold T; cbn; lia|]. rewrite (sum_below_ext _ (fun _ => c * T (length xs))) by (intros; apply IH).
  rewrite sum_below_const, T_S. lia.
Qed.
Definition respects (f : (nat -> Z) -> Z) : Prop := forall rho rho', (forall j, rho j = rho' j) -> f rho = f rho'.
Lemma respects_set f x r : respects f -> respects (fun rho => f (set_draw x r rho)).
Proof. intros H rho rho' Er. apply H. intros j. unfold set_draw. now destruct (Nat.eqb x j). Qed.
Lemma E_perm xs ys : Permutation xs ys -> NoDup xs -> forall f, respects f -> E xs f = E ys f.
Proof.
  intros P. induction P as [|x xs ys P IH|x y xs|xs ys zs P1 IH1 P2 IH2]; intros ND f Hf; auto.
  - cbn [E]. apply sum_below_ext. intros i _. inversion ND; subst. apply IH; auto. now apply respects_set.
  - cbn [E]. rewrite sum_below_swap. apply sum_below_ext. intros i _. apply sum_below_ext. intros j _. apply E_ext. intros rho. apply Hf.
    intros z. unfold set_draw. inversion ND as [|? ? NI _]; subst. destruct (Nat.eqb_spec x z), (Nat.eqb_spec y z); subst; auto. exfalso. apply NI. now left.
  - rewrite IH1, IH2; auto. now apply (Permutation_NoDup P1).
Qed.
Lemma nodup_rest (js xs : list nat) : NoDup js -> (forall j, In j js -> In j xs) -> NoDup xs -> exists rest, Permutation xs (js ++ rest).
Proof.
  revert xs. induction js as [|j js IH]; intros xs N1 I N2; [exists xs; auto|]. inversion N1; subst.
  destruct (in_split j xs (I j (or_introl eq_refl))) as (a & b & ->). pose proof (NoDup_remove_1 _ _ _ N2) as N3.
  destruct (IH (a ++ b)) as (rest & P); auto.
  { intros i Hi. specialize (I i (or_intror Hi)). apply in_app_iff in I. apply in_app_iff. destruct I as [I|[->|I]]; auto. contradiction. }
  exists rest. cbn. rewrite <- P. symmetry. apply Permutation_middle.
Qed.

(** *** The nodes *)
Definition height (rho : nat -> Z) (c : slot) : nat := randomLevel (rho (fst c)) (snd c).
(** Draws that make a node at least j levels high. *)
Lemma count_ge len j : (1 <= j)%nat -> 2 ^ Z.of_nat (j - 1) * sum_below (fun r => bit (Nat.leb j (randomLevel r len))) R = if open j len then Z.of_nat R else 0.
Proof.
  intros Hj. destruct (open j len) eqn:O.
  - assert (j <= 40)%nat by (unfold open in O; apply andb_true_iff in O as [O _]; now apply Nat.leb_le).
    rewrite (sum_below_ext _ (fun r => bit (r mod Z.of_nat p <? 2 ^ (41 - Z.of_nat j)))).
    + assert (0 < 2 ^ (41 - Z.of_nat j)) by (apply Z.pow_pos_nonneg; lia).
      assert (2 ^ (41 - Z.of_nat j) <= 2 ^ 40) by (apply Z.pow_le_mono_r; lia).
      unfold width. rewrite count_mod by lia. rewrite Nat2Z.inj_mul, Hp, Z.mul_comm, <- Z.mul_assoc, <- Z.pow_add_r by lia. f_equal. f_equal. lia.
    + intros r _. rewrite Hp. pose proof (level_ge r len j Hj) as L. destruct (Nat.leb_spec j (randomLevel r len)) as [G|G].
      * apply L in G as [G _]. apply Z.ltb_lt in G. now rewrite G.
      * destruct (Z.ltb_spec (r mod 2 ^ 40) (2 ^ (41 - Z.of_nat j))) as [Q|Q]; auto. exfalso. assert (j <= randomLevel r len)%nat by (apply L; auto). lia.
  - rewrite (sum_below_ext _ (fun _ => 0)); [rewrite sum_below_const; lia|]. intros r _. destruct (Nat.leb_spec j (randomLevel r len)) as [G|G]; auto.
    apply (level_ge r len j Hj) in G as [_ G]. congruence.
Qed.

(** Nodes of height exactly l before the first higher one. *)
Fixpoint moves (l : nat) (hs : list nat) : Z :=
  match hs with [] => 0 | h :: t => if Nat.ltb l h then 0 else bit (Nat.eqb h l) + moves l t end.
Fixpoint at_least (l : nat) (hs : list nat) : Z :=
  match hs with [] => 0 | h :: t => bit (Nat.leb l h) + at_least l t end.
Definition capped (l : nat) (c : slot) : bool := open l (snd c) && negb (open (S l) (snd c)).

Lemma heights_set js i r rho : ~ In i (map fst js) -> map (height (set_draw i r rho)) js = map (height rho) js.
Proof.
  intros NI. apply map_ext_in. intros c Ic. unfold height, set_draw. destruct (Nat.eqb_spec i (fst c)) as [->|]; auto. exfalso. apply NI. now apply in_map.
Qed.
Lemma moves_step l i len js rest : ~ In i (map fst js) ->
  E ((i :: map fst js) ++ rest) (fun rho => moves l (map (height rho) ((i, len) :: js))) =
  sum_below (fun r => bit (Nat.leb l (randomLevel r len))) R * T (length (map fst js ++ rest)) - sum_below (fun r => bit (Nat.leb (S l) (randomLevel r len))) R * T (length (map fst js ++ rest)) +
  (Z.of_nat R - sum_below (fun r => bit (Nat.leb (S l) (randomLevel r len))) R) * E (map fst js ++ rest) (fun rho => moves l (map (height rho) js)).
Proof.
  intros NI. cbn [app E]. set (X := E (map fst js ++ rest) (fun rho => moves l (map (height rho) js))). set (t := T (length (map fst js ++ rest))).
  rewrite (sum_below_ext _ (fun r => t * bit (Nat.leb l (randomLevel r len)) + - (t * bit (Nat.leb (S l) (randomLevel r len))) + (X + - X * bit (Nat.leb (S l) (randomLevel r len))))).
  - rewrite !sum_below_add, sum_below_const, !sum_below_scale.
    rewrite (sum_below_ext (fun i => - (t * bit (Nat.leb (S l) (randomLevel i len)))) (fun i => - t * bit (Nat.leb (S l) (randomLevel i len)))) by (intros; lia).
    rewrite !sum_below_scale. lia.
  - intros r _. rewrite (E_ext _ _ (fun rho => (if Nat.ltb l (randomLevel r len) then 0 else bit (Nat.eqb (randomLevel r len) l)) + (if Nat.ltb l (randomLevel r len) then 0 else moves l (map (height rho) js)))).
    2:{ intros rho. cbn [map moves]. rewrite heights_set by auto. unfold height at 1. cbn [fst snd]. unfold height at 1. cbn [fst snd]. unfold set_draw. rewrite Nat.eqb_refl.
        destruct (Nat.ltb l (randomLevel r len)); lia. }
    rewrite E_add, E_const. fold t. set (h := randomLevel r len).
    destruct (Nat.ltb_spec l h) as [L|L].
    + rewrite E_const. destruct (Nat.leb_spec l h); [|lia]. destruct (Nat.leb_spec (S l) h); [|lia]. cbn [bit]. lia.
    + fold X. destruct (Nat.leb_spec (S l) h); [lia|]. destruct (Nat.eqb_spec h l), (Nat.leb_spec l h); try lia; cbn [bit]; lia.
Qed.
Lemma at_least_step l i len js rest : ~ In i (map fst js) ->
  E ((i :: map fst js) ++ rest) (fun rho => at_least l (map (height rho) ((i, len) :: js))) =
  sum_below (fun r => bit (Nat.leb l (randomLevel r len))) R * T (length (map fst js ++ rest)) + Z.of_nat R * E (map fst js ++ rest) (fun rho => at_least l (map (height rho) js)).
Proof.
  intros NI. cbn [app E]. set (X := E (map fst js ++ rest) (fun rho => at_least l (map (height rho) js))). set (t := T (length (map fst js ++ rest))).
  rewrite (sum_below_ext _ (fun r => t * bit (Nat.leb l (randomLevel r len)) + X)).
  - rewrite sum_below_add, sum_below_const, sum_below_scale. lia.
  - intros r _. rewrite (E_ext _ _ (fun rho => bit (Nat.leb l (randomLevel r len)) + at_least l (map (height rho) js))).
    2:{ intros rho. cbn [map at_least]. rewrite heights_set by auto. unfold height at 1. cbn [fst snd]. unfold set_draw. now rewrite Nat.eqb_refl. }
    rewrite E_add, E_const. fold t X. lia.
Qed.
Lemma at_least_bound l rest : (1 <= l)%nat -> forall js, NoDup (map fst js) ->
  2 ^ Z.of_nat (l - 1) * E (map fst js ++ rest) (fun rho => at_least l (map (height rho) js)) <= zlen js * T (length (map fst js ++ rest)).
Proof.
  intros Hl. induction js as [|[i len] js IH]; intros ND.
  - cbn [map app at_least]. rewrite E_const. unfold zlen. cbn [length]. lia.
  - cbn [map fst] in ND. inversion ND; subst. specialize (IH H2). change (map fst ((i, len) :: js)) with (i :: map fst js). rewrite at_least_step by auto.
    change (length ((i :: map fst js) ++ rest)) with (S (length (map fst js ++ rest))). rewrite T_S.
    pose proof (count_ge len l Hl) as C. set (q := sum_below _ R) in *. set (t := T _) in *. pose proof (T_nonneg (length (map fst js ++ rest))) as Ht. fold t in Ht.
    set (X := E _ _) in *. set (P := 2 ^ Z.of_nat (l - 1)) in *. unfold zlen in *. cbn [length]. rewrite Nat2Z.inj_succ.
    assert (P * q <= Z.of_nat R) by (destruct (open l len); lia). nia.
Qed.
Lemma moves_bound l rest : (1 <= l)%nat -> forall js, NoDup (map fst js) ->
  0 <= E (map fst js ++ rest) (fun rho => moves l (map (height rho) js)) /\
  2 ^ Z.of_nat (l - 1) * E (map fst js ++ rest) (fun rho => moves l (map (height rho) js)) <= (2 ^ Z.of_nat (l - 1) + count (capped l) js) * T (length (map fst js ++ rest)).
Proof.
  intros Hl. assert (PP : 0 < 2 ^ Z.of_nat (l - 1)) by (apply Z.pow_pos_nonneg; lia). induction js as [|[i len] js IH]; intros ND.
  - cbn [map app moves]. rewrite E_const. unfold count. cbn [filter]. pose proof (T_nonneg (length rest)). unfold zlen. cbn [length]. nia.
  - cbn [map fst] in ND. inversion ND; subst. destruct (IH H2) as [I0 I1]. change (map fst ((i, len) :: js)) with (i :: map fst js). rewrite moves_step by auto.
    change (length ((i :: map fst js) ++ rest)) with (S (length (map fst js ++ rest))). rewrite T_S. rewrite count_cons. change (capped l (i, len)) with (open l len && negb (open (S l) len)).
    pose proof (count_ge len l Hl) as C. pose proof (count_ge len (S l) ltac:(lia)) as C2. replace (S l - 1)%nat with (S (l - 1)) in C2 by lia. rewrite Nat2Z.inj_succ, Z.pow_succ_r in C2 by lia.
    set (q := sum_below _ R) in *. set (q2 := sum_below (fun r => bit (Nat.leb (S l) _)) R) in *. set (t := T _) in *. pose proof (T_nonneg (length (map fst js ++ rest))) as Ht. fold t in Ht.
    set (X := E _ _) in *. set (P := 2 ^ Z.of_nat (l - 1)) in *. pose proof (Nat2Z.is_nonneg R) as HR. set (r := Z.of_nat R) in *. clearbody X t q q2 P r.
    assert (N : 0 <= count (capped l) js) by (unfold count, zlen; lia). set (n := count (capped l) js) in *. clearbody n.
    destruct (open (S l) len) eqn:O2.
    + rewrite (open_mono _ _ O2) in *. cbn [andb negb bit] in *. assert (q = 2 * q2) by nia. subst q. assert (0 <= q2 <= r) by nia. split; [nia|].
      replace (2 * q2 * t - q2 * t + (r - q2) * X) with (q2 * t + (r - q2) * X) by ring.
      assert ((r - q2) * (P * X) <= (r - q2) * ((P + n) * t)) by (apply Z.mul_le_mono_nonneg_l; lia).
      assert (0 <= q2 * (n * t)) by (apply Z.mul_nonneg_nonneg; [lia|apply Z.mul_nonneg_nonneg; lia]). nia.
    + assert (q2 = 0) by nia. subst q2. destruct (open l len) eqn:O1; cbn [andb negb bit] in *.
      * assert (0 <= q) by nia. split; [nia|]. replace (q * t - 0 * t + (r - 0) * X) with (q * t + r * X) by ring.
        assert (r * (P * X) <= r * ((P + n) * t)) by (apply Z.mul_le_mono_nonneg_l; lia). nia.
      * assert (q = 0) by nia. subst q. split; [nia|]. replace (0 * t - 0 * t + (r - 0) * X) with (r * X) by ring.
        assert (r * (P * X) <= r * ((P + n) * t)) by (apply Z.mul_le_mono_nonneg_l; lia). nia.
Qed.
End Draws.
