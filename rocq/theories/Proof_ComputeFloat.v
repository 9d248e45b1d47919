From Coq Require Import Floats.SpecFloat.
From Verif Require Import BaseLemmas Model_Compute Spec_Compute Proof_Float Proof_Compute.

Section Format.
Variable p e : Z.
Hypothesis Hp : 1 < p.
Hypothesis He : p < e.
Local Notation K := (K p e).
Local Notation sv := (sv p e).
Local Notation fin := (fin p e).
Local Notation scaled := (scaled p e).
Local Notation rnd := (rnd p).
Let HK : 0 < K.
Proof. exact (K_pos p e Hp He). Qed.
Let PK : 0 < 2 ^ K.
Proof. apply pow2_pos. lia. Qed.

Lemma fin_finite f : finite_float p e f <-> fin f.
Proof. destruct f; cbn; tauto. Qed.

Lemma quot_cond s X u : 0 <= X -> 0 < u -> Z.quot (cond_Zopp s X) u = if s then - (X / u) else X / u.
Proof.
  intros H1 H2. destruct s; cbn [cond_Zopp]; [rewrite Z.quot_opp_l by lia|]; rewrite Z.quot_div_nonneg by lia; auto.
Qed.
Lemma trunc_fin f : fin f -> trunc f = Some (Z.quot (sv f) (2 ^ K)).
Proof.
  destruct f as [s|s| |s m x]; cbn [Proof_Float.fin]; try tauto.
  - intros B. apply (bounded_iff p e Hp He) in B as (B & _). cbn [trunc Proof_Float.sv]. pose proof (pow2_pos _ B).
    rewrite quot_cond by nia. f_equal.
    assert (E : (if 0 <=? x then Zpos m * 2 ^ x else Zpos m / 2 ^ (- x)) = Zpos m * 2 ^ (x + K) / 2 ^ K).
    { destruct (Z.leb_spec 0 x).
      - rewrite pow2_split, Z.mul_assoc, Z.div_mul by lia. reflexivity.
      - replace (2 ^ K) with (2 ^ (- x) * 2 ^ (x + K)) by (rewrite <- pow2_split by lia; f_equal; lia).
        pose proof (pow2_pos (- x) ltac:(lia)). now rewrite Z.div_mul_cancel_r by lia. }
    rewrite E. reflexivity.
Qed.
Lemma trunc_int f z : fin f -> sv f = scaled z -> trunc f = Some z.
Proof. intros F E. rewrite trunc_fin by auto. rewrite E. unfold Proof_Float.scaled. now rewrite Z.quot_mul by lia. Qed.

(** The specification's value against the scaled one. *)
Lemma value_is_sv f z : fin f -> (value_is f z <-> sv f = scaled z).
Proof.
  destruct f as [s|s| |s m x]; cbn [Proof_Float.fin]; try tauto; unfold Proof_Float.scaled; cbn [value_is Proof_Float.sv].
  - intros _. split; [intros ->; lia|]. intros H. nia.
  - intros B. apply (bounded_iff p e Hp He) in B as (B & _). pose proof (pow2_pos _ B).
    assert (E : cond_Zopp s (Zpos m * 2 ^ (x + K)) = (if s then Zneg m else Zpos m) * 2 ^ (x + K)) by (destruct s; cbn [cond_Zopp]; [rewrite <- Pos2Z.opp_pos|]; ring).
    rewrite E. set (sm := if s then Zneg m else Zpos m). destruct (Z.leb_spec 0 x).
    + rewrite pow2_split by lia. rewrite Z.mul_assoc. split; [intros ->; auto|]. intros Q. apply Z.mul_reg_r in Q; lia.
    + replace (2 ^ K) with (2 ^ (- x) * 2 ^ (x + K)) by (rewrite <- pow2_split by lia; f_equal; lia).
      rewrite Z.mul_assoc. split; [intros ->; auto|]. intros Q. apply Z.mul_reg_r in Q; lia.
Qed.
Lemma abs_le_sv f z : fin f -> (abs_le f z <-> Z.abs (sv f) <= scaled z).
Proof.
  destruct f as [s|s| |s m x]; cbn [Proof_Float.fin]; try tauto; unfold Proof_Float.scaled; cbn [abs_le Proof_Float.sv].
  - intros _. cbn [Z.abs]. nia.
  - intros B. apply (bounded_iff p e Hp He) in B as (B & _). pose proof (pow2_pos _ B). rewrite (abs_cond p e Hp He) by nia.
    destruct (Z.leb_spec 0 x).
    + rewrite pow2_split by lia. rewrite Z.mul_assoc. apply Z.mul_le_mono_pos_r. lia.
    + replace (2 ^ K) with (2 ^ (- x) * 2 ^ (x + K)) by (rewrite <- pow2_split by lia; f_equal; lia).
      rewrite Z.mul_assoc. apply Z.mul_le_mono_pos_r. lia.
Qed.
Lemma ge_int_sv f z : fin f -> 0 < z -> ge_int f z -> scaled z <= sv f.
Proof.
  destruct f as [s|s| |s m x]; cbn [Proof_Float.fin]; try tauto; unfold Proof_Float.scaled; cbn [ge_int Proof_Float.sv].
  - lia.
  - intros B Hz. apply (bounded_iff p e Hp He) in B as (B & _). pose proof (pow2_pos _ B). destruct s; [tauto|]. cbn [cond_Zopp].
    destruct (Z.leb_spec 0 x).
    + rewrite pow2_split by lia. rewrite Z.mul_assoc. intros Q. apply Z.mul_le_mono_pos_r; lia.
    + replace (2 ^ K) with (2 ^ (- x) * 2 ^ (x + K)) by (rewrite <- pow2_split by lia; f_equal; lia).
      rewrite Z.mul_assoc. intros Q. apply Z.mul_le_mono_pos_r; lia.
Qed.

(** v + 1 rounded is more than v while |v| < 2^p (or v = -2^p). *)
Lemma succ_up v : fin v -> - scaled (2 ^ p) <= sv v < scaled (2 ^ p) -> 
  sv v < rnd (sv v + scaled 1) <= scaled (2 ^ p).
Proof.
  intros F [H1 H2]. set (V := sv v) in *. pose proof (pow2_pos p ltac:(lia)) as P2p.
  assert (S1 : scaled 1 = 2 ^ K) by (unfold Proof_Float.scaled; lia).
  assert (Sp : scaled (2 ^ p) = 2 ^ (p + K)) by (unfold Proof_Float.scaled; rewrite pow2_split by lia; reflexivity).
  rewrite S1, Sp in *.
  assert (PpK := pow2_pos (p + K) ltac:(lia)).
  destruct (Z_lt_le_dec (V + 2 ^ K) 0) as [N|N].
  - (* negative: rounding the magnitude up moves by less than one unit, at most 1 *)
    unfold Proof_Float.rnd. rewrite Z.sgn_neg, Z.abs_neq by lia. set (X := - (V + 2 ^ K)).
    pose proof (rnd1_lt p e Hp He X) as L. assert (HX : 0 < X < 2 ^ (p + K)) by (unfold X; lia).
    pose proof (ue_le p e Hp He X K ltac:(lia) HX) as U. pose proof (pow2_mono (ue p X) K ltac:(pose proof (ue_nonneg p e Hp He X); lia)).
    assert (G : 0 <= rnd1 p X). { unfold rnd1. destruct (rne_ue_bounds p e Hp He X ltac:(lia)) as [[G _] _]. pose proof (pow2_pos _ (ue_nonneg p e Hp He X)). nia. }
    unfold X in *. split; lia.
  - (* V + 1 >= 0 *)
    set (X := V + 2 ^ K) in *.
    destruct (Z.eq_dec X 0) as [E0|N0]; [rewrite E0; cbn; lia|].
    unfold Proof_Float.rnd. rewrite Z.sgn_pos, Z.abs_eq, Z.mul_1_l by lia.
    destruct (Z_lt_le_dec X (2 ^ (p + K))) as [L|L].
    + assert (U : ue p X <= K) by (apply (ue_le p e Hp He); lia). pose proof (ue_nonneg p e Hp He X) as U0.
      pose proof (pow2_mono (ue p X) K ltac:(lia)). pose proof (rnd1_bounds p e Hp He X). split; [unfold X in *; lia|].
      (* the result is a multiple of the unit not above the next binade *)
      destruct (rne_ue_bounds p e Hp He X ltac:(lia)) as [[_ G] _]. unfold rnd1. pose proof (pow2_pos (ue p X) U0).
      apply Z.le_trans with (2 ^ p * 2 ^ ue p X); [nia|]. rewrite pow2_split by lia. nia.
    + (* X in [2^(p+K), 2^(p+K)+2^K): V is a multiple of 2^K there, so X = 2^(p+K) *)
      assert (E : X = 2 ^ (p + K)).
      { assert (D : V mod 2 ^ K = 0).
        { pose proof (fin_exact p e Hp He v F) as FE. fold V in FE.
          destruct v as [s|s| |s m x]; cbn [Proof_Float.fin] in F; try tauto.
          - assert (VP : 0 < V). { unfold X in L. pose proof (Z.pow_lt_mono_r 2 K (p + K) ltac:(lia) ltac:(lia) ltac:(lia)). lia. }
            apply (bounded_iff p e Hp He) in F as (F1 & F2 & _). unfold V in *. cbn [Proof_Float.sv] in *.
            pose proof (pow2_pos _ F1).
            destruct s; cbn [cond_Zopp] in *; [nia|].
            (* x = 0: V >= 2^(p+K) - 2^K >= 2^(p+K-1) *)
            assert (p + K - 1 <= Z.log2 (Zpos m * 2 ^ (x + K))).
            { apply Z.log2_le_pow2; [lia|]. unfold X in L.
              assert (Q : 2 ^ (p + K) = 2 * 2 ^ (p + K - 1)) by (rewrite <- pow2_succ by lia; f_equal; lia).
              pose proof (pow2_mono K (p + K - 1) ltac:(lia)). lia. }
            unfold ue in F2. assert (K <= x + K) by lia.
            replace (x + K) with (x + K - K + K) by lia. rewrite pow2_split by lia. rewrite Z.mul_assoc. apply Z.mod_mul. lia. }
        apply Z.mod_divide in D as [q Dq]; [|lia]. unfold X in *. rewrite Dq in *. rewrite pow2_split in * by lia.
        assert (q + 1 = 2 ^ p) by nia. nia. }
      rewrite E. rewrite (exact_below p e Hp He _ K); [|lia|lia|rewrite pow2_split by lia; apply Z.mod_mul; lia]. unfold X in *. lia.
Qed.

(** From 2^(p+1) on, adding 1 changes nothing. *)
Lemma succ_stuck v : fin v -> scaled (2 ^ (p + 1)) <= sv v -> rnd (sv v + scaled 1) = sv v /\ in_range p e (sv v + scaled 1).
Proof.
  intros F H. assert (S1 : scaled 1 = 2 ^ K) by (unfold Proof_Float.scaled; lia).
  assert (Sp : scaled (2 ^ (p + 1)) = 2 ^ (p + 1 + K)) by (unfold Proof_Float.scaled; rewrite (pow2_split (p + 1) K) by lia; reflexivity).
  rewrite S1, Sp in *. pose proof (pow2_pos (p + 1 + K) ltac:(lia)) as P.
  destruct v as [s|s| |s m x]; cbn [Proof_Float.fin] in F; try tauto; [cbn [Proof_Float.sv] in H; lia|].
  pose proof (bounded_mag p e Hp He m x F) as Mg.
  apply (bounded_iff p e Hp He) in F as (F1 & F2 & F3). cbn [Proof_Float.sv] in *. pose proof (pow2_pos _ F1) as Px.
  destruct s; cbn [cond_Zopp] in *; [nia|]. set (V := Zpos m * 2 ^ (x + K)) in *.
  assert (LV : p + 1 + K <= Z.log2 V) by (apply Z.log2_le_pow2; lia).
  assert (Ux : K + 2 <= x + K) by (unfold ue in F2; lia).
  assert (U2 : 4 * 2 ^ K <= 2 ^ (x + K)).
  { replace (4 * 2 ^ K) with (2 ^ (K + 2)) by (rewrite pow2_split by lia; change (2 ^ 2) with 4; ring). apply pow2_mono. lia. }
  assert (LX : Z.log2 (V + 2 ^ K) = Z.log2 V).
  { pose proof (Z.log2_spec V ltac:(lia)) as [L1 L2]. apply Z.log2_unique; [lia|]. split; [lia|].
    rewrite <- Z.add_1_r in *.
    (* V is a multiple of u below 2^(log2 V + 1), itself a multiple of u *)
    replace (Z.log2 V + 1) with (p + (x + K)) in * by (unfold ue in F2; lia).
    rewrite (pow2_split p (x + K)) in * by lia. set (u := 2 ^ (x + K)) in *.
    assert (Zpos m < 2 ^ p) by (apply (Z.mul_lt_mono_pos_r u); unfold V in *; lia).
    assert ((Zpos m + 1) * u <= 2 ^ p * u) by (apply Z.mul_le_mono_nonneg_r; lia). unfold V. lia. }
  assert (UX : ue p (V + 2 ^ K) = x + K) by (unfold ue in *; rewrite LX; lia).
  assert (R1 : rnd1 p (V + 2 ^ K) = V).
  { unfold rnd1. rewrite UX. 
    assert (Em : (V + 2 ^ K) mod 2 ^ (x + K) = 2 ^ K) by (symmetry; apply Z.mod_unique_pos with (Zpos m); unfold V; lia).
    assert (Ed : (V + 2 ^ K) / 2 ^ (x + K) = Zpos m) by (symmetry; apply Z.div_unique_pos with (2 ^ K); unfold V; lia).
    rewrite rne_down by (rewrite Em; lia). rewrite Ed. reflexivity. }
  split.
  - unfold Proof_Float.rnd. rewrite Z.sgn_pos, Z.abs_eq by lia. rewrite R1. lia.
  - unfold in_range. rewrite Z.abs_eq by lia. rewrite R1. eapply Z.lt_le_trans; [exact Mg|]. apply pow2_mono. lia.
Qed.
End Format.
