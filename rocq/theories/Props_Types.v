(** C74: the laws that other theorems assume of ordered types hold of Go's. *)
From Coq Require Import Floats.SpecFloat Strings.Byte.
From Verif Require Import BaseLemmas Spec Spec_Lookup Spec_Compute Model_Compute Model_Types Proof_Float Proof_Types.

(** Integers. *)
Theorem C74_int : forall n, ordered (@int_ltb n) int_eqb.
Proof. intros n. apply (ordered_by_rank _ _ (fun a => proj1_sig a)); reflexivity. Qed.
Print Assumptions C74_int.
Theorem C74_int_range : forall n z, is_int n -> (in_type n z = true <-> fits n z).
Proof.
  intros n z H. unfold in_type, fits. rewrite Z.eqb_eq. destruct n; cbn; try (exfalso; now apply H); clear H;
    (split; intros E; [rewrite <- E|]; [match goal with |- context [?a mod ?b] => pose proof (Z.mod_pos_bound a b ltac:(lia)); lia end|rewrite Z.mod_small; lia]).
Qed.
Print Assumptions C74_int_range.

(** Strings: by the first byte that differs; a proper prefix is less. *)
Theorem C74_string : ordered string_ltb string_eqb /\ (forall a b, string_eqb a b = true <-> a = b) /\
  (forall a b, string_ltb a b = true <-> exists p,
    (exists y r, a = p /\ b = p ++ y :: r) \/ (exists x y r r', a = p ++ x :: r /\ b = p ++ y :: r' /\ (to_N x < to_N y)%N)).
Proof.
  split; [exact string_ordered|]. split; [intros a b; apply string_eqb_eq|]. intros a b. rewrite string_ltb_iff.
  split; intros (p & [H|(x & y & r & r' & H1 & H2 & H3)]); exists p; auto; right; exists x, y, r, r'; repeat split; auto; apply N.ltb_lt; auto.
Qed.
Print Assumptions C74_string.

(** Floats: NaN is not ordered with respect to anything, the rest is. *)
Theorem C74_float : forall n p e, float_format n = Some (p, e) -> ordered_nan (@float_ltb p e) float_eqb is_nan.
Proof. intros n p e H. destruct n; try discriminate H; injection H as <- <-; apply float_ordered_nan; lia. Qed.
Print Assumptions C74_float.
Theorem C74_float_without_nan : forall n p e, float_format n = Some (p, e) ->
  ordered (fun a b : { f : go_float p e | is_nan f = false } => float_ltb (proj1_sig a) (proj1_sig b)) (fun a b => float_eqb (proj1_sig a) (proj1_sig b)).
Proof.
  intros n p e H. destruct (C74_float n p e H) as [_ _ I T N E]. split; [split|].
  - intros a. apply I.
  - intros a b c. apply T.
  - intros a [b Hb] c. apply N, Hb.
  - intros [a Ha] [b Hb]. apply E; auto.
Qed.
Print Assumptions C74_float_without_nan.
(** The order is that of the numbers. *)
Theorem C74_float_integers : forall n p e f g a b, float_format n = Some (p, e) -> finite_float p e f -> finite_float p e g ->
  value_is f a -> value_is g b -> SFltb f g = (a <? b) /\ SFeqb f g = (a =? b).
Proof.
  intros n p e f g a b H Ff Fg Va Vb. assert (B : 1 < p < e) by (destruct n; try discriminate H; injection H as <- <-; lia).
  assert (Conv : forall x z, finite_float p e x -> value_is x z -> Proof_Float.fin p e x /\ Proof_Float.sv p e x = z * 2 ^ K p e /\ x <> S754_nan).
  { intros x z. destruct x as [s|s| |s m ex]; cbn [finite_float value_is valid_binary fin sv]; try tauto; [intros _ ->; repeat split; discriminate|]. intros Bd V. split; [exact Bd|]. split; [|discriminate].
    pose proof (fin_e p e ltac:(lia) ltac:(lia) s m ex Bd) as Ee. assert (KP : 0 < K p e) by (unfold K; lia).
    assert (Es : cond_Zopp s (Zpos m * 2 ^ (ex + K p e)) = (if s then Zneg m else Zpos m) * 2 ^ (ex + K p e)) by (destruct s; cbn [cond_Zopp]; lia).
    rewrite Es. destruct (Z.leb_spec 0 ex) as [L|L].
    - rewrite V, pow2_split by lia. ring.
    - rewrite V, <- Z.mul_assoc, <- pow2_split by lia. do 2 f_equal. lia. }
  destruct (Conv f a Ff Va) as (F1 & S1 & N1), (Conv g b Fg Vb) as (F2 & S2 & N2).
  pose proof (float_value p e ltac:(lia) ltac:(lia) f g a b F1 F2 S1 S2) as L1. pose proof (float_value p e ltac:(lia) ltac:(lia) g f b a F2 F1 S2 S1) as L2.
  split; [exact L1|]. rewrite (SFeqb_ltb p e), L1, L2 by (auto; lia). destruct (Z.ltb_spec a b), (Z.ltb_spec b a), (Z.eqb_spec a b); cbn; auto; lia.
Qed.
Print Assumptions C74_float_integers.

(** Examples: 1 < 1.5 < +Inf as float64, -0 == +0, NaN; strings "a" < "ab" < "b". *)
Definition f64 (f : spec_float) (v : valid_binary 53 1024 f = true) : go_float 53 1024 := exist _ f v.
Example C74_hyp :
  let one := f64 (S754_finite false 4503599627370496 (-52)) eq_refl in
  let one_half := f64 (S754_finite false 6755399441055744 (-52)) eq_refl in
  let inf := f64 (S754_infinity false) eq_refl in let nan := f64 S754_nan eq_refl in
  float_ltb one one_half = true /\ float_ltb one_half inf = true /\ float_eqb (f64 (S754_zero true) eq_refl) (f64 (S754_zero false) eq_refl) = true /\
  float_eqb nan nan = false /\ float_ltb nan one = false /\ float_ltb one nan = false /\
  string_ltb [x61] [x61; x62] = true /\ string_ltb [x61; x62] [x62] = true /\ in_type uint8 255 = true /\ in_type uint8 256 = false.
Proof. vm_compute. repeat split. Qed.
