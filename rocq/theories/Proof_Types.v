(** Order laws of Go's types. *)
From Coq Require Import Floats.SpecFloat Strings.Byte.
From Verif Require Import BaseLemmas Spec Spec_Lookup Model_Compute Model_Types Proof_Float.

Lemma ordered_by_rank {T} (ltb eqb : T -> T -> bool) (rank : T -> Z) :
  (forall a b, ltb a b = (rank a <? rank b)) -> (forall a b, eqb a b = (rank a =? rank b)) -> ordered ltb eqb.
Proof.
  intros L E. split; [split|]; intros *; rewrite ?L, ?E.
  - apply Z.ltb_irrefl.
  - rewrite !Z.ltb_lt. lia.
  - rewrite !Z.ltb_ge. lia.
  - destruct (Z.ltb_spec (rank a) (rank b)), (Z.ltb_spec (rank b) (rank a)), (Z.eqb_spec (rank a) (rank b)); cbn; auto; lia.
Qed.

Section Format.
Variables prec emax : Z.
Hypothesis Hprec : 1 < prec.
Hypothesis Hemax : prec < emax.
Set Default Proof Using "All".
Notation K := (K prec emax).
Notation sv := (sv prec emax).
Notation fin := (fin prec emax).
(** A number in the order of the floats. *)
Definition rank (f : spec_float) : Z :=
  match f with S754_infinity true => - 2 ^ (emax + K) | S754_infinity false => 2 ^ (emax + K) | f => sv f end.
Lemma mag_bound s m e : bounded prec emax m e = true -> - 2 ^ (emax + K) < sv (S754_finite s m e) < 2 ^ (emax + K).
Proof.
  intros B. pose proof (bounded_mag prec emax Hprec Hemax m e B) as M. pose proof B as B'. apply (bounded_iff prec emax Hprec Hemax) in B' as (E & _).
  apply andb_true_iff in B as [_ B]. apply Zle_is_le_bool in B.
  assert (2 ^ (prec + (e + K)) <= 2 ^ (emax + K)) by (apply pow2_mono; lia). pose proof (pow2_pos _ E).
  cbn [Proof_Float.sv]. destruct s; cbn [cond_Zopp]; nia.
Qed.
Lemma SFltb_rank x y : valid_binary prec emax x = true -> valid_binary prec emax y = true -> x <> S754_nan -> y <> S754_nan ->
  SFltb x y = (rank x <? rank y).
Proof.
  assert (P : 0 < 2 ^ (emax + K)) by (apply pow2_pos; unfold Proof_Float.K; lia).
  assert (Fr : forall f, fin f -> rank f = sv f /\ - 2 ^ (emax + K) < sv f < 2 ^ (emax + K)).
  { intros [s|s| |s m e] F; try (exfalso; exact F); (split; [reflexivity|]); [cbn [Proof_Float.sv]; lia|apply mag_bound, F]. }
  assert (Cs : forall f, valid_binary prec emax f = true -> f <> S754_nan -> fin f \/ exists s, f = S754_infinity s).
  { intros [s|s| |s m e] V N; [now left|right; eauto|congruence|left; exact V]. }
  intros Vx Vy Nx Ny. destruct (Cs x Vx Nx) as [Fx|[s1 ->]], (Cs y Vy Ny) as [Fy|[s2 ->]].
  - destruct (Fr x Fx) as [-> _], (Fr y Fy) as [-> _]. now apply SFltb_spec.
  - destruct (Fr x Fx) as [-> B]. assert (SFltb x (S754_infinity s2) = negb s2) as -> by (destruct x; cbn in Fx; try tauto; now destruct s2).
    destruct s2; cbn [rank negb]; symmetry; [apply Z.ltb_ge|apply Z.ltb_lt]; lia.
  - destruct (Fr y Fy) as [-> B]. assert (SFltb (S754_infinity s1) y = s1) as -> by (destruct y; cbn in Fy; try tauto; now destruct s1).
    destruct s1; cbn [rank]; symmetry; [apply Z.ltb_lt|apply Z.ltb_ge]; lia.
  - destruct s1, s2; cbn [rank]; symmetry; first [apply Z.ltb_lt; lia|apply Z.ltb_ge; lia].
Qed.
Lemma SFeqb_ltb x y : x <> S754_nan -> y <> S754_nan -> SFeqb x y = negb (SFltb x y) && negb (SFltb y x).
Proof.
  intros Nx Ny. unfold SFeqb, SFltb. destruct x as [s1|[]| |s1 m1 e1], y as [s2|[]| |s2 m2 e2]; try congruence; try reflexivity; cbn [SFcompare]; try (now destruct s1); try (now destruct s2).
  assert (A : Pos.compare_cont Eq m2 m1 = CompOpp (Pos.compare_cont Eq m1 m2)) by (symmetry; apply (Pos.compare_cont_antisym m1 m2 Eq)).
  rewrite (Z.compare_antisym e1 e2), A. destruct s1, s2, (e1 ?= e2), (Pos.compare_cont Eq m1 m2); reflexivity.
Qed.

Notation gf := (go_float prec emax).
Lemma float_ordered_nan : ordered_nan (float_ltb (p := prec) (e := emax)) float_eqb is_nan.
Proof.
  assert (NN : forall a : gf, is_nan a = false -> proj1_sig a <> S754_nan) by (intros [f v]; unfold is_nan; cbn; now destruct f).
  assert (NL : forall a b : gf, is_nan a = true \/ is_nan b = true -> float_ltb a b = false /\ float_eqb a b = false).
  { intros [f v] [g w]. unfold is_nan, float_ltb, float_eqb, SFltb, SFeqb. cbn. destruct f, g; intros [H|H]; try discriminate; auto. }
  assert (R : forall a b : gf, is_nan a = false -> is_nan b = false -> float_ltb a b = (rank (proj1_sig a) <? rank (proj1_sig b))).
  { intros a b Ha Hb. apply SFltb_rank; auto; apply proj2_sig. }
  assert (T : forall a b : gf, float_ltb a b = true -> is_nan a = false /\ is_nan b = false).
  { intros a b H. destruct (is_nan a) eqn:Ea, (is_nan b) eqn:Eb; auto; destruct (NL a b) as [N _]; auto; congruence. }
  split.
  - intros a b H. apply NL. auto.
  - intros a b H. apply NL. auto.
  - intros a. destruct (is_nan a) eqn:E; [apply NL; auto|]. rewrite R by auto. apply Z.ltb_irrefl.
  - intros a b c H1 H2. destruct (T _ _ H1), (T _ _ H2). rewrite R in * by auto. apply Z.ltb_lt in H1, H2. apply Z.ltb_lt. lia.
  - intros a b c Hb H1 H2. destruct (is_nan a) eqn:Ea; [apply NL; auto|]. destruct (is_nan c) eqn:Ec; [apply NL; auto|].
    rewrite R in * by auto. apply Z.ltb_ge in H1, H2. apply Z.ltb_ge. lia.
  - intros a b Ha Hb. apply SFeqb_ltb; auto.
Qed.
Lemma float_value x y a b : fin x -> fin y -> sv x = a * 2 ^ K -> sv y = b * 2 ^ K -> SFltb x y = (a <? b).
Proof.
  intros Fx Fy Ex Ey. rewrite (SFltb_spec prec emax Hprec Hemax x y Fx Fy), Ex, Ey.
  assert (0 < 2 ^ K) by (apply pow2_pos; unfold Proof_Float.K; lia). destruct (Z.ltb_spec (a * 2 ^ K) (b * 2 ^ K)), (Z.ltb_spec a b); auto; nia.
Qed.
End Format.

(** Strings. *)
Lemma byte_ordered : ordered byte_ltb byte_eqb.
Proof.
  apply (ordered_by_rank _ _ (fun b => Z.of_N (to_N b))); intros a b; unfold byte_ltb, byte_eqb;
    [destruct (N.ltb_spec (to_N a) (to_N b)), (Z.ltb_spec (Z.of_N (to_N a)) (Z.of_N (to_N b)))|destruct (N.eqb_spec (to_N a) (to_N b)), (Z.eqb_spec (Z.of_N (to_N a)) (Z.of_N (to_N b)))]; auto; lia.
Qed.
Lemma byte_eqb_eq a b : byte_eqb a b = true <-> a = b.
Proof.
  unfold byte_eqb. rewrite N.eqb_eq. split; [|now intros ->]. intros H. pose proof (of_to_N a) as A. rewrite H, of_to_N in A. congruence.
Qed.
Lemma string_eqb_eq a : forall b, string_eqb a b = true <-> a = b.
Proof.
  induction a as [|x a IH]; intros [|y b]; cbn; try (split; [discriminate|discriminate]); try (split; reflexivity).
  rewrite andb_true_iff, byte_eqb_eq, IH. split; [intros [-> ->]; reflexivity|intros [= -> ->]; auto].
Qed.
Lemma string_trichotomy a : forall b, string_eqb a b = negb (string_ltb a b) && negb (string_ltb b a).
Proof.
  induction a as [|x a IH]; intros [|y b]; cbn; auto. rewrite (ord_eq _ _ byte_ordered x y).
  destruct (byte_ltb x y) eqn:E1, (byte_ltb y x) eqn:E2; cbn; auto.
Qed.
Lemma string_trans a : forall b c, string_ltb a b = true -> string_ltb b c = true -> string_ltb a c = true.
Proof.
  pose proof (ord_sw _ _ byte_ordered) as SW.
  induction a as [|x a IH]; intros [|y b] [|z c]; cbn; auto; try discriminate.
  destruct (byte_ltb x y) eqn:E1; [intros _|destruct (byte_ltb y x) eqn:E2; [discriminate|]].
  - destruct (byte_ltb y z) eqn:E3; [now rewrite (sw_trans _ SW _ _ _ E1 E3)|]. destruct (byte_ltb z y) eqn:E4; [discriminate|]. intros _.
    destruct (byte_ltb x z) eqn:E5; auto. rewrite (sw_negtrans _ SW x z y E5 E4) in E1. discriminate.
  - intros H1. assert (x = y) as ->. { apply byte_eqb_eq. rewrite (ord_eq _ _ byte_ordered), E1, E2. reflexivity. }
    destruct (byte_ltb y z); auto. destruct (byte_ltb z y); [discriminate|]. apply IH, H1.
Qed.
Lemma string_ordered : ordered string_ltb string_eqb.
Proof.
  assert (Irr : forall a, string_ltb a a = false).
  { intros a. assert (string_eqb a a = true) as H by now apply string_eqb_eq. rewrite string_trichotomy in H. apply andb_true_iff in H as [H _]. now apply negb_true_iff. }
  split; [split|]; auto using string_trichotomy.
  - intros a b c. apply string_trans.
  - intros a b c H1 H2. destruct (string_ltb a c) eqn:E; auto. destruct (string_ltb b a) eqn:E1.
    + rewrite (string_trans _ _ _ E1 E) in H2. discriminate.
    + assert (a = b) as -> by (apply string_eqb_eq; now rewrite string_trichotomy, H1, E1). congruence.
Qed.
Lemma string_ltb_iff a : forall b, string_ltb a b = true <-> exists p,
  (exists y r, a = p /\ b = p ++ y :: r) \/ (exists x y r r', a = p ++ x :: r /\ b = p ++ y :: r' /\ byte_ltb x y = true).
Proof.
  induction a as [|x a IH]; intros b.
  - split.
    + destruct b as [|y b]; cbn; [discriminate|]. intros _. exists []. left. exists y, b. auto.
    + intros (p & [(y & r & <- & ->)|(x & y & r & r' & E & _)]); [reflexivity|]. destruct p; discriminate.
  - destruct b as [|y b]; cbn [string_ltb].
    + split; [discriminate|]. intros (p & [(z & r & _ & E)|(z & w & r & r' & _ & E & _)]); destruct p; discriminate.
    + destruct (byte_ltb x y) eqn:E1; [|destruct (byte_ltb y x) eqn:E2].
      * split; auto. intros _. exists []. right. exists x, y, a, b. auto.
      * split; [discriminate|]. intros (p & [(z & r & <- & E)|(z & w & r & r' & Ea & Eb & L)]).
        -- injection E as -> ->. rewrite (sw_irrefl _ (ord_sw _ _ byte_ordered)) in E2. discriminate.
        -- destruct p as [|q p]; cbn in Ea, Eb; injection Ea as -> ->; injection Eb as -> ->; [congruence|].
           rewrite (sw_irrefl _ (ord_sw _ _ byte_ordered)) in E2. discriminate.
      * assert (x = y) as <-. { apply byte_eqb_eq. rewrite (ord_eq _ _ byte_ordered), E1, E2. reflexivity. }
        rewrite IH. split.
        -- intros (p & [(z & r & -> & ->)|(z & w & r & r' & -> & -> & L)]); exists (x :: p); [left|right]; cbn; eauto 8.
        -- intros (p & [(z & r & <- & E)|(z & w & r & r' & Ea & Eb & L)]).
           ++ injection E as ->. exists a. left. eauto.
           ++ destruct p as [|q p]; cbn in Ea, Eb.
              ** injection Ea as -> ->. injection Eb as -> ->. congruence.
              ** injection Ea as -> ->. injection Eb as ->. exists p. right. eauto 8.
Qed.
