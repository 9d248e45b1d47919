(** IEEE rounding of the standard library's SpecFloat, as integer arithmetic.
    Every finite number of a format is a multiple of 2^emin, so it is described
    by the integer [sv] = value / 2^emin. *)
From Coq Require Import Floats.SpecFloat.
From Verif Require Import BaseLemmas.

(** *** Powers of two *)
Lemma pow2_pos k : 0 <= k -> 0 < 2 ^ k.
Proof. intros. apply Z.pow_pos_nonneg; lia. Qed.
Lemma pow2_split a b : 0 <= a -> 0 <= b -> 2 ^ (a + b) = 2 ^ a * 2 ^ b.
Proof. intros. apply Z.pow_add_r; auto. Qed.
Lemma pow2_succ a : 0 <= a -> 2 ^ (a + 1) = 2 * 2 ^ a.
Proof. intros. rewrite pow2_split by lia. lia. Qed.
Lemma pow2_mono a b : 0 <= a <= b -> 2 ^ a <= 2 ^ b.
Proof. intros. apply Z.pow_le_mono_r; lia. Qed.

(** *** Digits *)
Lemma digits_log2 p : Zpos (digits2_pos p) = Z.log2 (Zpos p) + 1.
Proof.
  induction p as [p IH|p IH|]; cbn [digits2_pos]; [| |reflexivity].
  - rewrite Pos2Z.inj_succ, IH, (Pos2Z.inj_xI p), Z.log2_succ_double by lia. lia.
  - rewrite Pos2Z.inj_succ, IH, (Pos2Z.inj_xO p), Z.log2_double by lia. lia.
Qed.
Lemma Zdigits_log2 m : 0 < m -> Zdigits2 m = Z.log2 m + 1.
Proof. intros H. destruct m; try lia. apply digits_log2. Qed.
Lemma log2_shift X k : 0 < X -> 0 <= k -> Z.log2 (X * 2 ^ k) = Z.log2 X + k.
Proof. intros. rewrite Z.log2_mul_pow2 by lia. lia. Qed.
Lemma shift_pos_mul d m : Zpos (shift_pos d m) = Zpos m * 2 ^ Zpos d.
Proof. rewrite shift_pos_correct. rewrite Z.pow_pos_fold. lia. Qed.

(** *** Shifting right with sticky bits *)
Lemma Nat_iter_add {A} (f : A -> A) n m x : Nat.iter (n + m) f x = Nat.iter n f (Nat.iter m f x).
Proof. induction n as [|n IH]; simpl; auto. now f_equal. Qed.
Lemma iter_pos_nat {A} (f : A -> A) p : forall x, SpecFloat.iter_pos f p x = Nat.iter (Pos.to_nat p) f x.
Proof.
  induction p as [p IH|p IH|]; intros x; cbn [SpecFloat.iter_pos].
  - rewrite !IH. rewrite Pos2Nat.inj_xI. replace (S (2 * Pos.to_nat p)) with (Pos.to_nat p + (Pos.to_nat p + 1))%nat by lia.
    rewrite !Nat_iter_add. reflexivity.
  - rewrite !IH. rewrite Pos2Nat.inj_xO. replace (2 * Pos.to_nat p)%nat with (Pos.to_nat p + Pos.to_nat p)%nat by lia.
    now rewrite Nat_iter_add.
  - reflexivity.
Qed.

(** Where m0 lies relative to m * 2^n: [loc] of the remainder. *)
Definition loc_rem (rem n : Z) : location :=
  if rem =? 0 then loc_Exact else loc_Inexact (2 * rem ?= 2 ^ n).
Definition shr_inv (m0 n : Z) (r : shr_record) : Prop :=
  0 <= shr_m r /\ exists rem, 0 <= rem < 2 ^ n /\ m0 = shr_m r * 2 ^ n + rem /\ loc_of_shr_record r = loc_rem rem n.

Lemma shr_1_inv m0 n r : 0 <= n -> shr_inv m0 n r -> shr_inv m0 (n + 1) (shr_1 r).
Proof.
  intros Hn (Hm & rem & Hr & E & L). destruct r as [m rb sb]. cbn [shr_m] in *.
  assert (B : (rb || sb)%bool = negb (rem =? 0)).
  { unfold loc_rem in L. destruct rb, sb; cbn in L; destruct (rem =? 0); try discriminate; reflexivity. }
  assert (P := pow2_pos n Hn).
  assert (G : forall b p, 0 <= p -> m = 2 * p + Z.b2z b ->
             shr_inv m0 (n + 1) (Build_shr_record p b (rb || sb)%bool)).
  { intros b p Hp Em. split; [auto|]. exists (Z.b2z b * 2 ^ n + rem). cbn [shr_m].
    rewrite pow2_succ by auto. split; [destruct b; cbn [Z.b2z]; lia|]. split; [rewrite E, Em; ring|].
    rewrite B. unfold loc_rem. rewrite pow2_succ by auto.
    destruct b; cbn [Z.b2z]; destruct (Z.eqb_spec rem 0) as [->|N]; cbn [negb loc_of_shr_record].
    - destruct (Z.eqb_spec (1 * 2 ^ n + 0) 0); [lia|]. f_equal. symmetry. apply Z.compare_eq_iff. lia.
    - destruct (Z.eqb_spec (1 * 2 ^ n + rem) 0); [lia|]. f_equal. symmetry. apply Z.compare_gt_iff. lia.
    - destruct (Z.eqb_spec (0 * 2 ^ n + 0) 0); [reflexivity|lia].
    - destruct (Z.eqb_spec (0 * 2 ^ n + rem) 0); [lia|]. f_equal. symmetry. apply Z.compare_lt_iff. lia. }
  unfold shr_1. destruct m as [|[p|p|]|p]; try lia; apply G; try lia; reflexivity.
Qed.

Lemma shr_iter_inv m0 : 0 <= m0 -> forall n, shr_inv m0 (Z.of_nat n) (Nat.iter n shr_1 (Build_shr_record m0 false false)).
Proof.
  intros H. induction n as [|n IH].
  - split; [auto|]. exists 0. cbn. split; [lia|]. split; [lia|reflexivity].
  - rewrite Nat2Z.inj_succ. cbn [Nat.iter nat_rect]. apply shr_1_inv; [lia|exact IH].
Qed.

(** *** Round to nearest even *)
(** The multiple of 2^k nearest to X, divided by 2^k. *)
Definition rne (X k : Z) : Z := round_nearest_even (X / 2 ^ k) (loc_rem (X mod 2 ^ k) k).

Lemma rne_bounds X k : 0 <= k -> X / 2 ^ k <= rne X k <= X / 2 ^ k + 1.
Proof.
  intros. unfold rne, loc_rem, round_nearest_even. destruct (X mod 2 ^ k =? 0); [lia|].
  destruct (2 * (X mod 2 ^ k) ?= 2 ^ k); try lia. destruct (Z.even (X / 2 ^ k)); lia.
Qed.
Lemma rne_exact X k : X mod 2 ^ k = 0 -> rne X k = X / 2 ^ k.
Proof. intros H. unfold rne, loc_rem. rewrite H. reflexivity. Qed.
Lemma rne_down X k : 2 * (X mod 2 ^ k) < 2 ^ k -> rne X k = X / 2 ^ k.
Proof.
  intros H. unfold rne, loc_rem. destruct (X mod 2 ^ k =? 0); [reflexivity|].
  apply Z.compare_lt_iff in H. rewrite H. reflexivity.
Qed.
Lemma rne_0 X : rne X 0 = X.
Proof. rewrite rne_exact; [apply Z.div_1_r|apply Z.mod_1_r]. Qed.
Lemma rne_shift m n j : 0 < m -> 0 <= n -> 0 <= j -> rne (m * 2 ^ j) (n + j) = rne m n.
Proof.
  intros Hm Hn Hj. pose proof (pow2_pos n Hn). pose proof (pow2_pos j Hj). unfold rne.
  rewrite pow2_split by auto. rewrite Z.div_mul_cancel_r by lia. rewrite Z.mul_mod_distr_r by lia. f_equal.
  unfold loc_rem. rewrite pow2_split by auto. set (r := m mod 2 ^ n).
  destruct (Z.eqb_spec r 0) as [->|N].
  - reflexivity.
  - destruct (Z.eqb_spec (r * 2 ^ j) 0); [nia|]. f_equal.
    replace (2 * (r * 2 ^ j)) with ((2 * r) * 2 ^ j) by ring. symmetry. apply Zmult_compare_compat_r. lia.
Qed.

Section Format.
Set Default Proof Using "All".
Variable prec emax : Z.
Hypothesis Hprec : 1 < prec.
Hypothesis Hemax : prec < emax.

(** -emin *)
Definition K : Z := emax + prec - 3.
Lemma K_pos : 0 < K. Proof. unfold K. lia. Qed.

Definition sv (f : spec_float) : Z :=
  match f with S754_finite s m e => cond_Zopp s (Zpos m * 2 ^ (e + K)) | _ => 0 end.
Definition fin (f : spec_float) : Prop :=
  match f with
  | S754_zero _ => True
  | S754_finite _ m e => bounded prec emax m e = true
  | _ => False
  end.

(** The exponent of the unit in the last place of X (both scaled). *)
Definition ue (X : Z) : Z := Z.max (Z.log2 X + 1 - prec) 0.
Lemma ue_nonneg X : 0 <= ue X. Proof. unfold ue. lia. Qed.

Lemma fexp_ue m e : 0 < m -> 0 <= e + K -> fexp prec emax (Z.log2 m + 1 + e) = ue (m * 2 ^ (e + K)) - K.
Proof.
  intros Hm He. unfold ue. rewrite log2_shift by auto. unfold fexp, emin. unfold K. lia.
Qed.
Lemma fexp_ue' m e j : 0 < m -> 0 <= j -> e = j - K -> fexp prec emax (Z.log2 m + 1 + e) = ue (m * 2 ^ j) - K.
Proof. intros Hm Hj ->. rewrite fexp_ue by lia. now replace (j - K + K) with j by lia. Qed.

Lemma bounded_iff m e : bounded prec emax m e = true <->
  0 <= e + K /\ e + K = ue (Zpos m * 2 ^ (e + K)) /\ e <= emax - prec.
Proof.
  unfold bounded, canonical_mantissa. rewrite digits_log2. split.
  - intros H. apply andb_prop in H as [H1 H2]. apply Zeq_bool_eq in H1. apply Zle_bool_imp_le in H2.
    assert (He : 0 <= e + K). { unfold fexp, emin in H1. unfold K. lia. }
    split; auto. split; auto. rewrite fexp_ue in H1 by lia. lia.
  - intros (H0 & H1 & H2). apply andb_true_intro. split.
    + apply Zeq_is_eq_bool. rewrite fexp_ue by lia. lia.
    + now apply Zle_imp_le_bool.
Qed.

(** The rounded magnitude. *)
Definition rnd1 (X : Z) : Z := rne X (ue X) * 2 ^ ue X.

Lemma rne_ue_bounds X : 0 < X -> 0 < rne X (ue X) <= 2 ^ prec /\ (0 < ue X -> 2 ^ (prec - 1) <= rne X (ue X)).
Proof.
  intros HX. pose proof (Z.log2_spec X HX) as [L1 L2]. rewrite <- Z.add_1_r in L2. pose proof (Z.log2_nonneg X).
  unfold ue. destruct (Z.max_spec (Z.log2 X + 1 - prec) 0) as [[H1 ->]|[H1 ->]].
  - rewrite rne_0. split; [|lia]. split; [lia|]. apply Z.lt_le_incl. eapply Z.lt_le_trans; [exact L2|]. apply pow2_mono. lia.
  - set (k := Z.log2 X + 1 - prec) in *. pose proof (rne_bounds X k H1) as B. pose proof (pow2_pos k H1) as P.
    assert (D1 : 2 ^ (prec - 1) <= X / 2 ^ k).
    { apply Z.div_le_lower_bound; [lia|]. rewrite <- pow2_split by lia. replace (k + (prec - 1)) with (Z.log2 X) by (unfold k; lia). auto. }
    assert (D2 : X / 2 ^ k < 2 ^ prec).
    { apply Z.div_lt_upper_bound; [lia|]. rewrite <- pow2_split by lia. replace (k + prec) with (Z.log2 X + 1) by (unfold k; lia). auto. }
    pose proof (pow2_pos (prec - 1) ltac:(lia)). lia.
Qed.

Lemma log2_lt_pow2' a k : 0 < a -> 0 <= k -> (Z.log2 a < k <-> a < 2 ^ k).
Proof. intros. rewrite Z.log2_lt_pow2 by auto. reflexivity. Qed.

(** Finishing: the second normalisation of binary_round_aux. *)
Lemma round_finish s Q k : 0 <= k -> 0 < Q <= 2 ^ prec -> (0 < k -> 2 ^ (prec - 1) <= Q) ->
  Q * 2 ^ k < 2 ^ (emax + K) ->
  exists m e,
    (let '(mrs'', e'') := shr_fexp prec emax Q (k - K) loc_Exact in
     match shr_m mrs'' with
     | Z0 => S754_zero s
     | Zpos m => if Zle_bool e'' (emax - prec) then S754_finite s m e'' else S754_infinity s
     | _ => S754_nan
     end) = S754_finite s m e /\ Zpos m * 2 ^ (e + K) = Q * 2 ^ k /\ bounded prec emax m e = true.
Proof.
  intros Hk HQ Hn Hover. pose proof K_pos as HK. unfold shr_fexp.
  rewrite Zdigits_log2 by lia. rewrite (fexp_ue' Q (k - K) k) by lia.
  replace (ue (Q * 2 ^ k) - K - (k - K)) with (ue (Q * 2 ^ k) - k) by lia.
  assert (LQ : Z.log2 (Q * 2 ^ k) = Z.log2 Q + k) by (apply log2_shift; lia).
  assert (Ov : Z.log2 Q + k < emax + K).
  { rewrite <- LQ. apply log2_lt_pow2'; [|unfold K in *; lia|auto]. pose proof (pow2_pos k Hk). nia. }
  pose proof (Z.log2_nonneg Q) as LN.
  destruct (Z.eq_dec Q (2 ^ prec)) as [EQ|NQ].
  - (* a carry to the next binade *)
    assert (LP : Z.log2 Q = prec) by (rewrite EQ; apply Z.log2_pow2; lia).
    assert (U : ue (Q * 2 ^ k) = k + 1) by (unfold ue; rewrite LQ, LP; lia).
    rewrite U. replace (k + 1 - k) with 1 by lia. cbn [shr SpecFloat.iter_pos shr_record_of_loc].
    assert (EQ2 : Q = 2 * 2 ^ (prec - 1)) by (rewrite EQ; rewrite <- pow2_succ by lia; f_equal; lia).
    pose proof (pow2_pos (prec - 1) ltac:(lia)) as P1.
    destruct (2 ^ (prec - 1)) as [|q|q] eqn:Eq; try lia.
    replace (shr_1 (Build_shr_record Q false false)) with (Build_shr_record (Zpos q) false false) by (rewrite EQ2; reflexivity).
    cbn [shr_m].
    assert (Le : k - K + 1 <= emax - prec) by lia.
    rewrite (Zle_imp_le_bool _ _ Le). exists q, (k - K + 1). split; [reflexivity|].
    assert (Ev : Zpos q * 2 ^ (k - K + 1 + K) = Q * 2 ^ k).
    { replace (k - K + 1 + K) with (k + 1) by lia. rewrite pow2_succ by lia. rewrite EQ2. ring. }
    split; [exact Ev|]. apply bounded_iff. rewrite Ev. lia.
  - assert (LP : Z.log2 Q < prec) by (apply log2_lt_pow2'; lia).
    assert (U : ue (Q * 2 ^ k) = k).
    { unfold ue. rewrite LQ. destruct (Z.eq_dec k 0) as [->|Nk]; [lia|].
      assert (prec - 1 <= Z.log2 Q) by (apply Z.log2_le_pow2; lia). lia. }
    rewrite U. replace (k - k) with 0 by lia. cbn [shr shr_record_of_loc shr_m].
    destruct Q as [|q|q]; try lia.
    assert (Le : k - K <= emax - prec).
    { destruct (Z.eq_dec k 0) as [->|Nk]; [unfold K; lia|]. assert (prec - 1 <= Z.log2 (Zpos q)) by (apply Z.log2_le_pow2; lia). lia. }
    rewrite (Zle_imp_le_bool _ _ Le). exists q, (k - K). split; [reflexivity|].
    replace (k - K + K) with k by lia. split; [reflexivity|]. apply bounded_iff. replace (k - K + K) with k by lia. lia.
Qed.

Lemma round_spec s mx ex : 0 <= ex + K -> rnd1 (Zpos mx * 2 ^ (ex + K)) < 2 ^ (emax + K) ->
  exists m e, binary_round prec emax s mx ex = S754_finite s m e /\
    Zpos m * 2 ^ (e + K) = rnd1 (Zpos mx * 2 ^ (ex + K)) /\ bounded prec emax m e = true.
Proof.
  intros He Hov. set (j := ex + K) in *. set (X := Zpos mx * 2 ^ j) in *. set (k := ue X) in *.
  assert (HX : 0 < X) by (unfold X; pose proof (pow2_pos j He); nia).
  assert (Hk : 0 <= k) by apply ue_nonneg.
  unfold binary_round. rewrite digits_log2, (fexp_ue' (Zpos mx) ex j) by (unfold j; lia). fold X k.
  assert (S1 : exists mz ez, shl_align mx ex (k - K) = (mz, ez) /\ 0 <= ez + K <= k /\ Zpos mz * 2 ^ (ez + K) = X).
  { unfold shl_align. destruct (k - K - ex) as [|d|d] eqn:D.
    - exists mx, ex. split; auto. split; [unfold j in *; lia|reflexivity].
    - exists mx, ex. split; auto. split; [unfold j in *; lia|reflexivity].
    - exists (shift_pos d mx), (k - K). split; auto. split; [lia|]. rewrite shift_pos_mul. unfold X.
      rewrite <- Z.mul_assoc, <- pow2_split by lia. do 2 f_equal. unfold j. lia. }
  destruct S1 as (mz & ez & -> & Hez & EX). set (i := ez + K) in *. set (n := k - i).
  assert (P := pow2_pos i ltac:(lia)).
  unfold binary_round_aux. unfold shr_fexp at 1.
  rewrite Zdigits_log2 by lia. rewrite (fexp_ue' (Zpos mz) ez i) by (unfold i; lia). rewrite EX. fold k.
  replace (k - K - ez) with n by (unfold n, i; lia). cbn [shr_record_of_loc].
  assert (S2 : exists r, shr (Build_shr_record (Zpos mz) false false) ez n = (r, k - K) /\ shr_inv (Zpos mz) n r).
  { unfold shr. destruct n as [|d|d] eqn:En; [| |lia].
    - exists (Build_shr_record (Zpos mz) false false). split; [f_equal; unfold i in *; lia|]. apply (shr_iter_inv (Zpos mz) ltac:(lia) 0).
    - eexists. split; [f_equal; unfold i in *; lia|]. rewrite iter_pos_nat.
      replace (Zpos d) with (Z.of_nat (Pos.to_nat d)) by lia. apply shr_iter_inv. lia. }
  destruct S2 as (r & -> & (Hm & rem & Hr & E & L)).
  assert (Hn : 0 <= n) by lia.
  assert (ER : round_nearest_even (shr_m r) (loc_of_shr_record r) = rne X k).
  { rewrite <- EX. replace k with (n + i) by (unfold n; lia). rewrite rne_shift by lia. unfold rne.
    rewrite L. pose proof (pow2_pos n Hn).
    assert (Ed : Zpos mz / 2 ^ n = shr_m r) by (symmetry; apply Z.div_unique_pos with rem; lia).
    assert (Em : Zpos mz mod 2 ^ n = rem) by (symmetry; apply Z.mod_unique_pos with (shr_m r); lia).
    rewrite Ed, Em. reflexivity. }
  rewrite ER. destruct (rne_ue_bounds X HX) as [B1 B2]. fold k in B1, B2.
  destruct (round_finish s (rne X k) k Hk B1 B2 Hov) as (m & e & E1 & E2 & E3).
  exists m, e. split; [exact E1|]. auto.
Qed.

(** *** Signed values *)
Definition rnd (S : Z) : Z := Z.sgn S * rnd1 (Z.abs S).
Definition in_range (S : Z) : Prop := rnd1 (Z.abs S) < 2 ^ (emax + K).

Lemma rnd1_exact X : X mod 2 ^ ue X = 0 -> rnd1 X = X.
Proof.
  intros H. unfold rnd1. rewrite rne_exact by auto. pose proof (pow2_pos (ue X) (ue_nonneg X)).
  pose proof (Z.div_mod X (2 ^ ue X) ltac:(lia)). lia.
Qed.
Lemma rnd_exact S : Z.abs S mod 2 ^ ue (Z.abs S) = 0 -> rnd S = S.
Proof. intros H. unfold rnd. rewrite rnd1_exact by auto. lia. Qed.

Lemma abs_cond s X : 0 <= X -> Z.abs (cond_Zopp s X) = X.
Proof. destruct s; simpl; lia. Qed.
Lemma sgn_cond s X : 0 < X -> Z.sgn (cond_Zopp s X) = if s then -1 else 1.
Proof. destruct s; simpl; lia. Qed.

Lemma normalize_spec z e sz : 0 <= e + K -> in_range (z * 2 ^ (e + K)) ->
  fin (binary_normalize prec emax z e sz) /\ sv (binary_normalize prec emax z e sz) = rnd (z * 2 ^ (e + K)).
Proof.
  intros He. pose proof (pow2_pos _ He) as P. unfold in_range, rnd. rewrite Z.abs_mul, (Z.abs_eq (2 ^ (e + K))) by lia.
  destruct z as [|m|m]; cbn [binary_normalize].
  - intros _. split; [exact Logic.I|reflexivity].
  - cbn [Z.abs]. intros Hr. destruct (round_spec false m e He Hr) as (m' & e' & -> & E & B). split; [exact B|].
    cbn [sv cond_Zopp]. rewrite E, Z.sgn_mul, (Z.sgn_pos (2 ^ _)) by lia. cbn [Z.sgn]. lia.
  - cbn [Z.abs]. intros Hr. destruct (round_spec true m e He Hr) as (m' & e' & -> & E & B). split; [exact B|].
    cbn [sv cond_Zopp]. rewrite E, Z.sgn_mul, (Z.sgn_pos (2 ^ _)) by lia. cbn [Z.sgn]. lia.
Qed.

Lemma fin_e s m e : fin (S754_finite s m e) -> 0 <= e + K.
Proof. cbn. intros H. apply bounded_iff in H. lia. Qed.
Lemma fin_exact f : fin f -> rnd (sv f) = sv f.
Proof.
  destruct f as [s|s| |s m e]; cbn [fin sv]; try tauto; try reflexivity. intros H. apply bounded_iff in H as (H1 & H2 & H3).
  pose proof (pow2_pos _ H1). apply rnd_exact. rewrite abs_cond by nia. rewrite <- H2. apply Z.mod_mul. lia.
Qed.

Lemma shl_align_val m e ez : ez <= e -> Zpos (fst (shl_align m e ez)) = Zpos m * 2 ^ (e - ez).
Proof.
  intros H. unfold shl_align. destruct (ez - e) as [|d|d] eqn:D; try lia; cbn [fst].
  - replace (e - ez) with 0 by lia. lia.
  - rewrite shift_pos_mul. do 2 f_equal. lia.
Qed.
Lemma cond_opp_mul s a b : cond_Zopp s (a * b) = cond_Zopp s a * b.
Proof. destruct s; simpl; ring. Qed.
Lemma align_sv s m e ez : 0 <= ez + K -> ez <= e ->
  cond_Zopp s (Zpos (fst (shl_align m e ez))) * 2 ^ (ez + K) = sv (S754_finite s m e).
Proof.
  intros H1 H2. rewrite shl_align_val by auto. cbn [sv]. rewrite <- cond_opp_mul, <- Z.mul_assoc, <- pow2_split by lia.
  do 3 f_equal. lia.
Qed.

Lemma SFadd_spec x y : fin x -> fin y -> in_range (sv x + sv y) ->
  fin (SFadd prec emax x y) /\ sv (SFadd prec emax x y) = rnd (sv x + sv y).
Proof.
  destruct x as [s1|s1| |s1 m1 e1], y as [s2|s2| |s2 m2 e2]; intros F1 F2 Hr; try (cbn in F1; tauto); try (cbn in F2; tauto).
  - cbn [SFadd]. destruct (Bool.eqb s1 s2); split; auto; exact Logic.I.
  - cbn [SFadd]. split; auto. change (sv (S754_zero s1)) with 0. rewrite Z.add_0_l. symmetry. now apply fin_exact.
  - cbn [SFadd]. split; auto. change (sv (S754_zero s2)) with 0. rewrite Z.add_0_r. symmetry. now apply fin_exact.
  - apply fin_e in F1, F2. cbn [SFadd].
    set (ez := Z.min e1 e2). assert (Hz : 0 <= ez + K) by (unfold ez; lia).
    rewrite <- (align_sv s1 m1 e1 ez), <- (align_sv s2 m2 e2 ez) in * by (unfold ez; lia).
    rewrite <- Z.mul_add_distr_r in *. apply normalize_spec; auto.
Qed.

Lemma sv_opp f : sv (SFopp f) = - sv f.
Proof. destruct f as [s|s| |s m e]; auto. cbn. destruct s; cbn; lia. Qed.
Lemma fin_opp f : fin f -> fin (SFopp f).
Proof. destruct f; auto. Qed.
Lemma SFsub_spec x y : fin x -> fin y -> in_range (sv x - sv y) ->
  fin (SFsub prec emax x y) /\ sv (SFsub prec emax x y) = rnd (sv x - sv y).
Proof.
  destruct x as [s1|s1| |s1 m1 e1], y as [s2|s2| |s2 m2 e2]; intros F1 F2 Hr; try (cbn in F1; tauto); try (cbn in F2; tauto).
  - cbn [SFsub]. destruct (Bool.eqb s1 (negb s2)); split; auto; exact Logic.I.
  - cbn [SFsub]. split; auto. change (sv (S754_zero s1)) with 0. rewrite Z.sub_0_l, <- sv_opp. symmetry.
    apply (fin_exact (SFopp (S754_finite s2 m2 e2))), fin_opp, F2.
  - cbn [SFsub]. split; auto. change (sv (S754_zero s2)) with 0. rewrite Z.sub_0_r. symmetry. now apply fin_exact.
  - apply fin_e in F1, F2. cbn [SFsub].
    set (ez := Z.min e1 e2). assert (Hz : 0 <= ez + K) by (unfold ez; lia).
    rewrite <- (align_sv s1 m1 e1 ez), <- (align_sv s2 m2 e2 ez) in * by (unfold ez; lia).
    rewrite <- Z.mul_sub_distr_r in *. apply normalize_spec; auto.
Qed.

(** *** Comparison *)
Lemma bounded_mag m e : bounded prec emax m e = true -> Zpos m * 2 ^ (e + K) < 2 ^ (prec + (e + K)).
Proof.
  intros H. apply bounded_iff in H as (H1 & H2 & _). pose proof (pow2_pos _ H1).
  apply log2_lt_pow2'; [nia|lia|]. unfold ue in H2. lia.
Qed.
Lemma bounded_mag_lo m e : bounded prec emax m e = true -> 0 < e + K -> 2 ^ (prec - 1 + (e + K)) <= Zpos m * 2 ^ (e + K).
Proof.
  intros H H0. apply bounded_iff in H as (H1 & H2 & _). pose proof (pow2_pos _ H1).
  apply Z.log2_le_pow2; [nia|]. unfold ue in H2. lia.
Qed.
Lemma mag_compare m1 e1 m2 e2 : bounded prec emax m1 e1 = true -> bounded prec emax m2 e2 = true ->
  match e1 ?= e2 with Eq => Pos.compare m1 m2 | c => c end = (Zpos m1 * 2 ^ (e1 + K) ?= Zpos m2 * 2 ^ (e2 + K)).
Proof.
  intros B1 B2. pose proof B1 as N1. pose proof B2 as N2. apply bounded_iff in N1 as (N1 & _), N2 as (N2 & _).
  destruct (Z.compare_spec e1 e2) as [E|L|G].
  - subst e2. change (m1 ?= m2)%positive with (Zpos m1 ?= Zpos m2). pose proof (pow2_pos _ N1). apply Zmult_compare_compat_r. lia.
  - symmetry. apply Z.compare_lt_iff. eapply Z.lt_le_trans; [apply bounded_mag, B1|].
    eapply Z.le_trans; [|apply bounded_mag_lo; [apply B2|lia]]. apply pow2_mono. lia.
  - symmetry. apply Z.compare_gt_iff. eapply Z.lt_le_trans; [apply bounded_mag, B2|].
    eapply Z.le_trans; [|apply bounded_mag_lo; [apply B1|lia]]. apply pow2_mono. lia.
Qed.
Lemma SFltb_spec x y : fin x -> fin y -> SFltb x y = (sv x <? sv y).
Proof.
  assert (P : forall m e, bounded prec emax m e = true -> 0 < Zpos m * 2 ^ (e + K)).
  { intros m e B. apply bounded_iff in B as (B & _). pose proof (pow2_pos _ B). nia. }
  destruct x as [s1|s1| |s1 m1 e1], y as [s2|s2| |s2 m2 e2]; intros F1 F2; try (cbn in F1; tauto); try (cbn in F2; tauto); cbn [fin] in *.
  - apply P in F2. unfold SFltb. cbn [SFcompare sv]. destruct s2; cbn [cond_Zopp]; symmetry; [apply Z.ltb_ge|apply Z.ltb_lt]; lia.
  - apply P in F1. unfold SFltb. cbn [SFcompare sv]. destruct s1; cbn [cond_Zopp]; symmetry; [apply Z.ltb_lt|apply Z.ltb_ge]; lia.
  - pose proof (mag_compare _ _ _ _ F1 F2) as C. apply P in F1, F2. unfold SFltb. cbn [SFcompare sv].
    set (X1 := Zpos m1 * 2 ^ (e1 + K)) in *. set (X2 := Zpos m2 * 2 ^ (e2 + K)) in *.
    destruct s1, s2; cbn [cond_Zopp].
    + replace (- X1 <? - X2) with (X2 <? X1) by (destruct (Z.ltb_spec X2 X1), (Z.ltb_spec (- X1) (- X2)); auto; lia).
      unfold Z.ltb at 1. rewrite (Z.compare_antisym X1 X2), <- C.
      destruct (e1 ?= e2); reflexivity.
    + symmetry. apply Z.ltb_lt. lia.
    + symmetry. apply Z.ltb_ge. lia.
    + unfold Z.ltb. rewrite <- C. destruct (e1 ?= e2); reflexivity.
Qed.

(** *** How far rounding moves a number *)
Lemma div_mul_lt X u : 0 < u -> X - u < X / u * u <= X.
Proof. intros H. pose proof (Z.div_mod X u ltac:(lia)). pose proof (Z.mod_pos_bound X u H). nia. Qed.
Lemma rnd1_bounds X : X - 2 ^ ue X < rnd1 X <= X + 2 ^ ue X.
Proof.
  unfold rnd1. pose proof (pow2_pos _ (ue_nonneg X)) as P. pose proof (rne_bounds X (ue X) (ue_nonneg X)).
  pose proof (div_mul_lt X (2 ^ ue X) P). nia.
Qed.
Lemma rnd1_above X : X mod 2 ^ ue X <> 0 -> rnd1 X < X + 2 ^ ue X.
Proof.
  intros N. unfold rnd1. pose proof (pow2_pos _ (ue_nonneg X)) as P. pose proof (rne_bounds X (ue X) (ue_nonneg X)).
  pose proof (Z.div_mod X (2 ^ ue X) ltac:(lia)). pose proof (Z.mod_pos_bound X (2 ^ ue X) P). nia.
Qed.
Lemma rnd1_lt X : rnd1 X < X + 2 ^ ue X.
Proof.
  destruct (Z.eq_dec (X mod 2 ^ ue X) 0) as [E|N]; [|now apply rnd1_above].
  rewrite rnd1_exact by auto. pose proof (pow2_pos _ (ue_nonneg X)). lia.
Qed.

(** ue of a magnitude below 2^(prec+j) is at most j; and equality only from
    2^(prec+j-1) on. *)
Lemma ue_le X j : 0 <= j -> 0 < X < 2 ^ (prec + j) -> ue X <= j.
Proof.
  intros Hj [H1 H2]. unfold ue. apply log2_lt_pow2' in H2; lia.
Qed.
Lemma exact_below X j : 0 <= j -> 0 <= X <= 2 ^ (prec + j) -> X mod 2 ^ j = 0 -> rnd1 X = X.
Proof.
  intros Hj [H1 H2] D. pose proof (pow2_pos j Hj).
  destruct (Z.eq_dec X 0) as [->|N]; [apply rnd1_exact, Z.mod_0_l; pose proof (pow2_pos _ (ue_nonneg 0)); lia|].
  apply rnd1_exact. destruct (Z.eq_dec X (2 ^ (prec + j))) as [E|NE].
  - unfold ue. rewrite E, Z.log2_pow2 by lia. rewrite Z.max_l by lia.
    replace (prec + j) with ((prec - 1) + (prec + j + 1 - prec)) at 1 by lia. rewrite pow2_split by lia. apply Z.mod_mul.
    pose proof (pow2_pos (prec + j + 1 - prec) ltac:(lia)). lia.
  - pose proof (ue_le X j Hj ltac:(lia)) as U. pose proof (ue_nonneg X). pose proof (pow2_pos (ue X) ltac:(lia)).
    pose proof (Z.div_mod X (2 ^ j) ltac:(lia)) as Q. set (u := ue X) in *.
    assert (Ej : 2 ^ j = 2 ^ (j - u) * 2 ^ u) by (rewrite <- pow2_split by lia; f_equal; lia).
    replace X with ((X / 2 ^ j * 2 ^ (j - u)) * 2 ^ u) by (rewrite Q at 2; rewrite D, Ej; ring). apply Z.mod_mul. lia.
Qed.

(** Integers up to 2^prec are representable. *)
Definition scaled (z : Z) : Z := z * 2 ^ K.
Lemma scaled_rnd z : Z.abs z <= 2 ^ prec -> rnd (scaled z) = scaled z.
Proof.
  intros H. unfold rnd, scaled. pose proof K_pos. pose proof (pow2_pos K ltac:(lia)).
  rewrite Z.abs_mul, (Z.abs_eq (2 ^ K)) by lia. rewrite (exact_below _ K); [|lia| |].
  - rewrite Z.sgn_mul, (Z.sgn_pos (2 ^ K)) by lia. rewrite Z.mul_1_r, Z.mul_assoc, (Z.mul_comm (Z.sgn z)), Z.abs_sgn. reflexivity.
  - rewrite pow2_split by lia. split; [nia|]. apply Z.mul_le_mono_nonneg_r; lia.
  - apply Z.mod_mul. lia.
Qed.
Lemma scaled_range z : Z.abs z <= 2 ^ prec -> in_range (scaled z).
Proof.
  intros H. unfold in_range, scaled. pose proof K_pos. pose proof (pow2_pos K ltac:(lia)).
  rewrite Z.abs_mul, (Z.abs_eq (2 ^ K)) by lia. rewrite (exact_below _ K); [|lia| |].
  - rewrite pow2_split by lia. apply Z.mul_lt_mono_pos_r; [lia|]. eapply Z.le_lt_trans; [exact H|]. apply Z.pow_lt_mono_r; lia.
  - rewrite pow2_split by lia. split; [nia|]. apply Z.mul_le_mono_nonneg_r; lia.
  - apply Z.mod_mul. lia.
Qed.
Lemma of_int_spec z sz : Z.abs z <= 2 ^ prec ->
  fin (binary_normalize prec emax z 0 sz) /\ sv (binary_normalize prec emax z 0 sz) = scaled z.
Proof.
  intros H. pose proof K_pos. destruct (normalize_spec z 0 sz) as [H1 H2]; [lia|now apply scaled_range|].
  split; auto. rewrite H2. now apply scaled_rnd.
Qed.
Lemma add_int_spec x y a b : fin x -> fin y -> sv x = scaled a -> sv y = scaled b -> Z.abs (a + b) <= 2 ^ prec ->
  fin (SFadd prec emax x y) /\ sv (SFadd prec emax x y) = scaled (a + b).
Proof.
  intros F1 F2 E1 E2 H. assert (E : sv x + sv y = scaled (a + b)) by (rewrite E1, E2; unfold scaled; ring).
  destruct (SFadd_spec x y F1 F2) as [H1 H2]; [rewrite E; now apply scaled_range|]. split; auto.
  rewrite H2, E. now apply scaled_rnd.
Qed.
Lemma sub_int_spec x y a b : fin x -> fin y -> sv x = scaled a -> sv y = scaled b -> Z.abs (a - b) <= 2 ^ prec ->
  fin (SFsub prec emax x y) /\ sv (SFsub prec emax x y) = scaled (a - b).
Proof.
  intros F1 F2 E1 E2 H. assert (E : sv x - sv y = scaled (a - b)) by (rewrite E1, E2; unfold scaled; ring).
  destruct (SFsub_spec x y F1 F2) as [H1 H2]; [rewrite E; now apply scaled_range|]. split; auto.
  rewrite H2, E. now apply scaled_rnd.
Qed.
End Format.

