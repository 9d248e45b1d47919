(** Properties C53-C56, C64, C65: compute.go sums and averages, Range.
    [ftoi] is what the machine does for out-of-range float to integer
    conversions; the theorems hold for every choice. *)
From Coq Require Import Floats.SpecFloat.
From Verif Require Import BaseLemmas Model_Compute Spec_Compute Proof_Float Proof_Compute Proof_ComputeFloat Proof_Range.

(** ** C53 sums of builtin integer types *)
(** The result is the true sum reduced to R's width. *)
Theorem C53_SumAs : forall ftoi R T zs, is_int (under R) -> is_int T ->
  exists r, SumAs ftoi R (plain T) (map I zs) = I r /\ fits (under R) r /\ (r - zsum zs) mod modulus (under R) = 0.
Proof.
  intros ftoi R T zs HR HT. destruct (SumAs_int ftoi R T zs HR HT) as (r & E & F & C). exists r.
  split; auto. split; auto. now apply cong_mod.
Qed.
Print Assumptions C53_SumAs.
Theorem C53_SumAs_exact_when_fits : forall ftoi R T zs, is_int T -> fits (under R) (zsum zs) ->
  SumAs ftoi R (plain T) (map I zs) = I (zsum zs).
Proof. intros. now apply SumAs_exact. Qed.
Print Assumptions C53_SumAs_exact_when_fits.
Theorem C53_Sum_exact_when_fits : forall ftoi T zs, fits T (zsum zs) ->
  Sum ftoi (plain T) (map I zs) = I (zsum zs).
Proof. intros ftoi T zs H. apply SumAs_exact; [now apply (fits_int T (zsum zs))|exact H]. Qed.
Print Assumptions C53_Sum_exact_when_fits.
(** Integers summed as a float: exact up to the float's precision. *)
Theorem C53_SumAs_float : forall ftoi R T zs p e, is_int T -> float_format (under R) = Some (p, e) ->
  fits (sum_type (plain T)) (zsum zs) -> Z.abs (zsum zs) <= 2 ^ p ->
  exists f, SumAs ftoi R (plain T) (map I zs) = F f /\ finite_float p e f /\ value_is f (zsum zs).
Proof.
  intros ftoi R T zs p e HT HF HS HB. destruct (format_ok _ _ _ HF) as (Hk & Hp & He).
  unfold SumAs. destruct (sum_loop_int ftoi _ zs (fits_int _ _ HS)) as (t & -> & C & Ft).
  assert (t = zsum zs) by (eapply cong_fits; eauto). subst t.
  rewrite (conv_float ftoi _ p e HF). destruct (of_int_spec p e Hp ltac:(lia) (zsum zs) false HB) as [H1 H2].
  eexists. split; [reflexivity|]. split; [now apply (fin_finite p e)|]. now apply (value_is_sv p e Hp ltac:(lia)).
Qed.
Print Assumptions C53_SumAs_float.
Example Sum_wraps_back : Sum (fun _ => 0) (plain int8) (map I [100; 100; -127; -50]) = I 23 /\
  SumAs (fun _ => 0) (plain int64) (plain uint8) (map I [255; 255; 1]) = I 511 /\
  Sum (fun _ => 0) (plain uint8) (map I [200; 100]) = I 44 /\ fits int8 (zsum [100; 100; -127; -50]).
Proof. split; [reflexivity|]. split; [reflexivity|]. split; [reflexivity|]. cbv. split; discriminate. Qed.

(** ** C54 sums of defined integer types go through float64 *)
Theorem C54_Sum_defined_refuted : exists zs, fits int64 (zsum zs) /\ Forall (fits int64) zs /\
  forall ftoi, Sum ftoi (defined int64) (map I zs) <> I (zsum zs).
Proof.
  exists [9007199254740992; 1]. split; [cbv; split; discriminate|]. split.
  - repeat constructor; cbv; discriminate.
  - intros ftoi. cbv -[not]. discriminate.
Qed.
Print Assumptions C54_Sum_defined_refuted.
(** It is exact as long as elements and running sums stay within 2^53. *)
Theorem C54_SumAs_defined_within_2_53 : forall ftoi R u zs, is_int u -> sums_within (2 ^ 53) zs -> fits (under R) (zsum zs) ->
  SumAs ftoi R (defined u) (map I zs) = I (zsum zs).
Proof.
  intros ftoi R u zs Hu [H1 H2] HF. unfold SumAs. cbn [sum_type is_defined defined].
  destruct (sum_loop_float ftoi float64 53 1024 eq_refl (map I zs) zs) as (f & -> & Ff & Sf); [| |].
  - clear H2 HF. induction zs as [|z zs IH]; cbn [map]; constructor.
    + split; auto. apply H1. now left.
    + apply IH. intros x Hx. apply H1. now right.
  - intros pre post E. eapply H2; eauto.
  - pose proof (trunc_int 53 1024 ltac:(lia) ltac:(lia) f (zsum zs) Ff Sf) as Tr.
    pose proof (fits_int _ _ HF) as HR. pose proof (wrap_id _ _ HF) as W. unfold conv. rewrite Tr.
    destruct (under R); try (now elim HR); cbn [kind_of] in *; now rewrite W, Z.eqb_refl.
Qed.
Print Assumptions C54_SumAs_defined_within_2_53.
(** The same for sums of float32/float64 values that are integers. *)
Theorem C54_Sum_floats_within_2_53 : forall ftoi fs zs,
  Forall2 (fun f z => finite_float 53 1024 f /\ value_is f z) fs zs ->
  sums_within (2 ^ 53) zs ->
  exists f, Sum ftoi (plain float64) (map F fs) = F f /\ finite_float 53 1024 f /\ value_is f (zsum zs).
Proof.
  intros ftoi fs zs HF [_ H2]. unfold Sum, SumAs. cbn [sum_type is_defined plain under].
  destruct (sum_loop_float ftoi float64 53 1024 eq_refl (map F fs) zs) as (f & -> & Ff & Sf); [| |].
  - clear H2. induction HF as [|f z fs zs [A B] HF IH]; cbn [map]; constructor; auto.
    apply (fin_finite 53 1024) in A. split; auto. now apply (value_is_sv 53 1024).
  - intros pre post E. eapply H2; eauto.
  - destruct (round_fin float64 53 1024 eq_refl f Ff) as [G1 G2].
    eexists. split; [reflexivity|]. split; [now apply (fin_finite 53 1024)|]. apply (value_is_sv 53 1024); auto; try lia.
Qed.
Print Assumptions C54_Sum_floats_within_2_53.
Example Sum_defined_runs : Sum (fun _ => 0) (defined int64) (map I [9007199254740991; 1; -3]) = I 9007199254740989 /\
  Sum (fun _ => 0) (defined int64) (map I [9007199254740992; 1]) = I 9007199254740992.
Proof. split; vm_compute; reflexivity. Qed.

(** ** C55 Average of builtin integer types *)
(** The sum must fit the type Average divides in: uint64 for uint, uint64 and
    uintptr, int64 for the others.  A Go slice has at most 2^63-1 elements. *)
Theorem C55_Average : forall ftoi T zs, zs <> [] -> is_int T -> Forall (fits T) zs -> zlen zs <= 9223372036854775807 ->
  fits (match T with uint | uint64 | uintptr => uint64 | _ => int64 end) (zsum zs) ->
  Average ftoi (plain T) (map I zs) = Ok (I (Z.quot (zsum zs) (zlen zs))).
Proof. exact @Average_exact. Qed.
Print Assumptions C55_Average.
(** For the 8, 16 and 32 bit types nothing can overflow up to 2^31 elements. *)
Theorem C55_Average_small : forall ftoi T zs, zs <> [] -> In T [int8; uint8; int16; uint16; int32; uint32] ->
  Forall (fits T) zs -> zlen zs <= 2147483648 ->
  Average ftoi (plain T) (map I zs) = Ok (I (Z.quot (zsum zs) (zlen zs))).
Proof.
  intros ftoi T zs HN HT HF HL. pose proof (zlen_nonneg zs).
  assert (B : -2147483648 * zlen zs <= zsum zs <= 4294967295 * zlen zs).
  { apply zsum_bounds. intros z Hz. rewrite Forall_forall in HF. specialize (HF z Hz).
    cbn in HT. decompose [or] HT; subst; cbn in HF; try lia. }
  apply Average_exact; auto; try lia.
  - cbn in HT. decompose [or] HT; subst; discriminate || tauto.
  - cbn in HT. decompose [or] HT; subst; try tauto; cbn; lia.
Qed.
Print Assumptions C55_Average_small.
Theorem C55_Average_panics_iff_empty : forall ftoi T zs, is_int T -> zlen zs <= 9223372036854775807 ->
  (Average ftoi (plain T) (map I zs) = Panic <-> zs = []).
Proof.
  intros ftoi T zs HT HL. split.
  - intros H. destruct zs as [|z zs]; auto. destruct (Average_no_panic ftoi T (z :: zs) HT ltac:(discriminate) HL) as [r E]. congruence.
  - intros ->. now apply Average_panics.
Qed.
Print Assumptions C55_Average_panics_iff_empty.
Example Average_runs : Average (fun _ => 0) (plain int8) (map I [-100; -101; -100]) = Ok (I (-100)) /\
  Average (fun _ => 0) (plain uint8) (map I [255; 254]) = Ok (I 254).
Proof. split; reflexivity. Qed.

(** ** C56 AverageAs with a narrow result type *)
(** 128 int8 zeros, 256 zeros: the length does not fit in int8. *)
Theorem C56_AverageAs_refuted :
  (exists zs, zs <> [] /\ zsum zs = 0 /\ forall ftoi, AverageAs ftoi (plain int8) (plain int8) (map I zs) = Panic) /\
  (exists zs, fits int8 (zsum zs) /\ fits int8 (Z.quot (zsum zs) (zlen zs)) /\
     forall ftoi, AverageAs ftoi (plain int8) (plain int8) (map I zs) <> Ok (I (Z.quot (zsum zs) (zlen zs)))).
Proof.
  split.
  - exists (repeat 0 256). split; [discriminate|]. split; [reflexivity|]. intros ftoi. vm_compute. reflexivity.
  - exists (100 :: repeat 0 254). split; [cbv; split; discriminate|]. split; [cbv; split; discriminate|].
    intros ftoi. vm_compute. discriminate.
Qed.
Print Assumptions C56_AverageAs_refuted.
Theorem C56_AverageAs_when_length_fits : forall ftoi R T zs, is_int T ->
  fits (under R) (zsum zs) -> fits (under R) (zlen zs) -> zs <> [] ->
  AverageAs ftoi R (plain T) (map I zs) = Ok (I (Z.quot (zsum zs) (zlen zs))).
Proof. exact @AverageAs_exact. Qed.
Print Assumptions C56_AverageAs_when_length_fits.
Example AverageAs_runs : AverageAs (fun _ => 0) (plain int8) (plain int64) (map I [100; 20; -50]) = Ok (I 23) /\
  AverageAs (fun _ => 0) (plain int8) (plain int64) (map I (100 :: repeat 0 254)) = Ok (I (-100)).
Proof. split; reflexivity. Qed.

(** ** C64 Range over integers *)
Theorem C64_Range_refuted :
  (fits int8 (-128) /\ fits int8 127 /\ forall ftoi k, Range ftoi k (plain int8) (I (-128)) (I 127) = Panic) /\
  (forall ftoi k, Range ftoi k (plain int) (I 1) (I 0) = Panic).
Proof. split; [|reflexivity]. split; [cbv; split; discriminate|]. split; [cbv; split; discriminate|]. reflexivity. Qed.
Print Assumptions C64_Range_refuted.
(** Signed types and 64-bit unsigned types: with h = 2^(width-1) the result is
    the sequence when 0 <= last-first < h or last-first < -h, and a panic
    otherwise. *)
Theorem C64_Range : forall ftoi t h first last k,
  (under t, h) = (int8, 128) \/ (under t, h) = (int16, 32768) \/ (under t, h) = (int32, 2147483648) \/
  (In (under t) [int; int64; uint; uint64; uintptr] /\ h = 9223372036854775808) ->
  fits (under t) first -> fits (under t) last -> last - first <= Z.of_nat k ->
  (0 <= last - first < h \/ last - first < - h ->
     exists l, Range ftoi k t (I first) (I last) = Ok (map I l) /\ int_sequence first last l) /\
  (- h <= last - first < 0 \/ h <= last - first -> Range ftoi k t (I first) (I last) = Panic).
Proof.
  intros ftoi t h first last k Ht Hf Hl Hk.
  pose proof (Range_int ftoi t first last k (fits_int _ _ Hf) Hf Hl Hk) as R. cbn zeta in R.
  assert (C : wrap (kind_of int) (wrap (kind_of (under t)) (last - first)) < 0 <-> (- h <= last - first < 0 \/ h <= last - first)).
  { destruct (wrap_cases _ (fits_int _ _ Hf)) as (lo & hi & E & _ & _ & W).
    destruct (wrap_cases int ltac:(discriminate)) as (lo' & hi' & E' & _ & _ & W').
    injection E' as <- <-. rewrite W', W. unfold fits in *.
    assert (D : forall a m q r, 0 < m -> a = m * q + r -> 0 <= r < m -> a mod m = r) by (intros; symmetry; eapply Z.mod_unique_pos; eauto).
    destruct Ht as [Q|[Q|[Q|[Q ->]]]]; [injection Q as Q ->; rewrite Q in *|injection Q as Q ->; rewrite Q in *|injection Q as Q ->; rewrite Q in *|
      cbn in Q; destruct Q as [Q|[Q|[Q|[Q|[Q|[]]]]]]; rewrite <- Q in *]; cbn in E; injection E as <- <-; cbn in Hf, Hl;
      set (d := last - first) in *; assert (Hd : - 18446744073709551616 < d < 18446744073709551616) by lia; cbn -[Z.modulo Z.lt Z.le].
    all: Z.div_mod_to_equations; lia. }
  destruct (Z.ltb_spec (wrap (kind_of int) (wrap (kind_of (under t)) (last - first))) 0) as [L|L]; split; auto; intros H.
  - assert (0 < h) by (destruct Ht as [Q|[Q|[Q|[_ Q]]]]; injection Q || rewrite Q; lia). apply C in L. lia.
  - apply C in H. lia.
Qed.
Print Assumptions C64_Range.
Theorem C64_Range_small_unsigned : forall ftoi t first last k, In (under t) [uint8; uint16; uint32] ->
  fits (under t) first -> fits (under t) last -> last - first <= Z.of_nat k ->
  exists l, Range ftoi k t (I first) (I last) = Ok (map I l) /\ int_sequence first last l.
Proof.
  intros ftoi t first last k Ht Hf Hl Hk.
  pose proof (Range_int ftoi t first last k (fits_int _ _ Hf) Hf Hl Hk) as R. cbn zeta in R.
  pose proof (wrap_fits (under t) (last - first) (fits_int _ _ Hf)) as Fw.
  assert (B : 0 <= wrap (kind_of (under t)) (last - first) <= 4294967295).
  { unfold fits in Fw. cbn in Ht. destruct Ht as [Q|[Q|[Q|[]]]]; rewrite <- Q in *; cbn in Fw |- *; lia. }
  rewrite (wrap_id int) in R by (cbn; lia).
  destruct (Z.ltb_spec (wrap (kind_of (under t)) (last - first)) 0); [lia|auto].
Qed.
Print Assumptions C64_Range_small_unsigned.
Example Range_runs : Range (fun _ => 0) 5 (plain int8) (I (-2)) (I 3) = Ok (map I [-2; -1; 0; 1; 2]) /\
  Range (fun _ => 0) 0 (plain uint8) (I 9) (I 3) = Ok [] /\ int_sequence (-2) 3 [-2; -1; 0; 1; 2].
Proof.
  split; [reflexivity|]. split; [reflexivity|]. split; [reflexivity|]. change (zlen [-2; -1; 0; 1; 2]) with 5. intros i Hi.
  assert (H : i = 0 \/ i = 1 \/ i = 2 \/ i = 3 \/ i = 4) by lia. destruct H as [->|[->|[->|[->| ->]]]]; reflexivity.
Qed.

(** ** C65 Range over floats *)
(** From 2^(p+1) on (p = 24 or 53) the loop never ends, for all arguments; here
    shown for the loop, and for Range by a case where the capacity is fine. *)
Theorem C65_Range_float_refuted : forall ftoi t p e first last, float_format (under t) = Some (p, e) ->
  finite_float p e first -> finite_float p e last -> ge_int first (2 ^ (p + 1)) -> SFltb first last = true ->
  (forall k, Range ftoi k t (F first) (F last) = Panic) \/ (forall k, Range ftoi k t (F first) (F last) = NoFuel).
Proof.
  intros ftoi t p e first last Hf F1 F2 HG HL. destruct (format_ok _ _ _ Hf) as (Hk & Hp & He).
  apply (fin_finite p e) in F1, F2. pose proof (pow2_pos (p + 1) ltac:(lia)).
  apply (ge_int_sv p e Hp ltac:(lia)) in HG; auto.
  rewrite (SFltb_spec p e Hp ltac:(lia)) in HL by auto. apply Z.ltb_lt in HL.
  unfold Range. destruct (conv ftoi int _) as [c|c]; [|left; auto].
  destruct (c <? 0); [left; auto|right]. intros k. now apply (Range_loop_stuck ftoi (under t) p e Hf).
Qed.
Print Assumptions C65_Range_float_refuted.
Theorem C65_Range_float_loops_forever :
  let f53 := binary_normalize 53 1024 (2 ^ 53) 0 false in
  let f53' := binary_normalize 53 1024 (2 ^ 53 + 2) 0 false in
  finite_float 53 1024 f53 /\ value_is f53 (2 ^ 53) /\ finite_float 53 1024 f53' /\ value_is f53' (2 ^ 53 + 2) /\
  forall ftoi k, Range ftoi k (plain float64) (F f53) (F f53') = NoFuel.
Proof.
  cbv zeta. do 4 (split; [vm_compute; reflexivity|]). intros ftoi k. unfold Range.
  replace (conv ftoi int _) with (I 2) by (vm_compute; reflexivity). change (2 <? 0) with false. cbv iota.
  cbn [under plain]. generalize (@nil num). induction k as [|k IH]; intros acc; cbn [Range_loop].
  - replace (lt _ _) with true by (vm_compute; reflexivity). reflexivity.
  - replace (lt _ _) with true by (vm_compute; reflexivity).
    replace (add float64 (F (binary_normalize 53 1024 (2 ^ 53) 0 false)) (conv ftoi float64 (I 1))) with (F (binary_normalize 53 1024 (2 ^ 53) 0 false)) by (vm_compute; reflexivity).
    apply IH.
Qed.
Print Assumptions C65_Range_float_loops_forever.
(** Within 2^p it ends for all finite arguments, and the result is a strictly
    increasing run that starts at first and stays below last. *)
Theorem C65_Range_float_terminates : forall ftoi t p e first last, float_format (under t) = Some (p, e) ->
  finite_float p e first -> finite_float p e last -> abs_le first (2 ^ p) -> abs_le last (2 ^ p) ->
  exists N, forall k, (N <= k)%nat ->
   (SFltb last first = true /\ Range ftoi k t (F first) (F last) = Panic) \/
   exists fs, Range ftoi k t (F first) (F last) = Ok (map F fs) /\
    (SFltb first last = true -> exists fs', fs = first :: fs') /\
    Forall (fun f => finite_float p e f /\ SFltb f first = false /\ SFltb f last = true) fs /\
    forall i x y, zget fs i = Some x -> zget fs (i + 1) = Some y -> SFltb x y = true.
Proof.
  intros ftoi t p e first last Hf F1 F2 B1 B2. destruct (format_ok _ _ _ Hf) as (Hk & Hp & He).
  assert (He' : p < e) by lia. assert (Hp53 : p <= 53) by (destruct (under t); try discriminate Hf; injection Hf; lia).
  apply (fin_finite p e) in F1, F2. apply (abs_le_sv p e Hp He') in B1, B2; auto.
  exists (Z.to_nat (sv p e last - sv p e first)). intros k Hk'.
  destruct (Range_loop_stops ftoi (under t) p e Hf last F2 ltac:(lia) k first [] F1 ltac:(lia) ltac:(lia)) as [l E].
  destruct (Range_loop_increasing ftoi (under t) p e Hf last F2 ltac:(lia) k first [] l F1 ltac:(lia) E) as (fs & -> & H1 & H2 & H3).
  rewrite !(SFltb_spec p e Hp He') by auto.
  assert (C : (sv p e last < sv p e first /\ Range ftoi k t (F first) (F last) = Panic) \/ Range ftoi k t (F first) (F last) = Ok (map F fs)).
  { destruct (Z_lt_le_dec (sv p e last) (sv p e first)) as [L|L].
    - unfold Range. destruct (conv ftoi int _) as [c|c]; [|left; auto]. destruct (c <? 0); [left; auto|right; exact E].
    - right. rewrite (Range_cap ftoi (under t) p e Hf Hp53 first last k t) by auto. exact E. }
  destruct C as [[L C]|C]; [left; split; auto; now apply Z.ltb_lt|right].
  exists fs. split; auto. split; [intros HL; apply Z.ltb_lt in HL; auto|].
  assert (Fin : forall f, In f fs -> fin p e f). { rewrite Forall_forall in H2. intros f Hf'. now apply H2. }
  split.
  - rewrite Forall_forall in H2 |- *. intros f Hin. destruct (H2 f Hin) as [G1 G2].
    rewrite !(SFltb_spec p e Hp He') by auto. split; [now apply (fin_finite p e)|]. split; [apply Z.ltb_ge; lia|apply Z.ltb_lt; lia].
  - intros i x y Gx Gy. rewrite (SFltb_spec p e Hp He').
    + apply Z.ltb_lt. eauto.
    + apply Fin, in_zget. exists i. split; auto. eapply zget_Some_range; eauto.
    + apply Fin, in_zget. exists (i + 1). split; auto. eapply zget_Some_range; eauto.
Qed.
Print Assumptions C65_Range_float_terminates.
(** For integral arguments first <= last within 2^p it is exactly the integer
    sequence. *)
Theorem C65_Range_float_integers : forall ftoi t p e first last a b k, float_format (under t) = Some (p, e) ->
  finite_float p e first -> finite_float p e last -> value_is first a -> value_is last b ->
  - 2 ^ p <= a <= b -> b <= 2 ^ p -> b - a <= Z.of_nat k ->
  exists fs, Range ftoi k t (F first) (F last) = Ok (map F fs) /\ zlen fs = b - a /\
    forall i f, zget fs i = Some f -> finite_float p e f /\ value_is f (a + i).
Proof.
  intros ftoi t p e first last a b k Hf F1 F2 V1 V2 H1 H2 Hk'. destruct (format_ok _ _ _ Hf) as (Hk & Hp & He).
  assert (He' : p < e) by lia. assert (Hp53 : p <= 53) by (destruct (under t); try discriminate Hf; injection Hf; lia).
  apply (fin_finite p e) in F1, F2. apply (value_is_sv p e Hp He') in V1, V2; auto.
  assert (AB : forall z, Z.abs z <= 2 ^ p -> Z.abs (scaled p e z) <= scaled p e (2 ^ p)).
  { intros z Hz. unfold scaled. rewrite Z.abs_mul. pose proof (pow2_pos (K p e) ltac:(pose proof (K_pos p e Hp He'); lia)).
    rewrite (Z.abs_eq (2 ^ K p e)) by lia. apply Z.mul_le_mono_nonneg_r; lia. }
  rewrite (Range_cap ftoi (under t) p e Hf Hp53 first last k t) by
    (auto; try (rewrite ?V1, ?V2; apply AB; lia); rewrite V1, V2; apply (scaled_le (under t) p e Hf); lia).
  destruct (Range_loop_ints ftoi (under t) p e Hf last b F2 V2 ltac:(lia) k first a [] F1 V1 ltac:(lia) ltac:(lia)) as (l & E & Zl & G).
  exists l. split; [exact E|]. split; [lia|]. intros i f Gi. destruct (G i f Gi) as [G1 G2].
  split; [now apply fin_finite|]. now apply (value_is_sv p e Hp He').
Qed.
Print Assumptions C65_Range_float_integers.
Example Range_float_runs :
  let f z := F (binary_normalize 53 1024 z 0 false) in
  Range (fun _ => 0) 4 (plain float64) (f (-1)) (f 3) = Ok [f (-1); f 0; f 1; f 2] /\
  (* 0.5, 1.5 below 2.25 *)
  Range (fun _ => 0) 4 (plain float64) (F (S754_finite false 4503599627370496 (-53))) (F (S754_finite false 5066549580791808 (-51)))
    = Ok [F (S754_finite false 4503599627370496 (-53)); F (S754_finite false 6755399441055744 (-52))].
Proof. split; vm_compute; reflexivity. Qed.
