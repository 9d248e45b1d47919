From Coq Require Import Floats.SpecFloat.
From Verif Require Import BaseLemmas Model_Compute Spec_Compute Proof_Float.

(** *** Integer wrap *)
Lemma wrap_cases n : is_int n -> exists lo hi, int_range n = Some (lo, hi) /\ 0 < hi - lo + 1 /\ lo <= 0 < hi /\
  forall z, wrap (kind_of n) z = (z - lo) mod (hi - lo + 1) + lo.
Proof.
  intros H. destruct n; try (now elim H); eexists _, _; (split; [reflexivity|]); (split; [lia|]); (split; [lia|]);
    intros z; cbn [wrap kind_of].
  all: match goal with |- context [2 ^ 64 ] => change (2 ^ 64) with 18446744073709551616 | |- context [2 ^ 8 ] => change (2 ^ 8) with 256 | |- context [2 ^ 16 ] => change (2 ^ 16) with 65536 | |- context [2 ^ 32 ] => change (2 ^ 32) with 4294967296 end.
  all: cbn -[Z.modulo]; try (rewrite Z.sub_0_r, Z.add_0_r; reflexivity); rewrite <- ?Z.sub_opp_r; reflexivity.
Qed.
Lemma wrap_fits n z : is_int n -> fits n (wrap (kind_of n) z).
Proof.
  intros H. destruct (wrap_cases n H) as (lo & hi & E & P & _ & W). unfold fits. rewrite E, W.
  pose proof (Z.mod_pos_bound (z - lo) (hi - lo + 1) P). lia.
Qed.
Lemma wrap_id n z : fits n z -> wrap (kind_of n) z = z.
Proof.
  intros H. assert (I : is_int n) by (unfold is_int; unfold fits in H; destruct (int_range n); [discriminate|tauto]).
  destruct (wrap_cases n I) as (lo & hi & E & P & _ & W). unfold fits in H. rewrite E in H. rewrite W, Z.mod_small by lia. lia.
Qed.
Lemma fits_int n z : fits n z -> is_int n.
Proof. unfold fits, is_int. destruct (int_range n); [discriminate|tauto]. Qed.
Lemma wrap_fits_iff n z : is_int n -> (wrap (kind_of n) z = z <-> fits n z).
Proof. intros H. split; [intros <-; now apply wrap_fits|apply wrap_id]. Qed.

(** a and b are congruent modulo 2^width. *)
Definition cong (n : tname) (a b : Z) : Prop := exists k, a = b + k * modulus n.
Lemma modulus_pos n : is_int n -> 0 < modulus n.
Proof. destruct n; cbn; try lia; intros H; now elim H. Qed.
Lemma cong_wrap n z : is_int n -> cong n (wrap (kind_of n) z) z.
Proof.
  intros H. destruct (wrap_cases n H) as (lo & hi & E & P & _ & W). unfold cong, modulus. rewrite E, W.
  exists (- ((z - lo) / (hi - lo + 1))). pose proof (Z.div_mod (z - lo) (hi - lo + 1) ltac:(lia)). lia.
Qed.
Lemma cong_refl n a : cong n a a. Proof. exists 0. lia. Qed.
Lemma cong_trans n a b c : cong n a b -> cong n b c -> cong n a c.
Proof. intros [k ->] [k' ->]. exists (k + k'). lia. Qed.
Lemma cong_add n a b c d : cong n a b -> cong n c d -> cong n (a + c) (b + d).
Proof. intros [k ->] [k' ->]. exists (k + k'). lia. Qed.
Lemma cong_mod n a b : is_int n -> cong n a b -> (a - b) mod modulus n = 0.
Proof. intros H [k ->]. pose proof (modulus_pos n H). replace (b + k * modulus n - b) with (k * modulus n) by lia. apply Z.mod_mul. lia. Qed.
Lemma cong_fits n a b : fits n a -> fits n b -> cong n a b -> a = b.
Proof.
  intros Ha Hb [k E]. pose proof (modulus_pos n (fits_int _ _ Ha)). unfold fits, modulus in *. destruct (int_range n) as [[lo hi]|]; [|tauto].
  assert (k = 0) by nia. subst k. lia.
Qed.
(** The accumulator is 64 bits wide, every type's width divides that. *)
Lemma cong_narrow m n a b : is_int m -> is_int n -> modulus m = 18446744073709551616 -> cong m a b -> cong n a b.
Proof.
  intros Hm Hn Em [k E]. rewrite Em in E. destruct n; try (now elim Hn); cbn -[Z.mul]; unfold cong;
   match goal with |- exists _, a = b + _ * modulus ?n => let c := eval vm_compute in (18446744073709551616 / modulus n) in
     exists (k * c); change (modulus n) with ltac:(let m := eval vm_compute in (modulus n) in exact m); lia end.
Qed.

Lemma add_int n a b : is_int n -> add n (I a) (I b) = I (wrap (kind_of n) (a + b)).
Proof. intros H. unfold add. destruct n; try reflexivity; now elim H. Qed.
Lemma sub_int n a b : is_int n -> sub n (I a) (I b) = I (wrap (kind_of n) (a - b)).
Proof. intros H. unfold sub. destruct n; try reflexivity; now elim H. Qed.
Lemma div_int n a b : is_int n -> div n (I a) (I b) = if b =? 0 then Panic else Ok (I (wrap (kind_of n) (Z.quot a b))).
Proof. intros H. unfold div. destruct n; try reflexivity; now elim H. Qed.

Section Conv.
Variable ftoi : spec_float -> Z.
Lemma conv_int n a : is_int n -> conv ftoi n (I a) = I (wrap (kind_of n) a).
Proof. intros H. unfold conv. destruct n; try reflexivity; now elim H. Qed.

Lemma sum_loop_int acc zs : is_int acc ->
  exists t, sum_loop ftoi acc (map I zs) = I t /\ cong acc t (zsum zs) /\ fits acc t.
Proof.
  intros H. unfold sum_loop, zero_of. rewrite conv_int by auto.
  assert (G : forall zs t, fits acc t -> exists t', fold_left (fun total v => add acc total (conv ftoi acc v)) (map I zs) (I t) = I t' /\
            cong acc t' (t + zsum zs) /\ fits acc t').
  { clear zs. induction zs as [|z zs IH]; intros t Ht; simpl.
    - exists t. rewrite Z.add_0_r. split; auto. split; auto. apply cong_refl.
    - rewrite conv_int, add_int by auto. destruct (IH (wrap (kind_of acc) (t + wrap (kind_of acc) z))) as (t' & E & C & F); [now apply wrap_fits|].
      exists t'. split; auto. split; auto. eapply cong_trans; [exact C|]. fold (zsum zs).
      replace (t + (z + zsum zs)) with ((t + z) + zsum zs) by lia. apply cong_add; [|apply cong_refl].
      eapply cong_trans; [now apply cong_wrap|]. apply cong_add; [apply cong_refl|now apply cong_wrap]. }
  destruct (G zs (wrap (kind_of acc) 0)) as (t & E & C & F); [now apply wrap_fits|].
  exists t. split; auto. split; auto. rewrite wrap_id in C; auto.
  destruct acc; try (now elim H); cbv; split; discriminate.
Qed.

Lemma sum_type_int n : is_int n -> is_int (sum_type (plain n)) /\ modulus (sum_type (plain n)) = 18446744073709551616.
Proof. intros H. destruct n; try (now elim H); (split; [discriminate|reflexivity]). Qed.

Lemma SumAs_int R T zs : is_int (under R) -> is_int T ->
  exists r, SumAs ftoi R (plain T) (map I zs) = I r /\ fits (under R) r /\ cong (under R) r (zsum zs).
Proof.
  intros HR HT. destruct (sum_type_int T HT) as [H1 H2]. destruct (sum_loop_int _ zs H1) as (t & E & C & F).
  unfold SumAs. rewrite E, conv_int by auto. eexists. split; [reflexivity|]. split; [now apply wrap_fits|].
  eapply cong_trans; [now apply cong_wrap|]. eapply cong_narrow; eauto.
Qed.
Lemma SumAs_exact R T zs : is_int T -> fits (under R) (zsum zs) ->
  SumAs ftoi R (plain T) (map I zs) = I (zsum zs).
Proof.
  intros HT HF. destruct (SumAs_int R T zs (fits_int _ _ HF) HT) as (r & E & F & C). rewrite E. f_equal.
  eapply cong_fits; eauto.
Qed.

(** *** Averages *)
Lemma AverageAs_exact R T zs : is_int T -> fits (under R) (zsum zs) -> fits (under R) (zlen zs) -> zs <> [] ->
  AverageAs ftoi R (plain T) (map I zs) = Ok (I (Z.quot (zsum zs) (zlen zs))).
Proof.
  intros HT HS HL HN. unfold AverageAs. rewrite SumAs_exact by auto.
  pose proof (fits_int _ _ HS) as HR. rewrite conv_int by auto.
  assert (Lm : zlen (map I zs) = zlen zs) by (unfold zlen; now rewrite map_length). rewrite Lm, (wrap_id (under R)) by auto.
  rewrite div_int by auto. assert (0 < zlen zs) by (destruct zs; [congruence|rewrite zlen_cons; pose proof (zlen_nonneg zs); lia]).
  destruct (Z.eqb_spec (zlen zs) 0); [lia|]. do 2 f_equal. apply wrap_id.
  destruct (wrap_cases _ HR) as (lo & hi & E & _ & Lo & _). unfold fits in *. rewrite E in *.
  assert (B : Z.abs (Z.quot (zsum zs) (zlen zs)) <= Z.abs (zsum zs)).
  { rewrite <- Z.quot_abs by lia.
    rewrite (Z.abs_eq (zlen zs)) by lia. apply Z.quot_le_upper_bound; nia. }
  destruct (Z_le_gt_dec 0 (zsum zs)).
  - pose proof (Z.quot_pos (zsum zs) (zlen zs) ltac:(lia) ltac:(lia)). lia.
  - assert (Z.quot (zsum zs) (zlen zs) <= 0). { pose proof (Z.quot_pos (- zsum zs) (zlen zs) ltac:(lia) ltac:(lia)). rewrite Z.quot_opp_l in *; lia. } lia.
Qed.
Lemma zsum_bounds zs lo hi : (forall z, In z zs -> lo <= z <= hi) -> lo * zlen zs <= zsum zs <= hi * zlen zs.
Proof.
  induction zs as [|z zs IH]; intros H.
  - cbn. lia.
  - rewrite zlen_cons. cbn [zsum fold_right]. fold (zsum zs). specialize (IH ltac:(intros; apply H; now right)). specialize (H z ltac:(now left)). lia.
Qed.
Lemma quot_between s n lo hi : 0 < n -> lo * n <= s <= hi * n -> lo <= Z.quot s n <= hi.
Proof.
  intros Hn [H1 H2]. split.
  - rewrite <- (Z.quot_mul lo n) by lia. apply Z.quot_le_mono; lia.
  - rewrite <- (Z.quot_mul hi n) by lia. apply Z.quot_le_mono; lia.
Qed.
Lemma avg_fits n zs : zs <> [] -> is_int n -> Forall (fits n) zs -> fits n (Z.quot (zsum zs) (zlen zs)).
Proof.
  intros HN HI H. rewrite Forall_forall in H. destruct (wrap_cases n HI) as (lo & hi & E & _). unfold fits in *. rewrite E in *.
  apply quot_between.
  - destruct zs; [congruence|rewrite zlen_cons; pose proof (zlen_nonneg zs); lia].
  - now apply zsum_bounds.
Qed.

(** The type in which Average divides. *)
Definition avg_type (n : tname) : tname :=
  match n with uint | uint64 | uintptr => uint64 | _ => int64 end.
Lemma fits_uint z : fits uint z <-> fits uint64 z. Proof. reflexivity. Qed.

Lemma Average_exact n zs : zs <> [] -> is_int n -> Forall (fits n) zs -> zlen zs <= 9223372036854775807 -> fits (avg_type n) (zsum zs) ->
  Average ftoi (plain n) (map I zs) = Ok (I (Z.quot (zsum zs) (zlen zs))).
Proof.
  intros HN HI HF HL HS. pose proof (avg_fits n zs HN HI HF) as HA. pose proof (zlen_nonneg zs) as L0.
  assert (G : forall m, int_range m = int_range (avg_type n) -> AverageAs ftoi (plain m) (plain n) (map I zs) = Ok (I (Z.quot (zsum zs) (zlen zs)))).
  { intros m Em. apply AverageAs_exact; auto.
    - unfold fits in *. cbn [under plain]. rewrite Em. auto.
    - unfold fits. cbn [under plain]. rewrite Em. destruct n; cbn; try lia. }
  unfold Average. cbn [is_defined plain under].
  destruct n; try (now elim HI); try (rewrite G by reflexivity; cbn [omap]; rewrite conv_int by discriminate; now rewrite wrap_id); apply (G _ eq_refl).
Qed.

Lemma Average_panics n : is_int n -> Average ftoi (plain n) [] = Panic.
Proof. intros H. destruct n; try reflexivity; now elim H. Qed.
Lemma AverageAs_no_panic R T zs : is_int (under R) -> is_int T -> fits (under R) (zlen zs) -> zs <> [] ->
  exists r, AverageAs ftoi R (plain T) (map I zs) = Ok (I r).
Proof.
  intros HR HT HL HN. unfold AverageAs. destruct (SumAs_int R T zs HR HT) as (r & -> & _).
  rewrite conv_int by auto. assert (Lm : zlen (map I zs) = zlen zs) by (unfold zlen; now rewrite map_length).
  rewrite Lm, wrap_id by auto. rewrite div_int by auto.
  assert (0 < zlen zs) by (destruct zs; [congruence|rewrite zlen_cons; pose proof (zlen_nonneg zs); lia]).
  destruct (Z.eqb_spec (zlen zs) 0); [lia|]. eauto.
Qed.
Lemma Average_no_panic n zs : is_int n -> zs <> [] -> zlen zs <= 9223372036854775807 ->
  exists r, Average ftoi (plain n) (map I zs) = Ok (I r).
Proof.
  intros HI HN HL. pose proof (zlen_nonneg zs) as L0.
  assert (G : forall m, is_int m -> (m = int \/ m = int64 \/ m = uint64 \/ m = uint \/ m = uintptr) -> exists r, AverageAs ftoi (plain m) (plain n) (map I zs) = Ok (I r)).
  { intros m Hm Em. apply AverageAs_no_panic; auto. cbn [under plain]. unfold fits.
    destruct Em as [->|[->|[->|[->| ->]]]]; cbn; lia. }
  unfold Average. cbn [is_defined plain under].
  destruct n; try (now elim HI);
    try (destruct (G int64) as [r ->]; [discriminate|tauto|]; cbn [omap]; rewrite conv_int by discriminate; eauto).
  - destruct (G int64) as [r E]; [discriminate|tauto|]. exact (ex_intro _ r E).
  - apply G; [discriminate|tauto].
  - destruct (G uint64) as [r ->]; [discriminate|tauto|]. cbn [omap]. rewrite conv_int by discriminate. eauto.
  - apply G; [discriminate|tauto].
Qed.
End Conv.
