From Coq Require Import Floats.SpecFloat.
From Verif Require Import BaseLemmas Model_Compute Spec_Compute Proof_Float Proof_Compute Proof_ComputeFloat Proof_Transform.

Lemma format_ok n p e : float_format n = Some (p, e) -> kind_of n = Float p e /\ 1 < p /\ p + 4 < e.
Proof. destruct n; try discriminate; intros [= <- <-]; (split; [reflexivity|lia]). Qed.

Section Float.
Variable ftoi : spec_float -> Z.
Variable n : tname.
Variable p e : Z.
Hypothesis Hn : float_format n = Some (p, e).
Let Hk : kind_of n = Float p e.
Proof. exact (proj1 (format_ok _ _ _ Hn)). Qed.
Let Hp : 1 < p.
Proof. exact (proj1 (proj2 (format_ok _ _ _ Hn))). Qed.
Let He4 : p + 4 < e.
Proof. exact (proj2 (proj2 (format_ok _ _ _ Hn))). Qed.
Let He : p < e.
Proof. lia. Qed.
Local Notation K := (K p e).
Local Notation sv := (sv p e).
Local Notation fin := (fin p e).
Local Notation scaled := (scaled p e).
Local Notation rnd := (rnd p).
Let PK : 0 < 2 ^ K.
Proof. apply pow2_pos. pose proof (K_pos p e Hp He). lia. Qed.
Let P2p : 2 <= 2 ^ p.
Proof. change 2 with (2 ^ 1) at 1. apply pow2_mono. lia. Qed.

Lemma conv_float z : conv ftoi n (I z) = F (binary_normalize p e z 0 false).
Proof. unfold conv. now rewrite Hk. Qed.
Lemma add_float x y : add n (F x) (F y) = F (SFadd p e x y).
Proof. unfold add. now rewrite Hk. Qed.
Lemma sub_float x y : sub n (F x) (F y) = F (SFsub p e x y).
Proof. unfold sub. now rewrite Hk. Qed.
Lemma round_fin f : fin f -> fin (round_float p e f) /\ sv (round_float p e f) = sv f.
Proof.
  intros F. destruct f as [s|s| |s m x]; auto. cbn [round_float].
  pose proof (fin_e p e Hp He s m x F) as Ee. pose proof (fin_exact p e Hp He _ F) as X. cbn [Proof_Float.sv] in X.
  pose proof (pow2_pos _ Ee).
  assert (X1 : rnd1 p (Zpos m * 2 ^ (x + K)) = Zpos m * 2 ^ (x + K)).
  { unfold Proof_Float.rnd in X. rewrite (abs_cond p e Hp He), (sgn_cond p e Hp He) in X by nia. destruct s; cbn [cond_Zopp] in X; lia. }
  destruct (round_spec p e Hp He s m x Ee) as (m' & e' & -> & E1 & B).
  - rewrite X1. eapply Z.lt_le_trans; [apply (bounded_mag p e Hp He m x F)|]. apply pow2_mono.
    cbn [Proof_Float.fin] in F. apply (bounded_iff p e Hp He) in F. lia.
  - split; [exact B|]. cbn [Proof_Float.sv]. now rewrite E1, X1.
Qed.

(** A value of the type with integer value z: an integer constant about to be
    converted, or a float. *)
Definition holds (v : num) (z : Z) : Prop :=
  match v with I x => x = z /\ Z.abs z <= 2 ^ p | F f => fin f /\ sv f = scaled z end.
Lemma conv_holds v z : holds v z -> exists f, conv ftoi n v = F f /\ fin f /\ sv f = scaled z.
Proof.
  destruct v as [x|f]; cbn [holds].
  - intros [-> H]. rewrite conv_float. destruct (of_int_spec p e Hp He z false H). eauto.
  - intros [F E]. unfold conv. rewrite Hk. destruct (round_fin f F) as [H1 H2]. eexists. split; [reflexivity|]. split; auto. lia.
Qed.

Lemma sum_loop_float vs zs : Forall2 holds vs zs ->
  (forall pre post, zs = pre ++ post -> Z.abs (zsum pre) <= 2 ^ p) ->
  exists f, sum_loop ftoi n vs = F f /\ fin f /\ sv f = scaled (zsum zs).
Proof.
  intros H HS. unfold sum_loop, zero_of. rewrite conv_float.
  assert (G : forall vs zs, Forall2 holds vs zs -> forall f a, fin f -> sv f = scaled a ->
    (forall pre post, zs = pre ++ post -> Z.abs (a + zsum pre) <= 2 ^ p) ->
    exists f', fold_left (fun total v => add n total (conv ftoi n v)) vs (F f) = F f' /\ fin f' /\ sv f' = scaled (a + zsum zs)).
  { clear vs zs H HS. intros vs zs H. induction H as [|v z vs zs Hv H IH]; intros f a Ff Ef HS; cbn [fold_left].
    - exists f. cbn. rewrite Z.add_0_r. auto.
    - destruct (conv_holds v z Hv) as (g & -> & Fg & Eg). rewrite add_float.
      assert (HZ : Z.abs (a + z) <= 2 ^ p). { specialize (HS [z] zs eq_refl). cbn in HS. rewrite Z.add_0_r in HS. auto. }
      destruct (add_int_spec p e Hp He f g a z Ff Fg Ef Eg HZ) as [F1 E1].
      destruct (IH _ _ F1 E1) as (f' & E2 & F2 & S2).
      + intros pre post E. specialize (HS (z :: pre) post). cbn [zsum fold_right] in HS. fold (zsum pre) in HS.
        rewrite <- Z.add_assoc. apply HS. now rewrite E.
      + exists f'. split; [exact E2|]. split; [exact F2|]. rewrite S2. cbn [zsum fold_right]. f_equal. fold (zsum zs). lia. }
  destruct (of_int_spec p e Hp He 0 false) as [F0 E0]; [cbn; lia|].
  destruct (G vs zs H _ 0 F0 E0) as (f & E & Ff & Ef).
  - intros pre post E. rewrite Z.add_0_l. eauto.
  - exists f. split; [exact E|]. split; auto.
Qed.

(** *** Range *)
Lemma one_fin : exists o, conv ftoi n (I 1) = F o /\ fin o /\ sv o = scaled 1.
Proof. rewrite conv_float. destruct (of_int_spec p e Hp He 1 false); [cbn; lia|]. eauto. Qed.

Lemma scaled_lt a b : scaled a < scaled b <-> a < b.
Proof. unfold Proof_Float.scaled. symmetry. apply Z.mul_lt_mono_pos_r. lia. Qed.
Lemma scaled_le a b : scaled a <= scaled b <-> a <= b.
Proof. unfold Proof_Float.scaled. symmetry. apply Z.mul_le_mono_pos_r. lia. Qed.

(** While below 2^p the loop makes progress: it stops. *)
Lemma small_range S : Z.abs (rnd S) <= scaled (2 ^ p) -> in_range p e S.
Proof.
  intros H. unfold in_range. unfold Proof_Float.rnd in H. destruct (Z.eq_dec S 0) as [->|N].
  - unfold rnd1, ue. cbn. apply pow2_pos. pose proof (K_pos p e Hp He). lia.
  - assert (E : Z.abs (rnd1 p (Z.abs S)) <= scaled (2 ^ p)).
    { rewrite Z.abs_mul in H. replace (Z.abs (Z.sgn S)) with 1 in H by lia. lia. }
    apply Z.le_lt_trans with (scaled (2 ^ p)); [lia|]. unfold Proof_Float.scaled.
    rewrite pow2_split by (pose proof (K_pos p e Hp He); lia). apply Z.mul_lt_mono_pos_r; [lia|]. apply Z.pow_lt_mono_r; lia.
Qed.
Lemma step_up v o : fin v -> fin o -> sv o = scaled 1 -> - scaled (2 ^ p) <= sv v < scaled (2 ^ p) ->
  fin (SFadd p e v o) /\ sv v < sv (SFadd p e v o) <= scaled (2 ^ p).
Proof.
  intros Fv Fo Eo B. pose proof (succ_up p e Hp He v Fv B) as U. rewrite <- Eo in U.
  destruct (SFadd_spec p e Hp He v o Fv Fo) as [H1 H2].
  - apply small_range. lia.
  - rewrite H2. auto.
Qed.
Lemma Range_loop_stops last : fin last -> sv last <= scaled (2 ^ p) -> forall k v acc,
  fin v -> - scaled (2 ^ p) <= sv v <= scaled (2 ^ p) -> sv last - sv v <= Z.of_nat k ->
  exists l, Range_loop ftoi k n (F v) (F last) acc = Ok l.
Proof.
  intros Fl Bl. destruct one_fin as (o & Eo & Fo & So). induction k as [|k IH]; intros v acc Fv Bv Hk'; cbn [Range_loop lt];
    rewrite (SFltb_spec p e Hp He) by auto; destruct (Z.ltb_spec (sv v) (sv last)); try lia; eauto.
  rewrite Eo, add_float. destruct (step_up v o Fv Fo So ltac:(lia)) as [F1 B1].
  apply IH; auto; lia.
Qed.
Lemma Range_loop_more k : forall k' v last acc l, (k <= k')%nat ->
  Range_loop ftoi k n v last acc = Ok l -> Range_loop ftoi k' n v last acc = Ok l.
Proof.
  induction k as [|k IH]; intros k' v last acc l Hle; destruct k' as [|k']; try lia; cbn [Range_loop]; auto;
    destruct (lt v last); auto; try discriminate. apply IH. lia.
Qed.

(** What the loop collects: a strictly increasing run from first, below last,
    each element being the previous one plus 1 (rounded). *)
Lemma Range_loop_stuck last v : fin last -> fin v -> scaled (2 ^ (p + 1)) <= sv v -> sv v < sv last ->
  forall k acc, Range_loop ftoi k n (F v) (F last) acc = NoFuel.
Proof.
  intros Fl Fv Hv Hlt k. destruct one_fin as (o & Eo & Fo & So). revert v Fv Hv Hlt.
  induction k as [|k IH]; intros v Fv Hv Hlt acc; cbn [Range_loop lt];
    rewrite (SFltb_spec p e Hp He) by auto; destruct (Z.ltb_spec (sv v) (sv last)); try lia; auto.
  rewrite Eo, add_float. destruct (succ_stuck p e Hp He v Fv Hv) as [R1 R2].
  destruct (SFadd_spec p e Hp He v o Fv Fo) as [F1 S1]; [now rewrite So|]. rewrite So, R1 in S1.
  apply IH; auto; lia.
Qed.

Lemma Range_loop_ints last b : fin last -> sv last = scaled b -> Z.abs b <= 2 ^ p ->
  forall k v a acc, fin v -> sv v = scaled a -> Z.abs a <= 2 ^ p -> b - a <= Z.of_nat k ->
  exists l, Range_loop ftoi k n (F v) (F last) acc = Ok (acc ++ map F l) /\
    zlen l = Z.max 0 (b - a) /\ forall i f, zget l i = Some f -> fin f /\ sv f = scaled (a + i).
Proof.
  intros Fl Sl Bb. destruct one_fin as (o & Eo & Fo & So). induction k as [|k IH]; intros v a acc Fv Sv Ba Hk'; cbn [Range_loop lt];
    rewrite (SFltb_spec p e Hp He) by auto; rewrite Sv, Sl;
    (destruct (Z.ltb_spec (scaled a) (scaled b)) as [L|L]; [apply (proj1 (scaled_lt a b)) in L|apply (proj1 (scaled_le b a)) in L]); try lia.
  - exists []. rewrite app_nil_r. split; auto. split; [cbn; lia|]. intros i f G. apply zget_Some_range in G as G'. change (zlen (@nil spec_float)) with 0 in G'. lia.
  - rewrite Eo, add_float. destruct (add_int_spec p e Hp He v o a 1 Fv Fo Sv So) as [F1 S1]; [lia|].
    destruct (IH _ (a + 1) (acc ++ [F v]) F1 S1) as (l & E & Z1 & G); [lia|lia|].
    exists (v :: l). split; [rewrite E, <- app_assoc; reflexivity|]. rewrite zlen_cons. split; [lia|].
    intros i f Gi. pose proof (zget_Some_range _ _ _ Gi). destruct (Z.eq_dec i 0) as [->|N].
    + injection Gi as <-. rewrite Z.add_0_r. auto.
    + rewrite zget_cons_S in Gi by lia. destruct (G (i - 1) f Gi) as [G2 G3]. split; auto. rewrite G3. f_equal. lia.
  - exists []. rewrite app_nil_r. split; auto. split; [cbn; lia|]. intros i f G. apply zget_Some_range in G as G'. change (zlen (@nil spec_float)) with 0 in G'. lia.
Qed.

(** int(last - first). *)
Lemma ue_small X : 0 < X -> 2 ^ ue p X <= X.
Proof.
  intros H. pose proof (Z.log2_spec X H) as [L _]. pose proof (Z.log2_nonneg X). eapply Z.le_trans; [|exact L].
  apply pow2_mono. unfold ue. lia.
Qed.
Lemma rnd_between S : 0 < S -> 0 < rnd S <= 2 * S.
Proof.
  intros H. unfold Proof_Float.rnd. rewrite Z.sgn_pos, Z.abs_eq, Z.mul_1_l by lia.
  pose proof (rnd1_bounds p e Hp He S). pose proof (ue_small S H).
  destruct (rne_ue_bounds p e Hp He S H) as [[G _] _]. pose proof (pow2_pos _ (ue_nonneg p e Hp He S)).
  unfold rnd1 in *. nia.
Qed.
Lemma sub_in_range x y : fin x -> fin y -> Z.abs (sv x) <= scaled (2 ^ p) -> Z.abs (sv y) <= scaled (2 ^ p) -> in_range p e (sv x - sv y).
Proof.
  intros Fx Fy Bx By. unfold in_range. pose proof (K_pos p e Hp He).
  assert (B : Z.abs (sv x - sv y) <= 2 ^ (p + 1 + K)).
  { replace (2 ^ (p + 1 + K)) with (2 * scaled (2 ^ p)) by (unfold Proof_Float.scaled; rewrite pow2_split, pow2_succ by lia; ring). lia. }
  destruct (Z.eq_dec (sv x - sv y) 0) as [->|N]; [unfold rnd1; cbn; apply pow2_pos; lia|].
  destruct (Z.eq_dec (Z.abs (sv x - sv y)) (2 ^ (p + 1 + K))) as [E|NE].
  - rewrite E. rewrite (exact_below p e Hp He _ (1 + K)); [|lia| |].
    + apply Z.pow_lt_mono_r; lia.
    + replace (p + (1 + K)) with (p + 1 + K) by lia. pose proof (pow2_pos (p + 1 + K) ltac:(lia)). lia.
    + replace (p + 1 + K) with (p + (1 + K)) by lia. rewrite pow2_split by lia. apply Z.mod_mul. pose proof (pow2_pos (1 + K) ltac:(lia)). lia.
  - assert (U : ue p (Z.abs (sv x - sv y)) <= 1 + K) by (apply (ue_le p e Hp He); [lia|]; replace (p + (1 + K)) with (p + 1 + K) by lia; lia).
    unfold rnd1. destruct (rne_ue_bounds p e Hp He (Z.abs (sv x - sv y)) ltac:(lia)) as [[_ G] _].
    pose proof (ue_nonneg p e Hp He (Z.abs (sv x - sv y))) as U0. set (u := ue p (Z.abs (sv x - sv y))) in *.
    apply Z.le_lt_trans with (2 ^ p * 2 ^ u).
    + apply Z.mul_le_mono_nonneg_r; [pose proof (pow2_pos u U0); lia|auto].
    + rewrite <- pow2_split by lia. 
      (* p + u <= p + 1 + K, p < e *)
      apply Z.pow_lt_mono_r; try lia. 
Qed.

Lemma Range_loop_increasing last : fin last -> sv last <= scaled (2 ^ p) -> forall k v acc l,
  fin v -> - scaled (2 ^ p) <= sv v <= scaled (2 ^ p) ->
  Range_loop ftoi k n (F v) (F last) acc = Ok l ->
  exists fs, l = acc ++ map F fs /\ (sv v < sv last -> exists fs', fs = v :: fs') /\
    Forall (fun f => fin f /\ sv v <= sv f < sv last) fs /\
    forall i x y, zget fs i = Some x -> zget fs (i + 1) = Some y -> sv x < sv y.
Proof.
  intros Fl Bl. destruct one_fin as (o & Eo & Fo & So). induction k as [|k IH]; intros v acc l Fv Bv; cbn [Range_loop lt];
    rewrite (SFltb_spec p e Hp He) by auto; (destruct (Z.ltb_spec (sv v) (sv last)) as [L|L]).
  - discriminate.
  - intros [= <-]. exists []. rewrite app_nil_r. split; auto. split; [lia|]. split; [constructor|].
    intros i x y G. apply zget_Some_range in G as G'. change (zlen (@nil spec_float)) with 0 in G'. lia.
  - rewrite Eo, add_float. destruct (step_up v o Fv Fo So ltac:(lia)) as [F1 B1]. intros E.
    destruct (IH _ _ _ F1 ltac:(lia) E) as (fs & -> & H1 & H2 & H3).
    exists (v :: fs). split; [rewrite <- app_assoc; reflexivity|]. split; [eauto|]. split.
    + constructor; [split; auto; lia|]. eapply Forall_impl; [|exact H2]. cbn. intros f [G1 G2]. split; auto. lia.
    + intros i x y G1 G2. pose proof (zget_Some_range _ _ _ G1) as R. destruct (Z.eq_dec i 0) as [->|N].
      * injection G1 as <-. rewrite zget_cons_S in G2 by lia. replace (0 + 1 - 1) with 0 in G2 by lia.
        rewrite Forall_forall in H2. assert (In y fs) by (apply in_zget; exists 0; split; auto; eapply zget_Some_range; eauto).
        apply H2 in H. lia.
      * rewrite zget_cons_S in G1, G2 by lia. replace (i + 1 - 1) with (i - 1 + 1) in G2 by lia. eapply H3; eauto.
  - intros [= <-]. exists []. rewrite app_nil_r. split; auto. split; [lia|]. split; [constructor|].
    intros i x y G. apply zget_Some_range in G as G'. change (zlen (@nil spec_float)) with 0 in G'. lia.
Qed.

Hypothesis H53 : p <= 53.
Lemma Range_cap first last k t : under t = n -> fin first -> fin last ->
  Z.abs (sv first) <= scaled (2 ^ p) -> Z.abs (sv last) <= scaled (2 ^ p) -> sv first <= sv last ->
  Range ftoi k t (F first) (F last) = Range_loop ftoi k n (F first) (F last) [].
Proof.
  intros Ht F1 F2 B1 B2 L. unfold Range. rewrite Ht, sub_float.
  destruct (SFsub_spec p e Hp He last first F2 F1) as [Fs Ss]; [now apply sub_in_range|].
  unfold conv. cbn [kind_of]. rewrite (trunc_fin p e Hp He) by auto. rewrite Ss.
  assert (Q : 0 <= Z.quot (rnd (sv last - sv first)) (2 ^ K) <= 2 ^ (p + 2)).
  { destruct (Z.eq_dec (sv last - sv first) 0) as [->|N].
    - change (rnd 0) with 0. rewrite Z.quot_0_l by lia. pose proof (pow2_pos (p + 2) ltac:(lia)). lia.
    - pose proof (rnd_between (sv last - sv first) ltac:(lia)) as B. split; [apply Z.quot_pos; lia|].
      rewrite Z.quot_div_nonneg by lia. apply Z.div_le_upper_bound; [lia|].
      unfold Proof_Float.scaled in *. rewrite (pow2_split p 2) by lia. change (2 ^ 2) with 4. lia. }
  assert (P55 : 2 ^ (p + 2) <= 2 ^ 55) by (apply pow2_mono; lia).
  assert (Fi : fits int (Z.quot (rnd (sv last - sv first)) (2 ^ K))).
  { cbn [fits int_range]. change (2 ^ 55) with 36028797018963968 in P55. lia. }
  change (Signed 64) with (kind_of int). rewrite (wrap_id int _ Fi), Z.eqb_refl.
  destruct (Z.ltb_spec (Z.quot (rnd (sv last - sv first)) (2 ^ K)) 0); [lia|]. reflexivity.
Qed.
End Float.

(** *** Integer Range *)
Section Int.
Variable ftoi : spec_float -> Z.
Lemma Range_loop_int n last : is_int n -> fits n last -> forall k v acc, fits n v -> last - v <= Z.of_nat k ->
  exists l, Range_loop ftoi k n (I v) (I last) acc = Ok (acc ++ map I l) /\ int_sequence v last l.
Proof.
  intros Hn Hl. destruct (wrap_cases n Hn) as (lo & hi & E & _ & Lo & _). unfold fits in *. rewrite E in *.
  induction k as [|k IH]; intros v acc Hv Hk; cbn [Range_loop lt]; destruct (Z.ltb_spec v last); try lia.
  - exists []. rewrite app_nil_r. split; auto. split; [cbn; lia|]. intros i Hi. change (zlen (@nil Z)) with 0 in Hi. lia.
  - rewrite conv_int, add_int by auto. rewrite (wrap_id n 1) by (unfold fits; rewrite E; lia).
    rewrite (wrap_id n (v + 1)) by (unfold fits; rewrite E; lia).
    destruct (IH (v + 1) (acc ++ [I v])) as (l & El & Zl & Gl); [lia|lia|].
    exists (v :: l). split; [rewrite El, <- app_assoc; reflexivity|]. split.
    + rewrite zlen_cons. lia.
    + intros i Hi. rewrite zlen_cons in Hi. destruct (Z.eq_dec i 0) as [->|N]; [now rewrite Z.add_0_r|].
      rewrite zget_cons_S by lia. rewrite Gl by lia. f_equal. lia.
  - exists []. rewrite app_nil_r. split; auto. split; [cbn; lia|]. intros i Hi. change (zlen (@nil Z)) with 0 in Hi. lia.
Qed.
Lemma Range_int t first last k : is_int (under t) -> fits (under t) first -> fits (under t) last -> last - first <= Z.of_nat k ->
  let c := wrap (kind_of int) (wrap (kind_of (under t)) (last - first)) in
  if c <? 0 then Range ftoi k t (I first) (I last) = Panic
  else exists l, Range ftoi k t (I first) (I last) = Ok (map I l) /\ int_sequence first last l.
Proof.
  intros Hn Hf Hl Hk. cbn zeta. unfold Range. rewrite sub_int, conv_int by (auto; discriminate).
  destruct (_ <? 0); auto. destruct (Range_loop_int _ last Hn Hl k first [] Hf Hk) as (l & E & S). eauto.
Qed.
End Int.

