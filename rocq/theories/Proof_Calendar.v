(** Bookings in a SkipList. *)
From Coq Require Import Sorted.
From Verif Require Import Base BaseLemmas Spec Trace Spec_Map Nodes Proof_Nodes Model_SkipList Proof_SkipList Proof_Map Props_SkipList Spec_Calendar Model_Calendar.

Section Calendar.
Variable impl : @slimpl Z Z.
Hypothesis Hk : kind impl Z.ltb.
Variable h0 : nat -> option (slnode Z Z).
Notation rel := (Rel Z.ltb h0).

Lemma upper_at m s k : rel m s -> exists A B it, m = A ++ B /\ Forall (fun p => fst p <= k) A /\ Forall (fun p => k < fst p) B /\ UpperBound impl k s = (Ok it, s) /\ stands_at it B s.
Proof.
  intros (hd & ps & <- & R & S). destruct s as [h l]. destruct (kind_spec _ _ Hk) as (eqk & gtk & SP & SW & Eq & Gt).
  destruct (upper_pos eqk gtk impl SP Z.ltb SW Eq Gt h0 hd ps h l k R S) as (A & M & B & -> & H1 & H2 & H3 & El).
  exists (kvs (A ++ M)), (kvs B), (firstp B, None). split; [rewrite !kvs_app, app_assoc; reflexivity|]. split; [|split; [|split]].
  - rewrite kvs_app. apply Forall_app. split; [eapply Forall_imp; [|exact H1]; intros p H; cbn in H; lia|eapply Forall_imp; [|exact H2]; intros p H; apply eqv_true in H as [_ H]; lia].
  - eapply Forall_imp; [|exact H3]. intros p H. cbn in H. lia.
  - unfold UpperBound. now rewrite (bind_eq _ _ _ _ _ El).
  - apply (stands_ok h0 hd (A ++ M)). now rewrite <- app_assoc.
Qed.
Lemma eqv_Z a b : eqv Z.ltb a b = (a =? b).
Proof. unfold eqv. destruct (Z.eqb_spec a b); lia. Qed.

(** m: from ends to starts. *)
Definition apart (m : list (Z * Z)) : Prop := (forall a b, In (b, a) m -> a < b) /\ forall a b a' b', In (b, a) m -> In (b', a') m -> b < b' -> b <= a'.
Definition crel (l : list (Z * Z)) (s : list (slnode Z Z) * sklist) : Prop := exists m, rel m s /\ apart m /\ forall a b, In (b, a) m <-> In (a, b) l.

(** What stands at the front decides. *)
Lemma front m A B s e : ksorted Z.ltb m -> apart m -> m = A ++ B -> Forall (fun p => fst p <= s) A -> Forall (fun p => s < fst p) B ->
  (exists a b, In (b, a) m /\ s < b /\ a < e) <-> match B with [] => False | p :: _ => snd p < e end.
Proof.
  intros So [P1 P2] -> FA FB. rewrite Forall_forall in FA, FB. split.
  - intros (a & b & I & H1 & H2). apply in_app_iff in I as [I|I]; [apply FA in I; cbn in I; lia|]. destruct B as [|[b1 a1] B]; [destruct I|]. cbn. destruct I as [E|I]; [injection E as -> ->; exact H2|].
    assert (L : b1 < b). { apply in_split in I as (B1 & B2 & ->). pose proof (ksorted_nth Z.ltb _ So) as N. specialize (N (zlen A) (zlen A + 1 + zlen B1) b1 b). pose proof (zlen_nonneg A). pose proof (zlen_nonneg B1). 
      rewrite map_app in N. cbn [map fst] in N. rewrite map_app in N. cbn [map fst] in N.
      assert (LA : zlen (map fst A) = zlen A) by (unfold zlen; now rewrite map_length). assert (LB : zlen (map fst B1) = zlen B1) by (unfold zlen; now rewrite map_length).
      apply Z.ltb_lt, N; [lia| |].
      - rewrite zget_app_r, LA, Z.sub_diag by lia. reflexivity.
      - rewrite zget_app_r by lia. rewrite (app_comm_cons (map fst B1) _ b1). rewrite zget_app_r; [|rewrite zlen_cons; lia]. rewrite zlen_cons, LA, LB. replace (zlen A + 1 + zlen B1 - zlen A - (1 + zlen B1)) with 0 by lia. reflexivity. }
    assert (I1 : In (b1, a1) (A ++ (b1, a1) :: B)) by (apply in_app_iff; right; now left). assert (I2 : In (b, a) (A ++ (b1, a1) :: B)) by (apply in_app_iff; right; now right).
    specialize (P2 _ _ _ _ I1 I2 L). apply P1 in I1. lia.
  - destruct B as [|[b a] B]; [contradiction|]. cbn. intros H. exists a, b. split; [apply in_app_iff; right; now left|]. split; [|exact H]. apply (FB (b, a)). now left.
Qed.
Lemma bool_iff (b : bool) (P : Prop) c : (b = true <-> P) -> (c = true <-> P) -> b = c.
Proof. intros H1 H2. destruct b, c; auto; [symmetry; apply H2, H1; reflexivity|apply H1, H2; reflexivity]. Qed.
Lemma conflict_ok l s e st : crel l st -> s < e -> cal_conflict impl s e st = (Ok (existsb (overlap (s, e)) l), st).
Proof.
  intros (m & R & Ap & Eq) L. destruct (upper_at m st s R) as (A & B & it & Em & FA & FB & E & N & KV & _). pose proof (front m A B s e (Rel_sorted _ _ _ _ R) Ap Em FA FB) as F.
  unfold cal_conflict. rewrite (bind_eq _ _ _ _ _ E), N.
  assert (X : existsb (overlap (s, e)) l = true <-> exists a b, In (b, a) m /\ s < b /\ a < e).
  { rewrite existsb_exists. split; [intros ([a b] & I & O); unfold overlap in O; cbn in O; exists a, b; rewrite Eq; split; [exact I|lia]|intros (a & b & I & H); exists (a, b); rewrite <- Eq; split; [exact I|unfold overlap; cbn; lia]]. }
  destruct B as [|[b a] B]; [cbn; unfold ret; do 2 f_equal; apply (bool_iff _ False); [split; [discriminate|tauto]|rewrite X; tauto]|].
  destruct (KV _ _ eq_refl) as [_ Ev]. rewrite (bind_eq _ _ _ _ _ Ev). unfold ret. cbn [snd] in *. do 2 f_equal. apply (bool_iff _ (a < e)); [apply Z.ltb_lt|]. rewrite X. exact F.
Qed.
Lemma taken_ok l t st : crel l st -> cal_taken impl t st = (Ok (existsb (fun p => (fst p <=? t) && (t <? snd p)) l), st).
Proof.
  intros (m & R & Ap & Eq). destruct (upper_at m st t R) as (A & B & it & Em & FA & FB & E & N & KV & _). pose proof (front m A B t (t + 1) (Rel_sorted _ _ _ _ R) Ap Em FA FB) as F.
  unfold cal_taken. rewrite (bind_eq _ _ _ _ _ E), N.
  assert (X : existsb (fun p => (fst p <=? t) && (t <? snd p)) l = true <-> exists a b, In (b, a) m /\ t < b /\ a < t + 1).
  { rewrite existsb_exists. split; [intros ([a b] & I & O); cbn in O; exists a, b; rewrite Eq; split; [exact I|lia]|intros (a & b & I & H); exists (a, b); rewrite <- Eq; split; [exact I|cbn; lia]]. }
  destruct B as [|[b a] B]; [cbn; unfold ret; do 2 f_equal; apply (bool_iff _ False); [split; [discriminate|tauto]|rewrite X; tauto]|].
  destruct (KV _ _ eq_refl) as [_ Ev]. rewrite (bind_eq _ _ _ _ _ Ev). unfold ret. cbn [snd] in *. do 2 f_equal. apply (bool_iff _ (a < t + 1)); [rewrite Z.leb_le; lia|]. rewrite X. exact F.
Qed.
Lemma step_ok o l st : crel l st -> fst (cal_step impl o st) = fst (cal_spec o l) /\ crel (snd (cal_spec o l)) (snd (cal_step impl o st)).
Proof.
  intros C. destruct o as [s e r|s e|t]; cbn [cal_step cal_spec].
  - unfold cal_book. destruct (Z.ltb_spec s e) as [L|L]; cbn [negb andb]; [|split; [reflexivity|exact C]]. rewrite (bind_eq _ _ _ _ _ (conflict_ok l s e st C L)).
    destruct (existsb (overlap (s, e)) l) eqn:X; cbn [negb]; [split; [reflexivity|exact C]|]. destruct C as (m & R & [P1 P2] & Eq).
    assert (No : forall a b, In (b, a) m -> e <= a \/ b <= s).
    { intros a b I. apply Eq in I. destruct (overlap (s, e) (a, b)) eqn:O; [assert (existsb (overlap (s, e)) l = true) by (apply existsb_exists; eauto); congruence|]. unfold overlap in O. cbn in O. lia. }
    assert (Nk : has Z.ltb e m = false).
    { destruct (has Z.ltb e m) eqn:H; auto. apply has_iff in H as ([b a] & I & H). rewrite eqv_Z in H. apply Z.eqb_eq in H. cbn in H. subst b. pose proof (P1 _ _ I). apply No in I. lia. }
    destruct (call_insert impl Z.ltb Hk h0 m st R e s r) as [E R']. destruct (Insert impl e s r st) as [o st'] eqn:EI. cbn [fst snd] in E, R'. subst o. rewrite (bind_eq _ _ _ _ _ EI). split; [reflexivity|]. cbn [snd ret].
    exists (insert Z.ltb e s m). split; [exact R'|]. assert (HI : forall p, In p (insert Z.ltb e s m) <-> p = (e, s) \/ In p m) by (intros p; apply in_insert; exact Nk). split; [split|].
    + intros a b I. apply HI in I as [I|I]; [injection I as -> ->; exact L|eauto].
    + intros a b a' b' I I' H. apply HI in I as [I|I]; apply HI in I' as [I'|I']; try (injection I as -> ->); try (injection I' as -> ->); [lia| |pose proof (P1 _ _ I); apply No in I; lia|eauto].
      pose proof (P1 _ _ I'). apply No in I'. lia.
    + intros a b. rewrite HI. cbn [In]. rewrite Eq. split; [intros [H|H]; [left; injection H as -> ->; reflexivity|auto]|intros [H|H]; [left; injection H as -> ->; reflexivity|auto]].
  - unfold cal_cancel. destruct C as (m & R & [P1 P2] & Eq). pose proof (Rel_sorted _ _ _ _ R) as So. pose proof (kind_sw _ _ Hk) as SW.
    destruct (use_call (St := unit) impl Z.ltb Hk h0 (MFind e) m st R) as [_ R1]. cbn [map_step map_spec snd] in R1. rewrite show_snd in R1. pose proof (call_find impl Z.ltb Hk h0 m st R e) as E1.
    destruct (find_get impl e st) as [o1 st1] eqn:EF. cbn [fst snd] in E1, R1. subst o1. rewrite (bind_eq _ _ _ _ _ EF).
    assert (Lk : forall a, lookup Z.ltb e m = Some a <-> In (a, e) l).
    { intros a. rewrite (lookup_iff Z.ltb SW m e a So), <- Eq. split; [intros (k & I & H); rewrite eqv_Z in H; apply Z.eqb_eq in H; now subst k|intros I; exists e; split; [exact I|rewrite eqv_Z; apply Z.eqb_refl]]. }
    assert (Ex : existsb (same (s, e)) l = true <-> In (s, e) l).
    { rewrite existsb_exists. split; [intros ([a b] & I & H); unfold same in H; cbn in H; assert (s = a /\ e = b) as [-> ->] by lia; exact I|intros I; exists (s, e); split; [exact I|unfold same; cbn; lia]]. }
    destruct (lookup Z.ltb e m) as [a|] eqn:El; [destruct (Z.eqb_spec a s) as [-> |N]|].
    + destruct (call_remove impl Z.ltb Hk h0 m st1 R1 e) as [E2 R2]. split.
      * cbn [fst]. rewrite E2, has_lookup, El. cbn. f_equal. symmetry. apply Ex. now apply Lk.
      * cbn [snd]. exists (remove Z.ltb e m). split; [exact R2|]. unfold remove. split; [split; [intros a b I; apply filter_In in I as [I _]; eauto|intros a b a' b' I I'; apply filter_In in I as [I _]; apply filter_In in I' as [I' _]; eauto]|].
        intros a b. rewrite !filter_In, Eq, eqv_Z. cbn [fst]. unfold same. cbn [fst snd]. split; intros [I H]; (split; [exact I|]); [lia|].
        destruct (Z.eqb_spec b e) as [-> |]; [|reflexivity]. apply Lk in I. injection I as ->. lia.
    + assert (NI : ~ In (s, e) l) by (intros I; apply Lk in I; congruence). split.
      * cbn [fst ret]. f_equal. destruct (existsb (same (s, e)) l); auto. exfalso. apply NI. now apply Ex.
      * cbn [snd ret]. exists m. split; [exact R1|]. split; [split; auto|]. intros b c. rewrite filter_In, Eq. split; [intros I; split; [exact I|]|tauto]. unfold same. cbn. destruct (Z.eqb_spec s b), (Z.eqb_spec e c); subst; auto; contradiction.
    + assert (NI : ~ In (s, e) l) by (intros I; apply Lk in I; congruence). split.
      * cbn [fst ret]. f_equal. destruct (existsb (same (s, e)) l); auto. exfalso. apply NI. now apply Ex.
      * cbn [snd ret]. exists m. split; [exact R1|]. split; [split; auto|]. intros b c. rewrite filter_In, Eq. split; [intros I; split; [exact I|]|tauto]. unfold same. cbn. destruct (Z.eqb_spec s b), (Z.eqb_spec e c); subst; auto; contradiction.
  - rewrite (taken_ok l t st C). split; [reflexivity|exact C].
Qed.
End Calendar.
