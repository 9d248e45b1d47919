(** Facts about the sorted-list maps of Spec_Map.v. *)
From Coq Require Import Sorted.
From Verif Require Import BaseLemmas Spec Trace Spec_Map Model_SkipList Proof_SkipList.
Set Default Proof Using "Type".

Lemma three_way_lt {K} (cmp : K -> K -> Z) : three_way cmp -> strict_weak (fun a b => cmp a b <? 0).
Proof.
  intros [A T]. constructor.
  - intros a. specialize (A a a). apply Z.ltb_ge. lia.
  - intros a b c H1 H2. apply Z.ltb_lt in H1, H2. apply Z.ltb_lt. pose proof (T a b c ltac:(lia) ltac:(lia)). destruct (Z.eq_dec (cmp a c) 0) as [E|]; [|lia]. exfalso.
    pose proof (A a c). pose proof (A b c). pose proof (T c a b ltac:(lia) ltac:(lia)). lia.
  - intros a b c H1 H2. apply Z.ltb_ge in H1, H2. apply Z.ltb_ge. pose proof (A a b). pose proof (A b c). pose proof (A a c). pose proof (T c b a ltac:(lia) ltac:(lia)). lia.
Qed.
Lemma kind_spec {K V} (impl : @slimpl K V) lt : kind impl lt -> exists eqk gtk,
  impl_spec eqk gtk impl /\ strict_weak lt /\ (forall a b, eqk a b = eqv lt a b) /\ (forall a b, gtk a b = lt b a).
Proof.
  intros [(eqb & -> & [SW E])|(cmp & -> & TW & E)].
  - exists eqb, (fun a b => lt b a). split; [apply ordered_spec|]. split; auto.
  - exists (fun a b => cmp a b =? 0), (fun a b => 0 <? cmp a b). split; [apply func_spec|]. split; [|split].
    + pose proof (three_way_lt cmp TW) as SW. destruct SW as [I T N]. constructor; intros *; rewrite !E; eauto.
    + intros a b. unfold eqv. rewrite !E. pose proof (tw_antisym _ TW a b). lia.
    + intros a b. rewrite E. pose proof (tw_antisym _ TW a b). lia.
Qed.

Section Maps.
Context {K V : Type} (lt : K -> K -> bool).
Hypothesis SW : strict_weak lt.
Notation eqv := (eqv lt).
Lemma eqv_refl a : eqv a a = true.
Proof using SW. unfold Spec_Map.eqv. now rewrite (sw_irrefl _ SW). Qed.
Lemma eqv_sym a b : eqv a b = eqv b a.
Proof. unfold Spec_Map.eqv. apply andb_comm. Qed.
Lemma eqv_trans a b c : eqv a b = true -> eqv b c = true -> eqv a c = true.
Proof using SW.
  unfold Spec_Map.eqv. rewrite !andb_true_iff, !negb_true_iff. intros [H1 H2] [H3 H4]. split; eapply sw_negtrans; eauto.
Qed.
Lemma eqv_cong a b c : eqv a b = true -> eqv a c = eqv b c.
Proof using SW.
  intros H. destruct (eqv a c) eqn:E1, (eqv b c) eqn:E2; auto.
  - rewrite eqv_sym in H. rewrite (eqv_trans _ _ _ H E1) in E2. discriminate.
  - rewrite (eqv_trans _ _ _ H E2) in E1. discriminate.
Qed.
Lemma ksorted_in_eq m p q : ksorted (V := V) lt m -> In p m -> In q m -> eqv (fst p) (fst q) = true -> p = q.
Proof using SW.
  induction 1 as [|x m S IH F]; intros I J E; [contradiction|]. rewrite Forall_forall in F. destruct I as [->|I], J as [->|J]; auto.
  - exfalso. specialize (F q J). apply eqv_true in E as [E _]. congruence.
  - exfalso. specialize (F p I). apply eqv_true in E as [_ E]. congruence.
Qed.
Lemma lookup_iff m x v : ksorted (V := V) lt m -> lookup lt x m = Some v <-> exists k, In (k, v) m /\ eqv k x = true.
Proof using SW.
  intros S. unfold lookup. destruct (find (fun p => eqv (fst p) x) m) as [[k w]|] eqn:E; cbn.
  - apply find_some in E as [I E]. cbn in E. split; [intros H; injection H as <-; eauto|]. intros (k' & I' & E').
    assert (X : (k, w) = (k', v)) by (apply (ksorted_in_eq m); auto; cbn; rewrite eqv_sym in E'; eapply eqv_trans; eauto). congruence.
  - split; [discriminate|]. intros (k & I & E'). pose proof (find_none _ _ E _ I) as F. cbn in F. congruence.
Qed.
Lemma has_iff m x : has (V := V) lt x m = true <-> exists p, In p m /\ eqv (fst p) x = true.
Proof. unfold has. apply existsb_exists. Qed.
Lemma has_lookup m x : has (V := V) lt x m = defined (lookup lt x m).
Proof.
  unfold has, lookup. induction m as [|p m IH]; cbn; auto. destruct (eqv (fst p) x); cbn; auto.
Qed.
Lemma in_set_value k v m p : In p (set_value (V := V) lt k v m) <-> exists q, In q m /\ p = if eqv (fst q) k then (fst q, v) else q.
Proof. unfold set_value. rewrite in_map_iff. split; intros (q & H1 & H2); exists q; auto. Qed.
Lemma opt_eq {A} (x y : option A) : (forall v, x = Some v <-> y = Some v) -> x = y.
Proof. destruct x as [a|], y as [b|]; intros H; auto; [symmetry; now apply (H a)|symmetry; now apply (H a)|now apply (H b)]. Qed.
Lemma ksorted_set k v m : ksorted lt m -> ksorted lt (set_value (V := V) lt k v m).
Proof.
  intros S. apply (ksorted_keys lt m); auto. unfold set_value. rewrite map_map. apply map_ext. intros p. now destruct (eqv (fst p) k).
Qed.
Lemma lookup_set k v m x : ksorted (V := V) lt m -> lookup lt x (set_value lt k v m) = if eqv x k && has lt k m then Some v else lookup lt x m.
Proof using SW.
  intros S. apply opt_eq. intros w. rewrite lookup_iff by now apply ksorted_set.
  destruct (eqv x k && has lt k m) eqn:E.
  - apply andb_true_iff in E as [E1 E2]. apply has_iff in E2 as ((k' & v') & I & E2). cbn in E2. split.
    + intros (k0 & I0 & E0). apply in_set_value in I0 as (q & Iq & Eq). destruct (eqv (fst q) k) eqn:Ek; [injection Eq as -> ->; auto|]. subst q. cbn in Ek.
      rewrite (eqv_trans _ _ _ E0 E1) in Ek. discriminate.
    + intros H. injection H as <-. exists k'. split; [apply in_set_value; exists (k', v'); split; auto; cbn; now rewrite E2|]. rewrite eqv_sym in E1. eapply eqv_trans; eauto.
  - rewrite lookup_iff by auto. split.
    + intros (k0 & I0 & E0). apply in_set_value in I0 as (q & Iq & Eq). destruct (eqv (fst q) k) eqn:Ek.
      * exfalso. injection Eq as -> ->. assert (H1 : eqv x k = true) by (rewrite <- Ek; symmetry; now apply eqv_cong). assert (H2 : has lt k m = true) by (apply has_iff; eauto). rewrite H1, H2 in E. discriminate.
      * subst q. eauto.
    + intros (k0 & I0 & E0). exists k0. split; auto. apply in_set_value. exists (k0, w). split; auto. cbn. destruct (eqv k0 k) eqn:Ek; auto. exfalso.
      assert (H1 : eqv x k = true) by (rewrite <- Ek; symmetry; now apply eqv_cong). assert (H2 : has lt k m = true) by (apply has_iff; exists (k0, w); auto). rewrite H1, H2 in E. discriminate.
Qed.
Lemma ksorted_filter f m : ksorted (V := V) lt m -> ksorted lt (filter f m).
Proof.
  unfold ksorted. induction 1 as [|x m S IH F]; cbn; [constructor|]. destruct (f x); auto. constructor; auto. rewrite Forall_forall in *. intros y I. apply filter_In in I as [I _]. auto.
Qed.
Lemma lookup_remove k m x : ksorted (V := V) lt m -> lookup lt x (remove lt k m) = if eqv x k then None else lookup lt x m.
Proof using SW.
  intros S. apply opt_eq. intros w. unfold remove. rewrite lookup_iff by now apply ksorted_filter.
  assert (E : forall k0, eqv k0 x = true -> eqv k0 k = eqv x k) by (intros k0 H; now apply eqv_cong).
  split.
  - intros (k0 & I & E0). apply filter_In in I as [I F]. cbn in F. rewrite (E k0 E0) in F. apply negb_true_iff in F. rewrite F. apply lookup_iff; eauto.
  - destruct (eqv x k) eqn:Ex; [discriminate|]. rewrite lookup_iff by auto. intros (k0 & I & E0). exists k0. split; auto. apply filter_In. split; auto. cbn. now rewrite (E k0 E0).
Qed.
Lemma trich a b : lt a b = true \/ eqv a b = true \/ lt b a = true.
Proof. unfold Spec_Map.eqv. destruct (lt a b), (lt b a); auto. Qed.
Lemma in_insert k v m p : has (V := V) lt k m = false -> In p (insert lt k v m) <-> p = (k, v) \/ In p m.
Proof.
  intros H. unfold insert. rewrite H, in_app_iff. cbn [In]. rewrite !filter_In. split; [intros [[I _]|[E|[I _]]]; auto|].
  intros [->|I]; auto. destruct (trich (fst p) k) as [L|[L|L]]; auto. exfalso. assert (has lt k m = true) by (apply has_iff; eauto). congruence.
Qed.
Lemma ksorted_insert k v m : ksorted (V := V) lt m -> ksorted lt (insert lt k v m).
Proof using SW.
  intros S. unfold insert. destruct (has lt k m); [now apply ksorted_set|]. apply SS_app.
  - now apply ksorted_filter.
  - constructor; [now apply ksorted_filter|]. apply Forall_forall. intros p I. apply filter_In in I as [_ I]. exact I.
  - apply Forall_forall. intros p I. apply filter_In in I as [_ I]. constructor; auto. apply Forall_forall. intros q J. apply filter_In in J as [_ J]. exact (sw_trans _ SW _ _ _ I J).
Qed.
Lemma lookup_insert k v m x : ksorted (V := V) lt m -> lookup lt x (insert lt k v m) = if eqv x k then Some v else lookup lt x m.
Proof using SW.
  intros S. destruct (has lt k m) eqn:H.
  - unfold insert. rewrite H, lookup_set, H, andb_true_r by auto. reflexivity.
  - apply opt_eq. intros w. rewrite lookup_iff by now apply ksorted_insert. destruct (eqv x k) eqn:Ex.
    + split.
      * intros (k0 & I & E0). apply in_insert in I as [I|I]; auto; [now injection I as -> ->|]. exfalso.
        assert (has lt k m = true) by (apply has_iff; exists (k0, w); split; auto; cbn; eapply eqv_trans; eauto). congruence.
      * intros E. injection E as <-. exists k. split; [apply in_insert; auto|]. now rewrite eqv_sym.
    + rewrite lookup_iff by auto. split.
      * intros (k0 & I & E0). apply in_insert in I as [I|I]; auto; [|eauto]. injection I as -> ->. rewrite eqv_sym in E0. congruence.
      * intros (k0 & I & E0). exists k0. split; auto. apply in_insert; auto.
Qed.
Lemma ksorted_nth m : ksorted (V := V) lt m -> strictly_sorted_by lt (map fst m).
Proof.
  unfold strictly_sorted_by. induction 1 as [|x m S IH F]; intros i j a b L Gi Gj; [apply zget_Some_range in Gi; cbn in Gi; unfold zlen in Gi; cbn in Gi; lia|].
  cbn [map] in Gi, Gj. rewrite zget_cons_S in Gj by lia. destruct (Z.eq_dec i 0) as [->|].
  - rewrite zget_cons_0 in Gi. injection Gi as <-. assert (I : In b (map fst m)) by (apply in_zget; exists (j - 1); split; auto; now apply zget_Some_range in Gj).
    apply in_map_iff in I as (p & <- & I). rewrite Forall_forall in F. now apply F.
  - rewrite zget_cons_S in Gi by lia. apply (IH (i - 1) (j - 1) a b); auto. lia.
Qed.
(** The specification keeps the map sorted. *)
Lemma map_st_fst {St} (cb : St -> K * V -> V * St) m : forall st, map fst (fst (map_st (fun st p => let '(v, st') := cb st p in ((fst p, v), st')) st m)) = map fst m.
Proof. induction m as [|p m IH]; intros st; cbn; auto. destruct (cb st p) as [v st']. specialize (IH st'). destruct (map_st _ st' m). cbn in *. now rewrite IH. Qed.
Lemma map_while_fst {St} (cb : St -> K * V -> V * bool * St) m : forall st, map fst (fst (map_while (fun st p => let '(v, go, st') := cb st p in ((fst p, v), go, st')) st m)) = map fst m.
Proof. induction m as [|p m IH]; intros st; cbn; auto. destruct (cb st p) as [[v go] st']. destruct go; [|reflexivity]. specialize (IH st'). destruct (map_while _ st' m). cbn in *. now rewrite IH. Qed.
Lemma spec_sorted {St} (o : mop K V St) m : ksorted lt m -> ksorted lt (snd (map_spec lt o m)).
Proof using SW.
  intros S. destruct o; cbn [map_spec snd]; auto.
  - now apply ksorted_insert.
  - now apply ksorted_filter.
  - constructor.
  - now apply ksorted_set.
  - pose proof (map_st_fst cb m st) as E. destruct (map_st _ st m) as [m' st']. cbn in *. now apply (ksorted_keys lt m).
  - pose proof (map_while_fst cb m st) as E. destruct (map_while _ st m) as [m' st']. cbn in *. now apply (ksorted_keys lt m).
Qed.
Lemma run_sorted {St} (ops : list (mop K V St)) : forall m, ksorted lt m -> ksorted lt (snd (run (map_spec lt) ops m)).
Proof using SW.
  induction ops as [|o ops IH]; intros m S; cbn [run]; auto. pose proof (spec_sorted o m S) as S1. destruct (map_spec lt o m) as [r m1]. cbn in S1. specialize (IH m1 S1). now destruct (run (map_spec lt) ops m1).
Qed.
(** The function view. *)
Definition frel (f : K -> option V) (m : list (K * V)) : Prop := ksorted lt m /\ forall x, f x = lookup lt x m.
Lemma fmap_sim ops f m : frel f m -> fst (run (map_spec lt) (map mop_of ops) m) = fst (run (fmap_spec lt) ops f) /\ frel (snd (run (fmap_spec lt) ops f)) (snd (run (map_spec lt) (map mop_of ops) m)).
Proof using SW.
  revert f m. induction ops as [|o ops IH]; intros f m [S F]; [split; [reflexivity|split; auto]|]. cbn [map run].
  assert (H : fst (map_spec lt (mop_of o) m) = fst (fmap_spec lt o f) /\ frel (snd (fmap_spec lt o f)) (snd (map_spec lt (mop_of o) m))).
  { assert (Hh : forall k, has lt k m = defined (f k)) by (intros k; now rewrite has_lookup, F).
    destruct o; cbn; (split; [rewrite ?Hh, ?F; reflexivity|]).
    - split; [now apply ksorted_insert|]. intros x. rewrite lookup_insert, F; auto.
    - split; [now apply ksorted_filter|]. intros x. rewrite lookup_remove, F; auto.
    - split; [constructor|]. reflexivity.
    - split; [now apply ksorted_set|]. intros x. rewrite lookup_set, Hh, (F x) by auto. reflexivity.
    - split; auto.
    - split; auto. }
  destruct (map_spec lt (mop_of o) m) as [r1 m1]. destruct (fmap_spec lt o f) as [r2 f1]. cbn [fst snd] in H. destruct H as [-> H]. destruct (IH f1 m1 H) as [E R].
  destruct (run (map_spec lt) (map mop_of ops) m1). destruct (run (fmap_spec lt) ops f1). cbn [fst snd] in *. now subst.
Qed.
Lemma enumerates_keys f m : frel f m -> enumerates lt (map fst m) f.
Proof using SW.
  intros [S F]. split.
  - assert (L : forall i j a b, (i < j)%nat -> nth_error (map fst m) i = Some a -> nth_error (map fst m) j = Some b -> lt a b = true).
    { intros i j a b Lij Hi Hj. pose proof (ksorted_nth m S) as N. apply (N (Z.of_nat i) (Z.of_nat j)); [lia| |]; now rewrite zget_nat. }
    intros i j a b NE Hi Hj. destruct (Nat.lt_ge_cases i j) as [Lt|Ge].
    + apply eqv_false_l. eapply L; eauto.
    + apply eqv_false_r. apply (L j i); auto. lia.
  - intros x. rewrite F. split.
    + intros H. destruct (lookup lt x m) as [v|] eqn:E; [|congruence]. apply lookup_iff in E as (k & I & E); auto. exists k. rewrite eqv_sym. split; auto. apply in_map_iff. exists (k, v). auto.
    + intros (k & I & E). apply in_map_iff in I as ([k' v] & <- & I). cbn in E. assert (L : lookup lt x m = Some v) by (apply lookup_iff; auto; exists k'; rewrite eqv_sym; auto). congruence.
Qed.
(** Two lists enumerating the same keys have the same length. *)
Definition apart (ks : list K) := forall i j a b, i <> j -> nth_error ks i = Some a -> nth_error ks j = Some b -> eqv a b = false.
Lemma apart_le ks : forall ks', apart ks -> (forall k, In k ks -> exists k', In k' ks' /\ eqv k k' = true) -> (length ks <= length ks')%nat.
Proof using SW.
  induction ks as [|k ks IH]; intros ks' A H; cbn; [lia|]. destruct (H k (or_introl eq_refl)) as (k' & I & E). destruct (in_split _ _ I) as (X & Y & ->).
  specialize (IH (X ++ Y)). rewrite app_length in *. cbn in *. cut (length ks <= length X + length Y)%nat; [lia|]. apply IH.
  - intros i j a b NE Hi Hj. apply (A (Datatypes.S i) (Datatypes.S j)); auto.
  - intros x Ix. destruct (H x (or_intror Ix)) as (x' & Ix' & Ex). exists x'. split; auto. apply in_app_iff in Ix' as [Ix'|[<-|Ix']]; try (apply in_app_iff; auto; fail). exfalso.
    apply In_nth_error in Ix as [n Hn]. assert (F : eqv k x = false) by (apply (A 0%nat (Datatypes.S n)); auto). rewrite eqv_sym in Ex. rewrite (eqv_trans _ _ _ E Ex) in F. discriminate.
Qed.
Lemma enumerates_len (f : K -> option V) ks ks' : enumerates lt ks f -> enumerates lt ks' f -> zlen ks = zlen ks'.
Proof using SW.
  intros [A1 H1] [A2 H2]. unfold zlen. f_equal. apply Nat.le_antisymm; apply apart_le; auto; intros k I; [apply H2, H1|apply H1, H2]; exists k; auto using eqv_refl.
Qed.
(** A sorted list is determined by its elements. *)
Lemma ksorted_ext m : forall m', ksorted (V := V) lt m -> ksorted lt m' -> (forall p, In p m <-> In p m') -> m = m'.
Proof using SW.
  induction m as [|p m IH]; intros [|q m'] S S' H; auto.
  - exfalso. apply (H q). now left.
  - exfalso. apply (H p). now left.
  - inversion S as [|? ? S1 F1]; inversion S' as [|? ? S2 F2]; subst. rewrite Forall_forall in F1, F2.
    assert (p = q) as ->.
    { destruct (proj1 (H p) (or_introl eq_refl)) as [->|I]; auto. destruct (proj2 (H q) (or_introl eq_refl)) as [->|J]; auto. exfalso.
      specialize (F2 p I). specialize (F1 q J). pose proof (sw_trans _ SW _ _ _ F1 F2) as X. rewrite (sw_irrefl _ SW) in X. discriminate. }
    f_equal. apply IH; auto. intros x. split; intros I.
    + destruct (proj1 (H x) (or_intror I)) as [<-|]; auto. exfalso. specialize (F1 q I). rewrite (sw_irrefl _ SW) in F1. discriminate.
    + destruct (proj2 (H x) (or_intror I)) as [<-|]; auto. exfalso. specialize (F2 q I). rewrite (sw_irrefl _ SW) in F2. discriminate.
Qed.
Lemma ksorted_nodup m : ksorted (V := V) lt m -> NoDup m.
Proof using SW.
  induction 1 as [|p m S IH F]; constructor; auto. intros I. rewrite Forall_forall in F. specialize (F p I). rewrite (sw_irrefl _ SW) in F. discriminate.
Qed.
(** The specification ignores the random numbers. *)
Lemma spec_same_call {St} (o1 o2 : mop K V St) m : same_call o1 o2 -> map_spec lt o1 m = map_spec lt o2 m.
Proof. destruct o1, o2; cbn; intros H; try contradiction; try (now injection H as -> ->); try (now injection H as ->); try discriminate; auto. now destruct H as [-> ->]. Qed.
Lemma run_same_call {St} (ops1 ops2 : list (mop K V St)) : Forall2 same_call ops1 ops2 -> forall m, run (map_spec lt) ops1 m = run (map_spec lt) ops2 m.
Proof.
  induction 1 as [|o1 o2 l1 l2 H F IH]; intros m; cbn; auto. rewrite (spec_same_call _ _ m H). destruct (map_spec lt o2 m) as [r m1]. now rewrite IH.
Qed.
End Maps.

(** A specification state after a run depends on the order only pointwise. *)
Lemma spec_ext {K V St} (lt lt' : K -> K -> bool) (o : mop K V St) m : (forall a b, lt a b = lt' a b) -> map_spec lt o m = map_spec lt' o m.
Proof.
  intros H. assert (E : forall a b, eqv lt a b = eqv lt' a b) by (intros; unfold eqv; now rewrite !H).
  assert (Hh : forall k, has lt k m = has lt' k m) by (intros k; unfold has; induction m as [|p m IH]; cbn; auto; now rewrite E, IH).
  assert (Hs : forall k v, set_value lt k v m = set_value lt' k v m) by (intros; unfold set_value; apply map_ext; intros; now rewrite E).
  destruct o; cbn; auto.
  - unfold insert. rewrite Hh, Hs. f_equal. destruct (has lt' k m); auto. f_equal; [|f_equal]; apply filter_ext; intros; apply H.
  - rewrite Hh. f_equal. unfold remove. apply filter_ext. intros. now rewrite E.
  - do 3 f_equal. unfold lookup. f_equal. clear Hh Hs. induction m as [|p m IH]; cbn; auto. now rewrite E, IH.
  - now rewrite Hh.
  - now rewrite Hh, Hs.
  - do 3 f_equal. apply filter_ext. intros. now rewrite H.
  - do 3 f_equal. apply filter_ext. intros. now rewrite H.
  - f_equal. assert (X : forall (f g : K * V -> bool), (forall x, f x = g x) -> existsb f m = existsb g m) by (intros f g Hfg; clear - Hfg; induction m; cbn; auto; now rewrite Hfg, IHm).
    rewrite (X _ (fun p => lt' last (fst p) && lt' (fst p) first)) by (intros; now rewrite !H). destruct (existsb _ m); auto. do 2 f_equal. apply filter_ext. intros. now rewrite !H.
Qed.
Lemma run_ext {K V St} (lt lt' : K -> K -> bool) (ops : list (mop K V St)) : (forall a b, lt a b = lt' a b) -> forall m, run (map_spec lt) ops m = run (map_spec lt') ops m.
Proof. intros H. induction ops as [|o ops IH]; intros m; cbn; auto. rewrite (spec_ext lt lt' o m H). destruct (map_spec lt' o m). now rewrite IH. Qed.
