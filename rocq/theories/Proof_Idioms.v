(** Sorted sequences are determined by how often each element occurs. *)
From Verif Require Import Base BaseLemmas Spec Spec_Idioms Spec_Sort.

Section Ordered.
Context {T : Type}.
Variables ltb eqb : T -> T -> bool.
Hypothesis O : ordered ltb eqb.
Implicit Types (l s : list T).

Lemma i_refl x : eqb x x = true.
Proof using O. rewrite (ord_eq _ _ O), (sw_irrefl _ (ord_sw _ _ O)). reflexivity. Qed.
Lemma i_eq x y : eqb x y = true <-> ltb x y = false /\ ltb y x = false.
Proof using O. rewrite (ord_eq _ _ O), andb_true_iff, !negb_true_iff. reflexivity. Qed.
Lemma i_sym x y : eqb x y = eqb y x.
Proof using O. rewrite !(ord_eq _ _ O). apply andb_comm. Qed.
Lemma i_trans x y z : eqb x y = true -> eqb y z = true -> eqb x z = true.
Proof using O. rewrite !i_eq. intros [] []. split; eapply (sw_negtrans _ (ord_sw _ _ O)); eauto. Qed.
Lemma i_subst x y z : eqb x y = true -> eqb z x = eqb z y.
Proof using O. intros E. apply eq_true_iff_eq. split; intros H; eapply i_trans; eauto. now rewrite i_sym. Qed.

Lemma i_In l i x : zget l i = Some x -> In x l.
Proof. intros G. apply in_zget. exists i. split; auto. eapply zget_Some_range; eauto. Qed.
Lemma i_tail x l : sorted_by ltb (x :: l) -> sorted_by ltb l.
Proof. intros S i j a b Hij Ga Gb. apply (S (i + 1) (j + 1)); [lia| |]; rewrite zget_cons_S by lia; rewrite Z.add_simpl_r; auto. Qed.
Lemma i_head x l : sorted_by ltb (x :: l) -> forall y, In y l -> ltb y x = false.
Proof. intros S y I. apply in_zget in I. destruct I as (i & Hi & G). apply (S 0 (i + 1)); [lia|reflexivity|]. rewrite zget_cons_S by lia. now rewrite Z.add_simpl_r. Qed.
Lemma i_stail x l : strictly_sorted_by ltb (x :: l) -> strictly_sorted_by ltb l.
Proof. intros S i j a b Hij Ga Gb. apply (S (i + 1) (j + 1)); [lia| |]; rewrite zget_cons_S by lia; rewrite Z.add_simpl_r; auto. Qed.
Lemma i_shead x l : strictly_sorted_by ltb (x :: l) -> forall y, In y l -> ltb x y = true.
Proof. intros S y I. apply in_zget in I. destruct I as (i & Hi & G). apply (S 0 (i + 1)); [lia|reflexivity|]. rewrite zget_cons_S by lia. now rewrite Z.add_simpl_r. Qed.
Lemma i_cons x l : sorted_by ltb l -> (forall y, In y l -> ltb y x = false) -> sorted_by ltb (x :: l).
Proof.
  intros S H i j a b Hij Ga Gb. rewrite zget_cons_S in Gb by lia. destruct (Z.eq_dec i 0) as [->|].
  - injection Ga as <-. apply H. eapply i_In; eauto.
  - rewrite zget_cons_S in Ga by lia. apply (S (i - 1) (j - 1)); auto. lia.
Qed.
Lemma i_scons x l : strictly_sorted_by ltb l -> (forall y, In y l -> ltb x y = true) -> strictly_sorted_by ltb (x :: l).
Proof.
  intros S H i j a b Hij Ga Gb. rewrite zget_cons_S in Gb by lia. destruct (Z.eq_dec i 0) as [->|].
  - injection Ga as <-. apply H. eapply i_In; eauto.
  - rewrite zget_cons_S in Ga by lia. apply (S (i - 1) (j - 1)); auto. lia.
Qed.
Lemma i_nil : sorted_by ltb (@nil T).
Proof. intros i j a b Hij Ga. apply i_In in Ga. destruct Ga. Qed.
Lemma i_snil : strictly_sorted_by ltb (@nil T).
Proof. intros i j a b Hij Ga. apply i_In in Ga. destruct Ga. Qed.
Lemma i_strict l : strictly_sorted_by ltb l -> sorted_by ltb l.
Proof using O.
  intros S i j a b Hij Ga Gb. specialize (S i j a b Hij Ga Gb). destruct (ltb b a) eqn:E; auto.
  rewrite <- (sw_irrefl _ (ord_sw _ _ O) a). symmetry. eapply (sw_trans _ (ord_sw _ _ O)); eauto.
Qed.

(** How often x occurs. *)
Definition times x l : nat := length (filter (eqb x) l).
Lemma times_perm x l l' : Permutation l l' -> times x l = times x l'.
Proof.
  intros P. unfold times. induction P as [| a l l' P IH | a b l | l1 l2 l3 P1 IH1 P2 IH2]; cbn [filter]; auto.
  - destruct (eqb x a); cbn [length]; auto.
  - destruct (eqb x a), (eqb x b); reflexivity.
  - congruence.
Qed.
Lemma times_in x l : times x l <> 0%nat -> exists y, In y l /\ eqb x y = true.
Proof.
  unfold times. induction l as [|a l IH]; cbn [filter length]; [congruence|]. destruct (eqb x a) eqn:E; intros H.
  - exists a. split; [now left|auto].
  - destruct (IH H) as (y & I & Ey). exists y. split; [now right|auto].
Qed.
Lemma times_pos x l y : In y l -> eqb x y = true -> times x l <> 0%nat.
Proof. unfold times. intros I E H. apply length_zero_iff_nil in H. assert (In y (filter (eqb x) l)) by (apply filter_In; auto). rewrite H in H0. destruct H0. Qed.

Lemma i_heads a s b s' : sorted_by ltb (a :: s) -> times b (a :: s) = times b (b :: s') -> ltb b a = false.
Proof using O.
  intros S Eb. destruct (times_in b (a :: s)) as (y & I & E); [rewrite Eb; eapply times_pos; [now left|apply i_refl]|]. rewrite i_eq in E. destruct E as [E1 E2].
  destruct I as [<-|I]; auto. pose proof (i_head _ _ S y I) as H. exact (sw_negtrans _ (ord_sw _ _ O) b y a E1 H).
Qed.
Lemma i_unique s : forall s', sorted_by ltb s -> sorted_by ltb s' -> (forall x, times x s = times x s') -> alike eqb s s'.
Proof using O.
  induction s as [|a s IH]; intros [|b s'] S S' E.
  - constructor.
  - specialize (E b). exfalso. revert E. unfold times. cbn [filter]. rewrite i_refl. discriminate.
  - specialize (E a). exfalso. revert E. unfold times. cbn [filter]. rewrite i_refl. discriminate.
  - assert (Eab : eqb a b = true) by (rewrite i_eq; split; [exact (i_heads b s' a s S' (eq_sym (E a)))|exact (i_heads a s b s' S (E b))]).
    constructor; auto. apply IH; [eapply i_tail; eauto|eapply i_tail; eauto|]. intros x. specialize (E x). unfold times in *. cbn [filter] in E. rewrite (i_subst a b x Eab) in E.
    destruct (eqb x b); cbn [length] in E; congruence.
Qed.
Lemma i_unique_perm s s' l : sorted_by ltb s -> sorted_by ltb s' -> Permutation s l -> Permutation s' l -> alike eqb s s'.
Proof using O. intros S S' P P'. apply i_unique; auto. intros x. apply times_perm. rewrite P. now symmetry. Qed.

Lemma alike_refl l : alike eqb l l.
Proof using O. unfold alike. induction l; constructor; auto using i_refl. Qed.
Lemma alike_sym l l' : alike eqb l l' -> alike eqb l' l.
Proof using O. unfold alike. induction 1; constructor; auto. now rewrite i_sym. Qed.
Lemma alike_trans l1 l2 l3 : alike eqb l1 l2 -> alike eqb l2 l3 -> alike eqb l1 l3.
Proof using O. unfold alike. intros H. revert l3. induction H; intros l3 H3; inversion H3; subst; constructor; eauto using i_trans. Qed.
Lemma alike_times l l' : alike eqb l l' -> forall x, times x l = times x l'.
Proof using O. unfold alike, times. induction 1 as [|a b l l' E H IH]; intros x; auto. cbn [filter]. rewrite (i_subst a b x E). destruct (eqb x b); cbn [length]; auto. Qed.
Lemma alike_rev l l' : alike eqb l l' -> alike eqb (rev l) (rev l').
Proof. unfold alike. induction 1; cbn [rev]; [constructor|]. apply Forall2_app; auto. Qed.

(** The elements in descending order are those in ascending order backwards. *)
Lemma sorted_rev l : sorted_by ltb l -> sorted_by (fun x y => ltb y x) (rev l).
Proof.
  induction l as [|a l IH]; intros S; [intros i j x y Hij G; apply i_In in G; destruct G|]. cbn [rev]. pose proof (IH (i_tail _ _ S)) as R.
  intros i j x y Hij Gx Gy. destruct (Z.eq_dec j (zlen (rev l))) as [->|N].
  - rewrite zget_app_r in Gy by lia. rewrite Z.sub_diag in Gy. injection Gy as <-. rewrite zget_app_l in Gx by lia. apply (i_head _ _ S). apply in_rev. eapply i_In; eauto.
  - apply zget_Some_range in Gy as L. rewrite zlen_app in L. change (zlen [a]) with 1 in L. rewrite zget_app_l in Gy by lia. rewrite zget_app_l in Gx by lia. exact (R i j x y Hij Gx Gy).
Qed.

(** Stable sorts give the very same sequence. *)
Lemma stable_unique s : forall s', sorted_by ltb s -> sorted_by ltb s' -> (forall x, filter (eqb x) s = filter (eqb x) s') -> s = s'.
Proof using O.
  induction s as [|a s IH]; intros [|b s'] S S' E; auto.
  - specialize (E b). cbn [filter] in E. rewrite i_refl in E. discriminate.
  - specialize (E a). cbn [filter] in E. rewrite i_refl in E. discriminate.
  - assert (Eab : eqb a b = true). { rewrite i_eq. split; [apply (i_heads b s' a s S')|apply (i_heads a s b s' S)]; unfold times; now rewrite E. }
    assert (a = b) as <-. { specialize (E a). cbn [filter] in E. rewrite i_refl, Eab in E. now injection E. }
    f_equal. apply IH; [eapply i_tail; eauto|eapply i_tail; eauto|]. intros x. specialize (E x). cbn [filter] in E. destruct (eqb x a); congruence.
Qed.

(** Strictly ascending sequences are determined by their elements. *)
Lemma contains_times l x : contains eqb l x = negb (Nat.eqb (times x l) 0).
Proof.
  unfold contains, times. induction l as [|a l IH]; auto. cbn [existsb filter]. destruct (eqb x a); auto.
Qed.
Lemma contains_perm l l' x : Permutation l l' -> contains eqb l x = contains eqb l' x.
Proof. intros P. rewrite !contains_times. now rewrite (times_perm x l l' P). Qed.
Lemma strict_once l x : strictly_sorted_by ltb l -> times x l = if contains eqb l x then 1%nat else 0%nat.
Proof using O.
  induction l as [|a l IH]; intros S; auto. specialize (IH (i_stail _ _ S)). unfold times, contains in *. cbn [filter existsb]. destruct (eqb x a) eqn:E; cbn [orb length]; auto.
  f_equal. destruct (filter (eqb x) l) as [|y f] eqn:F; auto. exfalso. assert (I : In y (filter (eqb x) l)) by (rewrite F; now left). apply filter_In in I as [I Ey].
  pose proof (i_shead _ _ S y I) as L. rewrite i_sym in E. pose proof (i_trans _ _ _ E Ey) as X. rewrite i_eq in X. destruct X; congruence.
Qed.
Lemma strict_unique l l' : strictly_sorted_by ltb l -> strictly_sorted_by ltb l' -> (forall x, contains eqb l x = contains eqb l' x) -> alike eqb l l'.
Proof using O. intros S S' E. apply i_unique; auto using i_strict. intros x. rewrite !strict_once by auto. now rewrite E. Qed.

(** Unique of a sorted sequence. *)
Lemma drop_after p l : sorted_by ltb (p :: l) ->
  strictly_sorted_by ltb (p :: drop_repeats_after eqb p l) /\ (forall x, contains eqb (p :: drop_repeats_after eqb p l) x = contains eqb (p :: l) x).
Proof using O.
  revert p. induction l as [|a l IH]; intros p S; cbn [drop_repeats_after].
  - split; auto. apply i_scons; [apply i_snil|intros y []].
  - pose proof (i_tail _ _ S) as S1. destruct (IH a S1) as [H1 H2]. pose proof (i_head _ _ S a (or_introl eq_refl)) as L. destruct (eqb a p) eqn:E.
    + split.
      * apply i_scons; [eapply i_stail; eauto|]. intros y I. pose proof (i_shead _ _ H1 y I) as La. rewrite i_eq in E. destruct E as [E1 E2].
        destruct (ltb p y) eqn:X; auto. rewrite (sw_negtrans _ (ord_sw _ _ O) a p y) in La; auto.
      * intros x. specialize (H2 x). unfold contains in *. cbn [existsb] in *. rewrite (i_subst a p x E) in H2 |- *. rewrite H2. now destruct (eqb x p).
    + assert (La : ltb p a = true). { destruct (ltb p a) eqn:X; auto. assert (eqb a p = true) by (rewrite i_eq; auto). congruence. }
      split.
      * apply i_scons; auto. intros y [<-|I]; auto. apply (sw_trans _ (ord_sw _ _ O) p a y); auto. now apply (i_shead _ _ H1).
      * intros x. specialize (H2 x). unfold contains in *. cbn [existsb] in *. now rewrite H2.
Qed.
Lemma drop_sorted l : sorted_by ltb l -> strictly_sorted_by ltb (drop_repeats eqb l) /\ forall x, contains eqb (drop_repeats eqb l) x = contains eqb l x.
Proof using O. destruct l as [|p l]; intros S; cbn [drop_repeats]; [split; [apply i_snil|auto]|]. now apply drop_after. Qed.

(** Pairwise different elements, sorted. *)
Definition all_different l : Prop := forall i j a b, i <> j -> nth_error l i = Some a -> nth_error l j = Some b -> eqb a b = false.
Lemma different_times l x : all_different l -> (times x l <= 1)%nat.
Proof using O.
  induction l as [|a l IH]; intros D; [cbn; lia|]. assert (D' : all_different l) by (intros i j u v N Hi Hj; apply (D (S i) (S j)); auto).
  specialize (IH D'). unfold times in *. cbn [filter]. destruct (eqb x a) eqn:E; auto. cbn [length]. destruct (filter (eqb x) l) as [|y f] eqn:F; auto. exfalso.
  assert (I : In y (filter (eqb x) l)) by (rewrite F; now left). apply filter_In in I as [I Ey]. apply In_nth_error in I as [n Hn].
  assert (X : eqb a y = false) by (apply (D 0%nat (S n)); auto). rewrite i_sym in E. rewrite (i_trans _ _ _ E Ey) in X. discriminate.
Qed.
Lemma different_sorted l : (forall x, (times x l <= 1)%nat) -> sorted_by ltb l -> strictly_sorted_by ltb l.
Proof using O.
  induction l as [|a l IH]; intros D S; [apply i_snil|]. apply i_scons.
  - apply IH; [|eapply i_tail; eauto]. intros x. specialize (D x). unfold times in *. cbn [filter] in D. destruct (eqb x a); cbn [length] in D; lia.
  - intros y I. pose proof (i_head _ _ S y I) as L. destruct (ltb a y) eqn:E; auto. exfalso. assert (X : eqb a y = true) by (rewrite i_eq; auto).
    specialize (D a). unfold times in D. cbn [filter] in D. rewrite i_refl in D. cbn [length] in D. pose proof (times_pos a l y I X) as H. unfold times in H. lia.
Qed.

(** A sorted sequence is a min heap. *)
Lemma sorted_heap l : sorted_by ltb l -> min_heap ltb l.
Proof using Type.
  intros S c a b Hc Ga Gb. apply (S ((c - 1) / 2) c); auto. split; [apply Z.div_pos; lia|]. apply Z.div_lt_upper_bound; lia.
Qed.

(** Putting x behind the elements not greater than it, as a stable sort does. *)
Lemma sorted_between A x B : sorted_by ltb (A ++ B) -> (forall y, In y A -> ltb x y = false) -> (forall y, In y B -> ltb y x = false) -> sorted_by ltb (A ++ x :: B).
Proof using Type.
  induction A as [|a A IH]; intros S HA HB; cbn [app] in *; [now apply i_cons|]. apply i_cons.
  - apply IH; auto; [eapply i_tail; eauto|]. intros y I. apply HA. now right.
  - intros y I. apply in_app_or in I as [I|[<-|I]]; [|apply HA; now left|]; apply (i_head _ _ S); apply in_or_app; auto.
Qed.
Lemma filter_after x B y : (forall z, In z B -> ltb x z = true) -> filter (eqb y) (x :: B) = filter (eqb y) B ++ filter (eqb y) [x].
Proof using O.
  intros H. cbn [filter]. destruct (eqb y x) eqn:E; [|now rewrite app_nil_r]. assert (filter (eqb y) B = []) as ->; auto.
  destruct (filter (eqb y) B) as [|z f] eqn:F; auto. assert (I : In z (filter (eqb y) B)) by (rewrite F; now left). apply filter_In in I as [I Ez].
  specialize (H z I). rewrite i_sym in E. pose proof (i_trans _ _ _ E Ez) as X. rewrite i_eq in X. destruct X; congruence.
Qed.
Lemma insert_upper s x i : sorted_by ltb s -> 0 <= i <= zlen s -> (forall j y, zget s j = Some y -> ltb x y = (i <=? j)) ->
  let s' := zsub s 0 i ++ [x] ++ zsub s i (zlen s) in
  sorted_by ltb s' /\ Permutation s' (s ++ [x]) /\ forall y, filter (eqb y) s' = filter (eqb y) (s ++ [x]).
Proof using O.
  intros S Hi H. pose proof (zsub_split s 0 i (zlen s)) as E. rewrite zsub_full in E.
  assert (HA : forall y, In y (zsub s 0 i) -> ltb x y = false).
  { intros y I. apply in_zget in I as (j & Hj & G). rewrite zlen_zsub in Hj by lia. rewrite zget_zsub in G by lia. match type of G with (if ?b then _ else _) = _ => destruct b; [|discriminate] end. rewrite (H _ _ G). apply Z.leb_gt. lia. }
  assert (HB : forall y, In y (zsub s i (zlen s)) -> ltb x y = true).
  { intros y I. apply in_zget in I as (j & Hj & G). rewrite zlen_zsub in Hj by lia. rewrite zget_zsub in G by lia. match type of G with (if ?b then _ else _) = _ => destruct b; [|discriminate] end. rewrite (H _ _ G). apply Z.leb_le. lia. }
  specialize (E (Z.le_refl 0) Hi). set (A := zsub s 0 i) in *. set (B := zsub s i (zlen s)) in *. clearbody A B. subst s. cbn zeta. cbn [app]. split; [|split].
  - apply sorted_between; auto. intros y I. destruct (ltb y x) eqn:X; auto. rewrite <- (sw_irrefl _ (ord_sw _ _ O) y). symmetry. eapply (sw_trans _ (ord_sw _ _ O)); eauto.
  - rewrite <- app_assoc. apply Permutation_app_head. apply Permutation_cons_append.
  - intros y. rewrite !filter_app. rewrite (filter_after x B y HB). now rewrite app_assoc.
Qed.
End Ordered.
