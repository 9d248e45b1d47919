(** Lemmas about the Go semantics of Base.v. *)
From Verif Require Export Base.
From Coq Require Export ZifyBool ZifyNat.
Ltac Zify.zify_post_hook ::= Z.div_mod_to_equations.

(** *** nat-indexed update *)

Lemma upd_length {T} n (v : T) l : length (upd n v l) = length l.
Proof. revert n; induction l as [|x l IH]; intros [|n]; simpl; auto. Qed.

Lemma nth_error_upd_eq {T} n (v : T) l :
  (n < length l)%nat -> nth_error (upd n v l) n = Some v.
Proof.
  revert n; induction l as [|x l IH]; intros [|n] H; simpl in *; try lia; auto.
  apply IH; lia.
Qed.

Lemma nth_error_upd_ne {T} n k (v : T) l :
  n <> k -> nth_error (upd n v l) k = nth_error l k.
Proof.
  revert n k; induction l as [|x l IH]; intros [|n] [|k] H; simpl; auto; try lia.
Qed.

Lemma upd_app_r {T} n (v : T) l1 l2 :
  (length l1 <= n)%nat -> upd n v (l1 ++ l2) = l1 ++ upd (n - length l1) v l2.
Proof.
  revert n; induction l1 as [|x l1 IH]; intros n H; simpl in *.
  - f_equal; lia.
  - destruct n as [|n]; [lia|]. simpl. f_equal. apply IH. lia.
Qed.

Lemma upd_app_l {T} n (v : T) l1 l2 :
  (n < length l1)%nat -> upd n v (l1 ++ l2) = upd n v l1 ++ l2.
Proof.
  revert n; induction l1 as [|x l1 IH]; intros n H; simpl in *; [lia|].
  destruct n as [|n]; simpl; auto. f_equal. apply IH. lia.
Qed.

Lemma upd_middle {T} (l1 : list T) x y l2 :
  upd (length l1) y (l1 ++ x :: l2) = l1 ++ y :: l2.
Proof. rewrite upd_app_r by lia. rewrite Nat.sub_diag. reflexivity. Qed.

Lemma upd_ge {T} n (v : T) l : (length l <= n)%nat -> upd n v l = l.
Proof.
  revert n; induction l as [|x l IH]; intros [|n] H; simpl in *; try lia; auto.
  f_equal; apply IH; lia.
Qed.

Lemma upd_self {T} n (v : T) l : nth_error l n = Some v -> upd n v l = l.
Proof.
  revert n; induction l as [|x l IH]; intros [|n] H; simpl in *; try discriminate.
  - now inversion H.
  - f_equal; auto.
Qed.

Lemma upd_upd {T} n (v w : T) l : upd n v (upd n w l) = upd n v l.
Proof. revert n; induction l as [|x l IH]; intros [|n]; simpl; auto. f_equal; auto. Qed.

Lemma nth_upd_eq {T} n (v d : T) l : (n < length l)%nat -> nth n (upd n v l) d = v.
Proof.
  intros H. apply nth_error_nth. apply nth_error_upd_eq; auto.
Qed.

Lemma nth_upd_ne {T} n k (v d : T) l : n <> k -> nth k (upd n v l) d = nth k l d.
Proof.
  revert n k; induction l as [|x l IH]; intros [|n] [|k] H; simpl; auto; try lia.
Qed.

Lemma list_eq_nth_error {T} (l1 l2 : list T) :
  (forall n, nth_error l1 n = nth_error l2 n) -> l1 = l2.
Proof.
  revert l2; induction l1 as [|x l1 IH]; intros [|y l2] H; auto.
  - specialize (H O); discriminate.
  - specialize (H O); discriminate.
  - pose proof (H O) as H0; simpl in H0; inversion H0; subst. f_equal.
    apply IH. intros n. exact (H (S n)).
Qed.

Lemma nth_error_firstn {T} n k (l : list T) :
  nth_error (firstn n l) k = if (k <? n)%nat then nth_error l k else None.
Proof.
  revert n k; induction l as [|x l IH]; intros n k.
  - rewrite firstn_nil. destruct (k <? n)%nat; auto. destruct k; auto.
  - destruct n as [|n]; simpl.
    + destruct k; reflexivity.
    + destruct k as [|k]; simpl; auto. rewrite IH.
      destruct (Nat.ltb_spec k n), (Nat.ltb_spec (S k) (S n)); auto; lia.
Qed.

Lemma nth_error_skipn {T} n k (l : list T) :
  nth_error (skipn n l) k = nth_error l (n + k).
Proof.
  revert n; induction l as [|x l IH]; intros [|n]; simpl; auto.
  destruct k; auto.
Qed.

Lemma nth_error_app {T} (l1 l2 : list T) n :
  nth_error (l1 ++ l2) n =
  if (n <? length l1)%nat then nth_error l1 n else nth_error l2 (n - length l1).
Proof.
  destruct (Nat.ltb_spec n (length l1)).
  - now apply nth_error_app1.
  - now apply nth_error_app2.
Qed.

Lemma nth_error_repeat' {T} (x : T) n k :
  nth_error (repeat x n) k = if (k <? n)%nat then Some x else None.
Proof.
  revert k; induction n as [|n IH]; intros [|k]; simpl; auto.
  rewrite IH. destruct (Nat.ltb_spec k n), (Nat.ltb_spec (S k) (S n)); auto; lia.
Qed.

(** *** Z-indexed *)

Lemma zlen_nonneg {T} (l : list T) : 0 <= zlen l.
Proof. unfold zlen; lia. Qed.

Lemma zlen_nil {T} : zlen (@nil T) = 0.
Proof. reflexivity. Qed.

Lemma zlen_cons {T} (x : T) l : zlen (x :: l) = 1 + zlen l.
Proof. unfold zlen; simpl length; lia. Qed.

Lemma zlen_app {T} (l1 l2 : list T) : zlen (l1 ++ l2) = zlen l1 + zlen l2.
Proof. unfold zlen; rewrite app_length; lia. Qed.

Lemma zlen_repeat {T} (x : T) n : zlen (repeat x n) = Z.of_nat n.
Proof. unfold zlen; now rewrite repeat_length. Qed.

Lemma zlen_zupd {T} (l : list T) i v : zlen (zupd l i v) = zlen l.
Proof. unfold zupd, zlen. destruct (i <? 0); auto. now rewrite upd_length. Qed.

Lemma zget_lt0 {T} (l : list T) i : i < 0 -> zget l i = None.
Proof. intros. unfold zget. destruct (Z.ltb_spec i 0); auto; lia. Qed.

Lemma zget_nat {T} (l : list T) (n : nat) : zget l (Z.of_nat n) = nth_error l n.
Proof. unfold zget. destruct (Z.ltb_spec (Z.of_nat n) 0); [lia|]. f_equal; lia. Qed.

Lemma zget_ge0 {T} (l : list T) i : 0 <= i -> zget l i = nth_error l (Z.to_nat i).
Proof. intros. unfold zget. destruct (Z.ltb_spec i 0); auto; lia. Qed.

Lemma zget_None {T} (l : list T) i : zget l i = None <-> (i < 0 \/ zlen l <= i).
Proof.
  unfold zget, zlen. destruct (Z.ltb_spec i 0).
  - split; auto.
  - rewrite nth_error_None. lia.
Qed.

Lemma zget_Some_range {T} (l : list T) i v : zget l i = Some v -> 0 <= i < zlen l.
Proof.
  intros H. destruct (Z_lt_le_dec i 0) as [H0|H0].
  - rewrite zget_lt0 in H by lia. discriminate.
  - destruct (Z_lt_le_dec i (zlen l)); [lia|].
    assert (zget l i = None) by (apply zget_None; lia). congruence.
Qed.

Lemma zget_range {T} (l : list T) i : 0 <= i < zlen l -> exists v, zget l i = Some v.
Proof.
  intros H. destruct (zget l i) eqn:E; eauto. apply zget_None in E. lia.
Qed.

Lemma zget_zupd_eq {T} (l : list T) i v : 0 <= i < zlen l -> zget (zupd l i v) i = Some v.
Proof.
  intros H. unfold zget, zupd, zlen in *. destruct (Z.ltb_spec i 0); [lia|].
  apply nth_error_upd_eq. lia.
Qed.

Lemma zget_zupd_ne {T} (l : list T) i j v : i <> j -> zget (zupd l i v) j = zget l j.
Proof.
  intros H. unfold zget, zupd. destruct (Z.ltb_spec i 0), (Z.ltb_spec j 0); auto.
  apply nth_error_upd_ne. lia.
Qed.

Lemma zget_zupd {T} (l : list T) i j v :
  0 <= i < zlen l -> zget (zupd l i v) j = if i =? j then Some v else zget l j.
Proof.
  intros H. destruct (Z.eqb_spec i j); [subst; now apply zget_zupd_eq|now apply zget_zupd_ne].
Qed.

Lemma zlist_eq {T} (l1 l2 : list T) : (forall i, 0 <= i -> zget l1 i = zget l2 i) -> l1 = l2.
Proof.
  intros H. apply list_eq_nth_error. intros n. rewrite <- !zget_nat. apply H. lia.
Qed.

Lemma zlist_eq_len {T} (l1 l2 : list T) :
  zlen l1 = zlen l2 -> (forall i, 0 <= i < zlen l1 -> zget l1 i = zget l2 i) -> l1 = l2.
Proof.
  intros HL H. apply zlist_eq. intros i Hi.
  destruct (Z_lt_le_dec i (zlen l1)); [apply H; lia|].
  assert (zget l1 i = None) as -> by (apply zget_None; lia).
  symmetry. apply zget_None. lia.
Qed.

Lemma zget_app {T} (l1 l2 : list T) i :
  0 <= i -> zget (l1 ++ l2) i = if i <? zlen l1 then zget l1 i else zget l2 (i - zlen l1).
Proof.
  intros H. unfold zlen. destruct (Z.ltb_spec i (Z.of_nat (length l1))).
  - rewrite !zget_ge0 by lia. rewrite nth_error_app1 by lia. auto.
  - rewrite !zget_ge0 by lia. rewrite nth_error_app2 by lia. f_equal. lia.
Qed.

Lemma zget_app_l {T} (l1 l2 : list T) i : i < zlen l1 -> zget (l1 ++ l2) i = zget l1 i.
Proof.
  intros H. destruct (Z_lt_le_dec i 0).
  - now rewrite !zget_lt0.
  - rewrite zget_app by lia. destruct (Z.ltb_spec i (zlen l1)); auto; lia.
Qed.

Lemma zget_app_r {T} (l1 l2 : list T) i :
  zlen l1 <= i -> zget (l1 ++ l2) i = zget l2 (i - zlen l1).
Proof.
  intros H. pose proof (zlen_nonneg l1). rewrite zget_app by lia.
  destruct (Z.ltb_spec i (zlen l1)); auto; lia.
Qed.

Lemma zget_repeat {T} (x : T) n i :
  zget (repeat x n) i = if (0 <=? i) && (i <? Z.of_nat n) then Some x else None.
Proof.
  unfold zget. destruct (Z.ltb_spec i 0).
  - destruct (Z.leb_spec 0 i); [lia|auto].
  - rewrite nth_error_repeat'. destruct (Nat.ltb_spec (Z.to_nat i) n), (Z.leb_spec 0 i), (Z.ltb_spec i (Z.of_nat n)); simpl; auto; lia.
Qed.

Lemma zget_cons_0 {T} (x : T) l : zget (x :: l) 0 = Some x.
Proof. reflexivity. Qed.

Lemma zget_cons_S {T} (x : T) l i : 0 < i -> zget (x :: l) i = zget l (i - 1).
Proof.
  intros H. change (x :: l) with ([x] ++ l). rewrite zget_app_r; unfold zlen; simpl; [f_equal|]; lia.
Qed.

Lemma zlen_zsub {T} (l : list T) lo hi :
  0 <= lo -> lo <= hi -> hi <= zlen l -> zlen (zsub l lo hi) = hi - lo.
Proof.
  intros. unfold zsub, zlen in *. rewrite firstn_length, skipn_length. lia.
Qed.

Lemma zget_zsub {T} (l : list T) lo hi i :
  0 <= lo -> 0 <= i -> zget (zsub l lo hi) i = if i <? hi - lo then zget l (lo + i) else None.
Proof.
  intros. unfold zsub. rewrite !zget_ge0 by lia. rewrite nth_error_firstn, nth_error_skipn.
  destruct (Nat.ltb_spec (Z.to_nat i) (Z.to_nat (hi - lo))), (Z.ltb_spec i (hi - lo)); auto; try lia.
  f_equal. lia.
Qed.

Lemma zlen_zwrite {T} (l : list T) pos xs :
  0 <= pos -> pos + zlen xs <= zlen l -> zlen (zwrite l pos xs) = zlen l.
Proof.
  intros. unfold zwrite, zlen in *. rewrite !app_length, firstn_length, skipn_length. lia.
Qed.

Lemma zget_zwrite {T} (l : list T) pos xs i :
  0 <= pos -> pos + zlen xs <= zlen l -> 0 <= i ->
  zget (zwrite l pos xs) i =
  if (pos <=? i) && (i <? pos + zlen xs) then zget xs (i - pos) else zget l i.
Proof.
  intros Hp Hl Hi. unfold zwrite, zlen in *. rewrite !zget_ge0 by lia.
  rewrite !nth_error_app, firstn_length, nth_error_firstn, nth_error_skipn.
  destruct (Nat.ltb_spec (Z.to_nat i) (Nat.min (Z.to_nat pos) (length l)));
  destruct (Z.leb_spec pos i); simpl; try lia.
  - rewrite zget_ge0 by lia. destruct (Nat.ltb_spec (Z.to_nat i) (Z.to_nat pos)); auto; lia.
  - destruct (Nat.ltb_spec (Z.to_nat i - Nat.min (Z.to_nat pos) (length l)) (length xs));
    destruct (Z.ltb_spec i (pos + Z.of_nat (length xs))); try lia.
    + rewrite zget_ge0 by lia. f_equal. lia.
    + rewrite zget_ge0 by lia. f_equal. lia.
Qed.

Lemma zwrite_nil {T} (l : list T) pos : zwrite l pos [] = l.
Proof. unfold zwrite; simpl. rewrite Nat.add_0_r. apply firstn_skipn. Qed.

Lemma zsub_full {T} (l : list T) : zsub l 0 (zlen l) = l.
Proof.
  unfold zsub, zlen. simpl skipn. rewrite Z.sub_0_r, Nat2Z.id. apply firstn_all.
Qed.

Lemma zsub_nil {T} (l : list T) lo hi : hi <= lo -> zsub l lo hi = [].
Proof. intros. unfold zsub. replace (Z.to_nat (hi - lo)) with O by lia. reflexivity. Qed.

Lemma skipn_skipn' {T} a b (l : list T) : skipn a (skipn b l) = skipn (a + b) l.
Proof.
  revert l; induction b as [|b IH]; intros l.
  - now rewrite Nat.add_0_r.
  - rewrite Nat.add_succ_r. destruct l; simpl; [now rewrite skipn_nil|auto].
Qed.

Lemma zsub_split {T} (l : list T) lo mid hi :
  0 <= lo -> lo <= mid <= hi -> zsub l lo hi = zsub l lo mid ++ zsub l mid hi.
Proof.
  intros. unfold zsub.
  replace (Z.to_nat (hi - lo)) with (Z.to_nat (mid - lo) + Z.to_nat (hi - mid))%nat by lia.
  set (a := Z.to_nat (mid - lo)). set (b := Z.to_nat (hi - mid)).
  replace (Z.to_nat mid) with (a + Z.to_nat lo)%nat by (unfold a; lia).
  rewrite <- skipn_skipn'. generalize (skipn (Z.to_nat lo) l). clear.
  revert b. induction a as [|a IH]; intros b l; simpl; auto.
  destruct l as [|x l]; simpl.
  - now rewrite firstn_nil.
  - f_equal. apply IH.
Qed.

Lemma zwrite_zsub_self {T} (l : list T) lo hi :
  0 <= lo -> lo <= hi -> hi <= zlen l -> zwrite l lo (zsub l lo hi) = l.
Proof.
  intros. apply zlist_eq. intros i Hi.
  rewrite zget_zwrite; try rewrite zlen_zsub; try lia.
  destruct (Z.leb_spec lo i), (Z.ltb_spec i (lo + (hi - lo))); simpl; auto.
  rewrite zget_zsub by lia. destruct (Z.ltb_spec (i - lo) (hi - lo)); [f_equal|]; lia.
Qed.

Lemma zwrite_zwrite {T} (l : list T) pos xs ys :
  0 <= pos -> pos + zlen xs <= zlen l -> zlen xs = zlen ys ->
  zwrite (zwrite l pos xs) pos ys = zwrite l pos ys.
Proof.
  intros. apply zlist_eq. intros i Hi.
  rewrite zget_zwrite; rewrite ?zlen_zwrite; try lia.
  rewrite !zget_zwrite by lia.
  destruct (Z.leb_spec pos i), (Z.ltb_spec i (pos + zlen ys)); simpl; auto.
  destruct (Z.ltb_spec i (pos + zlen xs)); auto; lia.
Qed.

Lemma zsub_zwrite_same {T} (l : list T) pos xs :
  0 <= pos -> pos + zlen xs <= zlen l -> zsub (zwrite l pos xs) pos (pos + zlen xs) = xs.
Proof.
  intros. pose proof (zlen_nonneg xs). apply zlist_eq. intros i Hi.
  rewrite zget_zsub by lia. destruct (Z.ltb_spec i (pos + zlen xs - pos)).
  - rewrite zget_zwrite by lia.
    destruct (Z.leb_spec pos (pos + i)), (Z.ltb_spec (pos + i) (pos + zlen xs)); simpl; try lia.
    f_equal; lia.
  - symmetry. apply zget_None. lia.
Qed.

Lemma in_zget {T} (l : list T) x : In x l <-> exists i, 0 <= i < zlen l /\ zget l i = Some x.
Proof.
  split.
  - intros H. apply In_nth_error in H. destruct H as [n Hn].
    exists (Z.of_nat n). rewrite zget_nat. split; auto.
    assert (n < length l)%nat by (apply nth_error_Some; congruence). unfold zlen; lia.
  - intros (i & Hi & H). rewrite zget_ge0 in H by lia. eapply nth_error_In; eauto.
Qed.

(** *** Permutation by swap *)

Definition zswap {T} (l : list T) (i j : Z) : list T :=
  match zget l i, zget l j with
  | Some a, Some b => zupd (zupd l i b) j a
  | _, _ => l
  end.

Lemma zlen_zswap {T} (l : list T) i j : zlen (zswap l i j) = zlen l.
Proof. unfold zswap. destruct (zget l i), (zget l j); rewrite ?zlen_zupd; auto. Qed.

Lemma zget_zswap {T} (l : list T) i j k :
  0 <= i < zlen l -> 0 <= j < zlen l ->
  zget (zswap l i j) k = if k =? j then zget l i else if k =? i then zget l j else zget l k.
Proof.
  intros Hi Hj. unfold zswap.
  destruct (zget_range l i Hi) as [a Ea], (zget_range l j Hj) as [b Eb]. rewrite Ea, Eb.
  rewrite zget_zupd by (rewrite zlen_zupd; lia). rewrite zget_zupd by lia.
  destruct (Z.eqb_spec j k), (Z.eqb_spec k j); try lia; auto.
  destruct (Z.eqb_spec i k), (Z.eqb_spec k i); try lia; auto.
Qed.

Lemma zswap_same {T} (l : list T) i : zswap l i i = l.
Proof.
  destruct (zget l i) eqn:E.
  - pose proof (zget_Some_range _ _ _ E). apply zlist_eq. intros k Hk. rewrite zget_zswap by lia.
    destruct (Z.eqb_spec k i); subst; auto.
  - unfold zswap. now rewrite E.
Qed.

Lemma split_at {T} (l : list T) i v : zget l i = Some v -> exists l1 l2, l = l1 ++ v :: l2 /\ zlen l1 = i.
Proof.
  intros H. pose proof (zget_Some_range _ _ _ H). rewrite zget_ge0 in H by lia.
  apply nth_error_split in H. destruct H as (l1 & l2 & H1 & H2). exists l1, l2. split; auto.
  unfold zlen; lia.
Qed.

Lemma zupd_app_eq {T} (l1 : list T) x y l2 i : i = zlen l1 -> zupd (l1 ++ x :: l2) i y = l1 ++ y :: l2.
Proof.
  intros ->. unfold zupd, zlen. destruct (Z.ltb_spec (Z.of_nat (length l1)) 0); [lia|].
  rewrite Nat2Z.id. apply upd_middle.
Qed.

Lemma zswap_perm_lt {T} (l : list T) i j :
  0 <= i < j -> j < zlen l -> Permutation (zswap l i j) l.
Proof.
  intros Hi Hj. unfold zswap.
  destruct (zget_range l i) as [a Ea]; [lia|]. destruct (zget_range l j) as [b Eb]; [lia|].
  rewrite Ea, Eb. destruct (split_at _ _ _ Ea) as (l1 & l2 & -> & H1).
  rewrite zget_app_r in Eb by lia. rewrite zget_cons_S in Eb by lia.
  destruct (split_at _ _ _ Eb) as (l3 & l4 & -> & H3).
  rewrite zupd_app_eq by lia.
  replace (l1 ++ b :: l3 ++ b :: l4) with ((l1 ++ b :: l3) ++ b :: l4) by now rewrite <- app_assoc.
  rewrite zupd_app_eq by (rewrite zlen_app, zlen_cons; lia).
  rewrite <- app_assoc. simpl. apply Permutation_app_head.
  transitivity (b :: a :: l3 ++ l4).
  - constructor. symmetry. apply Permutation_middle.
  - transitivity (a :: b :: l3 ++ l4); [constructor|]. constructor. apply Permutation_middle.
Qed.

Lemma zswap_comm {T} (l : list T) i j : zswap l i j = zswap l j i.
Proof.
  destruct (zget l i) eqn:Ei, (zget l j) eqn:Ej.
  2-4: unfold zswap; rewrite ?Ei, ?Ej; auto.
  pose proof (zget_Some_range _ _ _ Ei). pose proof (zget_Some_range _ _ _ Ej).
  apply zlist_eq. intros k Hk. rewrite !zget_zswap by lia.
  destruct (Z.eqb_spec k j), (Z.eqb_spec k i); subst; congruence.
Qed.

Lemma zswap_perm {T} (l : list T) i j : Permutation (zswap l i j) l.
Proof.
  destruct (zget l i) eqn:Ei, (zget l j) eqn:Ej.
  2-4: unfold zswap; rewrite ?Ei, ?Ej; reflexivity.
  pose proof (zget_Some_range _ _ _ Ei). pose proof (zget_Some_range _ _ _ Ej).
  destruct (Z.lt_trichotomy i j) as [Hlt|[Heq|Hgt]].
  - apply zswap_perm_lt; lia.
  - subst. now rewrite zswap_same.
  - rewrite zswap_comm. apply zswap_perm_lt; lia.
Qed.

(** *** Window programs *)

Lemma wload_ok {T} (l : list T) i v : zget l i = Some v -> wload i l = (Ok v, l).
Proof. intros H. unfold wload. now rewrite H. Qed.

Lemma wstore_ok {T} (l : list T) i v : 0 <= i < zlen l -> wstore i v l = (Ok tt, zupd l i v).
Proof. intros H. unfold wstore. destruct (zget_range l i H) as [w ->]. auto. Qed.

Lemma wswap_ok {T} (l : list T) i j :
  0 <= i < zlen l -> 0 <= j < zlen l -> wswap i j l = (Ok tt, zswap l i j).
Proof.
  intros Hi Hj. unfold wswap, zswap, bind.
  destruct (zget_range l i Hi) as [a Ea], (zget_range l j Hj) as [b Eb].
  rewrite (wload_ok _ _ _ Eb), (wload_ok _ _ _ Ea), wstore_ok by lia.
  rewrite wstore_ok by (rewrite zlen_zupd; lia). now rewrite Ea, Eb.
Qed.

Lemma wcopy_ok {T} (l : list T) dlo slo shi :
  0 <= dlo <= zlen l -> 0 <= slo <= shi -> shi <= zlen l ->
  wcopy dlo slo shi l =
  (Ok tt, zwrite l dlo (zsub l slo (slo + Z.min (zlen l - dlo) (shi - slo)))).
Proof.
  intros. unfold wcopy.
  destruct (Z.leb_spec 0 dlo), (Z.leb_spec dlo (zlen l)), (Z.leb_spec 0 slo),
    (Z.leb_spec slo shi), (Z.leb_spec shi (zlen l)); simpl; auto; lia.
Qed.

(** *** Monad *)

Lemma bind_Ok {S A B} (m : M S A) (k : A -> M S B) s a s' :
  m s = (Ok a, s') -> bind m k s = k a s'.
Proof. intros H. unfold bind. now rewrite H. Qed.

Lemma bind_ret {S A B} (a : A) (k : A -> M S B) s : bind (ret a) k s = k a s.
Proof. reflexivity. Qed.

(** *** Memory *)

Lemma write_at_nth_other {T} (m : mem T) s pos xs a :
  a <> s_arr s -> nth a (write_at m s pos xs) [] = nth a m [].
Proof. intros. unfold write_at. apply nth_upd_ne. auto. Qed.

Lemma write_at_nth {T} (m : mem T) s pos xs :
  (s_arr s < length m)%nat -> nth (s_arr s) (write_at m s pos xs) [] = zwrite (arr_of m s) (s_off s + pos) xs.
Proof. intros. unfold write_at. now apply nth_upd_eq. Qed.

Lemma write_at_length {T} (m : mem T) s pos xs : length (write_at m s pos xs) = length m.
Proof. unfold write_at. apply upd_length. Qed.

Lemma zlen_contents {T} (m : mem T) s : wf_slice m s -> zlen (contents m s) = s_len s.
Proof. intros (H1 & H2 & H3 & H4). unfold contents. rewrite zlen_zsub; lia. Qed.

Lemma zget_contents {T} (m : mem T) s i :
  wf_slice m s -> 0 <= i ->
  zget (contents m s) i = if i <? s_len s then zget (arr_of m s) (s_off s + i) else None.
Proof.
  intros (H1 & H2 & H3 & H4) Hi. unfold contents. rewrite zget_zsub by lia.
  replace (s_off s + s_len s - s_off s) with (s_len s) by lia. reflexivity.
Qed.

Lemma write_at_same {T} (m : mem T) s : wf_slice m s -> write_at m s 0 (contents m s) = m.
Proof.
  intros (H1 & H2 & H3 & H4). unfold write_at, contents. rewrite Z.add_0_r.
  rewrite zwrite_zsub_self by lia. apply upd_self. unfold arr_of.
  rewrite (nth_error_nth' m [] H1). reflexivity.
Qed.

Lemma wf_write_at {T} (m : mem T) s pos xs s' :
  wf_slice m s -> 0 <= pos -> s_off s + pos + zlen xs <= zlen (arr_of m s) ->
  wf_slice m s' -> wf_slice (write_at m s pos xs) s'.
Proof.
  intros (H1 & H2 & H3 & H4) Hp Hx (K1 & K2 & K3 & K4).
  unfold wf_slice. rewrite write_at_length. repeat split; try lia.
  unfold arr_of at 1. destruct (Nat.eq_dec (s_arr s') (s_arr s)) as [E|E].
  - rewrite E, write_at_nth by auto. rewrite zlen_zwrite by lia.
    unfold arr_of in *. rewrite E in *. lia.
  - rewrite write_at_nth_other by auto. unfold arr_of in *. lia.
Qed.

Lemma contents_write_at {T} (m : mem T) s w :
  wf_slice m s -> zlen w = s_len s -> contents (write_at m s 0 w) s = w.
Proof.
  intros (H1 & H2 & H3 & H4) Hw. unfold contents, arr_of at 1. rewrite write_at_nth by auto.
  rewrite Z.add_0_r, <- Hw. apply zsub_zwrite_same; lia.
Qed.

(** A window program that keeps the window's length runs on a slice of the
    memory with exactly the window's effect. *)
Lemma on_slice_run {T A} (s : slice) (p : W T A) (m : mem T) o w :
  p (contents m s) = (o, w) -> on_slice s p m = (o, write_at m s 0 w).
Proof. intros H. unfold on_slice. now rewrite H. Qed.
