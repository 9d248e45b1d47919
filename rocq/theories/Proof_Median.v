From Verif Require Import BaseLemmas Spec Trace Proof_Mem Model_PriorityQueue Spec_Containers Proof_StackPQ Proof_TopK Model_Median Spec_Median.

Lemma bind_eq {S A B} (p : M S A) (k : A -> M S B) s a s1 : p s = (Ok a, s1) -> bind p k s = k a s1.
Proof. intros E. unfold bind. now rewrite E. Qed.
Section Middle.
Context {T : Type}.
Variable less : T -> T -> bool.
Hypothesis SW : strict_weak less.
Lemma count_perm (f : T -> bool) l l' : Permutation l l' -> zlen (filter f l) = zlen (filter f l').
Proof using.
  intros P. unfold zlen. f_equal. induction P; cbn; auto; try (destruct (f x); cbn; congruence); [|congruence].
  destruct (f x), (f y); reflexivity.
Qed.
Lemma count_none (f : T -> bool) l : (forall y, In y l -> f y = false) -> zlen (filter f l) = 0.
Proof using. induction l as [|a l IH]; intros H; [reflexivity|]. cbn [filter]. rewrite (H a) by now left. apply IH. intros y I. apply H. now right. Qed.
Lemma count_le (f : T -> bool) l : zlen (filter f l) <= zlen l.
Proof using. induction l as [|a l IH]; [reflexivity|]. cbn [filter]. destruct (f a); rewrite ?zlen_cons in *; lia. Qed.
Lemma count_lt (f : T -> bool) l x : In x l -> f x = false -> zlen (filter f l) < zlen l.
Proof using.
  induction l as [|a l IH]; intros I E; [destruct I|]. pose proof (count_le f l). cbn [filter]. rewrite zlen_cons. destruct I as [-> |I].
  - rewrite E. lia.
  - specialize (IH I E). destruct (f a); rewrite ?zlen_cons; lia.
Qed.
(** Where medians are in sorted order. *)
Lemma zlen_firstn n (l : list T) : (n <= length l)%nat -> zlen (firstn n l) = Z.of_nat n.
Proof using. intros H. unfold zlen. rewrite firstn_length. lia. Qed.
Lemma zlen_skipn n (l : list T) : zlen (skipn n l) = Z.of_nat (length l - n).
Proof using. unfold zlen. now rewrite skipn_length. Qed.
Lemma zget_firstn n i (l : list T) : i < Z.of_nat n -> (n <= length l)%nat -> zget (firstn n l) i = zget l i.
Proof using. intros H L. rewrite <- (firstn_skipn n l) at 2. rewrite zget_app_l; [reflexivity|]. rewrite zlen_firstn; lia. Qed.
Lemma zget_skipn n i (l : list T) : 0 <= i -> (n <= length l)%nat -> zget (skipn n l) i = zget l (Z.of_nat n + i).
Proof using. intros H L. rewrite <- (firstn_skipn n l) at 2. rewrite zget_app_r; rewrite zlen_firstn by lia; [f_equal|]; lia. Qed.
Lemma count_all (f : T -> bool) l : (forall y, In y l -> f y = true) -> zlen (filter f l) = zlen l.
Proof using. induction l as [|a l IH]; intros H; [reflexivity|]. cbn [filter]. rewrite (H a) by now left. rewrite !zlen_cons, IH; auto. intros y I. apply H. now right. Qed.
Lemma lt_split a b c : less a b = true -> less a c = true \/ less c b = true.
Proof using SW.
  intros H. destruct (less a c) eqn:E1; auto. destruct (less c b) eqn:E2; auto. rewrite (sw_negtrans _ SW a c b E1 E2) in H. discriminate H.
Qed.
Lemma sorted_below s k z x : sorted_by less s -> zget s k = Some z -> less z x = true -> k < below less x s.
Proof using SW.
  intros S Ez H. pose proof (zget_Some_range _ _ _ Ez) as J. assert (Lj : zlen s = Z.of_nat (length s)) by reflexivity. unfold below.
  rewrite <- (firstn_skipn (Z.to_nat (k + 1)) s), filter_app, zlen_app. pose proof (zlen_nonneg (filter (fun y => less y x) (skipn (Z.to_nat (k + 1)) s))).
  rewrite count_all; [rewrite zlen_firstn by lia; lia|]. intros y I. apply in_zget in I as (i & _ & Ei). pose proof (zget_Some_range _ _ _ Ei) as Ji. rewrite zlen_firstn in Ji by lia.
  rewrite zget_firstn in Ei by lia. destruct (Z.eq_dec i k) as [-> |Ni]; [congruence|].
  destruct (lt_split z x y H) as [Hy|Hy]; auto. rewrite (S i k y z ltac:(lia) Ei Ez) in Hy. discriminate Hy.
Qed.
Lemma sorted_above s k z x : sorted_by less s -> zget s k = Some z -> less x z = true -> zlen s - k <= above less x s.
Proof using SW.
  intros S Ez H. pose proof (zget_Some_range _ _ _ Ez) as J. assert (Lj : zlen s = Z.of_nat (length s)) by reflexivity. unfold above.
  rewrite <- (firstn_skipn (Z.to_nat k) s) at 2. rewrite filter_app, zlen_app. pose proof (zlen_nonneg (filter (fun y => less x y) (firstn (Z.to_nat k) s))).
  rewrite (count_all _ (skipn _ _)); [rewrite zlen_skipn; lia|]. intros y I. apply in_zget in I as (i & _ & Ei). pose proof (zget_Some_range _ _ _ Ei) as Ji.
  rewrite zget_skipn, Z2Nat.id in Ei by lia. destruct (Z.eq_dec i 0) as [-> |Ni]; [rewrite Z.add_0_r in Ei; congruence|].
  destruct (lt_split x z y H) as [Hy|Hy]; auto. rewrite (S k (k + i) z y ltac:(lia) Ez Ei) in Hy. discriminate Hy.
Qed.
End Middle.
Section MedianProof.
Context {T : Type}.
Variable less : T -> T -> bool.
Hypothesis SW : strict_weak less.
Variable zero : T.
Variable grow : Z -> Z -> Z.
Notation more := (fun a b => less b a).
Lemma more_sw : strict_weak more.
Proof using SW.
  constructor.
  - intros a. apply (sw_irrefl _ SW).
  - intros a b c H1 H2. eapply (sw_trans _ SW); eauto.
  - intros a b c H1 H2. eapply (sw_negtrans _ SW); eauto.
Qed.
Lemma top_ok (l : T -> T -> bool) (S : strict_weak l) bag q : pq_rel l bag q -> zlen bag <= max_int -> bag <> [] ->
  exists x q' bag', PQ_Top q = (Ok x, q') /\ is_min l x bag /\ pq_rel l bag' q' /\ Permutation bag' bag.
Proof.
  intros R L N. destruct (pq_step_ok l S zero grow bag q PTop R L) as (bag' & E & R'). cbn in E. unfold pq_step, observe in *.
  destruct E as [P [(? & _)|(x & E & Mn)]]; [contradiction|]. destruct (PQ_Top q) as [[y| |] q']; cbn in *; try discriminate.
  injection E as ->. exists x, q', bag'. auto.
Qed.
(** The two halves: lo below hi, of the same length or lo one longer. *)
Definition halves (seen : list T) (s : PriorityQueue T * PriorityQueue T) (lo hi : list T) : Prop :=
  pq_rel more lo (fst s) /\ pq_rel less hi (snd s) /\ Permutation (lo ++ hi) seen /\
  (forall x y, In x lo -> In y hi -> less y x = false) /\ zlen hi <= zlen lo <= zlen hi + 1.
Lemma len_lo (l : T -> T -> bool) bag q (q2 : PriorityQueue T) : pq_rel l bag q -> on_lo PQ_Len (q, q2) = (Ok (zlen bag), (q, q2)).
Proof using. intros R. unfold on_lo. cbn [fst snd]. destruct (len_ok l _ _ R) as [E _]. now rewrite E. Qed.
Lemma len_hi (l : T -> T -> bool) bag q (q2 : PriorityQueue T) : pq_rel l bag q -> on_hi PQ_Len (q2, q) = (Ok (zlen bag), (q2, q)).
Proof using. intros R. unfold on_hi. cbn [fst snd]. destruct (len_ok l _ _ R) as [E _]. now rewrite E. Qed.
Lemma add_ok seen s lo hi v : halves seen s lo hi -> zlen seen < max_int ->
  exists s' lo' hi', add_value zero grow v s = (Ok tt, s') /\ halves (seen ++ [v]) s' lo' hi'.
Proof using SW.
  destruct s as [q1 q2]. intros (R1 & R2 & P & Le & L) M. cbn [fst snd] in *.
  pose proof (perm_zlen _ _ P) as Ls. rewrite zlen_app in Ls. pose proof (zlen_nonneg lo). pose proof (zlen_nonneg hi).
  destruct (push_ok more more_sw zero grow lo q1 v R1) as (q3 & lo1 & E3 & R3 & P3 & _); [lia|]. pose proof (perm_zlen _ _ P3) as L3. rewrite zlen_cons in L3.
  destruct (pop_ok more more_sw zero grow lo1 q3 R3) as (q4 & lo2 & x & E4 & R4 & [I4 M4] & P4 & _); [lia|intros ->; change (zlen (@nil T)) with 0 in *; lia|]. pose proof (perm_zlen _ _ P4) as L4. rewrite zlen_cons in L4.
  destruct (push_ok less SW zero grow hi q2 x R2) as (q5 & hi1 & E5 & R5 & P5 & _); [lia|]. pose proof (perm_zlen _ _ P5) as L5. rewrite zlen_cons in L5.
  assert (Le2 : forall a b, In a lo2 -> In b hi1 -> less b a = false).
  { intros a b Ia Ib. rewrite P5 in Ib. assert (Ia1 : In a lo1) by (rewrite <- P4; now right). destruct Ib as [<- |Ib]; [now apply M4|].
    rewrite P3 in Ia1. destruct Ia1 as [<- |Ia1]; [|now apply Le].
    assert (Ix : In x (v :: lo)) by (now rewrite <- P3). destruct Ix as [<- |Ix].
    - apply Le; auto. assert (E : Permutation (v :: lo2) (v :: lo)) by (now rewrite P4). apply Permutation_cons_inv in E. now rewrite <- E.
    - apply (sw_negtrans _ SW b x v); [now apply Le|]. apply (M4 v). rewrite P3. now left. }
  assert (P6 : Permutation (lo2 ++ hi1) (seen ++ [v])).
  { rewrite P5. rewrite <- Permutation_middle. change (x :: lo2 ++ hi) with ((x :: lo2) ++ hi). rewrite P4, P3. cbn [app]. rewrite P. apply Permutation_cons_append. }
  unfold add_value. unfold bind at 1. unfold on_lo at 1. cbn [fst snd]. rewrite E3.
  unfold bind at 1. unfold on_lo at 1. cbn [fst snd]. rewrite E4.
  unfold bind at 1. unfold on_hi at 1. cbn [fst snd]. rewrite E5.
  rewrite (bind_eq _ _ _ _ _ (len_hi less hi1 q5 q4 R5)), (bind_eq _ _ _ _ _ (len_lo more lo2 q4 q5 R4)).
  destruct (Z.gtb_spec (zlen hi1) (zlen lo2)) as [C|C].
  - destruct (pop_ok less SW zero grow hi1 q5 R5) as (q6 & hi2 & y & E6 & R6 & [I6 M6] & P7 & _); [lia|intros ->; change (zlen (@nil T)) with 0 in *; lia|]. pose proof (perm_zlen _ _ P7) as L7. rewrite zlen_cons in L7.
    destruct (push_ok more more_sw zero grow lo2 q4 y R4) as (q7 & lo3 & E7 & R7 & P8 & _); [lia|]. pose proof (perm_zlen _ _ P8) as L8. rewrite zlen_cons in L8.
    unfold bind at 1. unfold on_hi at 1. cbn [fst snd]. rewrite E6. unfold on_lo at 1. cbn [fst snd]. rewrite E7.
    exists (q7, q6), lo3, hi2. split; auto. split; auto. split; auto. split; [|split; [|lia]].
    + rewrite P8. cbn [app]. rewrite Permutation_middle, P7. exact P6.
    + intros a b Ia Ib. assert (Ib1 : In b hi1) by (rewrite <- P7; now right). rewrite P8 in Ia. destruct Ia as [<- |Ia]; auto.
  - exists (q4, q5), lo2, hi1. split; auto. split; auto. split; auto. split; auto. split; auto. lia.
Qed.
Lemma now_ok seen s lo hi : halves seen s lo hi -> zlen seen <= max_int -> seen <> [] ->
  exists x y s' lo' hi', medians_now s = (Ok (x, y), s') /\ halves seen s' lo' hi' /\ lower_median less seen x /\ upper_median less seen y.
Proof using SW zero grow.
  destruct s as [q1 q2]. intros (R1 & R2 & P & Le & L) M N. cbn [fst snd] in *.
  pose proof (perm_zlen _ _ P) as Ls. rewrite zlen_app in Ls. pose proof (zlen_nonneg lo). pose proof (zlen_nonneg hi).
  assert (zlen seen <> 0) by (destruct seen; [contradiction|]; rewrite zlen_cons; pose proof (zlen_nonneg seen); lia).
  assert (B : forall z, below less z seen = zlen (filter (fun y => less y z) lo) + zlen (filter (fun y => less y z) hi)).
  { intros z. unfold below. rewrite <- (count_perm _ _ _ P), filter_app, zlen_app. reflexivity. }
  assert (A : forall z, above less z seen = zlen (filter (fun y => less z y) lo) + zlen (filter (fun y => less z y) hi)).
  { intros z. unfold above. rewrite <- (count_perm _ _ _ P), filter_app, zlen_app. reflexivity. }
  destruct (top_ok more more_sw lo q1 R1) as (x & q3 & lo1 & E3 & [I3 M3] & R3 & P3); [lia|intros ->; change (zlen (@nil T)) with 0 in *; lia|].
  pose proof (perm_zlen _ _ P3) as L3.
  assert (Bx : below less x seen < zlen lo).
  { rewrite B. rewrite (count_none _ hi) by (intros y Iy; now apply Le). pose proof (count_lt (fun y => less y x) lo x I3 (sw_irrefl _ SW x)). lia. }
  assert (Ax : above less x seen <= zlen hi).
  { rewrite A. rewrite (count_none _ lo) by (intros y Iy; now apply (M3 y)). pose proof (count_le (fun y => less x y) hi). lia. }
  assert (Ix : In x seen) by (rewrite <- P; apply in_app_iff; now left).
  unfold medians_now. unfold bind at 1. unfold on_lo at 1. cbn [fst snd]. rewrite E3.
  rewrite (bind_eq _ _ _ _ _ (len_hi less hi q2 q3 R2)), (bind_eq _ _ _ _ _ (len_lo more lo1 q3 q2 R3)).
  destruct (Z.eqb_spec (zlen hi) (zlen lo1)) as [C|C].
  - destruct (top_ok less SW hi q2 R2) as (y & q4 & hi1 & E4 & [I4 M4] & R4 & P4); [lia|intros ->; change (zlen (@nil T)) with 0 in *; lia|].
    pose proof (perm_zlen _ _ P4) as L4. unfold bind at 1. unfold on_hi at 1. cbn [fst snd]. rewrite E4.
    exists x, y, (q3, q4), lo1, hi1. split; [reflexivity|]. split.
    { split; auto. split; auto. split; [now rewrite P3, P4|]. split; [|lia]. intros a b Ia Ib. rewrite P3 in Ia. rewrite P4 in Ib. auto. }
    assert (By : below less y seen <= zlen lo).
    { rewrite B. rewrite (count_none _ hi) by (intros z Iz; now apply (M4 z)). pose proof (count_le (fun z => less z y) lo). lia. }
    assert (Ay : above less y seen < zlen hi).
    { rewrite A. rewrite (count_none _ lo) by (intros z Iz; now apply Le). pose proof (count_lt (fun z => less y z) hi y I4 (sw_irrefl _ SW y)). lia. }
    split; split; auto; try lia. rewrite <- P. apply in_app_iff. now right.
  - exists x, x, (q3, q2), lo1, hi. split; [reflexivity|]. split.
    { split; auto. split; auto. split; [now rewrite P3|]. split; [|lia]. intros a b Ia Ib. rewrite P3 in Ia. auto. }
    split; split; auto; lia.
Qed.
Lemma loop_ok vs : forall seen s lo hi out, halves seen s lo hi -> zlen seen + zlen vs <= max_int ->
  exists ms s', medians_loop zero grow vs out s = (Ok (out ++ ms), s') /\ zlen ms = zlen vs /\
    forall i x y, zget ms i = Some (x, y) -> lower_median less (seen ++ firstn (Z.to_nat i + 1) vs) x /\ upper_median less (seen ++ firstn (Z.to_nat i + 1) vs) y.
Proof using SW.
  induction vs as [|v vs IH]; intros seen s lo hi out H L; cbn [medians_loop].
  - exists [], s. rewrite app_nil_r. split; [reflexivity|]. split; [reflexivity|]. intros i x y E. pose proof (zget_Some_range _ _ _ E) as J. change (zlen (@nil (T * T))) with 0 in J. lia.
  - rewrite zlen_cons in *. pose proof (zlen_nonneg vs). destruct (add_ok seen s lo hi v H) as (s1 & lo1 & hi1 & E1 & H1); [lia|].
    assert (Lv : zlen (seen ++ [v]) = zlen seen + 1) by (rewrite zlen_app; reflexivity).
    destruct (now_ok (seen ++ [v]) s1 lo1 hi1 H1) as (x & y & s2 & lo2 & hi2 & E2 & H2 & Lx & Uy); [lia|destruct seen; discriminate|].
    destruct (IH (seen ++ [v]) s2 lo2 hi2 (out ++ [(x, y)]) H2) as (ms & s3 & E3 & L3 & D); [lia|].
    exists ((x, y) :: ms), s3. split; [|split].
    + rewrite (bind_eq _ _ _ _ _ E1), (bind_eq _ _ _ _ _ E2), E3. now rewrite <- app_assoc.
    + rewrite zlen_cons. lia.
    + intros i a b E. pose proof (zget_Some_range _ _ _ E) as J. destruct (Z.eq_dec i 0) as [-> |Ni].
      * injection E as <- <-. cbn [Z.to_nat Nat.add firstn]. auto.
      * replace (Z.to_nat i + 1)%nat with (S (Z.to_nat (i - 1) + 1)) by lia. cbn [firstn].
        specialize (D (i - 1) a b). rewrite <- !app_assoc in D. cbn [app] in D. apply D. rewrite <- E. symmetry. apply zget_cons_S. lia.
Qed.
Lemma new_rel_any (l : T -> T -> bool) m : (0 < length m)%nat -> pq_rel l [] (NewPriorityQueueFunc l m).
Proof using zero grow. intros H. split; [now apply wf_nil|]. split; [now apply empty_heap|]. split; auto. Qed.

End MedianProof.
