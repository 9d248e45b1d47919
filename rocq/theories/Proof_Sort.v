From Coq Require Import Permutation Sorted.
From Verif Require Import BaseLemmas Spec Model_Sort Spec_Sort Proof_Mem Proof_Transform Proof_TransformMem Proof_Lookup.

(** *** Insertion sort meets both contracts *)
Fixpoint ins_inner (j : nat) (k : sort_prog) : sort_prog :=
  match j with
  | O => k
  | S j' => PLess (Z.of_nat j) (Z.of_nat j') (fun b => if b then PSwap (Z.of_nat j) (Z.of_nat j') (ins_inner j' k) else k)
  end.
Fixpoint ins_outer (i count : nat) : sort_prog :=
  match count with
  | O => PRet
  | S c => ins_inner i (ins_outer (S i) c)
  end.
Definition insertion_sort : sort_alg := fun n => ins_outer 0 (Z.to_nat n).

Lemma zlen_nat {A} (l : list A) : Z.of_nat (length l) = zlen l.
Proof. reflexivity. Qed.
Lemma exchange_adj A y x B : exchange (A ++ y :: x :: B) (Z.of_nat (S (length A))) (Z.of_nat (length A)) = Some (A ++ x :: y :: B).
Proof.
  unfold exchange. rewrite Nat2Z.inj_succ, <- Z.add_1_r, zlen_nat.
  assert (G1 : zget (A ++ y :: x :: B) (zlen A + 1) = Some x).
  { replace (A ++ y :: x :: B) with ((A ++ [y]) ++ x :: B) by (rewrite <- app_assoc; reflexivity).
    replace (zlen A + 1) with (zlen (A ++ [y])) by (rewrite zlen_app; reflexivity). apply zget_mid. }
  rewrite G1, zget_mid. f_equal.
  replace (A ++ y :: x :: B) with ((A ++ [y]) ++ x :: B) by (rewrite <- app_assoc; reflexivity).
  replace (zlen A + 1) with (zlen (A ++ [y])) by (rewrite zlen_app; reflexivity). rewrite zupd_mid.
  rewrite <- app_assoc. cbn [app]. rewrite zupd_mid. reflexivity.
Qed.

Section Insertion.
Variable lt : Z -> Z -> bool.
Hypothesis SW : strict_weak lt.
(** x may stand before y in a stable result. *)
Definition before (x y : Z) : Prop := lt x y = true \/ (lt y x = false /\ x < y).

Lemma before_trans_lt a x y : before a y -> lt x y = false -> lt x a = false.
Proof.
  intros [H|[H _]] Hx.
  - apply (sw_negtrans _ SW x y a); auto. now apply (sw_asym lt SW).
  - apply (sw_negtrans _ SW x y a); auto.
Qed.

Lemma SS_snoc (A : list Z) y : StronglySorted before (A ++ [y]) -> StronglySorted before A /\ forall a, In a A -> before a y.
Proof.
  induction A as [|a A IH]; intros SA; [split; [constructor|intros a []]|]. cbn in SA. inversion SA as [|? ? S F]; subst.
  destruct (IH S) as [H1 H2]. apply Forall_app in F as [F1 F2]. inversion F2; subst. split; [constructor; auto|].
  intros b [<-|Hb]; auto.
Qed.

Lemma ins_inner_ok k x : forall n A B, length A = n -> StronglySorted before A -> (forall a, In a A -> a < x) ->
  exists A1 A2, A = A1 ++ A2 /\ arrange lt (ins_inner n k) (A ++ x :: B) = arrange lt k (A1 ++ x :: A2 ++ B) /\
    (forall a, In a A1 -> before a x) /\ (forall a, In a A2 -> before x a).
Proof.
  induction n as [|n IH]; intros A B HA SA HX.
  - destruct A; [|discriminate]. exists [], []. split; auto. split; auto. split; intros a [].
  - destruct (@exists_last _ A ltac:(intros ->; discriminate)) as (A' & y & ->).
    rewrite app_length in HA. simpl in HA. assert (HA' : length A' = n) by lia.
    apply SS_snoc in SA as [S1 S2].
    cbn [ins_inner arrange]. rewrite <- app_assoc. cbn [app]. rewrite <- HA'.
    assert (G1 : zget (A' ++ y :: x :: B) (Z.of_nat (S (length A'))) = Some x).
    { replace (A' ++ y :: x :: B) with ((A' ++ [y]) ++ x :: B) by (rewrite <- app_assoc; reflexivity).
      replace (Z.of_nat (S (length A'))) with (zlen (A' ++ [y])) by (unfold zlen; rewrite app_length; simpl; lia). apply zget_mid. }
    rewrite G1, zlen_nat, zget_mid.
    destruct (lt x y) eqn:E.
    + cbn [arrange]. rewrite <- zlen_nat, exchange_adj, HA'.
      destruct (IH A' (y :: B) HA' S1) as (A1 & A2 & EA & EQ & H1 & H2); [intros; apply HX; rewrite in_app_iff; auto|].
      exists A1, (A2 ++ [y]). split; [rewrite EA, app_assoc; reflexivity|]. split.
      * rewrite EQ, <- app_assoc. reflexivity.
      * split; auto. intros a Ha. apply in_app_iff in Ha as [Ha|[<-|[]]]; auto. now left.
    + exists (A' ++ [y]), []. split; [now rewrite app_nil_r|]. split; [rewrite <- app_assoc; reflexivity|].
      split; [|intros a []]. intros a Ha. right. split; [|apply HX; auto].
      apply in_app_iff in Ha as [Ha|[<-|[]]]; auto. eapply before_trans_lt; eauto.
Qed.

Lemma SS_insert x : forall A1 A2, StronglySorted before (A1 ++ A2) ->
  (forall a, In a A1 -> before a x) -> (forall a, In a A2 -> before x a) -> StronglySorted before (A1 ++ x :: A2).
Proof.
  induction A1 as [|a A1 IH]; intros A2 S H1 H2; cbn [app] in *.
  - constructor; auto. apply Forall_forall. auto.
  - inversion S as [|? ? S' F]; subst. constructor.
    + apply IH; auto. intros; apply H1; now right.
    + apply Forall_app in F as [F1 F2]. apply Forall_app. split; auto. constructor; auto. apply H1. now left.
Qed.

Lemma ins_outer_ok : forall count i A, length A = i -> StronglySorted before A -> (forall a, In a A -> a < Z.of_nat i) ->
  exists p, arrange lt (ins_outer i count) (A ++ map Z.of_nat (seq i count)) = Some p /\ StronglySorted before p.
Proof.
  induction count as [|c IH]; intros i A HA SA HX; cbn [ins_outer seq map].
  - rewrite app_nil_r. exists A. auto.
  - destruct (ins_inner_ok (ins_outer (S i) c) (Z.of_nat i) i A (map Z.of_nat (seq (S i) c)) HA SA HX) as (A1 & A2 & -> & -> & H1 & H2).
    specialize (IH (S i) (A1 ++ Z.of_nat i :: A2)). rewrite <- app_assoc in IH. cbn [app] in IH. apply IH.
    + rewrite app_length in *. simpl. lia.
    + now apply SS_insert.
    + intros a Ha. assert (In a (A1 ++ A2) \/ a = Z.of_nat i) as [K| ->]; [|specialize (HX a K); lia|lia].
      apply in_app_iff in Ha as [Ha|[<-|Ha]]; auto; left; apply in_app_iff; auto.
Qed.

Lemma SS_zget {A} (R : A -> A -> Prop) (p : list A) : StronglySorted R p -> forall i j x y, i < j -> zget p i = Some x -> zget p j = Some y -> R x y.
Proof.
  induction 1 as [|a l S IH F]; intros i j x y Hij Gi Gj; [apply zget_Some_range in Gi; change (zlen (@nil A)) with 0 in Gi; lia|].
  pose proof (zget_Some_range _ _ _ Gi). pose proof (zget_Some_range _ _ _ Gj).
  assert (Hj : zget l (j - 1) = Some y) by (rewrite <- (zget_cons_S a) by lia; rewrite <- Gj; f_equal; lia).
  destruct (Z.eq_dec i 0) as [->|].
  - injection Gi as <-. rewrite Forall_forall in F. apply F. apply in_zget. exists (j - 1). split; auto. eapply zget_Some_range; eauto.
  - assert (Hi : zget l (i - 1) = Some x) by (rewrite <- (zget_cons_S a) by lia; rewrite <- Gi; f_equal; lia).
    apply (IH (i-1) (j-1)); auto; lia.
Qed.
End Insertion.

Lemma insertion_stable : stable_contract insertion_sort.
Proof.
  intros n lt Hn SW. destruct (ins_outer_ok lt SW (Z.to_nat n) 0 [] eq_refl) as (p & E & S); [constructor|intros a []|].
  exists p. split; [exact E|]. split.
  - intros i j a b [_ Hij] Gi Gj. destruct (SS_zget _ p S i j a b Hij Gi Gj) as [H|[H _]]; auto. now apply (sw_asym lt SW).
  - intros i j x y Hij Gi Gj L1 L2. destruct (SS_zget _ p S i j x y Hij Gi Gj) as [H|[_ H]]; auto. congruence.
Qed.
Lemma stable_is_sort alg : stable_contract alg -> sort_contract alg.
Proof. intros H n lt Hn SW. destruct (H n lt Hn SW) as (p & E & S & _). eauto. Qed.

(** *** Every program of Less and Swap calls permutes *)
Section Run.
Context {T : Type}.
Implicit Types (l : list T).

Lemma zget_map {A B} (f : A -> B) (l : list A) i : zget (map f l) i = option_map f (zget l i).
Proof. unfold zget. destruct (i <? 0); auto. apply nth_error_map. Qed.
Lemma map_upd {A B} (f : A -> B) v (l : list A) : forall n, map f (upd n v l) = upd n (f v) (map f l).
Proof. induction l as [|x l IH]; intros [|n]; cbn; auto. now rewrite IH. Qed.
Lemma map_zupd {A B} (f : A -> B) (l : list A) i v : map f (zupd l i v) = zupd (map f l) i (f v).
Proof. unfold zupd. destruct (i <? 0); auto. apply map_upd. Qed.

Lemma run_perm less p : forall l, exists o l', run_sort (funcSortable less) p l = (o, l') /\ o <> NoFuel /\ Permutation l' l.
Proof.
  induction p as [|i j k IH|i j k IH]; intros l; cbn [run_sort].
  - exists (Ok tt), l. repeat split; auto. discriminate.
  - unfold bind at 1. cbn [LessAt funcSortable]. unfold bind, wload, ret.
    destruct (zget l i) as [x|]; [|exists Panic, l; repeat split; auto; discriminate].
    destruct (zget l j) as [y|]; [|exists Panic, l; repeat split; auto; discriminate].
    apply IH.
  - unfold bind at 1. cbn [Swap funcSortable].
    destruct (zget l i) as [x|] eqn:Ei.
    + destruct (zget l j) as [y|] eqn:Ej.
      * apply zget_Some_range in Ei, Ej. rewrite wswap_ok by auto.
        destruct (IH (zswap l i j)) as (o & l' & E & N & P). exists o, l'. repeat split; auto.
        rewrite P. apply zswap_perm.
      * unfold wswap, bind, wload. rewrite Ej. exists Panic, l. repeat split; auto; discriminate.
    + unfold wswap, bind, wload. destruct (zget l j); rewrite ?Ei; exists Panic, l; repeat split; auto; discriminate.
Qed.

Lemma sort_perm less alg l : exists o l', sort_with alg (funcSortable less) l = (o, l') /\ o <> NoFuel /\ Permutation l' l.
Proof. apply (run_perm less (alg (zlen l)) l). Qed.

(** *** The window follows the arrangement of positions *)
Definition on_positions (less : T -> T -> bool) l (i j : Z) : bool :=
  match zget l i, zget l j with
  | Some x, Some y => less x y
  | None, Some _ => true
  | _, None => false
  end.
Lemma on_positions_sw less l : strict_weak less -> strict_weak (on_positions less l).
Proof.
  intros [H1 H2 H3]. unfold on_positions. constructor; intros a; [destruct (zget l a); auto| |];
    intros b c; destruct (zget l a), (zget l b), (zget l c); eauto; try discriminate.
Qed.

Lemma run_arrange less l0 pr : forall p p' l,
  arrange (on_positions less l0) pr p = Some p' -> map Some l = map (zget l0) p ->
  exists l', run_sort (funcSortable less) pr l = (Ok tt, l') /\ map Some l' = map (zget l0) p'.
Proof.
  induction pr as [|i j k IH|i j k IH]; intros p p' l A M; cbn [run_sort arrange] in *.
  - injection A as <-. exists l. auto.
  - unfold bind at 1. cbn [LessAt funcSortable]. unfold bind, wload, ret.
    pose proof (zget_map Some l i) as Gi. pose proof (zget_map Some l j) as Gj. rewrite M, zget_map in Gi, Gj.
    destruct (zget p i) as [a|] eqn:Ei; [|discriminate]. destruct (zget p j) as [b|] eqn:Ej; [|discriminate].
    cbn in Gi, Gj. destruct (zget l i) as [x|]; [|discriminate]. destruct (zget l j) as [y|]; [|discriminate].
    cbn in Gi, Gj. injection Gi as Gi. injection Gj as Gj. assert (K : on_positions less l0 a b = less x y) by (unfold on_positions; now rewrite Gi, Gj). rewrite K in A.
    eapply IH; eauto.
  - unfold bind at 1. cbn [Swap funcSortable].
    pose proof (zget_map Some l i) as Gi. pose proof (zget_map Some l j) as Gj. rewrite M, zget_map in Gi, Gj.
    unfold exchange in A.
    destruct (zget p i) as [a|] eqn:Ei; [|discriminate]. destruct (zget p j) as [b|] eqn:Ej; [|discriminate].
    cbn in Gi, Gj. destruct (zget l i) as [x|] eqn:Xi; [|discriminate]. destruct (zget l j) as [y|] eqn:Xj; [|discriminate].
    cbn in Gi, Gj. injection Gi as Gi. injection Gj as Gj.
    pose proof (zget_Some_range _ _ _ Xi). pose proof (zget_Some_range _ _ _ Xj).
    rewrite wswap_ok by auto. eapply IH; [exact A|]. unfold zswap. rewrite Xi, Xj, !map_zupd, M, Gi, Gj. reflexivity.
Qed.

Lemma positions_map l : map Some l = map (zget l) (positions (zlen l)).
Proof.
  unfold positions, zlen. rewrite Nat2Z.id, map_map. induction l as [|x l IH]; [reflexivity|].
  cbn [length seq map]. f_equal. rewrite IH, <- seq_shift, map_map. apply map_ext. intros n.
  rewrite Nat2Z.inj_succ, <- Z.add_1_r. symmetry. rewrite zget_cons_S by lia. f_equal. lia.
Qed.

Lemma sort_arrange less alg l p : arrange (on_positions less l) (alg (zlen l)) (positions (zlen l)) = Some p ->
  exists l', sort_with alg (funcSortable less) l = (Ok tt, l') /\ map Some l' = map (zget l) p.
Proof. intros A. exact (run_arrange less l _ _ _ l A (positions_map l)). Qed.

Lemma sorted_back less l l' p : map Some l' = map (zget l) p -> sorted_by (on_positions less l) p -> sorted_by less l'.
Proof.
  intros M S i j a b Hij Gi Gj. pose proof (zget_map Some l' i) as Ki. pose proof (zget_map Some l' j) as Kj.
  rewrite M, zget_map, Gi in Ki. rewrite M, zget_map, Gj in Kj. cbn in Ki, Kj.
  destruct (zget p i) as [x|] eqn:Ei; [|discriminate]. destruct (zget p j) as [y|] eqn:Ej; [|discriminate].
  cbn in Ki, Kj. injection Ki as Ki. injection Kj as Kj. specialize (S i j x y Hij Ei Ej). unfold on_positions in S. now rewrite Ki, Kj in S.
Qed.

Lemma sort_ok less alg l : strict_weak less -> sort_contract alg ->
  exists l', sort_with alg (funcSortable less) l = (Ok tt, l') /\ Permutation l' l /\ sorted_by less l'.
Proof.
  intros SW C. destruct (C (zlen l) (on_positions less l)) as (p & A & S); [unfold zlen; lia|now apply on_positions_sw|].
  destruct (sort_arrange less alg l p A) as (l' & E & M). exists l'. split; auto. split.
  - destruct (sort_perm less alg l) as (o & l2 & E2 & _ & P). rewrite E in E2. injection E2 as _ <-. auto.
  - eapply sorted_back; eauto.
Qed.

Lemma exchange_perm p i j p' : exchange p i j = Some p' -> Permutation p' p.
Proof.
  unfold exchange. intros H. pose proof (zswap_perm p i j) as P. unfold zswap in P.
  destruct (zget p i), (zget p j); try discriminate. injection H as <-. auto.
Qed.
Lemma arrange_perm lt pr : forall p p', arrange lt pr p = Some p' -> Permutation p' p.
Proof.
  induction pr as [|i j k IH|i j k IH]; intros p p' A; cbn [arrange] in A.
  - injection A as <-. auto.
  - destruct (zget p i); [|discriminate]. destruct (zget p j); [|discriminate]. eauto.
  - destruct (exchange p i j) eqn:E; [|discriminate]. apply exchange_perm in E. rewrite <- E. eauto.
Qed.
Lemma positions_sorted n : StronglySorted Z.lt (positions n).
Proof.
  unfold positions. generalize 0%nat. induction (Z.to_nat n) as [|m IH]; intros s; cbn [seq map]; constructor; auto.
  apply Forall_forall. intros x Hx. apply in_map_iff in Hx as (y & <- & Hy). apply in_seq in Hy. lia.
Qed.
Lemma SS_filter {A} (R : A -> A -> Prop) f (l : list A) : StronglySorted R l -> StronglySorted R (filter f l).
Proof.
  induction 1 as [|a l S IH F]; cbn; [constructor|]. destruct (f a); auto. constructor; auto.
  rewrite Forall_forall in *. intros x Hx. apply filter_In in Hx as [Hx _]. auto.
Qed.
Lemma SS_unique (l1 : list Z) : forall l2 : list Z, StronglySorted Z.lt l1 -> StronglySorted Z.lt l2 -> Permutation l1 l2 -> l1 = l2.
Proof.
  induction l1 as [|a l1 IH]; intros l2 S1 S2 P; [now apply Permutation_nil in P|].
  destruct l2 as [|b l2]; [symmetry in P; now apply Permutation_nil in P|].
  inversion S1 as [|? ? S1' F1]; subst. inversion S2 as [|? ? S2' F2]; subst. rewrite Forall_forall in F1, F2.
  assert (a = b).
  { destruct (Permutation_in a P (or_introl eq_refl)) as [->|Ha]; auto.
    destruct (Permutation_in b (Permutation_sym P) (or_introl eq_refl)) as [->|Hb]; auto.
    specialize (F1 b Hb). specialize (F2 a Ha). lia. }
  subst. f_equal. apply IH; auto. eapply Permutation_cons_inv; eauto.
Qed.
Lemma SS_of_zget {A} (R : A -> A -> Prop) (p : list A) : (forall i j x y, 0 <= i < j -> zget p i = Some x -> zget p j = Some y -> R x y) -> StronglySorted R p.
Proof.
  induction p as [|a p IH]; intros H; constructor.
  - apply IH. intros i j x y Hij Gi Gj. apply (H (i+1) (j+1)); try lia; rewrite zget_cons_S by lia; rewrite Z.add_simpl_r; auto.
  - apply Forall_forall. intros x Hx. apply in_zget in Hx as (i & Hi & Gi).
    apply (H 0 (i+1)); try lia; auto. rewrite zget_cons_S by lia. rewrite Z.add_simpl_r. auto.
Qed.
Lemma SS_filter_weak {A} (R Q : A -> A -> Prop) f (l : list A) : StronglySorted R l ->
  (forall x y, f x = true -> f y = true -> R x y -> Q x y) -> StronglySorted Q (filter f l).
Proof.
  intros S H. induction S as [|a l S IH F]; cbn; [constructor|]. destruct (f a) eqn:E; auto. constructor; auto.
  rewrite Forall_forall in *. intros x Hx. apply filter_In in Hx as [Hx Fx]. auto.
Qed.
Lemma filter_map_comm {A B} (f : A -> B) g (l : list A) : filter g (map f l) = map f (filter (fun x => g (f x)) l).
Proof. induction l as [|x l IH]; cbn; auto. destruct (g (f x)); cbn; now rewrite IH. Qed.
Lemma Perm_filter {A} (f : A -> bool) (l l' : list A) : Permutation l l' -> Permutation (filter f l) (filter f l').
Proof.
  induction 1; cbn; auto.
  - destruct (f x); auto.
  - destruct (f x), (f y); auto. constructor.
  - etransitivity; eauto.
Qed.

Lemma stable_ok less alg l : strict_weak less -> stable_contract alg ->
  exists l', sort_with alg (funcSortable less) l = (Ok tt, l') /\ Permutation l' l /\ sorted_by less l' /\ keeps_order less l l'.
Proof.
  intros SW C. destruct (sort_ok less alg l SW (stable_is_sort alg C)) as (l' & E & P & S). exists l'. do 3 (split; auto).
  destruct (C (zlen l) (on_positions less l)) as (p & A & Sp & St); [unfold zlen; lia|now apply on_positions_sw|].
  destruct (sort_arrange less alg l p A) as (l2 & E2 & M). rewrite E in E2. injection E2 as <-.
  intros x. cbn zeta. set (eqv := fun y => negb (less x y) && negb (less y x)).
  set (g := fun o => match o with Some y => eqv y | None => false end).
  assert (INJ : map Some (filter eqv l') = map Some (filter eqv l)).
  { change (fun y => eqv y) with eqv.
    assert (FS : forall k : list T, map Some (filter eqv k) = filter g (map Some k)) by (intros k; rewrite filter_map_comm; reflexivity).
    rewrite !FS, M, (positions_map l), !filter_map_comm. f_equal.
    pose proof (arrange_perm _ _ _ _ A) as PP.
    apply SS_unique.
    - assert (SSp : StronglySorted (fun a b => on_positions less l a b = false -> on_positions less l b a = false -> a < b) p).
      { apply SS_of_zget. intros i j a b Hij Gi Gj. apply (St i j); auto. lia. }
      eapply SS_filter_weak; [exact SSp|]. cbn beta. intros a b Ga Gb H. unfold g in Ga, Gb. unfold on_positions in H.
      destruct (zget l a) as [y|]; [|discriminate]. destruct (zget l b) as [z|]; [|discriminate].
      unfold eqv in Ga, Gb. apply andb_prop in Ga as [Ga1 Ga2]. apply andb_prop in Gb as [Gb1 Gb2]. apply negb_true_iff in Ga1, Ga2, Gb1, Gb2.
      apply H; [apply (sw_negtrans _ SW y x z)|apply (sw_negtrans _ SW z x y)]; auto.
    - apply SS_filter, positions_sorted.
    - now apply Perm_filter. }
  clear - INJ. revert INJ. generalize (filter eqv l'), (filter eqv l). intros a. induction a as [|u a IH]; intros [|v b] H; try discriminate; auto.
  injection H as -> H. f_equal. auto.
Qed.

(** *** IsSorted *)
Lemma IsSorted_loop_ok ltb rest : strict_weak ltb -> forall prev : T, IsSorted_loop ltb prev rest = true <-> sorted_by ltb (prev :: rest).
Proof.
  intros SW. induction rest as [|v rest IH]; intros prev; cbn [IsSorted_loop].
  - split; auto. intros _ i j a b Hij Gi Gj. apply zget_Some_range in Gi, Gj. change (zlen [prev]) with 1 in *. lia.
  - destruct (ltb v prev) eqn:E.
    + split; [discriminate|]. intros H. rewrite (H 0 1 prev v) in E; auto. lia.
    + rewrite IH. split; intros H i j a b Hij Gi Gj.
      * assert (Gj' : zget (v :: rest) (j - 1) = Some b) by (rewrite <- (zget_cons_S prev) by lia; rewrite <- Gj; f_equal; lia).
        destruct (Z.eq_dec i 0) as [->|Hi].
        -- injection Gi as <-. destruct (Z.eq_dec j 1) as [->|].
           ++ injection Gj' as <-. auto.
           ++ apply (sw_negtrans _ SW b v prev); auto. apply (H 0 (j - 1)); auto. lia.
        -- assert (Gi' : zget (v :: rest) (i - 1) = Some a) by (rewrite <- (zget_cons_S prev) by lia; rewrite <- Gi; f_equal; lia).
           apply (H (i-1) (j-1)); auto. lia.
      * apply (H (i+1) (j+1)); try lia; rewrite zget_cons_S by lia; rewrite Z.add_simpl_r; auto.
Qed.
Lemma IsSorted_ok ltb (l : list T) : strict_weak ltb -> (IsSorted ltb l = true <-> sorted_by ltb l).
Proof.
  intros SW. destruct l as [|x l]; [|now apply IsSorted_loop_ok].
  split; auto. intros _ i j a b Hij Gi. apply zget_Some_range in Gi. change (zlen (@nil T)) with 0 in Gi. lia.
Qed.
Lemma IsDescSorted_flip ltb (l : list T) : IsDescSorted ltb l = IsSorted (fun x y : T => ltb y x) l.
Proof.
  destruct l; reflexivity.
Qed.

(** *** On memory *)
Lemma sort_mem_perm less alg (m : mem T) a : wf_slice m a ->
  exists o m', on_slice a (sort_with alg (funcSortable less)) m = (o, m') /\ o <> NoFuel /\ wf_slice m' a /\
    Permutation (contents m' a) (contents m a) /\ same_except m m' (s_arr a) (s_off a) (s_off a + s_len a).
Proof.
  intros Hwf. destruct (sort_perm less alg (contents m a)) as (o & l' & E & N & P).
  assert (Hw : zlen l' = s_len a) by (rewrite <- (zlen_contents m a Hwf); unfold zlen; now rewrite (Permutation_length P)).
  exists o, (write_at m a 0 l'). split; [now apply on_slice_start|]. split; auto.
  split; [now apply wf_write_self|]. split; [now rewrite contents_write_at|now apply same_except_write].
Qed.
Lemma sort_mem less alg (m : mem T) a : strict_weak less -> sort_contract alg -> wf_slice m a ->
  exists m', on_slice a (sort_with alg (funcSortable less)) m = (Ok tt, m') /\ wf_slice m' a /\
    Permutation (contents m' a) (contents m a) /\ sorted_by less (contents m' a) /\ same_except m m' (s_arr a) (s_off a) (s_off a + s_len a).
Proof.
  intros SW C Hwf. destruct (sort_ok less alg (contents m a) SW C) as (l' & E & P & S).
  destruct (inplace m a _ _ _ Hwf E (Permutation_length P)) as (m' & E' & W & K & F).
  exists m'. rewrite K. auto.
Qed.
Lemma stable_mem less alg (m : mem T) a : strict_weak less -> stable_contract alg -> wf_slice m a ->
  exists m', on_slice a (sort_with alg (funcSortable less)) m = (Ok tt, m') /\ wf_slice m' a /\
    Permutation (contents m' a) (contents m a) /\ sorted_by less (contents m' a) /\ keeps_order less (contents m a) (contents m' a) /\
    same_except m m' (s_arr a) (s_off a) (s_off a + s_len a).
Proof.
  intros SW C Hwf. destruct (stable_ok less alg (contents m a) SW C) as (l' & E & P & S & St).
  destruct (inplace m a _ _ _ Hwf E (Permutation_length P)) as (m' & E' & W & K & F).
  exists m'. rewrite K. auto 10.
Qed.
End Run.
