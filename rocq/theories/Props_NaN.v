(** C106: slices of floats that contain NaN. *)
From Verif Require Import Base BaseLemmas Spec Spec_Lookup Spec_Sort Spec_NaN Model_BinarySearch Model_Lookup Model_Sort Model_Transform Proof_BinarySearch Proof_Lookup Proof_Sort Proof_Transform.
From Verif Require Props_BinarySearch Props_Lookup Props_Sort Props_Transform.

Section Lists.
Context {T : Type}.
Implicit Types (l : list T) (less : T -> T -> bool).
Lemma zget_In l i x : zget l i = Some x -> In x l.
Proof. intros G. apply in_zget. exists i. split; auto. eapply zget_Some_range; eauto. Qed.
Lemma sorted_nil less : sorted_by less (@nil T).
Proof. intros i j a b Hij Ga. apply zget_In in Ga. destruct Ga. Qed.
Lemma sorted_tail less x l : sorted_by less (x :: l) -> sorted_by less l.
Proof. intros S i j a b Hij Ga Gb. apply (S (i + 1) (j + 1)); [lia| |]; rewrite zget_cons_S by lia; rewrite Z.add_simpl_r; auto. Qed.
Lemma sorted_head less x l : sorted_by less (x :: l) -> forall y, In y l -> less y x = false.
Proof. intros S y I. apply in_zget in I. destruct I as (i & Hi & G). apply (S 0 (i + 1)); [lia|reflexivity|]. rewrite zget_cons_S by lia. now rewrite Z.add_simpl_r. Qed.
Lemma sorted_cons less x l : sorted_by less l -> (forall y, In y l -> less y x = false) -> sorted_by less (x :: l).
Proof.
  intros S H i j a b Hij Ga Gb. rewrite zget_cons_S in Gb by lia. destruct (Z.eq_dec i 0) as [->|].
  - injection Ga as <-. apply H. eapply zget_In; eauto.
  - rewrite zget_cons_S in Ga by lia. apply (S (i - 1) (j - 1)); auto. lia.
Qed.
Lemma run_agree less less' p : forall l, (forall x y, In x l -> In y l -> less x y = less' x y) -> run_sort (funcSortable less) p l = run_sort (funcSortable less') p l.
Proof.
  induction p as [|i j k IH|i j k IH]; intros l H; cbn [run_sort]; auto.
  - unfold bind at 1 2. cbn [LessAt funcSortable]. unfold bind, wload, ret. destruct (zget l i) as [x|] eqn:Ei; auto. destruct (zget l j) as [y|] eqn:Ej; auto.
    rewrite (H x y) by (eapply zget_In; eauto). now apply IH.
  - unfold bind at 1 2. cbn [Swap funcSortable]. destruct (zget l i) as [x|] eqn:Ei.
    + destruct (zget l j) as [y|] eqn:Ej.
      * apply zget_Some_range in Ei, Ej. rewrite wswap_ok by auto. apply IH. intros u v Iu Iv. apply H; (eapply Permutation_in; [apply zswap_perm|eassumption]).
      * unfold wswap, bind, wload. now rewrite Ej.
    + unfold wswap, bind, wload. destruct (zget l j); rewrite ?Ei; auto.
Qed.
Lemma sort_agree less less' alg (m : mem T) a : (forall x y, In x (contents m a) -> In y (contents m a) -> less x y = less' x y) ->
  on_slice a (sort_with alg (funcSortable less)) m = on_slice a (sort_with alg (funcSortable less')) m.
Proof. intros H. unfold on_slice, sort_with, bind at 1 2. cbn [Len funcSortable wlen]. now rewrite (run_agree less less'). Qed.
End Lists.

Section C106.
Context {T : Type}.
Variables (ltb eqb : T -> T -> bool) (isnan : T -> bool).
Hypothesis ON : ordered_nan ltb eqb isnan.

(** *** NaN is equal to nothing *)
Theorem C106_never_found (a : list T) x : isnan x = true ->
  Find eqb a x = (-1, false) /\ Index eqb a x = -1 /\ Count eqb a x = 0 /\ BinarySearch ltb eqb a x = Ok (-1, false) /\
  LowerBound ltb a x = Ok 0 /\ UpperBound ltb a x = Ok (zlen a).
Proof.
  intros N. assert (Ne : forall v, eqb v x = false) by (intros v; apply (on_nan_r _ _ _ ON), N).
  assert (NL : forall v, ltb v x = false) by (intros v; apply (on_nan_r _ _ _ ON), N).
  assert (NR : forall v, ltb x v = false) by (intros v; apply (on_nan_l _ _ _ ON), N).
  assert (LB : LowerBound ltb a x = Ok 0).
  { apply Props_BinarySearch.C41_LowerBound_partition; [pose proof (zlen_nonneg a); lia|]. intros i v Hi. apply zget_Some_range in Hi. rewrite NL. symmetry. apply Z.ltb_ge. lia. }
  split; [|split; [|split; [|split; [|split; [exact LB|]]]]].
  - destruct (Props_Lookup.C51_Find T eqb a x) as [(r & _ & (v & _ & E) & _)|[E _]]; [rewrite Ne in E; discriminate|exact E].
  - destruct (Props_Lookup.C51_Index T eqb a x) as [(r & _ & (v & _ & E) & _)|[E _]]; [rewrite Ne in E; discriminate|exact E].
  - rewrite Props_Lookup.C52_Count. clear LB. induction a as [|v a IH]; [reflexivity|]. cbn [filter]. rewrite Ne. exact IH.
  - unfold BinarySearch. rewrite LB. cbn [obind]. destruct a as [|v a]; [reflexivity|]. destruct (Z.ltb_spec 0 (zlen (v :: a))); [|reflexivity]. unfold at_. rewrite zget_cons_0. cbn [obind]. now rewrite Ne.
  - apply Props_BinarySearch.C42_UpperBound_partition; [pose proof (zlen_nonneg a); lia|]. intros i v Hi. apply zget_Some_range in Hi. rewrite NR. symmetry. apply Z.leb_gt. lia.
Qed.
(** So it is not removed or replaced. *)
Theorem C106_never_removed (zero : T) grow (m : mem T) a x new : wf_slice m a -> isnan x = true ->
  (exists m', Remove eqb a x m = (Ok a, m') /\ contents m' a = contents m a) /\
  (exists r m', RemoveCopy zero grow eqb a x m = (Ok r, m') /\ contents m' r = contents m a) /\
  (exists m', on_slice a (Replace eqb x new) m = (Ok tt, m') /\ contents m' a = contents m a).
Proof.
  intros W N. assert (Ne : forall v, eqb v x = false) by (intros v; apply (on_nan_r _ _ _ ON), N).
  assert (Fl : forall l, filter (fun v => negb (eqb v x)) l = l) by (induction l as [|v l IH]; cbn; auto; rewrite Ne; cbn; now rewrite IH).
  split; [|split].
  - destruct (Props_Transform.C62_Remove T eqb x m a W) as (r & m' & E & W' & C & E1 & E2 & E3 & _). rewrite Fl in C.
    assert (r = a) as ->. { assert (E4 : s_len r = s_len a) by (rewrite <- (zlen_contents m' r W'), <- (zlen_contents m a W), C; reflexivity). destruct r, a; cbn in *; congruence. }
    eauto.
  - destruct (Props_Transform.C62_RemoveCopy T zero grow eqb x m a W) as (r & m' & E & _ & C & _). rewrite Fl in C. eauto.
  - destruct (Props_Transform.C60_Replace T eqb x new m a W) as (m' & E & _ & C & _). exists m'. split; auto. rewrite C. rewrite map_ext with (g := fun v => v); [apply map_id|]. intros v. now rewrite Ne.
Qed.
(** Unique keeps every NaN. *)
Theorem C106_Unique (zero : T) grow (m : mem T) a : partial_equiv eqb -> wf_slice m a ->
  (exists r m', Unique eqb a m = (Ok r, m') /\ filter isnan (contents m' r) = filter isnan (contents m a)) /\
  (exists r m', UniqueCopy zero grow eqb a m = (Ok r, m') /\ filter isnan (contents m' r) = filter isnan (contents m a)).
Proof.
  intros PE W. assert (D : forall l p, filter isnan (drop_repeats_after eqb p l) = filter isnan l).
  { induction l as [|v l IH]; intros p; cbn [drop_repeats_after filter]; auto. destruct (isnan v) eqn:N.
    - rewrite (proj2 (on_nan_l _ _ _ ON v p N)). cbn [filter]. now rewrite N, IH.
    - destruct (eqb v p); cbn [filter]; rewrite ?N; apply IH. }
  assert (D' : forall l, filter isnan (drop_repeats eqb l) = filter isnan l) by (intros [|v l]; cbn; auto; now rewrite D).
  split.
  - destruct (Props_Transform.C61_Unique T eqb PE m a W) as (r & m' & E & _ & C & _). exists r, m'. split; auto. now rewrite C, D'.
  - destruct (Props_Transform.C61_UniqueCopy T zero grow eqb PE m a W) as (r & m' & E & _ & C & _). exists r, m'. split; auto. now rewrite C, D'.
Qed.
(** Slices with NaN are equal to nothing, not even themselves. *)
Theorem C106_Equal (a b : list T) :
  (Equal eqb a b = Ok true -> nan_free isnan a /\ nan_free isnan b) /\ (Equal eqb a a = Ok true <-> nan_free isnan a).
Proof.
  assert (G : forall a b, Equal eqb a b = Ok true -> nan_free isnan a /\ nan_free isnan b).
  { intros xs ys E. destruct (Props_Lookup.C49_Equal T eqb xs ys) as (r & E' & H). rewrite E in E'. injection E' as <-. destruct (proj1 H eq_refl) as [L P]. split; intros v I.
    - apply in_zget in I. destruct I as (i & Hi & Gi). pose proof (zget_Some_range _ _ _ Gi). destruct (zget_range ys i) as [w Gw]; [lia|]. specialize (P i v w Gi Gw). destruct (isnan v) eqn:N; auto. rewrite (proj2 (on_nan_l _ _ _ ON v w N)) in P. discriminate.
    - apply in_zget in I. destruct I as (i & Hi & Gi). pose proof (zget_Some_range _ _ _ Gi). destruct (zget_range xs i) as [w Gw]; [lia|]. specialize (P i w v Gw Gi). destruct (isnan v) eqn:N; auto. rewrite (proj2 (on_nan_r _ _ _ ON w v N)) in P. discriminate. }
  split; [apply G|]. split; [intros E; apply (G a a E)|]. intros F. destruct (Props_Lookup.C49_Equal T eqb a a) as (r & -> & H). f_equal. apply H. split; auto.
  intros i x y Gx Gy. rewrite Gx in Gy. injection Gy as <-. rewrite (on_eq _ _ _ ON); [now rewrite !(on_irrefl _ _ _ ON)| |]; apply F; apply zget_In with i; auto.
Qed.

(** *** Orders for slices with NaN *)
Lemma cases x y : (isnan x = true -> ltb x y = false) /\ (isnan y = true -> ltb x y = false).
Proof. split; intros N; [apply (on_nan_l _ _ _ ON), N|apply (on_nan_r _ _ _ ON), N]. Qed.
Theorem C106_less : strict_weak (nan_last ltb isnan) /\ strict_weak (nan_first ltb isnan).
Proof.
  split; constructor; unfold nan_last, nan_first.
  1,4: intros a; rewrite (on_irrefl _ _ _ ON); now destruct (isnan a).
  all: intros a b c; pose proof (on_trans _ _ _ ON a b c) as Tr; pose proof (on_negtrans _ _ _ ON a b c) as Ng; destruct (cases a b), (cases b c), (cases a c).
  all: destruct (isnan a), (isnan b), (isnan c); cbn [andb negb]; rewrite ?orb_true_r, ?orb_false_r; repeat match goal with H : true = true -> _ |- _ => specialize (H eq_refl) end; intros; try congruence; auto.
Qed.
(** SortFunc with them sorts; the numbers are in order and the NaNs together. *)
Theorem C106_SortFunc lib_sort (m : mem T) a : sort_contract lib_sort -> wf_slice m a ->
  (exists m' xs ns, on_slice a (SortFunc lib_sort (nan_last ltb isnan)) m = (Ok tt, m') /\ Permutation (contents m' a) (contents m a) /\
     contents m' a = xs ++ ns /\ nan_free isnan xs /\ sorted_by ltb xs /\ Forall (fun x => isnan x = true) ns /\ sorted_by (nan_last ltb isnan) (contents m' a)) /\
  (exists m' xs ns, on_slice a (SortFunc lib_sort (nan_first ltb isnan)) m = (Ok tt, m') /\ Permutation (contents m' a) (contents m a) /\
     contents m' a = ns ++ xs /\ nan_free isnan xs /\ sorted_by ltb xs /\ Forall (fun x => isnan x = true) ns /\ sorted_by (nan_first ltb isnan) (contents m' a)).
Proof.
  intros SC W. destruct C106_less as [S1 S2]. split.
  - destruct (Props_Sort.C45_SortFunc T _ lib_sort m a S1 SC W) as (m' & E & _ & P & S & _). exists m'.
    assert (G : forall l, sorted_by (nan_last ltb isnan) l -> exists xs ns, l = xs ++ ns /\ nan_free isnan xs /\ sorted_by ltb xs /\ Forall (fun x => isnan x = true) ns).
    { clear. induction l as [|v l IH]; intros S; [exists [], []; split; [reflexivity|split; [intros ? []|split; [apply sorted_nil|constructor]]]|].
      destruct (IH (sorted_tail _ _ _ S)) as (xs & ns & -> & F & Sx & Fn). destruct (isnan v) eqn:N.
      - assert (xs = []) as ->. { destruct xs as [|x xs]; auto. exfalso. pose proof (sorted_head _ _ _ S x (or_introl eq_refl)) as H. unfold nan_last in H. rewrite N, (F x (or_introl eq_refl)) in H. rewrite orb_true_r in H. discriminate. }
        exists [], (v :: ns). auto.
      - exists (v :: xs), ns. split; auto. split; [intros x [<-|I]; auto|]. split; auto. apply sorted_cons; auto. intros x I.
        assert (H : nan_last ltb isnan x v = false) by (apply (sorted_head _ _ _ S); apply in_or_app; auto). apply orb_false_iff in H. apply H. }
    destruct (G _ S) as (xs & ns & H1 & H2 & H3 & H4). exists xs, ns. auto 10.
  - destruct (Props_Sort.C45_SortFunc T _ lib_sort m a S2 SC W) as (m' & E & _ & P & S & _). exists m'.
    assert (G : forall l, sorted_by (nan_first ltb isnan) l -> exists xs ns, l = ns ++ xs /\ nan_free isnan xs /\ sorted_by ltb xs /\ Forall (fun x => isnan x = true) ns).
    { clear. induction l as [|v l IH]; intros S; [exists [], []; split; [reflexivity|split; [intros ? []|split; [apply sorted_nil|constructor]]]|].
      destruct (isnan v) eqn:N.
      - destruct (IH (sorted_tail _ _ _ S)) as (xs & ns & -> & F & Sx & Fn). exists xs, (v :: ns). auto.
      - exists (v :: l), []. assert (F : nan_free isnan (v :: l)).
        { intros x [<-|I]; auto. pose proof (sorted_head _ _ _ S x I) as H. unfold nan_first in H. rewrite N in H. destruct (isnan x); auto. rewrite orb_true_r in H. discriminate. }
        split; [reflexivity|split; [exact F|split; [|constructor]]]. intros i j x y Hij Gi Gj. specialize (S i j x y Hij Gi Gj). apply orb_false_iff in S. apply S. }
    destruct (G _ S) as (xs & ns & H1 & H2 & H3 & H4). exists xs, ns. auto 10.
Qed.
(** With the NaNs at the end LowerBound and BinarySearch are right, with the NaNs
    at the beginning UpperBound. *)
Theorem C106_search (a : list T) v : isnan v = false ->
  (sorted_by (nan_last ltb isnan) a ->
    (exists r, LowerBound ltb a v = Ok r /\ 0 <= r <= zlen a /\ forall i x, zget a i = Some x -> ltb x v = (i <? r)) /\
    (exists r, BinarySearch ltb eqb a v = Ok r /\
       match r with
       | (i, true) => first_index (fun x => eqb x v) a i
       | (i, false) => i = -1 /\ forall x, In x a -> eqb x v = false
       end)) /\
  (sorted_by (nan_first ltb isnan) a ->
    exists r, UpperBound ltb a v = Ok r /\ 0 <= r <= zlen a /\ forall i x, zget a i = Some x -> ltb v x = (r <=? i)).
Proof.
  intros N. destruct C106_less as [S1 S2]. split.
  - intros S. assert (EL : forall x, nan_last ltb isnan x v = ltb x v) by (intros x; unfold nan_last; rewrite N; apply orb_false_r).
    assert (LB : exists r, LowerBound ltb a v = Ok r /\ 0 <= r <= zlen a /\ forall i x, zget a i = Some x -> ltb x v = (i <? r)).
    { destruct (Props_BinarySearch.C41_LowerBound_sorted T _ a v S1 S) as (r & _ & Hr & H). exists r. assert (H' : forall i x, zget a i = Some x -> ltb x v = (i <? r)) by (intros i x Gi; rewrite <- EL; eauto).
      split; auto. now apply Props_BinarySearch.C41_LowerBound_partition. }
    split; auto.
    set (eqb2 := fun x y => negb (nan_last ltb isnan x y) && negb (nan_last ltb isnan y x)).
    assert (EE : forall x, eqb2 x v = eqb x v).
    { intros x. unfold eqb2. rewrite EL. unfold nan_last. rewrite N. destruct (isnan x) eqn:Nx; cbn.
      - rewrite orb_true_r. cbn. rewrite andb_false_r. symmetry. apply (on_nan_l _ _ _ ON), Nx.
      - rewrite orb_false_r. symmetry. apply (on_eq _ _ _ ON); auto. }
    destruct (Props_BinarySearch.C43_BinarySearch T _ eqb2 a v (Build_ordered _ _ _ S1 (fun _ _ => eq_refl)) S) as (r & E & H). exists r. split.
    + rewrite <- E. unfold BinarySearch. destruct LB as (r1 & E1 & _ & H1). destruct (Props_BinarySearch.C41_LowerBound_sorted T _ a v S1 S) as (r2 & E2 & Hr2 & H2).
      rewrite (Props_BinarySearch.C41_LowerBound_partition T ltb a v r2 Hr2) by (intros i x Gi; rewrite <- EL; eauto). rewrite E2. cbn [obind]. destruct (r2 <? zlen a); auto. destruct (at_ a r2); cbn [obind]; auto. now rewrite EE.
    + destruct r as [i []].
      * destruct H as [(x & Gx & Hx) Hf]. split; [exists x; rewrite <- EE; auto|]. intros j y Hj Gy. rewrite <- EE. eauto.
      * destruct H as [-> H]. split; auto. intros x I. rewrite <- EE. auto.
  - intros S. assert (EL : forall x, nan_first ltb isnan v x = ltb v x) by (intros x; unfold nan_first; rewrite N; apply orb_false_r).
    destruct (Props_BinarySearch.C42_UpperBound_sorted T _ a v S2 S) as (r & _ & Hr & H). exists r. assert (H' : forall i x, zget a i = Some x -> ltb v x = (r <=? i)) by (intros i x Gi; rewrite <- EL; eauto).
    split; auto. now apply Props_BinarySearch.C42_UpperBound_partition.
Qed.
(** *** What IsSorted checks *)
Lemma IsSorted_cons less (x : T) l : IsSorted less (x :: l) = match l with [] => true | y :: _ => negb (less y x) && IsSorted less l end.
Proof. destruct l as [|y l]; cbn; auto. now destruct (less y x). Qed.
Lemma IsSorted_mid less (pre mid post : list T) : IsSorted less (pre ++ mid ++ post) = true -> IsSorted less mid = true.
Proof.
  induction pre as [|x pre IH]; cbn [app].
  - induction mid as [|x mid IHm]; auto. cbn [app]. rewrite !IsSorted_cons. destruct mid as [|y mid]; auto. cbn [app]. intros H. apply andb_true_iff in H. destruct H as [H1 H2]. rewrite H1. apply IHm. exact H2.
  - rewrite IsSorted_cons. destruct (pre ++ mid ++ post) eqn:E; [intros _; apply IH; auto|]. intros H. apply andb_true_iff in H. apply IH, H.
Qed.
Lemma IsSorted_less less l : strict_weak (fun x y => less x y || (isnan y && negb (isnan x))) ->
  (forall x y, isnan x = true \/ isnan y = true -> less x y = false) ->
  (IsSorted less l = true <-> stretches_sorted isnan less l).
Proof.
  intros SW N. set (tot := fun x y => less x y || (isnan y && negb (isnan x))).
  assert (Ag : forall x y, isnan y = false -> tot x y = less x y) by (intros x y Hy; unfold tot; rewrite Hy; apply orb_false_r).
  assert (AgS : forall l, nan_free isnan l -> IsSorted less l = IsSorted tot l).
  { induction l0 as [|x l0 IH]; intros F; auto. rewrite !IsSorted_cons. destruct l0 as [|y l0]; auto. rewrite IH by (intros z I; apply F; right; exact I). rewrite Ag; auto. apply F. now left. }
  split.
  - intros H pre mid post -> F. apply IsSorted_mid in H. rewrite (AgS mid F) in H. apply IsSorted_ok in H; [|exact SW]. intros i j a b Hij Ga Gb. rewrite <- Ag; [apply (H i j a b Hij Ga Gb)|]. apply F. eapply zget_In; eauto.
  - intros H. induction l as [|x l IH]; auto. rewrite IsSorted_cons. destruct l as [|y l]; auto. apply andb_true_iff. split.
    + apply negb_true_iff. destruct (isnan x) eqn:Nx; [apply N; auto|]. destruct (isnan y) eqn:Ny; [apply N; auto|].
      apply (H [] [x; y] l eq_refl) with (i := 0) (j := 1); auto; [intros z [<-|[<-|[]]]; auto|lia].
    + apply IH. intros pre mid post E F. apply (H (x :: pre) mid post); auto. cbn. now rewrite E.
Qed.
(** IsSorted and IsDescSorted look at each stretch between NaNs separately. *)
Theorem C106_IsSorted (a : list T) :
  (IsSorted ltb a = true <-> stretches_sorted isnan ltb a) /\
  (IsDescSorted ltb a = true <-> stretches_sorted isnan (fun x y => ltb y x) a).
Proof.
  destruct C106_less as [S1 S2]. split.
  - apply IsSorted_less; [exact S1|]. intros x y [N|N]; [apply (on_nan_l _ _ _ ON), N|apply (on_nan_r _ _ _ ON), N].
  - rewrite IsDescSorted_flip. apply IsSorted_less; [exact (flip_sw _ S2)|]. intros x y [N|N]; [apply (on_nan_r _ _ _ ON), N|apply (on_nan_l _ _ _ ON), N].
Qed.
(** Removing the NaNs first: a = RemoveIf(a, isNaN); Sort(a). *)
Theorem C106_clean lib_sort (m : mem T) a : sort_contract lib_sort -> wf_slice m a ->
  exists r m1 m2, RemoveIf a (fun (u : unit) x => (isnan x, u)) tt m = (Ok (r, tt), m1) /\ on_slice r (Sort ltb lib_sort) m1 = (Ok tt, m2) /\
    Permutation (contents m2 r) (filter (fun x => negb (isnan x)) (contents m a)) /\ sorted_by ltb (contents m2 r).
Proof.
  intros SC W. destruct (Props_Transform.C62_RemoveIf T unit (fun u x => (isnan x, u)) tt m a W) as (r & m1 & E & W1 & C & _).
  assert (Rj : forall l, reject_st (fun (u : unit) x => (isnan x, u)) tt l = (filter (fun x => negb (isnan x)) l, tt)).
  { induction l as [|x l IH]; cbn; auto. rewrite IH. now destruct (isnan x). }
  rewrite Rj in E, C. cbn [fst snd] in E, C.
  (* Sort of a NaN-free slice behaves as with the total order *)
  destruct (Props_Sort.C45_SortFunc T _ lib_sort m1 r (proj1 C106_less) SC W1) as (m2 & E2 & W2 & P & S & _).
  exists r, m1, m2. split; auto. rewrite C in P. split; [|split; [exact P|]].
  - rewrite <- E2. apply (sort_agree ltb (nan_last ltb isnan) lib_sort m1 r). intros x y Ix Iy. unfold nan_last. assert (isnan y = false) as ->; [|now rewrite orb_false_r]. rewrite C in Iy. apply filter_In in Iy. now apply negb_true_iff.
  - intros i j x y Hij Gi Gj. specialize (S i j x y Hij Gi Gj). apply orb_false_iff in S. apply S.
Qed.
End C106.
Print Assumptions C106_never_found.
Print Assumptions C106_never_removed.
Print Assumptions C106_Unique.
Print Assumptions C106_Equal.
Print Assumptions C106_less.
Print Assumptions C106_SortFunc.
Print Assumptions C106_search.
Print Assumptions C106_IsSorted.
Print Assumptions C106_clean.

(** IsSorted implies that the numbers are in order. *)
Definition C106_expected_IsSorted : Prop := forall a : list (option Z),
  IsSorted nltb a = true -> sorted_by nltb (filter (fun x => negb (isNone x)) a).
(** Sort puts the numbers in order, or at least lets BinarySearch find them. *)
Definition C106_expected_Sort : Prop := forall alg (a a' : list (option Z)), sort_contract alg -> stable_contract alg ->
  Sort nltb alg a = (Ok tt, a') -> sorted_by nltb (filter (fun x => negb (isNone x)) a').
Definition C106_expected_search : Prop := forall alg (a a' : list (option Z)) v, sort_contract alg -> stable_contract alg ->
  Sort nltb alg a = (Ok tt, a') -> In v a' -> isNone v = false -> exists i, BinarySearch nltb neqb a' v = Ok (i, true).
(** UpperBound is right with the NaNs at the end, as LowerBound is. *)
Definition C106_expected_UpperBound : Prop := forall (a : list (option Z)) v, sorted_by (nan_last nltb isNone) a -> isNone v = false ->
  exists r, UpperBound nltb a v = Ok r /\ forall i x, zget a i = Some x -> isNone x = false -> nltb v x = (r <=? i).
(** Compare is a transitive order. *)
Definition C106_expected_Compare : Prop := forall a b c : list (option Z),
  Compare nltb a b = Ok 0 -> Compare nltb b c = Ok 0 -> Compare nltb a c = Ok 0.
Theorem C106_refuted : ~ C106_expected_IsSorted /\ ~ C106_expected_Sort /\ ~ C106_expected_search /\ ~ C106_expected_UpperBound /\ ~ C106_expected_Compare.
Proof.
  split; [|split; [|split; [|split]]]; intros H.
  - specialize (H [Some 2; None; Some 1] eq_refl 0 1 (Some 2) (Some 1) ltac:(lia) eq_refl eq_refl). discriminate.
  - specialize (H insertion_sort [Some 2; None; Some 1] [Some 2; None; Some 1] (stable_is_sort _ insertion_stable) insertion_stable eq_refl 0 1 (Some 2) (Some 1) ltac:(lia) eq_refl eq_refl). discriminate.
  - destruct (H insertion_sort [Some 2; None; Some 1] [Some 2; None; Some 1] (Some 1) (stable_is_sort _ insertion_stable) insertion_stable eq_refl) as [i E]; cbn; auto. vm_compute in E. discriminate.
  - destruct (H [Some 1; Some 3; None; None] (Some 2)) as (r & E & Hr); auto.
    + apply IsSorted_ok; [apply (C106_less nltb neqb isNone optZ_ordered_nan)|reflexivity].
    + vm_compute in E. injection E as <-. specialize (Hr 1 (Some 3) eq_refl eq_refl). discriminate.
  - specialize (H [Some 1] [None] [Some 2] eq_refl eq_refl). discriminate.
Qed.
Print Assumptions C106_refuted.

(** A slice with NaNs on which every theorem says something. *)
Example C106_hyp :
  let a := [Some 3; None; Some 1; Some 3; None] in let m := [a] in let s := mkSlice 0 0 5 5 in
  ordered_nan nltb neqb isNone /\ partial_equiv neqb /\ wf_slice m s /\ isNone None = true /\ sort_contract insertion_sort /\
  (let m' := snd (on_slice s (SortFunc insertion_sort (nan_last nltb isNone)) m) in
   contents m' s = [Some 1; Some 3; Some 3; None; None] /\ sorted_by (nan_last nltb isNone) (contents m' s) /\
   BinarySearch nltb neqb (contents m' s) (Some 3) = Ok (1, true) /\ LowerBound nltb (contents m' s) (Some 2) = Ok 1) /\
  contents (snd (on_slice s (SortFunc insertion_sort (nan_first nltb isNone)) m)) s = [None; None; Some 1; Some 3; Some 3] /\
  Count neqb a None = 0 /\ Equal neqb a a = Ok false /\ IsSorted nltb [Some 3; None; Some 1; Some 3; None] = true.
Proof.
  cbv zeta. split; [exact optZ_ordered_nan|]. split; [exact Props_Transform.optZ_partial_equiv|]. split; [repeat split; cbn; lia|]. split; [reflexivity|]. split; [apply stable_is_sort, insertion_stable|].
  split; [|repeat split]. split; [reflexivity|]. split; [|split; reflexivity].
  apply IsSorted_ok; [apply (C106_less nltb neqb isNone optZ_ordered_nan)|reflexivity].
Qed.
