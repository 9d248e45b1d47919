(** Properties C48-C52 and C73: lookup.go, compare.go, functor.go, counting. *)
From Coq Require Import Permutation.
From Verif Require Import BaseLemmas Spec Spec_Lookup Model_Lookup Proof_Lookup.

(** ** C48 Compare *)
(** The result is -1, 0 or 1 exactly as a is before, equivalent to, or after b
    in the lexicographic order.  Only asymmetry of < is needed, so floats with
    NaN are included. *)
Theorem C48_Compare_lex : forall T (ltb : T -> T -> bool) (a b : list T),
  (forall x y, ltb x y = true -> ltb y x = false) ->
  exists r, Compare ltb a b = Ok r /\ (r = -1 \/ r = 0 \/ r = 1) /\
    (r = -1 <-> lex_lt ltb a b) /\ (r = 0 <-> lex_eq ltb a b) /\ (r = 1 <-> lex_lt ltb b a).
Proof.
  intros T ltb a b A. exists (cmp ltb a b). split; [apply Compare_cmp|].
  destruct (cmp_ok ltb A a b) as [(-> & H)|[(-> & H)|(-> & H)]]; split; auto; intuition (try lia; try discriminate).
Qed.
Print Assumptions C48_Compare_lex.

Theorem C48_Compare_antisymmetric : forall T (ltb : T -> T -> bool) (a b : list T) r s,
  (forall x y, ltb x y = true -> ltb y x = false) ->
  Compare ltb a b = Ok r -> Compare ltb b a = Ok s -> s = - r.
Proof.
  intros T ltb a b r s A. rewrite !Compare_cmp. intros [= <-] [= <-]. now apply cmp_antisym.
Qed.
Print Assumptions C48_Compare_antisymmetric.

Theorem C48_Compare_transitive : forall T (ltb : T -> T -> bool) (a b c : list T) r s t,
  strict_weak ltb -> Compare ltb a b = Ok r -> Compare ltb b c = Ok s -> Compare ltb a c = Ok t ->
  r <= 0 -> s <= 0 -> t <= 0 /\ (t = 0 <-> r = 0 /\ s = 0).
Proof.
  intros T ltb a b c r s t S. rewrite !Compare_cmp. intros [= <-] [= <-] [= <-] Hr Hs.
  destruct (cmp_trans ltb S a b c Hr Hs) as [H1 H2]. split; auto. split; intros H.
  - destruct (Z_lt_le_dec (cmp ltb a b) 0); [lia|]. destruct (Z_lt_le_dec (cmp ltb b c) 0); lia.
  - destruct H as [E1 E2]. pose proof (cmp_antisym ltb (sw_asym ltb S) a b). pose proof (cmp_antisym ltb (sw_asym ltb S) b c).
    pose proof (cmp_antisym ltb (sw_asym ltb S) a c). destruct (cmp_trans ltb S c b a) as [H9 _]; lia.
Qed.
Print Assumptions C48_Compare_transitive.

Theorem C48_Compare_zero_iff_Equal : forall T (ltb eqb : T -> T -> bool) (a b : list T) r e,
  ordered ltb eqb -> Compare ltb a b = Ok r -> Equal eqb a b = Ok e -> (r = 0 <-> e = true).
Proof.
  intros T ltb eqb a b r e O. rewrite Compare_cmp. intros [= <-] E. now apply (cmp_equal ltb eqb).
Qed.
Print Assumptions C48_Compare_zero_iff_Equal.

(** The restriction to ordered elements is needed: with NaN ([None]) the two
    disagree. *)
Theorem C48_Compare_zero_NaN_not_Equal :
  ordered_nan nltb neqb isNone /\ Compare nltb [None] [None] = Ok 0 /\ Equal neqb [None] [None] = Ok false.
Proof. split; [exact optZ_ordered_nan|]. split; reflexivity. Qed.
Print Assumptions C48_Compare_zero_NaN_not_Equal.

Example Compare_runs :
  Compare Z.ltb [1;2;3] [1;3] = Ok (-1) /\ Compare Z.ltb [1;2;3] [1;2] = Ok 1 /\ Compare Z.ltb [1;2] [1;2] = Ok 0 /\
  Compare Z.ltb [] [5] = Ok (-1) /\ lex_lt Z.ltb [1;2;3] [1;3].
Proof.
  do 4 (split; [reflexivity|]). exists 1. split; [cbv; split; discriminate|]. split; [cbv; discriminate|]. split.
  - intros i x y Hi Gx Gy. pose proof (zget_Some_range _ _ _ Gx). assert (i = 0) by lia. subst i.
    injection Gx as <-. injection Gy as <-. auto.
  - right. exists 2, 3. auto.
Qed.

(** ** C49 Equal *)
Theorem C49_Equal : forall T (eqb : T -> T -> bool) (a b : list T),
  exists r, Equal eqb a b = Ok r /\
    (r = true <-> zlen a = zlen b /\ forall i x y, zget a i = Some x -> zget b i = Some y -> eqb x y = true).
Proof. exact @Equal_ok. Qed.
Print Assumptions C49_Equal.

Example Equal_runs : Equal Z.eqb [1;2;3] [1;2;3] = Ok true /\ Equal Z.eqb [1;2;3] [1;2;4] = Ok false /\
  Equal Z.eqb [1;2] [1;2;3] = Ok false /\ Equal Z.eqb [] [] = Ok true.
Proof. repeat split. Qed.

(** ** C50 Min, Max and the N variants *)
Theorem C50_MaxN : forall T (ltb : T -> T -> bool) (a : list T), strict_weak ltb -> a <> [] ->
  exists m, MaxN ltb a = Ok m /\ first_max ltb no_nan a m.
Proof.
  intros T ltb [|x l] S H; [congruence|]. pose proof (MaxN_nan ltb _ _ (sw_nan ltb S) x l) as K.
  cbn in K. destruct K as (m & E & _ & F). eauto.
Qed.
Print Assumptions C50_MaxN.
Theorem C50_MinN : forall T (ltb : T -> T -> bool) (a : list T), strict_weak ltb -> a <> [] ->
  exists m, MinN ltb a = Ok m /\ first_min ltb no_nan a m.
Proof.
  intros T ltb [|x l] S H; [congruence|]. pose proof (MinN_nan ltb _ _ (sw_nan ltb S) x l) as K.
  cbn in K. destruct K as (m & E & _ & F). eauto.
Qed.
Print Assumptions C50_MinN.
Theorem C50_MinMaxN : forall T (ltb : T -> T -> bool) (a : list T), strict_weak ltb -> a <> [] ->
  exists m1 m2, MinMaxN ltb a = Ok (m1, m2) /\ first_min ltb no_nan a m1 /\ first_max ltb no_nan a m2.
Proof.
  intros T ltb a S H. destruct (C50_MinN T ltb a S H) as (m1 & E1 & F1). destruct (C50_MaxN T ltb a S H) as (m2 & E2 & F2).
  exists m1, m2. rewrite MinMaxN_pair, E1, E2. auto.
Qed.
Print Assumptions C50_MinMaxN.
(** Floats: NaNs after the first argument are ignored; a NaN first argument is
    the result of all three. *)
Theorem C50_N_with_NaN : forall T (ltb eqb : T -> T -> bool) isnan x (l : list T), ordered_nan ltb eqb isnan ->
  if isnan x then MaxN ltb (x :: l) = Ok x /\ MinN ltb (x :: l) = Ok x /\ MinMaxN ltb (x :: l) = Ok (x, x)
  else exists m1 m2, MinN ltb (x :: l) = Ok m1 /\ MaxN ltb (x :: l) = Ok m2 /\ MinMaxN ltb (x :: l) = Ok (m1, m2) /\
    isnan m1 = false /\ isnan m2 = false /\ first_min ltb isnan (x :: l) m1 /\ first_max ltb isnan (x :: l) m2.
Proof.
  intros T ltb eqb isnan x l O. pose proof (MaxN_nan ltb eqb isnan O x l) as K1. pose proof (MinN_nan ltb eqb isnan O x l) as K2.
  rewrite MinMaxN_pair. destruct (isnan x).
  - rewrite K1, K2. auto.
  - destruct K1 as (m2 & E2 & N2 & F2). destruct K2 as (m1 & E1 & N1 & F1). exists m1, m2. rewrite E1, E2.
    do 5 (split; [auto|]). auto.
Qed.
Print Assumptions C50_N_with_NaN.
Theorem C50_N_panic_iff_empty : forall T (ltb : T -> T -> bool) (a : list T), strict_weak ltb ->
  (MaxN ltb a = Panic <-> a = []) /\ (MinN ltb a = Panic <-> a = []) /\ (MinMaxN ltb a = Panic <-> a = []).
Proof.
  intros T ltb a S. destruct a as [|x l]; [repeat split; auto|].
  assert (N : x :: l <> []) by congruence.
  destruct (C50_MinN T ltb _ S N) as (m1 & E1 & _). destruct (C50_MaxN T ltb _ S N) as (m2 & E2 & _).
  rewrite MinMaxN_pair, E1, E2. repeat split; discriminate.
Qed.
Print Assumptions C50_N_panic_iff_empty.
(** Two arguments.  On equivalent arguments the second one is returned. *)
Theorem C50_Max_Min_MinMax : forall T (ltb : T -> T -> bool) (a b : T), strict_weak ltb ->
  (In (Max ltb a b) [a; b] /\ ltb (Max ltb a b) a = false /\ ltb (Max ltb a b) b = false /\
     (ltb b a = false -> Max ltb a b = b)) /\
  (In (Min ltb a b) [a; b] /\ ltb a (Min ltb a b) = false /\ ltb b (Min ltb a b) = false /\
     (ltb a b = false -> Min ltb a b = b)) /\
  (exists x y, MinMax ltb a b = (x, y) /\ Permutation [x; y] [a; b] /\ ltb y x = false).
Proof.
  intros T ltb a b S. pose proof (sw_asym ltb S) as A. unfold Max, Min, MinMax.
  split; [|split].
  - destruct (ltb b a) eqn:E; simpl; repeat split; auto; try apply (sw_irrefl _ S); discriminate.
  - destruct (ltb a b) eqn:E; simpl; repeat split; auto; try apply (sw_irrefl _ S); discriminate.
  - destruct (ltb a b) eqn:E; do 2 eexists; (split; [reflexivity|]); split; auto. apply perm_swap.
Qed.
Print Assumptions C50_Max_Min_MinMax.
(** MinMax never loses an argument, even a NaN. *)
Theorem C50_MinMax_permutation : forall T (ltb : T -> T -> bool) (a b : T),
  Permutation [fst (MinMax ltb a b); snd (MinMax ltb a b)] [a; b].
Proof. intros. unfold MinMax. destruct (ltb a b); simpl; auto. apply perm_swap. Qed.
Print Assumptions C50_MinMax_permutation.

Example MinMaxN_runs : MinMaxN Z.ltb [3;1;4;1;5;9;2;6] = Ok (1, 9) /\ MaxN nltb [Some 1; None; Some 3; None] = Ok (Some 3) /\
  MinN nltb [None; Some 1] = Ok None /\ first_max Z.ltb no_nan [3;9;4] 9.
Proof.
  do 3 (split; [reflexivity|]). exists 1. split; [reflexivity|]. split.
  - intros x H. simpl in H. intuition (subst; auto).
  - intros j x Hj G _. pose proof (zget_Some_range _ _ _ G). assert (j = 0) by lia. subst j. injection G as <-. auto.
Qed.

(** ** C51 Find, Index, FindIf *)
Theorem C51_Find : forall T (eqb : T -> T -> bool) (a : list T) x,
  (exists r, Find eqb a x = (r, true) /\ first_index (fun v => eqb v x) a r) \/
  (Find eqb a x = (-1, false) /\ forall v, In v a -> eqb v x = false).
Proof. intros. exact (Find_loop_ok eqb x a 0). Qed.
Print Assumptions C51_Find.
Theorem C51_Index : forall T (eqb : T -> T -> bool) (a : list T) x,
  (exists r, Index eqb a x = r /\ first_index (fun v => eqb v x) a r) \/
  (Index eqb a x = -1 /\ forall v, In v a -> eqb v x = false).
Proof.
  intros T eqb a x. unfold Index. rewrite Index_loop_Find.
  destruct (Find_loop_ok eqb x a 0) as [(r & -> & H)|(-> & H)]; [left; eauto|auto].
Qed.
Print Assumptions C51_Index.
(** The predicate may carry state: it is called on the elements up to and
    including the first match, in order, once each. *)
Theorem C51_FindIf : forall T St (cond : St -> T -> bool * St) (a : list T) st,
  (exists pre x rest st', a = pre ++ x :: rest /\ FindIf a cond st = (zlen pre, true, st') /\
     answers cond st (pre ++ [x]) (repeat false (length pre) ++ [true]) st') \/
  (exists st', FindIf a cond st = (-1, false, st') /\ answers cond st a (repeat false (length a)) st').
Proof. intros. exact (FindIf_loop_ok cond a 0 st). Qed.
Print Assumptions C51_FindIf.

Example Find_runs : Find Z.eqb [4;7;7] 7 = (1, true) /\ Index Z.eqb [4;7;7] 9 = -1 /\
  FindIf [4;7;8] (fun n x => (5 <? x, n + 1)) 0 = (1, true, 2).
Proof. repeat split. Qed.

(** ** C52 Quantifiers and counts *)
Theorem C52_quantifiers : forall T (p : T -> bool) (a : list T),
  let f := fun (u : unit) x => (p x, u) in
  (fst (AllOf a f tt) = true <-> forall x, In x a -> p x = true) /\
  (fst (AnyOf a f tt) = true <-> exists x, In x a /\ p x = true) /\
  (fst (NoneOf a f tt) = true <-> forall x, In x a -> p x = false).
Proof.
  intros T p a f. split; [apply AllOf_pure|]. split; [apply AnyOf_pure|].
  unfold NoneOf. pose proof (AnyOf_pure p a) as K. fold f in K. destruct (AnyOf a f tt) as [c u]. simpl in *.
  destruct c; simpl.
  - split; [discriminate|]. intros H. destruct (proj1 K eq_refl) as (x & Hx & P). rewrite (H x Hx) in P. discriminate.
  - split; auto. intros _ x Hx. destruct (p x) eqn:E; auto. assert (false = true) by (apply K; eauto). discriminate.
Qed.
Print Assumptions C52_quantifiers.
Theorem C52_AllOf_calls : forall T St (pred : St -> T -> bool * St) (a : list T) st,
  (exists pre x rest st', a = pre ++ x :: rest /\ AllOf a pred st = (false, st') /\
     answers pred st (pre ++ [x]) (repeat true (length pre) ++ [false]) st') \/
  (exists st', AllOf a pred st = (true, st') /\ answers pred st a (repeat true (length a)) st').
Proof. intros. apply AllOf_ok. Qed.
Print Assumptions C52_AllOf_calls.
Theorem C52_AnyOf_NoneOf_calls : forall T St (pred : St -> T -> bool * St) (a : list T) st,
  (exists pre x rest st', a = pre ++ x :: rest /\ AnyOf a pred st = (true, st') /\ NoneOf a pred st = (false, st') /\
     answers pred st (pre ++ [x]) (repeat false (length pre) ++ [true]) st') \/
  (exists st', AnyOf a pred st = (false, st') /\ NoneOf a pred st = (true, st') /\ answers pred st a (repeat false (length a)) st').
Proof.
  intros T St pred a st. unfold NoneOf.
  destruct (AnyOf_ok pred a st) as [(pre & x & rest & st' & H1 & -> & H2)|(st' & -> & H2)]; [left; exists pre, x, rest, st'; auto|eauto].
Qed.
Print Assumptions C52_AnyOf_NoneOf_calls.
(** Count is the number of positions holding an equal element. *)
Theorem C52_Count : forall T (eqb : T -> T -> bool) (a : list T) x,
  Count eqb a x = zlen (filter (fun v => eqb v x) a).
Proof. intros. unfold Count. rewrite Count_loop_ok. lia. Qed.
Print Assumptions C52_Count.
(** CountIf calls the predicate on every element once, in order, and counts the
    true answers. *)
Theorem C52_CountIf : forall T St (pred : St -> T -> bool * St) (a : list T) st bs st',
  answers pred st a bs st' -> CountIf a pred st = (zlen (filter (fun ok => ok) bs), st').
Proof. intros T St pred a st bs st' H. unfold CountIf. rewrite CountIf_loop_ok. rewrite H. reflexivity. Qed.
Print Assumptions C52_CountIf.

Example Count_runs : Count Z.eqb [1;2;1;1] 1 = 3 /\ CountIf [1;2;3;4] (fun n x => (Z.even (x + n), n + x)) 0 = (2, 10) /\
  fst (AllOf [1;2] (fun (u : unit) x => (0 <? x, u)) tt) = true.
Proof. repeat split. Qed.

(** ** C73 functor.go *)
Theorem C73_OrderedCompare : forall T (ltb eqb : T -> T -> bool), ordered ltb eqb ->
  three_way (OrderedCompare ltb) /\ strict_weak (Less ltb) /\ strict_weak (Greater ltb) /\
  forall a b, (OrderedCompare ltb a b < 0 <-> Less ltb a b = true) /\
              (OrderedCompare ltb a b > 0 <-> Greater ltb a b = true) /\
              (OrderedCompare ltb a b = 0 <-> eqb a b = true) /\
              -1 <= OrderedCompare ltb a b <= 1.
Proof.
  intros T ltb eqb [S E]. pose proof (sw_asym ltb S) as A.
  split; [|split; [exact S|split; [exact (flip_sw ltb S)|]]].
  - apply OrderedCompare_three_way; auto.
  - intros a b. unfold OrderedCompare, Less, Greater. rewrite E.
    destruct (ltb a b) eqn:E1; [rewrite (A _ _ E1)|destruct (ltb b a) eqn:E2]; simpl; intuition (try lia; try discriminate).
Qed.
Print Assumptions C73_OrderedCompare.
Example OrderedCompare_runs : OrderedCompare Z.ltb 3 5 = -1 /\ OrderedCompare Z.ltb 5 3 = 1 /\ OrderedCompare nltb None None = 0.
Proof. repeat split. Qed.
