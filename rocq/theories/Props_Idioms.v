(** C113: the parts of the library agree with each other. *)
From Coq Require Import Permutation.
From Verif Require Import Base BaseLemmas Spec Trace Spec_List Spec_Map Spec_Set Spec_BSet Spec_Lookup Spec_Sort Spec_Containers Spec_Vector Spec_Idioms.
From Verif Require Import Model_BuiltinSet Model_SkipList Model_SkipListSet Model_PriorityQueue Model_Heap Model_Vector Model_Transform Model_BinarySearch Model_Sort Model_Lookup Model_Idioms Proof_StackPQ Proof_VectorOps Proof_Idioms.
From Verif Require Props_BinarySearch Props_Lookup Props_Sort Props_Transform Props_Heap Props_StackPQ Props_Vector.
From Verif Require Import Props_SkipListSet Props_BuiltinSet.
Local Arguments zlen : simpl never.

Section Ways.
Context {T : Type}.
Variables (zero : T) (grow : Z -> Z -> Z) (ltb eqb : T -> T -> bool).
Hypothesis O : ordered ltb eqb.
(** Popping everything from a priority queue. *)
Lemma drain_pq n : forall bag rs bag', length bag = n -> accepts (pq_spec ltb) bag (repeat PPop n) rs bag' ->
  exists out, rs = map (fun x => Ok (OVal x)) out /\ sorted_by ltb out /\ Permutation out bag.
Proof using O.
  induction n as [|n IH]; intros bag rs bag' L A; cbn [repeat] in A.
  - apply accepts_nil_inv in A as [-> _]. destruct bag; [|discriminate]. exists []. split; auto. split; [apply i_nil|auto].
  - apply accepts_cons_inv in A as (r & b1 & rs' & -> & S & A). cbn [pq_spec] in S. destruct S as [(-> & _)|(x & -> & [Ix Mx] & P)]; [discriminate|].
    pose proof (Permutation_length P) as PL. cbn [length] in PL. destruct (IH b1 rs' bag') as (out & -> & So & Po); [lia|auto|].
    exists (x :: out). split; auto. split.
    + apply i_cons; auto. intros y I. apply Mx. eapply Permutation_in; [exact P|]. right. eapply Permutation_in; eauto.
    + rewrite Po. exact P.
Qed.
Lemma fill_pq l : forall bag rs bag' rest, accepts (pq_spec ltb) bag (map PPush l ++ rest) rs bag' ->
  exists rs' bag1, rs = repeat (Ok ONone) (length l) ++ rs' /\ Permutation bag1 (l ++ bag) /\ accepts (pq_spec ltb) bag1 rest rs' bag'.
Proof using Type.
  induction l as [|x l IH]; intros bag rs bag' rest A; cbn [map app length repeat] in *; [exists rs, bag; auto|].
  apply accepts_cons_inv in A as (r & b1 & rs' & -> & [-> P] & A). destruct (IH _ _ _ _ A) as (rs2 & b2 & -> & P2 & A2). exists rs2, b2. split; auto. split; auto.
  rewrite P2, P. symmetry. apply Permutation_middle.
Qed.
(** Inserting at UpperBound. *)
Lemma insert_each_ok xs : forall s c, wf_slice (fst c) (snd c) -> c_contents c = s -> sorted_by ltb s -> zlen s + zlen xs <= max_int ->
  exists c', insert_each zero grow ltb xs c = (Ok tt, c') /\ sorted_by ltb (c_contents c') /\ Permutation (c_contents c') (s ++ xs) /\ forall y, filter (eqb y) (c_contents c') = filter (eqb y) (s ++ xs).
Proof using O.
  induction xs as [|x xs IH]; intros s c W C S L; cbn [insert_each].
  - exists c. rewrite app_nil_r. rewrite C. auto.
  - rewrite C. destruct (Props_BinarySearch.C42_UpperBound_sorted T ltb s x (ord_sw _ _ O) S) as (i & E & Hi & H). rewrite E.
    destruct (insert_upper ltb eqb O s x i S Hi H) as (S' & P' & F'). cbn zeta in *. set (s' := zsub s 0 i ++ [x] ++ zsub s i (zlen s)) in *.
    rewrite zlen_cons in L. pose proof (zlen_nonneg xs) as Lx. pose proof (zlen_nonneg s) as Ls.
    destruct (vec_run_ok zero grow [VInsert i [x]] s c) as (l' & A & W' & C').
    { split; auto. }
    { constructor; [|constructor]. cbn [vec_args]. unfold is_int, max_int in *. lia. }
    { cbn [total_growth vec_growth]. change (zlen [x]) with 1. lia. }
    cbn [run] in A, W', C'. unfold bind. destruct (vec_step zero grow (VInsert i [x]) c) as [r c1] eqn:Ev. cbn [fst snd] in *.
    apply accepts_cons_inv in A as (r0 & l1 & rs & Er & Sp & A). apply accepts_nil_inv in A as [-> ->]. injection Er as <-. cbn [vec_spec] in Sp.
    replace ((0 <=? i) && (i <=? zlen s)) with true in Sp by (symmetry; apply andb_true_iff; rewrite !Z.leb_le; lia). destruct Sp as [-> ->]. fold s' in C'.
    destruct (IH s' c1 W' C' S') as (c2 & E2 & S2 & P2 & F2).
    { unfold s'. pose proof (Permutation_length P') as PL. unfold zlen in *. fold s'. rewrite PL, app_length. cbn [length]. lia. }
    exists c2. split; auto. split; auto. split.
    + rewrite P2, P', <- app_assoc. auto.
    + intros y. rewrite F2, !filter_app, F', !filter_app. rewrite <- app_assoc. do 2 f_equal. cbn [filter]. destruct (eqb y x); auto.
Qed.
End Ways.

(** *** Every way to sort gives the same sequence *)
(** Up to ==: Sort, SortFunc and the stable variants; the descending variants give
    it backwards; a heap emptied by popping, a PriorityQueue made of the slice or
    filled one by one and then emptied, and a Vector filled by inserting each element
    at its UpperBound give it too. *)
Theorem C113_sorts_agree : forall T (ltb eqb : T -> T -> bool) lib_sort lib_stable (zero : T) grow (m : Base.mem T) a,
  ordered ltb eqb -> sort_contract lib_sort -> stable_contract lib_stable -> wf_slice m a -> s_len a <= max_int ->
  let l := contents m a in let n := length l in
  exists s, sorted_by ltb s /\ Permutation s l /\
  (forall f, In f [Sort ltb lib_sort; SortFunc lib_sort ltb; SortFunc lib_sort (Less ltb); StableSort ltb lib_stable; StableSortFunc lib_stable ltb] ->
    exists m', on_slice a f m = (Ok tt, m') /\ alike eqb (contents m' a) s) /\
  (forall f, In f [DescSort ltb lib_sort; SortFunc lib_sort (Greater ltb); DescStableSort ltb lib_stable; StableSortFunc lib_stable (Greater ltb)] ->
    exists m', on_slice a f m = (Ok tt, m') /\ alike eqb (contents m' a) (rev s)) /\
  (exists m1 out c, on_slice a (MakeMinHeap ltb) m = (Ok tt, m1) /\ drain (PopMinHeap ltb) n (m1, a) = (Ok out, c) /\ alike eqb out s) /\
  (exists q out, NewPriorityQueueOf ltb a m = Ok q /\ fst (run (pq_step zero grow) (repeat PPop n) q) = map (fun x => Ok (OVal x)) out /\ alike eqb out s) /\
  (exists out, fst (run (pq_step zero grow) (map PPush l ++ repeat PPop n) (NewPriorityQueue ltb m)) = repeat (Ok ONone) n ++ map (fun x => Ok (OVal x)) out /\ alike eqb out s) /\
  (exists v m1 c, MakeVector m = (Ok v, m1) /\ insert_each zero grow ltb l (m1, v) = (Ok tt, c) /\ alike eqb (c_contents c) s).
Proof.
  intros T ltb eqb lib_sort lib_stable zero grow m a O SC ST W L l n. pose proof (ord_sw _ _ O) as SW.
  assert (Ln : s_len a = Z.of_nat n). { unfold n, l. change (Z.of_nat (length (contents m a))) with (zlen (contents m a)). symmetry. now apply zlen_contents. }
  destruct (Props_Sort.C45_Sort T ltb lib_sort m a SW SC W) as (m0 & E0 & W0 & P0 & S0 & _). exists (contents m0 a). split; auto. split; auto.
  assert (U : forall x, sorted_by ltb x -> Permutation x l -> alike eqb x (contents m0 a)) by (intros x Sx Px; apply (i_unique_perm ltb eqb O x (contents m0 a) l); auto).
  assert (D : forall x, sorted_by (fun u v => ltb v u) x -> Permutation x l -> alike eqb x (rev (contents m0 a))).
  { intros x Sx Px. rewrite <- (rev_involutive x). apply alike_rev. apply U.
    - apply (sorted_rev (fun u v => ltb v u)) in Sx. exact Sx.
    - rewrite <- Px. symmetry. apply Permutation_rev. }
  split; [|split; [|split; [|split; [|split]]]].
  - intros f [<-|[<-|[<-|[<-|[<-|[]]]]]].
    + exists m0. split; auto.
    + destruct (Props_Sort.C45_SortFunc T ltb lib_sort m a SW SC W) as (m1 & E1 & _ & P1 & S1 & _). exists m1. split; auto.
    + destruct (Props_Sort.C45_SortFunc T ltb lib_sort m a SW SC W) as (m1 & E1 & _ & P1 & S1 & _). exists m1. split; auto.
    + destruct (Props_Sort.C46_StableSort T ltb lib_stable m a SW ST W) as (m1 & E1 & _ & P1 & S1 & _). exists m1. split; auto.
    + destruct (Props_Sort.C46_StableSortFunc T ltb lib_stable m a SW ST W) as (m1 & E1 & _ & P1 & S1 & _). exists m1. split; auto.
  - assert (SG : strict_weak (Greater ltb)). { destruct SW as [I1 I2 I3]. unfold Greater. constructor; eauto. }
    intros f [<-|[<-|[<-|[<-|[]]]]].
    + destruct (Props_Sort.C45_DescSort T ltb lib_sort m a SW SC W) as (m1 & E1 & _ & P1 & S1 & _). exists m1. split; auto.
    + destruct (Props_Sort.C45_SortFunc T (Greater ltb) lib_sort m a SG SC W) as (m1 & E1 & _ & P1 & S1 & _). exists m1. split; auto.
    + destruct (Props_Sort.C46_DescStableSort T ltb lib_stable m a SW ST W) as (m1 & E1 & _ & P1 & S1 & _). exists m1. split; auto.
    + destruct (Props_Sort.C46_StableSortFunc T (Greater ltb) lib_stable m a SG ST W) as (m1 & E1 & _ & P1 & S1 & _). exists m1. split; auto.
  - destruct (Props_Heap.C33_MakeMinHeap T ltb m a SW W L) as (m1 & E1 & W1 & H1 & P1 & _).
    destruct (Props_Heap.C39_heap_sort T ltb SW n m1 a W1 H1 Ln L) as (out & m2 & h & E2 & _ & P2 & S2). exists m1, out, (m2, h). split; auto. split; auto. apply U; auto. now rewrite P2.
  - assert (Np : pushes (T := T) (repeat PPop n) = 0). { unfold pushes. generalize n. intros k. induction k as [|k IH]; auto. }
    destruct (Props_StackPQ.C40_NewPriorityQueueOn T ltb SW zero grow (repeat PPop n) m a W) as (q & bag' & _ & E1 & A & _); [lia|].
    destruct (drain_pq ltb eqb O n _ _ _ eq_refl A) as (out & E2 & S2 & P2). exists q, out. split; auto.
  - assert (Np : pushes (T := T) (map PPush l ++ repeat PPop n) = Z.of_nat n).
    { unfold pushes, n. rewrite filter_app. assert (filter (fun o => match o with PPush _ => true | _ => false end) (repeat (@PPop T) (length l)) = []) as ->.
      { generalize (length l). intros k. induction k as [|k IH]; auto. }
      rewrite app_nil_r. unfold zlen. f_equal. generalize l. intros r. induction r as [|x r IH]; cbn [map filter length]; auto. }
    destruct (Props_StackPQ.C40_NewPriorityQueue T ltb SW zero grow (map PPush l ++ repeat PPop n) m) as [(bag' & A) _]; [destruct W as [W _]; lia|lia|].
    apply fill_pq in A as (rs & bag1 & E1 & P1 & A1). rewrite app_nil_r in P1. destruct (drain_pq ltb eqb O n _ _ _ (Permutation_length P1) A1) as (out & -> & S2 & P2).
    exists out. split; auto. apply U; auto. now rewrite P2.
  - destruct (lit_ok m (@nil T)) as (E1 & W1 & C1 & _).
    destruct (insert_each_ok zero grow ltb eqb O l [] (m ++ [[]], mkSlice (length m) 0 (zlen (@nil T)) (zlen (@nil T)))) as (c & E2 & S2 & P2 & _); auto.
    { apply i_nil. }
    { change (zlen (@nil T)) with 0. unfold zlen. fold n. lia. }
    eexists _, _, c. split; [exact E1|]. split; [exact E2|]. now apply U.
Qed.
Print Assumptions C113_sorts_agree.

(** The stable sorts, and inserting at UpperBound, give the very same sequence, also
    where == elements can be told apart. *)
Theorem C113_stable_sorts_equal : forall T (ltb eqb : T -> T -> bool) lib_stable (zero : T) grow (m : Base.mem T) a,
  ordered ltb eqb -> stable_contract lib_stable -> wf_slice m a -> s_len a <= max_int ->
  exists m1 m2 v m3 c,
    on_slice a (StableSort ltb lib_stable) m = (Ok tt, m1) /\ on_slice a (StableSortFunc lib_stable ltb) m = (Ok tt, m2) /\
    MakeVector m = (Ok v, m3) /\ insert_each zero grow ltb (contents m a) (m3, v) = (Ok tt, c) /\
    contents m1 a = contents m2 a /\ c_contents c = contents m1 a.
Proof.
  intros T ltb eqb lib_stable zero grow m a O ST W L. pose proof (ord_sw _ _ O) as SW.
  destruct (Props_Sort.C46_StableSort T ltb lib_stable m a SW ST W) as (m1 & E1 & _ & P1 & S1 & K1 & _).
  destruct (Props_Sort.C46_StableSortFunc T ltb lib_stable m a SW ST W) as (m2 & E2 & _ & P2 & S2 & K2 & _).
  destruct (lit_ok m (@nil T)) as (E3 & W3 & C3 & _).
  destruct (insert_each_ok zero grow ltb eqb O (contents m a) [] (m ++ [[]], mkSlice (length m) 0 (zlen (@nil T)) (zlen (@nil T)))) as (c & E4 & S4 & P4 & F4); auto.
  { apply i_nil. }
  { change (zlen (@nil T)) with 0. rewrite zlen_contents by auto. lia. }
  assert (K : forall s, Spec_Sort.keeps_order ltb (contents m a) s -> forall x, filter (eqb x) s = filter (eqb x) (contents m a)).
  { intros s Ks x. specialize (Ks x). cbn zeta in Ks. etransitivity; [|etransitivity; [exact Ks|]]; apply filter_ext; intros y; now rewrite (ord_eq _ _ O). }
  exists m1, m2. eexists _, _, c. split; [exact E1|]. split; [exact E2|]. split; [exact E3|]. split; [exact E4|]. split.
  - apply (stable_unique ltb eqb O); auto. intros x. now rewrite (K _ K1), (K _ K2).
  - apply (stable_unique ltb eqb O); auto. intros x. now rewrite F4, (K _ K1).
Qed.
Print Assumptions C113_stable_sorts_equal.

(** *** Every way to the set of elements *)
Lemma key_eq_of {T} (ltb eqb : T -> T -> bool) : ordered ltb eqb -> key_eq eqb /\ key_refl eqb /\ partial_equiv eqb.
Proof.
  intros O. assert (Sy : forall a b, eqb a b = true -> eqb b a = true) by (intros a b E; now rewrite (i_sym ltb eqb O)).
  split; [constructor; [auto|exact (i_trans ltb eqb O)]|]. split; [exact (i_refl ltb eqb O)|]. constructor; [auto|exact (i_trans ltb eqb O)].
Qed.
Lemma eqv_eqb {T} (ltb eqb : T -> T -> bool) : ordered ltb eqb -> forall x y, eqv ltb x y = eqb x y.
Proof. intros O x y. now rewrite (ord_eq _ _ O). Qed.
Lemma existsb_ext' {A} (f g : A -> bool) l : (forall x, f x = g x) -> existsb f l = existsb g l.
Proof. intros E. induction l as [|a l IH]; cbn [existsb]; auto. now rewrite E, IH. Qed.
Lemma has_all_contains {T} (eqb : T -> T -> bool) keys p : key_eq eqb -> has_all eqb keys p -> forall x, contains eqb keys x = p x.
Proof.
  intros KE [_ H] x. apply eq_true_iff_eq. rewrite H. unfold contains. rewrite existsb_exists. split; intros (y & I & E); exists y; split; auto; now apply (ke_sym _ KE).
Qed.
Lemma bset_of {T St} (eqb : T -> T -> bool) pick l o v : key_eq eqb -> key_refl eqb -> picks_one pick ->
  exists keys, bset_results (St := St) eqb pick [BSetOf l; BHas (Some 0%nat) v; BKeys (Some 0%nat) o] = [Ok (BRef (Some 0%nat)); Ok (BBool (contains eqb l v)); Ok (BSeq keys)] /\
    all_different eqb keys /\ forall x, contains eqb keys x = contains eqb l x.
Proof.
  intros KE KR PK. destruct (C66_finite_set T St eqb pick KE KR PK [BSetOf l; BHas (Some 0%nat) v; BKeys (Some 0%nat) o] eq_refl) as (w & A).
  apply accepts_cons_inv in A as (r1 & w1 & rs1 & -> & S1 & A). inversion S1; subst; clear S1. apply accepts_cons_inv in A as (r2 & w2 & rs2 & -> & S2 & A). inversion S2; subst; clear S2.
  apply accepts_cons_inv in A as (r3 & w3 & rs3 & -> & S3 & A). inversion S3; subst; clear S3. apply accepts_nil_inv in A as [-> ->].
  exists l0. split; auto. match goal with H : has_all eqb l0 _ |- _ => pose proof (has_all_contains eqb l0 _ KE H) as H2; destruct H as [H1 _] end. split; [exact H1|exact H2].
Qed.

(** Sort and Unique, a SkipListSet and a hash set all give the same elements; in
    order they are the same sequence up to ==. *)
Theorem C113_sets_agree : forall T St (ltb eqb : T -> T -> bool) lib_sort impl pick (zk : T) h0 l0 (m mk : Base.mem T) a ak draws o,
  ordered ltb eqb -> sort_contract lib_sort -> kind impl ltb -> picks_one pick -> wf_slice m a ->
  let l := contents m a in map fst draws = l ->
  exists s, strictly_sorted_by ltb s /\ (forall x, contains eqb s x = contains eqb l x) /\
  (exists m1 r m2, on_slice a (Sort ltb lib_sort) m = (Ok tt, m1) /\ Unique eqb a m1 = (Ok r, m2) /\ alike eqb (contents m2 r) s) /\
  (exists keys, fst (set_Keys (snd (NewSkipListSetOf zk impl draws (h0, l0)))) = Ok keys /\ alike eqb keys s) /\
  (exists keys, bset_results (St := St) eqb pick [BSetOf l; BKeys (Some 0%nat) o] = [Ok (BRef (Some 0%nat)); Ok (BSeq keys)] /\
    (wf_slice mk ak -> contents mk ak = keys -> exists m1, on_slice ak (Sort ltb lib_sort) mk = (Ok tt, m1) /\ alike eqb (contents m1 ak) s)).
Proof.
  intros T St ltb eqb lib_sort impl pick zk h0 l0 m mk a ak draws o O SC Hk PK W l Ed. pose proof (ord_sw _ _ O) as SW. destruct (key_eq_of ltb eqb O) as (KE & KR & PE).
  destruct (Props_Sort.C45_Sort T ltb lib_sort m a SW SC W) as (m1 & E1 & W1 & P1 & S1 & _).
  destruct (Props_Transform.C61_Unique T eqb PE m1 a W1) as (r & m2 & E2 & W2 & C2 & _). destruct (drop_sorted ltb eqb O _ S1) as [SS CC].
  assert (CL : forall x, contains eqb (drop_repeats eqb (contents m1 a)) x = contains eqb l x). { intros x. rewrite CC. now apply contains_perm. }
  exists (drop_repeats eqb (contents m1 a)). split; auto. split; auto. split; [|split].
  - exists m1, r, m2. split; auto. split; auto. rewrite C2. now apply (alike_refl ltb).
  - destruct (C15_of T impl ltb Hk zk h0 l0 draws) as (_ & keys & Ek & [Sk Mk]). exists keys. split; auto. apply (strict_unique ltb eqb O); auto. intros x. rewrite CL. apply eq_true_iff_eq.
    assert (X : existsb (fun kr => eqv ltb x (fst kr)) draws = contains eqb l x).
    { unfold contains. rewrite <- Ed. clear - O. induction draws as [|d ds IH]; cbn [map existsb]; auto. rewrite IH. f_equal. exact (eqv_eqb ltb eqb O x (fst d)). }
    rewrite <- X, Mk. unfold contains. rewrite existsb_exists. split; intros (y & I & E); exists y; split; auto.
    + rewrite (eqv_eqb ltb eqb O). now rewrite (i_sym ltb eqb O).
    + rewrite (eqv_eqb ltb eqb O) in E. now rewrite (i_sym ltb eqb O).
  - destruct (C66_finite_set T St eqb pick KE KR PK [BSetOf l; BKeys (Some 0%nat) o] eq_refl) as (w & A).
    apply accepts_cons_inv in A as (r1 & w1 & rs1 & E & X & A). inversion X; subst; clear X. apply accepts_cons_inv in A as (r3 & w3 & rs3 & -> & X & A). inversion X; subst; clear X. apply accepts_nil_inv in A as [-> ->].
    match goal with H : has_all eqb ?k _ |- _ => exists k; pose proof (has_all_contains eqb k _ KE H) as H2; destruct H as [H1 _]; set (keys := k) in * end. split; auto. intros Wk Ck.
    destruct (Props_Sort.C45_Sort T ltb lib_sort mk ak SW SC Wk) as (m3 & E3 & W3 & P3 & S3 & _). exists m3. split; auto. rewrite Ck in P3. apply (strict_unique ltb eqb O); auto.
    + apply (different_sorted ltb eqb O); auto. intros x. rewrite (times_perm eqb x _ _ P3). now apply (different_times ltb eqb O).
    + intros x. rewrite CL, (contains_perm eqb _ _ x P3). apply H2.
Qed.
Print Assumptions C113_sets_agree.

(** *** Every way to look for an element *)
Lemma filter_range {T} (p : T -> bool) s lo hi : 0 <= lo <= hi -> hi <= zlen s -> (forall i x, zget s i = Some x -> p x = (lo <=? i) && (i <? hi)) -> zlen (filter p s) = hi - lo.
Proof.
  intros H1 H2 H. pose proof (zsub_full s) as E. rewrite (zsub_split s 0 lo (zlen s)) in E by lia. rewrite (zsub_split s lo hi (zlen s)) in E by lia.
  assert (F : forall u v b, 0 <= u <= v -> v <= zlen s -> (forall i, u <= i < v -> (lo <=? i) && (i <? hi) = b) -> zlen (filter p (zsub s u v)) = if b then v - u else 0).
  { intros u v b Hu Hv Hb. assert (A : forall x, In x (zsub s u v) -> p x = b).
    { intros x I. apply in_zget in I as (j & Hj & G). rewrite zlen_zsub in Hj by lia. rewrite zget_zsub in G by lia. destruct (j <? v - u); [|discriminate]. rewrite (H _ _ G). apply Hb. lia. }
    rewrite <- (zlen_zsub s u v) by lia. generalize dependent (zsub s u v). intros r A. induction r as [|x r IH]; [now destruct b|]. cbn [filter]. rewrite (A x (or_introl eq_refl)).
    destruct b; [rewrite !zlen_cons; rewrite IH; auto|apply IH]; intros y I; apply A; now right. }
  rewrite <- E. rewrite !filter_app, !zlen_app. rewrite (F 0 lo false), (F lo hi true), (F hi (zlen s) false); try lia; intros i Hi;
    destruct (Z.leb_spec lo i), (Z.ltb_spec i hi); cbn [andb]; auto; lia.
Qed.
Lemma Count_times {T} (ltb eqb : T -> T -> bool) : ordered ltb eqb -> forall l v, Count eqb l v = Z.of_nat (times eqb v l).
Proof.
  intros O l v. rewrite Props_Lookup.C52_Count. unfold zlen, times. do 2 f_equal. apply filter_ext. intros x. apply (i_sym ltb eqb O).
Qed.
Lemma set_of_has {T} (ltb eqb : T -> T -> bool) : ordered ltb eqb -> forall (impl : @slimpl T unit) zk h0 l0 draws l v, kind impl ltb -> map fst draws = l ->
  fst (set_Has impl v (snd (NewSkipListSetOf zk impl draws (h0, l0)))) = Ok (contains eqb l v).
Proof.
  intros O impl zk h0 l0 draws l v Hk Ed. pose proof (new_SRel impl ltb Hk zk h0 l0) as R. pose proof (C15_created T zk h0 l0) as E0. unfold new_set in R. unfold NewSkipListSetOf.
  destruct (NewSkipListSet zk (h0, l0)) as [o s] eqn:En. cbn [fst snd] in *. subst o. rewrite (Proof_SkipList.bind_eq _ _ _ _ _ En). destruct (insert_loop_ok impl ltb Hk (nth_error h0) draws [] s R) as (s' & E & R'). rewrite E. cbn [snd].
  pose proof (proj1 (set_call impl ltb Hk (nth_error h0) (SHas (St := unit) v) _ s' R')) as C. pose proof (mem_fold_add impl ltb Hk draws [] v) as M. cbn [set_spec fst] in C. rewrite M in C. cbn [Spec_Set.mem existsb orb] in C.
  assert (X : existsb (fun kr => eqv ltb v (fst kr)) draws = contains eqb l v).
  { unfold contains. rewrite <- Ed. clear - O. induction draws as [|d ds IH]; cbn [map existsb]; auto. rewrite IH. f_equal. exact (eqv_eqb ltb eqb O v (fst d)). }
  rewrite X in C. eapply Props_SkipList.show_ok; [|exact C]. intros ? ? Y; now injection Y.
Qed.
(** An element is in the slice: by Find and Index and Count in the slice, by
    BinarySearch and the bounds in the sorted slice, by Has in a sorted set and in a
    hash set of its elements. *)
Theorem C113_lookups_agree : forall T St (ltb eqb : T -> T -> bool) lib_sort impl pick (zk : T) h0 l0 (m : Base.mem T) a draws v,
  ordered ltb eqb -> sort_contract lib_sort -> kind impl ltb -> picks_one pick -> wf_slice m a ->
  let l := contents m a in map fst draws = l ->
  let found := contains eqb l v in
  exists m1, on_slice a (Sort ltb lib_sort) m = (Ok tt, m1) /\ let s := contents m1 a in
  IsSorted ltb s = true /\ IsMinHeap ltb s = Ok true /\
  (exists lo hi, LowerBound ltb s v = Ok lo /\ UpperBound ltb s v = Ok hi /\ hi - lo = Count eqb l v /\
    BinarySearch ltb eqb s v = Ok (if found then lo else -1, found)) /\
  snd (Model_Lookup.Find eqb l v) = found /\ (0 <=? Index eqb l v) = found /\ (0 <? Count eqb l v) = found /\
  fst (set_Has impl v (snd (NewSkipListSetOf zk impl draws (h0, l0)))) = Ok found /\
  bset_results (St := St) eqb pick [BSetOf l; BHas (Some 0%nat) v] = [Ok (BRef (Some 0%nat)); Ok (BBool found)].
Proof.
  intros T St ltb eqb lib_sort impl pick zk h0 l0 m a draws v O SC Hk PK W l Ed found. pose proof (ord_sw _ _ O) as SW. destruct (key_eq_of ltb eqb O) as (KE & KR & PE).
  destruct (Props_Sort.C45_Sort T ltb lib_sort m a SW SC W) as (m1 & E1 & W1 & P1 & S1 & _). exists m1. split; auto. cbn zeta. fold l in P1.
  assert (Ft : found = negb (Nat.eqb (times eqb v l) 0)) by apply contains_times.
  assert (Fi : forall x, In x l -> eqb x v = true -> found = true). { intros x I E. unfold found, contains. apply existsb_exists. exists x. split; auto. now rewrite (i_sym ltb eqb O). }
  assert (Ff : (forall x, In x l -> eqb x v = false) -> found = false). { intros H. unfold found, contains. apply not_true_is_false. rewrite existsb_exists. intros (x & I & E). rewrite (i_sym ltb eqb O), H in E; auto. discriminate. }
  split; [now apply Props_Sort.C47_IsSorted|]. split; [|split; [|split; [|split; [|split; [|split]]]]].
  - destruct (Props_Heap.C37_IsMinHeap T ltb (contents m1 a)) as (b & E & Hb). rewrite E. f_equal. apply Hb. now apply sorted_heap.
  - destruct (Props_BinarySearch.C44_equal_range T ltb eqb _ v O S1) as (lo & hi & El & Eh & L1 & L2 & Hr). exists lo, hi. split; auto. split; auto.
    pose proof (filter_range (fun x => eqb x v) (contents m1 a) lo hi L1 L2 Hr) as Fr.
    assert (Ct : hi - lo = Count eqb l v). { rewrite <- Fr, <- Props_Lookup.C52_Count, !(Count_times ltb eqb O). f_equal. now apply times_perm. }
    split; auto. destruct (Props_BinarySearch.C43_BinarySearch T ltb eqb _ v O S1) as ([i b] & Eb & Hb). rewrite Eb. f_equal. destruct b.
    + destruct Hb as [(x & G & Ex) Hb]. assert (found = true) as ->. { apply (Fi x); auto. eapply Permutation_in; [exact P1|]. eapply i_In; eauto. }
      f_equal. rewrite (Hr _ _ G) in Ex. apply andb_true_iff in Ex as [X1 X2]. rewrite Z.leb_le in X1. rewrite Z.ltb_lt in X2. apply Z.le_antisymm; [|auto]. apply Z.nlt_ge. intros X.
      destruct (zget (contents m1 a) lo) as [y|] eqn:Gy; [|apply zget_None in Gy; lia]. pose proof (Hb lo y X Gy) as Y. rewrite (Hr _ _ Gy) in Y. apply andb_false_iff in Y. rewrite Z.leb_gt, Z.ltb_ge in Y. lia.
    + destruct Hb as [-> Hb]. rewrite Ff; auto. intros x I. apply Hb. eapply Permutation_in; [symmetry; exact P1|auto].
  - destruct (Props_Lookup.C51_Find T eqb l v) as [(r & E & (x & G & Ex) & _)|[E H]]; rewrite E; cbn [snd]; symmetry; [|now apply Ff]. apply (Fi x); auto. eapply i_In; eauto.
  - destruct (Props_Lookup.C51_Index T eqb l v) as [(r & E & (x & G & Ex) & _)|[E H]]; rewrite E; symmetry; [|now apply Ff]. apply zget_Some_range in G as R. rewrite (Fi x); auto; [symmetry; apply Z.leb_le; lia|]. eapply i_In; eauto.
  - rewrite (Count_times ltb eqb O), Ft. destruct (times eqb v l); auto.
  - now apply (set_of_has ltb eqb O).
  - destruct (bset_of (St := St) eqb pick l [] v KE KR PK) as (keys & E & _). unfold bset_results in *. cbn [run] in *.
    destruct (bset_step eqb pick (BSetOf l) []) as [r1 w1]. destruct (bset_step eqb pick (BHas (Some 0%nat) v) w1) as [r2 w2]. destruct (bset_step eqb pick (BKeys (Some 0%nat) []) w2) as [r3 w3]. cbn [fst snd] in *. injection E as -> -> _. reflexivity.
Qed.
Print Assumptions C113_lookups_agree.

(** The smallest and the largest element are the ends of the sorted slice, and the
    top of the heap. *)
Theorem C113_extremes_agree : forall T (ltb eqb : T -> T -> bool) lib_sort (m : Base.mem T) a,
  ordered ltb eqb -> sort_contract lib_sort -> wf_slice m a -> s_len a <= max_int -> contents m a <> [] ->
  exists m1 m2 lo hi x y t,
    on_slice a (Sort ltb lib_sort) m = (Ok tt, m1) /\ on_slice a (MakeMinHeap ltb) m = (Ok tt, m2) /\
    MinN ltb (contents m a) = Ok lo /\ MaxN ltb (contents m a) = Ok hi /\
    zget (contents m1 a) 0 = Some x /\ zget (contents m1 a) (s_len a - 1) = Some y /\ zget (contents m2 a) 0 = Some t /\
    eqb lo x = true /\ eqb hi y = true /\ eqb lo t = true.
Proof.
  intros T ltb eqb lib_sort m a O SC W L N. pose proof (ord_sw _ _ O) as SW.
  destruct (Props_Sort.C45_Sort T ltb lib_sort m a SW SC W) as (m1 & E1 & W1 & P1 & S1 & _).
  destruct (Props_Heap.C33_MakeMinHeap T ltb m a SW W L) as (m2 & E2 & W2 & H2 & P2 & _).
  destruct (Props_Lookup.C50_MinN T ltb _ SW N) as (lo & E3 & i & G3 & M3 & _). destruct (Props_Lookup.C50_MaxN T ltb _ SW N) as (hi & E4 & j & G4 & M4 & _).
  assert (Lp : 0 < s_len a). { rewrite <- (zlen_contents m a W). destruct (contents m a) as [|z r]; [congruence|]. rewrite zlen_cons. pose proof (zlen_nonneg r). lia. }
  destruct (zget_range (contents m1 a) 0) as (x & Gx); [rewrite zlen_contents; auto; lia|]. destruct (zget_range (contents m1 a) (s_len a - 1)) as (y & Gy); [rewrite zlen_contents; auto; lia|].
  destruct (zget_range (contents m2 a) 0) as (t & Gt); [rewrite zlen_contents; auto; lia|].
  exists m1, m2, lo, hi, x, y, t. split; auto. split; auto. split; auto. split; auto. split; auto. split; auto. split; auto.
  assert (Ilo : In lo (contents m a)) by (eapply i_In; eauto). assert (Ihi : In hi (contents m a)) by (eapply i_In; eauto).
  assert (Ix : In x (contents m a)) by (eapply Permutation_in; [exact P1|eapply i_In; eauto]). assert (Iy : In y (contents m a)) by (eapply Permutation_in; [exact P1|eapply i_In; eauto]).
  assert (It : In t (contents m a)) by (eapply Permutation_in; [exact P2|eapply i_In; eauto]).
  assert (I1 : forall z, In z (contents m a) -> In z (contents m1 a)) by (intros z I; eapply Permutation_in; [symmetry; exact P1|auto]).
  split; [|split]; rewrite (i_eq ltb eqb O).
  - split; [|now apply M3]. apply I1 in Ilo. apply in_zget in Ilo as (k & Hk & Gk). destruct (Z.eq_dec k 0) as [->|Nk]; [rewrite Gx in Gk; injection Gk as ->; apply (sw_irrefl _ SW)|]. apply (S1 0 k); auto. lia.
  - split; [now apply M4|]. apply I1 in Ihi. apply in_zget in Ihi as (k & Hk & Gk). rewrite zlen_contents in Hk by auto. destruct (Z.eq_dec k (s_len a - 1)) as [->|Nk]; [rewrite Gy in Gk; injection Gk as ->; apply (sw_irrefl _ SW)|]. apply (S1 k (s_len a - 1)); auto. lia.
  - split; [|now apply M3]. assert (I : In lo (contents m2 a)) by (eapply Permutation_in; [symmetry; exact P2|auto]). apply in_zget in I as (k & Hk & Gk).
    clear - Gt Gk H2 SW Hk. assert (X : forall n k z, (Z.to_nat k < n)%nat -> 0 <= k -> zget (contents m2 a) k = Some z -> ltb z t = false).
    { induction n as [|n IH]; intros c z Hn Hc Gz; [lia|]. destruct (Z.eq_dec c 0) as [->|Nc]; [rewrite Gt in Gz; injection Gz as ->; apply (sw_irrefl _ SW)|].
      assert (D : 0 <= (c - 1) / 2 < c) by (split; [apply Z.div_pos; lia|apply Z.div_lt_upper_bound; lia]). apply zget_Some_range in Gz as R.
      destruct (zget_range (contents m2 a) ((c - 1) / 2)) as (p & Gp); [lia|]. apply (sw_negtrans _ SW z p t); [apply (H2 c p z); auto; lia|]. eapply (IH ((c - 1) / 2)); eauto; lia. }
    eapply (X _ k); eauto; lia.
Qed.
Print Assumptions C113_extremes_agree.

(** Two slices have the same elements, each as often, exactly when their sorted
    versions are Equal. *)
Theorem C113_same_elements : forall T (ltb eqb : T -> T -> bool) lib_sort (m m' : Base.mem T) a b,
  ordered ltb eqb -> sort_contract lib_sort -> wf_slice m a -> wf_slice m' b ->
  exists m1 m2 e c, on_slice a (Sort ltb lib_sort) m = (Ok tt, m1) /\ on_slice b (Sort ltb lib_sort) m' = (Ok tt, m2) /\
    Equal eqb (contents m1 a) (contents m2 b) = Ok e /\ Compare ltb (contents m1 a) (contents m2 b) = Ok c /\
    (e = true <-> forall x, Count eqb (contents m a) x = Count eqb (contents m' b) x) /\ (e = true <-> c = 0).
Proof.
  intros T ltb eqb lib_sort m m' a b O SC W W'. pose proof (ord_sw _ _ O) as SW.
  destruct (Props_Sort.C45_Sort T ltb lib_sort m a SW SC W) as (m1 & E1 & W1 & P1 & S1 & _). destruct (Props_Sort.C45_Sort T ltb lib_sort m' b SW SC W') as (m2 & E2 & W2 & P2 & S2 & _).
  destruct (Props_Lookup.C49_Equal T eqb (contents m1 a) (contents m2 b)) as (e & E3 & He).
  destruct (Props_Lookup.C48_Compare_lex T ltb (contents m1 a) (contents m2 b)) as (c & E4 & _).
  { intros x y X. destruct (ltb y x) eqn:Y; auto. rewrite <- (sw_irrefl _ SW x). symmetry. eapply (sw_trans _ SW); eauto. }
  exists m1, m2, e, c. split; auto. split; auto. split; auto. split; auto. split.
  - assert (A : e = true <-> alike eqb (contents m1 a) (contents m2 b)).
    { rewrite He. generalize (contents m1 a) (contents m2 b). clear. intros l l'. split.
      - revert l'. induction l as [|x l IH]; intros [|y l'] [HL H]; try constructor; try (unfold zlen in HL; cbn [length] in HL; lia).
        + apply (H 0 x y); reflexivity.
        + apply IH. rewrite !zlen_cons in HL. split; [lia|]. intros i u v Gu Gv. apply zget_Some_range in Gu as R. apply (H (i + 1) u v); rewrite zget_cons_S by lia; now rewrite Z.add_simpl_r.
      - induction 1 as [|x y l l' E H [IH1 IH2]]; [split; auto; intros i x y G; apply i_In in G; destruct G|]. rewrite !zlen_cons. split; [lia|]. intros i u v Gu Gv. apply zget_Some_range in Gu as R.
        destruct (Z.eq_dec i 0) as [->|Ni]; [injection Gu as <-; injection Gv as <-; auto|]. rewrite zget_cons_S in Gu by lia. rewrite zget_cons_S in Gv by lia. eauto. }
    rewrite A. split.
    + intros H x. rewrite !(Count_times ltb eqb O). f_equal. rewrite <- (times_perm eqb x _ _ P1), <- (times_perm eqb x _ _ P2). now apply (alike_times ltb eqb O).
    + intros H. apply (i_unique ltb eqb O); auto. intros x. specialize (H x). rewrite !(Count_times ltb eqb O) in H. apply Nat2Z.inj in H. now rewrite (times_perm eqb x _ _ P1), (times_perm eqb x _ _ P2).
  - symmetry. exact (Props_Lookup.C48_Compare_zero_iff_Equal T ltb eqb _ _ c e O E4 E3).
Qed.
Print Assumptions C113_same_elements.

(** Concrete case: one slice through all of it. *)
Example C113_hyp : ordered Z.ltb Z.eqb /\ sort_contract Proof_Sort.insertion_sort /\ stable_contract Proof_Sort.insertion_sort /\
  kind (implOrdered (V := unit) Z.ltb Z.eqb) Z.ltb /\ picks_one (fun a _ : Z => a) /\
  let m := [[9; 3; 1; 3; 2; 9]] in let a := mkSlice 0 1 4 5 in let draws := [(3, 7); (1, 8); (3, 9); (2, 2 ^ 38)] in
  wf_slice m a /\ contents m a = [3; 1; 3; 2] /\ map fst draws = contents m a /\
  contents (snd (on_slice a (Sort Z.ltb Proof_Sort.insertion_sort) m)) a = [1; 2; 3; 3] /\
  c_contents (snd (insert_each 0 (fun _ n => n) Z.ltb [3; 1; 3; 2] (m ++ [[]], mkSlice 1 0 0 0))) = [1; 2; 3; 3] /\
  fst (run (pq_step 0 (fun _ n => n)) (map PPush [3; 1; 3; 2] ++ repeat PPop 4) (NewPriorityQueue Z.ltb m)) = repeat (Ok ONone) 4 ++ map (fun x => Ok (OVal x)) [1; 2; 3; 3] /\
  fst (set_Keys (snd (NewSkipListSetOf 0 (implOrdered Z.ltb Z.eqb) draws ([], mkSL 0 0 None [])))) = Ok [1; 2; 3] /\
  bset_results (St := unit) Z.eqb (fun a _ => a) [BSetOf [3; 1; 3; 2]; BKeys (Some 0%nat) [2%nat]] = [Ok (BRef (Some 0%nat)); Ok (BSeq [2; 3; 1])] /\
  BinarySearch Z.ltb Z.eqb [1; 2; 3; 3] 3 = Ok (2, true) /\ UpperBound Z.ltb [1; 2; 3; 3] 3 = Ok 4 /\ Count Z.eqb [3; 1; 3; 2] 3 = 2.
Proof.
  split; [exact Z_ordered|]. split; [apply Proof_Sort.stable_is_sort; apply Proof_Sort.insertion_stable|]. split; [apply Proof_Sort.insertion_stable|].
  split; [left; exists Z.eqb; split; [reflexivity|exact Z_ordered]|]. split; [intros x y; now left|]. split; [unfold wf_slice; cbn; unfold zlen; cbn; lia|]. vm_compute. repeat split.
Qed.
