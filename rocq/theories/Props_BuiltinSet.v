(** C66-C68: the hash sets of builtin_set.go. *)
From Verif Require Import BaseLemmas Spec Trace Spec_List Spec_BSet Model_BuiltinSet Proof_BuiltinSet.

(** The results of a sequence of calls, and the maps afterwards. *)
Definition bset_results {K St} (eqb : K -> K -> bool) pick (ops : list (bop K St)) : list (outcome (bres K St)) := fst (run (bset_step eqb pick) ops []).
Definition bset_after {K St} (eqb : K -> K -> bool) pick (ops : list (bop K St)) : list (gomap K) := snd (run (bset_step eqb pick) ops []).

Lemma bset_run {K St} (eqb : K -> K -> bool) pick : key_eq eqb -> key_refl eqb -> picks_one pick -> forall (ops : list (bop K St)) w h, wrel eqb w h -> refs_ok (length w) ops = true ->
  exists w', accepts (bset_spec eqb) w ops (fst (run (bset_step eqb pick) ops h)) w' /\ wrel eqb w' (snd (run (bset_step eqb pick) ops h)).
Proof.
  intros KE RF PK. induction ops as [|o ops IH]; intros w h R V; [exists w; split; [constructor|auto]|]. cbn [refs_ok] in V. apply andb_true_iff in V as [V1 V2].
  destruct (step_ok eqb pick KE RF PK w h o R V1) as (w1 & S & R1 & L). rewrite <- L in V2. destruct (IH w1 _ R1 V2) as (w2 & A & R2). exists w2. cbn [run].
  destruct (bset_step eqb pick o h) as [r h1]. cbn [fst snd] in *. destruct (run (bset_step eqb pick) ops h1) as [rs h2]. cbn [fst snd] in *. split; auto. econstructor; eauto.
Qed.

(** *** C66: sets are mathematical sets *)
Theorem C66_finite_set : forall K St (eqb : K -> K -> bool) pick, key_eq eqb -> key_refl eqb -> picks_one pick ->
  forall ops : list (bop K St), refs_ok 0 ops = true -> exists w, accepts (bset_spec eqb) [] ops (bset_results eqb pick ops) w.
Proof. intros K St eqb pick KE RF PK ops V. destruct (bset_run eqb pick KE RF PK ops [] []) as (w & A & _); [constructor|auto|eauto]. Qed.
Print Assumptions C66_finite_set.

(** Calls that differ only in the order in which range loops run. *)
Definition unorder {K St} (o : bop K St) : bop K St :=
  match o with
  | BClear s _ => BClear s [] | BUpdate s t _ => BUpdate s t [] | BKeys s _ => BKeys s [] | BForEach s _ cb st => BForEach s [] cb st | BForEachIf s _ cb st => BForEachIf s [] cb st
  | BUnion s t _ _ => BUnion s t [] [] | BIntersection s t _ => BIntersection s t [] | BDifference s t _ => BDifference s t [] | BDisjoint s t _ => BDisjoint s t []
  | BSubset s t _ => BSubset s t [] | BSuperset s t _ => BSuperset s t [] | o => o
  end.
(** Calls that show the elements one after the other. *)
Definition shows_order {K St} (o : bop K St) : bool := match o with BKeys _ _ | BForEach _ _ _ _ | BForEachIf _ _ _ _ => true | _ => false end.
Section Det.
Context {K St : Type} (eqb : K -> K -> bool).
Hypothesis KE : key_eq eqb.
Hypothesis RF : key_refl eqb.
Lemma size_ext p q n n' : (forall x, p x = q x) -> size eqb p n -> size eqb q n' -> n = n'.
Proof using KE RF. intros E H H'. apply (size_unique eqb KE RF p); auto. destruct H' as (l & A & ->). exists l. split; auto. now apply (has_all_same eqb l q p). Qed.
Lemma sem_ext (w w' : @world K) s : Forall2 same w w' -> same (sem w s) (sem w' s).
Proof. intros H x. destruct s as [i|]; cbn; auto. revert i. induction H as [|p q w w' Hp H IH]; intros [|i]; cbn; auto. Qed.
Lemma nil_ext (w w' : @world K) s : Forall2 same w w' -> is_nil_set w s = is_nil_set w' s.
Proof. intros H. destruct s as [i|]; cbn; auto. replace (length w') with (length w); auto. induction H; cbn; auto. Qed.
Lemma change_ext (w w' : @world K) s p q : Forall2 same w w' -> same p q -> Forall2 same (change s p w) (change s q w').
Proof. intros H E. destruct s as [i|]; cbn; auto. revert i. induction H as [|? ? w w' Hp H IH]; intros [|i]; cbn; constructor; auto. Qed.
Lemma len_ext (w w' : @world K) : Forall2 same w w' -> length w = length w'.
Proof. intros H. induction H; cbn; auto. Qed.
Lemma bool_ext (b b' : bool) (P Q : Prop) : (b = true <-> P) -> (b' = true <-> Q) -> (P <-> Q) -> b = b'.
Proof. intros H H' E. apply eq_true_iff_eq. now rewrite H, H', E. Qed.
Lemma spec_det w w' (o o' : bop K St) r r' w1 w1' : Forall2 same w w' -> unorder o = unorder o' -> bset_spec eqb w o r w1 -> bset_spec eqb w' o' r' w1' ->
  (shows_order o = false -> r = r') /\ Forall2 same w1 w1'.
Proof using KE RF.
  intros W U H H'. pose proof (len_ext _ _ W) as L. pose proof (fun s => sem_ext w w' s W) as SE. pose proof (fun s => nil_ext w w' s W) as NE. unfold same in *.
  destruct H; destruct o'; cbn in U; try discriminate; injection U as; subst; inversion H'; subst; cbn [shows_order];
  (split; [intros X; try discriminate; try reflexivity | try exact W; try (apply change_ext; [exact W|]; unfold same; intros x; rewrite ?SE; reflexivity); try (apply Forall2_app; [exact W|]; constructor; [unfold same; intros x; rewrite ?SE; reflexivity|constructor])]);
  rewrite ?SE, ?L, ?NE in *; try reflexivity; try congruence.
  all: try (do 2 f_equal; eapply size_ext; [|eassumption|eassumption]; intros x; cbn beta; rewrite ?SE; reflexivity).
  all: try (do 2 f_equal; eapply bool_ext; [eassumption|eassumption|]; split; intros Y x; specialize (Y x); cbn beta in *; rewrite ?SE in *; auto; fail).
  1-2: exfalso; destruct ks0; [congruence|]; rewrite H3 in H; discriminate.
  1-2: exfalso; destruct ks0; [congruence|]; match goal with X : _ && _ = false |- _ => rewrite H in X; discriminate X end.
  1-2: exfalso; destruct H as [H|H]; [congruence|]; match goal with X : ~ _ |- _ => apply X end; intros x; rewrite <- SE; apply H.
  1-2: exfalso; match goal with X : _ \/ _ |- _ => destruct X as [X|X]; [congruence|] end; match goal with X : ~ _ |- _ => apply X end; intros x; rewrite SE; auto.
Qed.
Lemma accepts_det ops : forall w w' (ops' : list (bop K St)) rs rs' w1 w1', Forall2 same w w' -> map unorder ops = map unorder ops' -> accepts (bset_spec eqb) w ops rs w1 -> accepts (bset_spec eqb) w' ops' rs' w1' ->
  forall i o, nth_error ops i = Some o -> shows_order o = false -> nth_error rs i = nth_error rs' i.
Proof using KE RF.
  induction ops as [|o ops IH]; intros w w' [|o' ops'] rs rs' w1 w1' W U A A' i x Hi Hx; try discriminate; [destruct i; discriminate|]. injection U as Uo U.
  apply accepts_cons_inv in A as (r & wa & rs1 & -> & S & A). apply accepts_cons_inv in A' as (r' & wb & rs2 & -> & S' & A'). destruct (spec_det _ _ _ _ _ _ _ _ W Uo S S') as [D W'].
  destruct i as [|i]; cbn in *; [injection Hi as ->; f_equal; auto|]. eapply IH; eauto.
Qed.
End Det.
(** Except for the calls that show elements one by one, results depend neither on
    the order in which range loops run nor on which of two equal keys is kept. *)
Theorem C66_order_irrelevant : forall K St (eqb : K -> K -> bool) pick pick', key_eq eqb -> key_refl eqb -> picks_one pick -> picks_one pick' ->
  forall ops ops' : list (bop K St), refs_ok 0 ops = true -> refs_ok 0 ops' = true -> map unorder ops = map unorder ops' ->
  forall i o, nth_error ops i = Some o -> shows_order o = false -> nth_error (bset_results eqb pick ops) i = nth_error (bset_results eqb pick' ops') i.
Proof.
  intros K St eqb pick pick' KE RF PK PK' ops ops' V V' U. destruct (C66_finite_set K St eqb pick KE RF PK ops V) as (w & A). destruct (C66_finite_set K St eqb pick' KE RF PK' ops' V') as (w' & A').
  eapply accepts_det; eauto.
Qed.
Print Assumptions C66_order_irrelevant.
(** Len counts: for any set, Keys lists every element once, and Len is the length
    of that list. *)
Theorem C66_len_keys : forall K St (eqb : K -> K -> bool) pick, key_eq eqb -> key_refl eqb -> picks_one pick -> forall (ops : list (bop K St)) s o, refs_ok 0 ops = true ->
  let h := bset_after eqb pick ops in
  exists l, b_Keys s o h = (Ok l, h) /\ b_Len s h = (Ok (zlen l), h) /\ b_IsEmpty s h = (Ok (zlen l =? 0), h) /\
    (forall i j a b, i <> j -> nth_error l i = Some a -> nth_error l j = Some b -> eqb a b = false) /\
    forall x, b_Has eqb s x h = (Ok (existsb (eqb x) l), h).
Proof.
  intros K St eqb pick KE RF PK ops s o V h. destruct (bset_run eqb pick KE RF PK ops [] []) as (w & _ & R); [constructor|auto|]. fold (bset_after eqb pick ops) in R. fold h in R. clearbody h.
  destruct (wrel_sem eqb w h s R) as [W _]. exists (map snd (visit (rounds o (look h s)) (look h s))). repeat split.
  - unfold b_Keys, range. rewrite range_for by auto. now rewrite for_collect.
  - unfold b_Len, len_map. do 2 f_equal. unfold zlen. rewrite map_length. f_equal. symmetry. apply Permutation_length, (visit_perm eqb); auto.
  - unfold b_IsEmpty, len_map, bind, ret. do 3 f_equal. unfold zlen. rewrite map_length. f_equal. symmetry. apply Permutation_length, (visit_perm eqb); auto.
  - apply (visit_has_all eqb o _ W).
  - intros x. unfold b_Has, has_key. do 2 f_equal. symmetry. apply (has_keys eqb KE o (look h s) x W).
Qed.
Print Assumptions C66_len_keys.
Example C66_hyp : key_eq Z.eqb /\ key_refl Z.eqb /\ picks_one (fun a _ : Z => a) /\
  let ops := [BSetOf [3; 1; 3]; BInsertN (Some 0%nat) [5; 1; 7; 5]; BRemoveN (Some 0%nat) [1; 9; 1; 3]; BKeys (Some 0%nat) [3%nat]; BUpdate (Some 0%nat) (Some 0%nat) [2%nat; 9%nat]; BLen (Some 0%nat);
              BInsert None 4; BClear (Some 0%nat) []; BIsEmpty (Some 0%nat); BUpdate None (Some 0%nat) []; BHas None 1; BInsertN None []] in
  refs_ok (St := unit) 0 ops = true /\
  bset_results (St := unit) Z.eqb (fun a _ => a) ops = [Ok (BRef (Some 0%nat)); Ok (BInt 2); Ok (BInt 2); Ok (BSeq [7; 5]); Ok BNone; Ok (BInt 2); Panic; Ok BNone; Ok (BBool true); Ok BNone; Ok (BBool false); Ok (BInt 0)].
Proof.
  split; [split; intros *; rewrite !Z.eqb_eq; lia|]. split; [intros a; apply Z.eqb_refl|]. split; [intros a b; now left|]. vm_compute. auto.
Qed.

(** *** C67: set algebra *)
(** s contains x. *)
Definition holds {K} (eqb : K -> K -> bool) (h : list (gomap K)) (s : sref) (x : K) : bool := match fst (b_Has eqb s x h) with Ok b => b | _ => false end.
Section Algebra.
Context {K St : Type} (eqb : K -> K -> bool) (pick : K -> K -> K).
Hypothesis KE : key_eq eqb.
Hypothesis RF : key_refl eqb.
Hypothesis PK : picks_one pick.
Lemma alg (ops : list (bop K St)) s t : refs_ok 0 ops = true -> ref_ok (length (bset_after eqb pick ops)) s = true -> ref_ok (length (bset_after eqb pick ops)) t = true ->
  exists w, wrel eqb w (bset_after eqb pick ops) /\ ref_ok (length w) s = true /\ ref_ok (length w) t = true /\ forall u x, sem w u x = holds eqb (bset_after eqb pick ops) u x.
Proof using KE RF PK.
  intros V Vs Vt. destruct (bset_run eqb pick KE RF PK ops [] []) as (w & _ & R); [constructor|auto|]. fold (bset_after eqb pick ops) in R. exists w. rewrite (wrel_len eqb w _ R). repeat split; auto. intros u x. apply (wrel_sem eqb w _ u R).
Qed.
Lemma holds_new w h m p x : wrel eqb (w ++ [p]) (h ++ [m]) -> length w = length h -> holds eqb (h ++ [m]) (Some (length h)) x = p x.
Proof. intros R L. pose proof (proj2 (wrel_sem eqb _ _ (Some (length h)) R) x) as E. cbn [sem] in E. rewrite <- L, nth_middle in E. rewrite E, L. reflexivity. Qed.
End Algebra.

(** The operand sets [s], [t] may be nil, equal, or any sets made before.  A new
    map is appended and every existing map is left as it is. *)
Theorem C67_union : forall K St (eqb : K -> K -> bool) pick, key_eq eqb -> key_refl eqb -> picks_one pick -> forall (ops : list (bop K St)) s t o o',
  let h := bset_after eqb pick ops in refs_ok 0 ops = true -> ref_ok (length h) s = true -> ref_ok (length h) t = true ->
  exists m, b_Union eqb pick s t o o' h = (Ok (Some (length h)), h ++ [m]) /\ forall x, holds eqb (h ++ [m]) (Some (length h)) x = holds eqb h s x || holds eqb h t x.
Proof.
  intros K St eqb pick KE RF PK ops s t o o' h V Vs Vt. destruct (alg eqb pick KE RF PK ops s t V Vs Vt) as (w & R & Ws & Wt & E). fold h in R, E. destruct (union_ok eqb pick KE PK w h s t o o' R Ws Wt) as (m & Em & Hm).
  exists m. split; auto. intros x. rewrite (holds_new eqb w h m (fun x => sem w s x || sem w t x) x); [now rewrite !E|now apply wrel_snoc|exact (wrel_len eqb w h R)].
Qed.
Print Assumptions C67_union.
Theorem C67_intersection : forall K St (eqb : K -> K -> bool) pick, key_eq eqb -> key_refl eqb -> picks_one pick -> forall (ops : list (bop K St)) s t o,
  let h := bset_after eqb pick ops in refs_ok 0 ops = true -> ref_ok (length h) s = true -> ref_ok (length h) t = true ->
  exists m, b_Intersection eqb pick s t o h = (Ok (Some (length h)), h ++ [m]) /\ forall x, holds eqb (h ++ [m]) (Some (length h)) x = holds eqb h s x && holds eqb h t x.
Proof.
  intros K St eqb pick KE RF PK ops s t o h V Vs Vt. destruct (alg eqb pick KE RF PK ops s t V Vs Vt) as (w & R & Ws & Wt & E). fold h in R, E. destruct (intersection_ok eqb pick KE PK w h s t o R Ws Wt) as (m & Em & Hm).
  exists m. split; auto. intros x. rewrite (holds_new eqb w h m (fun x => sem w s x && sem w t x) x); [now rewrite !E|now apply wrel_snoc|exact (wrel_len eqb w h R)].
Qed.
Print Assumptions C67_intersection.
Theorem C67_difference : forall K St (eqb : K -> K -> bool) pick, key_eq eqb -> key_refl eqb -> picks_one pick -> forall (ops : list (bop K St)) s t o,
  let h := bset_after eqb pick ops in refs_ok 0 ops = true -> ref_ok (length h) s = true -> ref_ok (length h) t = true ->
  exists m, b_Difference eqb pick s t o h = (Ok (Some (length h)), h ++ [m]) /\ forall x, holds eqb (h ++ [m]) (Some (length h)) x = holds eqb h s x && negb (holds eqb h t x).
Proof.
  intros K St eqb pick KE RF PK ops s t o h V Vs Vt. destruct (alg eqb pick KE RF PK ops s t V Vs Vt) as (w & R & Ws & Wt & E). fold h in R, E. destruct (difference_ok eqb pick KE PK w h s t o R Ws Wt) as (m & Em & Hm).
  exists m. split; auto. intros x. rewrite (holds_new eqb w h m (fun x => sem w s x && negb (sem w t x)) x); [now rewrite !E|now apply wrel_snoc|exact (wrel_len eqb w h R)].
Qed.
Print Assumptions C67_difference.
Theorem C67_disjoint : forall K St (eqb : K -> K -> bool) pick, key_eq eqb -> key_refl eqb -> picks_one pick -> forall (ops : list (bop K St)) s t o,
  let h := bset_after eqb pick ops in refs_ok 0 ops = true -> ref_ok (length h) s = true -> ref_ok (length h) t = true ->
  exists b, b_IsDisjointOf eqb s t o h = (Ok b, h) /\ (b = true <-> forall x, ~ (holds eqb h s x = true /\ holds eqb h t x = true)).
Proof.
  intros K St eqb pick KE RF PK ops s t o h V Vs Vt. destruct (alg eqb pick KE RF PK ops s t V Vs Vt) as (w & R & Ws & Wt & E). fold h in R, E. destruct (disjoint_ok eqb KE RF w h s t o R) as (b & Eb & Hb).
  exists b. split; auto. rewrite Hb. unfold same, none. split; intros H x; specialize (H x); rewrite <- !E in *; [intros [X Y]; now rewrite X, Y in H|]. destruct (sem w s x), (sem w t x); auto. exfalso. auto.
Qed.
Print Assumptions C67_disjoint.
Theorem C67_subset : forall K St (eqb : K -> K -> bool) pick, key_eq eqb -> key_refl eqb -> picks_one pick -> forall (ops : list (bop K St)) s t o,
  let h := bset_after eqb pick ops in refs_ok 0 ops = true -> ref_ok (length h) s = true -> ref_ok (length h) t = true ->
  exists b, b_IsSubsetOf eqb s t o h = (Ok b, h) /\ (b = true <-> forall x, holds eqb h s x = true -> holds eqb h t x = true).
Proof.
  intros K St eqb pick KE RF PK ops s t o h V Vs Vt. destruct (alg eqb pick KE RF PK ops s t V Vs Vt) as (w & R & Ws & Wt & E). fold h in R, E. destruct (subset_ok eqb KE RF w h s t o R) as (b & Eb & Hb).
  exists b. split; auto. rewrite Hb. split; intros H x; specialize (H x); now rewrite <- !E in *.
Qed.
Print Assumptions C67_subset.
Theorem C67_superset : forall K St (eqb : K -> K -> bool) pick, key_eq eqb -> key_refl eqb -> picks_one pick -> forall (ops : list (bop K St)) s t o,
  let h := bset_after eqb pick ops in refs_ok 0 ops = true -> ref_ok (length h) s = true -> ref_ok (length h) t = true ->
  exists b, b_IsSupersetOf eqb s t o h = (Ok b, h) /\ (b = true <-> forall x, holds eqb h t x = true -> holds eqb h s x = true).
Proof. intros K St eqb pick KE RF PK ops s t o h V Vs Vt. exact (C67_subset K St eqb pick KE RF PK ops t s o V Vt Vs). Qed.
Print Assumptions C67_superset.
Example C67_hyp :
  let ops := [BSetOf [3; 1; 2]; BSetOf [5; 3]; BUnion (Some 0%nat) (Some 1%nat) [2%nat] [1%nat; 0%nat]; BKeys (Some 2%nat) []; BIntersection (Some 0%nat) (Some 1%nat) []; BKeys (Some 3%nat) [];
              BDifference (Some 0%nat) (Some 1%nat) [2%nat]; BKeys (Some 4%nat) []; BDisjoint (Some 1%nat) (Some 4%nat) []; BSubset (Some 3%nat) (Some 1%nat) []; BSuperset (Some 3%nat) (Some 1%nat) []; BSubset None (Some 0%nat) []; BUnion None (Some 4%nat) [] []] in
  refs_ok (St := unit) 0 ops = true /\ ref_ok (length (bset_after (St := unit) Z.eqb (fun a _ => a) ops)) (Some 5%nat) = true /\
  bset_results (St := unit) Z.eqb (fun a _ => a) ops = [Ok (BRef (Some 0%nat)); Ok (BRef (Some 1%nat)); Ok (BRef (Some 2%nat)); Ok (BSeq [2; 3; 1; 5]); Ok (BRef (Some 3%nat)); Ok (BSeq [3]);
    Ok (BRef (Some 4%nat)); Ok (BSeq [2; 1]); Ok (BBool true); Ok (BBool true); Ok (BBool false); Ok (BBool true); Ok (BRef (Some 5%nat))].
Proof. vm_compute. auto. Qed.

(** *** C68: keys that do not equal themselves *)
Section NaN.
Context {K St : Type} (eqb : K -> K -> bool) (pick : K -> K -> K).
Hypothesis KE : key_eq eqb.
Hypothesis PK : picks_one pick.
Notation heap := (list (gomap K)).
Definition keeps {A} (p : M heap A) : Prop := forall h, Forall (wf eqb) h -> Forall (wf eqb) (snd (p h)).
Lemma keeps_ret {A} (a : A) : keeps (ret a).
Proof. intros h H. exact H. Qed.
Lemma keeps_bind {A B} (p : M heap A) (f : A -> M heap B) : keeps p -> (forall a, keeps (f a)) -> keeps (bind p f).
Proof. intros P F h H. specialize (P h H). unfold bind. destruct (p h) as [[a| |] h']; auto. now apply F. Qed.
Lemma wf_look (h : heap) s : Forall (wf eqb) h -> wf eqb (look h s).
Proof. intros H. destruct s as [i|]; cbn; [|apply wf_empty]. revert i. induction H; intros [|i]; cbn; auto; apply wf_empty. Qed.
Lemma wf_put (h : heap) s m : Forall (wf eqb) h -> wf eqb m -> Forall (wf eqb) (put s m h).
Proof. intros H W. destruct s as [i|]; cbn; auto. revert i. induction H; intros [|i]; cbn; constructor; auto. Qed.
Lemma keeps_set s k : keeps (set_key eqb pick s k).
Proof using KE PK. intros h H. unfold set_key. destruct (allocated h s); auto. cbn [snd]. apply wf_put; auto. apply wf_set; auto. now apply wf_look. Qed.
Lemma keeps_del s k : keeps (del_key eqb s k).
Proof. intros h H. unfold del_key. cbn [snd]. apply wf_put; auto. apply wf_del. now apply wf_look. Qed.
Lemma keeps_range {A} s o (body : A -> K -> M heap (bool * A)) a : (forall a k, keeps (body a k)) -> keeps (range s o body a).
Proof.
  intros B h H. unfold range. generalize (rounds o (look h s)). intros os. revert a h H. induction os as [|i os IH]; intros a h H; cbn [range_loop]; auto. destruct (g_find i (look h s)) as [[j k]|]; [|auto].
  specialize (B a k h H). unfold bind. destruct (body a k h) as [[[[] a']| |] h']; auto. now apply IH.
Qed.
Lemma keeps_id {A} (f : heap -> outcome A) : keeps (fun h => (f h, h)).
Proof. intros h H. exact H. Qed.
Lemma keeps_make : keeps make_map.
Proof. intros h H. apply Forall_app. split; auto. repeat constructor. - intros e e' []. Qed.
Lemma keeps_insert s k : keeps (b_Insert eqb pick s k).
Proof using KE PK. apply keeps_bind; [apply keeps_id|]. intros n. apply keeps_bind; [apply keeps_set|]. intros _. apply keeps_bind; [apply keeps_id|]. intros; apply keeps_ret. Qed.
Lemma keeps_set_keys s ks : keeps (set_keys eqb pick s ks).
Proof using KE PK. induction ks as [|k ks IH]; cbn [set_keys]; [apply keeps_ret|]. apply keeps_bind; auto using keeps_set. Qed.
Lemma keeps_del_keys s ks : keeps (del_keys eqb s ks).
Proof. induction ks as [|k ks IH]; cbn [del_keys]; [apply keeps_ret|]. apply keeps_bind; auto using keeps_del. Qed.
Lemma keeps_insertN s ks : keeps (b_InsertN eqb pick s ks).
Proof using KE PK. apply keeps_bind; [apply keeps_id|]. intros n. apply keeps_bind; [apply keeps_set_keys|]. intros _. apply keeps_bind; [apply keeps_id|]. intros; apply keeps_ret. Qed.
Lemma keeps_each (f : K -> M heap unit) : (forall k, keeps (f k)) -> forall a k, keeps (do_each f a k).
Proof. intros H a k. apply keeps_bind; auto. intros; apply keeps_ret. Qed.
Lemma keeps_update s t o : keeps (b_Update eqb pick s t o).
Proof using KE PK. apply keeps_range, keeps_each. intros k. apply keeps_set. Qed.
Lemma keeps_order s t : keeps (orderSet s t).
Proof. do 2 (apply keeps_bind; [apply keeps_id|intros ?]). destruct (_ <? _); apply keeps_ret. Qed.
Lemma keeps_step (o : bop K St) : keeps (bset_step eqb pick o).
Proof using KE PK.
  assert (SH : forall A (f : A -> bres K St) p, keeps p -> keeps (show f p)) by (intros A f p P h H; specialize (P h H); unfold show; now destruct (p h)).
  destruct o; cbn [bset_step]; apply SH.
  - apply keeps_bind; [apply keeps_make|]. intros s. apply keeps_bind; [apply keeps_insertN|]. intros; apply keeps_ret.
  - apply keeps_insert.
  - apply keeps_insertN.
  - apply keeps_bind; [apply keeps_id|]. intros b. apply keeps_bind; [apply keeps_del|]. intros; apply keeps_ret.
  - apply keeps_bind; [apply keeps_id|]. intros n. apply keeps_bind; [apply keeps_del_keys|]. intros _. apply keeps_bind; [apply keeps_id|]. intros; apply keeps_ret.
  - apply keeps_del.
  - apply keeps_range, keeps_each. intros k. apply keeps_del.
  - apply keeps_update.
  - apply keeps_id.
  - apply keeps_id.
  - apply keeps_bind; [apply keeps_id|]. intros; apply keeps_ret.
  - apply keeps_range. intros; apply keeps_ret.
  - apply keeps_range. intros; apply keeps_ret.
  - apply keeps_range. intros a k. destruct (cb a k) as [[] ?]; apply keeps_ret.
  - apply keeps_bind; [apply keeps_make|]. intros r. apply keeps_bind; [apply keeps_update|]. intros _. apply keeps_bind; [apply keeps_update|]. intros; apply keeps_ret.
  - apply keeps_bind; [apply keeps_make|]. intros r. apply keeps_bind; [apply keeps_order|]. intros sl. apply keeps_bind; [|intros; apply keeps_ret].
    apply keeps_range, keeps_each. intros k. apply keeps_bind; [apply keeps_id|]. intros []; [|apply keeps_ret]. apply keeps_bind; [apply keeps_insert|]. intros; apply keeps_ret.
  - apply keeps_bind; [apply keeps_make|]. intros r. apply keeps_bind; [|intros; apply keeps_ret].
    apply keeps_range, keeps_each. intros k. apply keeps_bind; [apply keeps_id|]. intros []; [apply keeps_ret|]. apply keeps_bind; [apply keeps_insert|]. intros; apply keeps_ret.
  - apply keeps_bind; [apply keeps_order|]. intros sl. apply keeps_range. intros a k. apply keeps_bind; [apply keeps_id|]. intros []; apply keeps_ret.
  - do 2 (apply keeps_bind; [apply keeps_id|intros ?]). destruct (_ <? _); [apply keeps_ret|]. apply keeps_range. intros ? k. apply keeps_bind; [apply keeps_id|]. intros []; apply keeps_ret.
  - do 2 (apply keeps_bind; [apply keeps_id|intros ?]). destruct (_ <? _); [apply keeps_ret|]. apply keeps_range. intros ? k. apply keeps_bind; [apply keeps_id|]. intros []; apply keeps_ret.
Qed.
Lemma after_wf (ops : list (bop K St)) : Forall (wf eqb) (bset_after eqb pick ops).
Proof using KE PK.
  unfold bset_after. assert (H : Forall (wf eqb) (@nil (gomap K))) by constructor. revert H. generalize (@nil (gomap K)). induction ops as [|o ops IH]; intros h H; cbn [run]; auto.
  pose proof (keeps_step o h H) as H1. destruct (bset_step eqb pick o h) as [r h1]. specialize (IH h1 H1). now destruct (run _ ops h1).
Qed.
Lemma keys_ok (h : heap) s o : b_Keys s o h = (Ok (map snd (visit (rounds o (look h s)) (look h s))), h).
Proof. unfold b_Keys, range. rewrite range_for by auto. now rewrite for_collect. Qed.
End NaN.
(** After any calls, on any keys: Clear leaves exactly the elements that do not
    equal themselves, and does not touch other sets. *)
Theorem C68_clear : forall K St (eqb : K -> K -> bool) pick, key_eq eqb -> picks_one pick -> forall (ops : list (bop K St)) s o o1 o2,
  let h := bset_after eqb pick ops in
  exists h' l l', b_Clear eqb s o h = (Ok tt, h') /\ b_Keys s o1 h = (Ok l, h) /\ b_Keys s o2 h' = (Ok l', h') /\
    Permutation l' (filter (fun k => negb (eqb k k)) l) /\ b_Len s h' = (Ok (zlen l'), h') /\
    length h' = length h /\ forall t, t <> s -> look h' t = look h t.
Proof.
  intros K St eqb pick KE PK ops s o o1 o2 h. pose proof (after_wf eqb pick KE PK ops) as W. fold h in W. clearbody h. pose proof (wf_look eqb h s W) as Ws.
  assert (E : exists m, b_Clear eqb s o h = (Ok tt, put s m h) /\ (allocated h s = true -> wf eqb m) /\ g_ents m = filter (fun e => negb (eqb (snd e) (snd e))) (g_ents (look h s))).
  { unfold b_Clear, range. destruct (allocated h s) eqn:L.
    - rewrite clear_loop by auto. eexists. split; [reflexivity|]. cbn [g_ents].
      match goal with |- context [mkMap _ (filter ?f ?l)] => assert (X : filter f l = filter (fun e => negb (eqb (snd e) (snd e))) l) end.
      { apply filter_ext_in. intros e I. f_equal. replace (existsb _ _) with true; auto. symmetry. apply existsb_exists. exists (fst e). split; [now apply rounds_all|apply Nat.eqb_refl]. }
      rewrite X. split; auto. intros _. destruct Ws as [Ws F]. split; cbn [g_ents g_next]; [now apply wfl_filter|]. rewrite Forall_forall in *. intros e I. apply filter_In in I as [I _]. auto.
    - exists g_empty. rewrite put_dead by auto. rewrite look_dead by auto. split; [|split; [discriminate|reflexivity]]. assert (N : forall os h', allocated h' s = false -> range_loop s (do_each (del_key eqb s)) os tt h' = (Ok tt, h')); [|now apply N].
      induction os as [|i os IH]; intros h' L'; cbn [range_loop]; auto. rewrite look_dead by auto. cbn. now apply IH. }
  destruct E as (m & E & Wm & Em). exists (put s m h). do 2 eexists. split; [exact E|]. rewrite !keys_ok. split; [reflexivity|]. split; [reflexivity|].
  assert (El : look (put s m h) s = (if allocated h s then m else g_empty)). { destruct (allocated h s) eqn:L; [now apply look_put_same|]. rewrite put_dead by auto. now apply look_dead. }
  assert (W' : wf eqb (look (put s m h) s)). { rewrite El. destruct (allocated h s); auto using wf_empty. }
  assert (Ee : g_ents (look (put s m h) s) = filter (fun e => negb (eqb (snd e) (snd e))) (g_ents (look h s))). { rewrite El. destruct (allocated h s) eqn:L; auto. now rewrite look_dead. }
  split; [|split; [|split]].
  - eapply Permutation_trans; [apply Permutation_map, (visit_perm eqb); auto|]. rewrite Ee.
    assert (X : filter (fun k => negb (eqb k k)) (map snd (visit (rounds o1 (look h s)) (look h s))) = map snd (filter (fun e => negb (eqb (snd e) (snd e))) (visit (rounds o1 (look h s)) (look h s)))).
    { generalize (visit (rounds o1 (look h s)) (look h s)). induction l as [|e l IH]; cbn; auto. destruct (eqb (snd e) (snd e)); cbn; now rewrite IH. }
    rewrite X. apply Permutation_map. apply Permutation_sym. pose proof (visit_perm eqb o1 _ Ws) as P. clear - P. induction P; cbn.
    + constructor.
    + destruct (eqb _ _); cbn; auto.
    + destruct (eqb (snd x) (snd x)), (eqb (snd y) (snd y)); cbn; auto. constructor.
    + eapply Permutation_trans; eauto.
  - unfold b_Len, len_map. do 2 f_equal. unfold zlen. rewrite map_length. f_equal. symmetry. apply Permutation_length, (visit_perm eqb); auto.
  - apply put_length.
  - intros t N. apply look_put_other. auto.
Qed.
Print Assumptions C68_clear.
(** So Len is zero after Clear just if every element equalled itself. *)
Theorem C68_len : forall K St (eqb : K -> K -> bool) pick, key_eq eqb -> picks_one pick -> forall (ops : list (bop K St)) s o o1,
  let h := bset_after eqb pick ops in
  exists h' l n, b_Clear eqb s o h = (Ok tt, h') /\ b_Keys s o1 h = (Ok l, h) /\ b_Len s h' = (Ok n, h') /\ (n = 0 <-> Forall (fun k => eqb k k = true) l).
Proof.
  intros K St eqb pick KE PK ops s o o1 h. destruct (C68_clear K St eqb pick KE PK ops s o o1 []) as (h' & l & l' & C & K1 & K2 & P & L & _). exists h', l, (zlen l'). repeat split; auto.
  - intros Z. unfold zlen in Z. rewrite (Permutation_length P) in Z. clear - Z. induction l as [|k l IH]; constructor; cbn in Z; destruct (eqb k k) eqn:E; cbn in Z; auto; lia.
  - intros F. unfold zlen. rewrite (Permutation_length P). clear - F. induction F as [|k l E F IH]; cbn; auto. now rewrite E.
Qed.
Print Assumptions C68_len.
(** A key that does not equal itself: Insert always adds an element, which Has,
    Remove and Delete never find. *)
Theorem C68_nan : forall K St (eqb : K -> K -> bool) pick, key_eq eqb -> picks_one pick -> forall (ops : list (bop K St)) i k o,
  let h := bset_after eqb pick ops in (i < length h)%nat -> eqb k k = false ->
  (exists h' l l', b_Insert eqb pick (Some i) k h = (Ok true, h') /\ b_Keys (Some i) o h = (Ok l, h) /\ b_Keys (Some i) o h' = (Ok l', h') /\ Permutation l' (l ++ [k])) /\
  b_Has eqb (Some i) k h = (Ok false, h) /\ b_Remove eqb (Some i) k h = (Ok false, h) /\ b_Delete eqb (Some i) k h = (Ok tt, h).
Proof.
  intros K St eqb pick KE PK ops i k o h L N. pose proof (after_wf eqb pick KE PK ops) as W. fold h in W. clearbody h. pose proof (wf_look eqb h (Some i) W) as Ws.
  assert (NF : forall x, eqb x k = false). { intros x. apply not_true_iff_false. intros E. rewrite <- not_true_iff_false in N. apply N. eapply ke_trans; [exact KE| |exact E]. now apply ke_sym. }
  assert (NH : g_has eqb k (look h (Some i)) = false). { apply not_true_iff_false. intros H. apply has_in in H as (e & _ & H). now rewrite NF in H. }
  assert (ND : g_del eqb k (look h (Some i)) = look h (Some i)). { unfold g_del. rewrite filter_all; [now destruct (look h (Some i))|]. intros e _. now rewrite NF. }
  assert (A : allocated h (Some i) = true) by now apply Nat.ltb_lt.
  split; [|unfold b_Has, b_Remove, b_Delete, has_key, del_key, bind, ret; now rewrite NH, ND, put_look].
  pose proof (insert_ok eqb pick h (Some i) k A) as E. rewrite NH in E. eexists. do 2 eexists. split; [exact E|]. rewrite !keys_ok. split; [reflexivity|]. split; [reflexivity|]. rewrite look_put_same by auto.
  eapply Permutation_trans; [apply Permutation_map, (visit_perm eqb), wf_set; auto|]. unfold g_set. rewrite NH. cbn [g_ents]. rewrite map_app. apply Permutation_app_tail, Permutation_map, Permutation_sym, (visit_perm eqb); auto.
Qed.
Print Assumptions C68_nan.
(** The documented claim fails: None is NaN. *)
Theorem C68_documented_refuted : key_eq (neqb : option Z -> option Z -> bool) /\
  bset_results (St := unit) (neqb : option Z -> option Z -> bool) (fun a _ => a) [BSetOf [Some 1; None; Some 2]; BClear (Some 0%nat) []; BLen (Some 0%nat); BKeys (Some 0%nat) []; BHas (Some 0%nat) None; BInsert (Some 0%nat) None; BRemove (Some 0%nat) None; BLen (Some 0%nat)] =
    [Ok (BRef (Some 0%nat)); Ok BNone; Ok (BInt 1); Ok (BSeq [None]); Ok (BBool false); Ok (BBool true); Ok (BBool false); Ok (BInt 2)].
Proof.
  split; [|vm_compute; reflexivity]. split; intros *; unfold neqb; [destruct a, b|destruct a, b, c]; try discriminate; rewrite ?Z.eqb_eq; congruence.
Qed.
Print Assumptions C68_documented_refuted.
