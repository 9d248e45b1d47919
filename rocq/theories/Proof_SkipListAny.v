(** What holds of the skip list for any comparisons at all, and for keys that
    are ordered except for NaN. *)
From Coq Require Import Sorted.
From Verif Require Import BaseLemmas Spec Trace Spec_List Spec_Map Nodes Proof_Nodes Model_SkipList Proof_SkipList Proof_Map.
Set Default Proof Using "Type".
Local Arguments zlen : simpl never.

Section Any.
Context {K V : Type}.
Variables (eqk gtk : K -> K -> bool) (impl : @slimpl K V).
Hypothesis SP : impl_spec eqk gtk impl.
Notation heap := (list (slnode K V)).
Definition is_range {St} (o : mop K V St) : bool := match o with MRange _ _ => true | _ => false end.
Lemma iterate_ok h0 hd ps (h : heap) l : rep h0 hd ps (h, l) -> Iterate (h, l) = (Ok (firstp ps, None), (h, l)).
Proof.
  intros R. unfold Iterate. rewrite bind_hget. pose proof (r_head _ _ _ _ R) as Hh. cbn in Hh. rewrite Hh.
  now rewrite (bind_eq _ _ _ _ _ (ld_next_ok _ _ _ _ _ (chain_first _ _ _ _ (rep_chain0 _ _ _ _ _ R)))).
Qed.
Lemma find_any h0 hd ps (h : heap) l k : rep h0 hd ps (h, l) -> exists p, findNode impl k (h, l) = (Ok p, (h, l)) /\ (p = None \/ exists c, In c ps /\ p = Some (ca c) /\ eqk (ck c) k = true).
Proof using SP. intros R. destruct (sp_find _ _ _ SP h0 hd ps h l k R) as [(c & I & Hc & E)|(A & B & _ & _ & E)]; eauto 8. Qed.
Lemma Find_any h0 hd ps (h : heap) l k : rep h0 hd ps (h, l) -> exists p, Find impl k (h, l) = (Ok p, (h, l)) /\ (p = None \/ exists c, In c ps /\ p = Some (ca c) /\ eqk (ck c) k = true).
Proof using SP. intros R. destruct (find_any h0 hd ps h l k R) as (p & E & H). exists p. split; auto. unfold Find. rewrite (bind_eq _ _ _ _ _ E). now destruct p. Qed.
Lemma lower_any h0 hd ps (h : heap) l k : rep h0 hd ps (h, l) -> exists A B, ps = A ++ B /\ lowerBound impl k (h, l) = (Ok (firstp B), (h, l)).
Proof using SP.
  intros R. destruct (sp_lower _ _ _ SP h0 hd ps h l k R) as [(A & c & B & -> & Hc & E)|(A & B & -> & _ & E)]; [exists A, (c :: B)|exists A, B]; auto.
Qed.
Lemma upper_any h0 hd ps (h : heap) l k : rep h0 hd ps (h, l) -> exists A B, ps = A ++ B /\ upperBound impl k (h, l) = (Ok (firstp B), (h, l)).
Proof using SP.
  intros R. destruct (sp_upper _ _ _ SP h0 hd ps h l k R) as [(A & c & B & -> & Hc & E)|(A & B & -> & _ & E)]; [exists (A ++ [c]), B; rewrite <- app_assoc|exists A, B]; auto.
Qed.
Lemma step_any {St} h0 hd ps s (o : mop K V St) : rep h0 hd ps s -> exists ps', rep h0 hd ps' (snd (map_step impl o s)) /\
  ((exists r, fst (map_step impl o s) = Ok r) \/ (is_range o = true /\ fst (map_step impl o s) = Panic)).
Proof using SP.
  intros R. destruct s as [h l]. destruct o; cbn [map_step is_range]; unfold show.
  - destruct (Insert_ok eqk gtk impl SP h0 hd ps h l k v r R) as [(c & h' & l' & I & Hc & E & R')|(A & c & B & h' & l' & -> & Pt & Ek & Ev & _ & NI & E & R')]; rewrite E; cbn; eauto 8.
  - destruct (Remove_ok eqk gtk impl SP h0 hd ps h l k R) as (A & B & h' & l' & -> & _ & _ & H).
    destruct B as [|c B]; [|destruct (eqk (ck c) k)]; [destruct H as [E R']|destruct H as (E & R' & _)|destruct H as [E R']]; rewrite E; cbn; eauto 8.
  - destruct (Clear_ok h0 hd ps h l R) as (s' & E & R'). rewrite E. cbn. eauto 8.
  - cbn. eauto 8.
  - cbn. eauto 8.
  - unfold find_get. destruct (Find_any h0 hd ps h l k R) as (p & E & [->|(c & I & -> & _)]); rewrite (bind_eq _ _ _ _ _ E); cbn [is_nil].
    + cbn. eauto 8.
    + rewrite (bind_eq _ _ _ _ _ (ld_value_ok _ _ _ _ _ _ (rep_cell _ _ _ _ _ _ R I))). cbn. eauto 8.
  - unfold Has. destruct (find_any h0 hd ps h l k R) as (p & E & _). rewrite (bind_eq _ _ _ _ _ E). cbn. eauto 8.
  - unfold find_set. destruct (Find_any h0 hd ps h l k R) as (p & E & [->|(c & I & -> & _)]); rewrite (bind_eq _ _ _ _ _ E); cbn [is_nil].
    + cbn. eauto 8.
    + rewrite (bind_eq _ _ _ _ _ (st_value_ok _ _ _ _ _ (rep_cell _ _ _ _ _ _ R I))). cbn. exists (put (ca c) v ps). split; [apply rep_put; auto; now apply in_map|eauto].
  - destruct (lower_any h0 hd ps h l k R) as (A & B & -> & E). rewrite (walk_all h0 hd A B); auto; [cbn; eauto 8|]. unfold LowerBound. now rewrite (bind_eq _ _ _ _ _ E).
  - destruct (upper_any h0 hd ps h l k R) as (A & B & -> & E). rewrite (walk_all h0 hd A B); auto; [cbn; eauto 8|]. unfold UpperBound. now rewrite (bind_eq _ _ _ _ _ E).
  - destruct (lower_any h0 hd ps h l first R) as (A1 & B1 & E1 & El). destruct (upper_any h0 hd ps h l last R) as (A2 & B2 & E2 & Eu).
    assert (Ew : walk (FindRange impl first last) (h, l) = iter_loop (Datatypes.S (length h)) (firstp B1, firstp B2) [] (h, l)).
    { unfold walk. rewrite bind_fuel. unfold FindRange. erewrite bind_eq; [|rewrite (bind_eq _ _ _ _ _ El), (bind_eq _ _ _ _ _ Eu); reflexivity]. reflexivity. }
    rewrite Ew. pose proof (rep_fuel _ _ _ _ _ R) as Lf. assert (Es : A1 ++ B1 = A2 ++ B2) by congruence. exists ps.
    destruct (split_two _ _ _ _ Es) as [(D & EA & EB)|(d & D & EA & EB)].
    + rewrite EB. rewrite (iter_loop_ok h0 hd D B2 h l A1); [cbn; eauto| |].
      * rewrite <- EB, <- E1. exact R.
      * rewrite E1, EB, !app_length in Lf. lia.
    + rewrite EB. cbn [firstp]. rewrite (iter_loop_panic h0 hd B1 (ca d) h l A1); [cbn; eauto| | |].
      * rewrite <- E1. exact R.
      * intros I. rewrite E1, EA in R. pose proof (rep_nodup _ _ _ _ R) as ND. rewrite <- app_assoc in ND. rewrite addrs_app in ND. apply NoDup_app_r in ND. cbn in ND. apply NoDup_cons_iff in ND as [NI _]. apply NI. unfold addrs in *. rewrite map_app. apply in_app_iff. now right.
      * rewrite E1, app_length in Lf. lia.
  - rewrite (walk_all h0 hd [] ps); auto; [cbn; eauto 8|]. eapply iterate_ok; eauto.
  - rewrite (ForEach_ok cb h0 hd ps h l st R). cbn. eauto 8.
  - rewrite (ForEachIf_ok cb h0 hd ps h l st R). cbn. eauto 8.
  - destruct (ForEachMutable_ok cb h0 hd ps h l st R) as (s' & E & R'). rewrite E. cbn. eauto 8.
  - destruct (ForEachMutableIf_ok cb h0 hd ps h l st R) as (s' & E & R'). rewrite E. cbn. eauto 8.
Qed.
Lemma run_any {St} h0 hd (ops : list (mop K V St)) : forall ps s, rep h0 hd ps s -> exists ps', rep h0 hd ps' (snd (run (map_step impl) ops s)) /\
  Forall2 (fun o r => (exists x, r = Ok x) \/ (is_range o = true /\ r = Panic)) ops (fst (run (map_step impl) ops s)).
Proof using SP.
  induction ops as [|o ops IH]; intros ps s R; cbn [run]; [exists ps; split; [exact R|constructor]|]. destruct (step_any h0 hd ps s o R) as (ps1 & R1 & H). destruct (map_step impl o s) as [r s1]. cbn [fst snd] in *.
  destruct (IH ps1 s1 R1) as (ps2 & R2 & F). destruct (run (map_step impl) ops s1) as [rs s2]. cbn [fst snd] in *. eauto.
Qed.
End Any.

(** *** Orders with NaN *)
Section NaN.
Context {K V : Type} (ltb eqb : K -> K -> bool) (isnan : K -> bool).
Hypothesis ON : ordered_nan ltb eqb isnan.
(** The order with NaN put above everything. *)
Definition lt_top (a b : K) : bool := if isnan b then negb (isnan a) else ltb a b.
Lemma lt_top_sw : strict_weak lt_top.
Proof using ON.
  destruct ON as [NL NR I T NT E]. constructor; unfold lt_top.
  - intros a. destruct (isnan a) eqn:Ha; cbn; auto.
  - intros a b c. destruct (isnan a) eqn:Ha, (isnan b) eqn:Hb, (isnan c) eqn:Hc; cbn; auto; try discriminate; try (intros; eapply T; eauto; fail);
      repeat match goal with H : isnan ?x = true |- context [ltb ?x ?y] => destruct (NL x y H) as [-> _] end; auto; discriminate.
  - intros a b c. destruct (isnan a) eqn:Ha, (isnan b) eqn:Hb, (isnan c) eqn:Hc; cbn; auto; try discriminate;
      repeat match goal with H : isnan ?x = true |- context [ltb ?x ?y] => destruct (NL x y H) as [-> _] end; auto; try discriminate.
    intros H1 H2. apply (NT a b c); auto.
Qed.
Definition ok_key (k : K) : bool := negb (isnan k).
Lemma lt_top_lt a b : ok_key b = true -> lt_top a b = ltb a b.
Proof. unfold lt_top, ok_key. rewrite negb_true_iff. now intros ->. Qed.
Lemma lt_top_eq a b : ok_key a = true -> ok_key b = true -> eqb a b = eqv lt_top a b.
Proof using ON. intros Ha Hb. unfold eqv. rewrite !lt_top_lt by auto. apply (on_eq _ _ _ ON); now apply negb_true_iff. Qed.
End NaN.

(** Specification steps on good keys depend on the order of good keys only. *)
Lemma spec_ext_on {K V St} (lt lt' : K -> K -> bool) (good : K -> bool) (o : mop K V St) m : (forall a b, good a = true -> good b = true -> lt a b = lt' a b) ->
  Forall (fun p => good (fst p) = true) m -> good_op good o = true -> map_spec lt o m = map_spec lt' o m.
Proof.
  intros H G Go. assert (E : forall a b, good a = true -> good b = true -> eqv lt a b = eqv lt' a b) by (intros; unfold eqv; now rewrite !H).
  assert (X : forall (f g : K * V -> bool), (forall x, good (fst x) = true -> f x = g x) -> existsb f m = existsb g m) by (intros f g Hfg; clear - Hfg G; induction G; cbn; auto; now rewrite Hfg, IHG).
  assert (Y : forall (f g : K * V -> bool), (forall x, good (fst x) = true -> f x = g x) -> filter f m = filter g m) by (intros f g Hfg; clear - Hfg G; induction G; cbn; auto; now rewrite Hfg, IHG).
  assert (Fd : forall (f g : K * V -> bool), (forall x, good (fst x) = true -> f x = g x) -> find f m = find g m) by (intros f g Hfg; clear - Hfg G; induction G; cbn; auto; now rewrite Hfg, IHG).
  assert (Hh : forall k, good k = true -> has lt k m = has lt' k m) by (intros k Gk; unfold has; apply X; intros; now rewrite E).
  assert (Hs : forall k v, good k = true -> set_value lt k v m = set_value lt' k v m) by (intros; unfold set_value; apply map_ext_in; intros p I; rewrite Forall_forall in G; rewrite E; auto).
  destruct o; cbn in Go |- *; auto.
  - unfold insert. rewrite Hh, Hs by auto. f_equal. destruct (has lt' k m); auto. f_equal; [|f_equal]; apply Y; intros; apply H; auto.
  - rewrite Hh by auto. f_equal. unfold remove. apply Y. intros. now rewrite E.
  - do 3 f_equal. unfold lookup. f_equal. apply Fd. intros. now rewrite E.
  - now rewrite Hh.
  - now rewrite Hh, Hs.
  - do 3 f_equal. apply Y. intros. now rewrite H.
  - do 3 f_equal. apply Y. intros. now rewrite H.
  - apply andb_true_iff in Go as [G1 G2]. f_equal. rewrite (X _ (fun p => lt' last (fst p) && lt' (fst p) first)) by (intros; now rewrite !H). destruct (existsb _ m); auto. do 2 f_equal. apply Y. intros. now rewrite !H.
Qed.
Lemma run_ext_on {K V St} (lt lt' : K -> K -> bool) (good : K -> bool) (ops : list (mop K V St)) : (forall a b, good a = true -> good b = true -> lt a b = lt' a b) ->
  forall m, Forall (fun p => good (fst p) = true) m -> forallb (good_op good) ops = true -> run (map_spec lt) ops m = run (map_spec lt') ops m.
Proof.
  intros H. induction ops as [|o ops IH]; intros m G F; cbn in *; auto. apply andb_true_iff in F as [Go F]. pose proof (spec_good lt good o m G Go) as G'. rewrite (spec_ext_on lt lt' good o m H G Go) in *.
  destruct (map_spec lt' o m). cbn in G'. now rewrite IH.
Qed.
