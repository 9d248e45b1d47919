(** Lemmas for C105. *)
From Verif Require Import BaseLemmas Spec Trace Spec_List Nodes Proof_Nodes Model_SList Proof_SList Spec_SListCopy Model_SListCopy.
From Verif Require Proof_DListCopy.

Section SC.
Context {T St : Type}.
Variable zero : T.
Notation heap := (list (snode T)).
Notation cells := (list (nat * T)).
Notation SP := (P (snode T) slist).
Implicit Types (fr : nat -> option (snode T)) (h : heap) (l : cells) (hdr : slist).

(** *** Programs that allocate nothing *)
Definition lp {A} (p : SP A) : Prop := forall s, length (fst (snd (p s))) = length (fst s).
Lemma lp_ret {A} (a : A) : lp (ret a). Proof using Type. now intros s. Qed.
Lemma lp_panic {A} : lp (@panic _ A). Proof using Type. now intros s. Qed.
Lemma lp_nofuel {A} : lp (@nofuel _ A). Proof using Type. now intros s. Qed.
Lemma lp_bind {A B} (p : SP A) (k : A -> SP B) : lp p -> (forall a, lp (k a)) -> lp (x <- p ;; k x).
Proof using Type. intros Hp Hk s. specialize (Hp s). unfold bind. destruct (p s) as [[a| |] s1]; auto. rewrite Hk. exact Hp. Qed.
Lemma lp_hget {A} (f : slist -> A) : lp (hget f). Proof using Type. now intros s. Qed.
Lemma lp_hmod f : lp (@hmod (snode T) slist f). Proof using Type. now intros s. Qed.
Lemma lp_fuel : lp (@heap_fuel (snode T) slist). Proof using Type. now intros s. Qed.
Lemma lp_pload p : lp (@pload (snode T) slist p).
Proof using Type. intros s. destruct p as [a|]; [|reflexivity]. unfold pload. now destruct (nth_error (fst s) a). Qed.
Lemma lp_pmod p f : lp (@pmod (snode T) slist p f).
Proof using Type. intros s. destruct p as [a|]; [|reflexivity]. unfold pmod. destruct (nth_error (fst s) a); [|reflexivity]. cbn. apply upd_length. Qed.
Lemma lp_if {A} (b : bool) (p q : SP A) : lp p -> lp q -> lp (if b then p else q). Proof using Type. now destruct b. Qed.
End SC.
Ltac lp := repeat first [apply lp_ret | apply lp_panic | apply lp_nofuel | apply lp_hget | apply lp_hmod | apply lp_fuel | apply lp_pload | apply lp_pmod | apply lp_if | (apply lp_bind; [|intros ?])].

Section SC2.
Context {T St : Type}.
Variable zero : T.
Notation heap := (list (snode T)).
Notation cells := (list (nat * T)).
Notation SP := (P (snode T) slist).
Implicit Types (fr : nat -> option (snode T)) (h : heap) (l : cells) (hdr : slist).

Lemma lp_Reverse_loop fuel : forall n hd tl, lp (@Reverse_loop T fuel n hd tl).
Proof using Type. induction fuel as [|f IH]; intros n hd tl; cbn [Reverse_loop]; lp. apply IH. Qed.
Lemma lp_Reverse : lp (@Reverse T).
Proof using Type. unfold Reverse. apply lp_bind; [lp|intros f]. apply lp_bind; [lp|intros n]. apply lp_bind; [apply lp_Reverse_loop|intros ht]. lp. Qed.
Lemma lp_ForEachMutable_loop (cb : St -> T -> T * St) fuel : forall n st, lp (ForEachMutable_loop cb fuel n st).
Proof using Type. induction fuel as [|f IH]; intros n st; cbn [ForEachMutable_loop]; lp. destruct (cb st _) as [v' st']. lp. apply IH. Qed.
Lemma lp_ForEachMutableIf_loop (cb : St -> T -> T * bool * St) fuel : forall n st, lp (ForEachMutableIf_loop cb fuel n st).
Proof using Type. induction fuel as [|f IH]; intros n st; cbn [ForEachMutableIf_loop]; lp. destruct (cb st _) as [[v' go] st']. lp. apply IH. Qed.
Lemma lp_advance i : forall it, lp (@advance T i it).
Proof using Type. induction i as [|i IH]; intros it; cbn [advance]; unfold MoveToNext; lp. apply IH. Qed.

(** *** One call *)
Definition holds h hdr l : Prop := NoDup (addrs l) /\ chain h (s_head hdr) l /\ s_tail hdr = last_ptr l /\ s_length hdr = zlen l.
Lemma holds_rep fr h hdr l : holds h hdr l -> keeps fr h -> (forall a, In a (addrs l) -> fr a = None) -> rep fr l (h, hdr).
Proof using Type. intros (ND & C & Et & En) K F. repeat (split; auto). Qed.
Lemma rep_holds fr h hdr l : rep fr l (h, hdr) -> holds h hdr l.
Proof using Type. intros ((ND & _) & C & Et & En). repeat (split; auto). Qed.
Lemma holds_same h h' hdr l : (forall a, In a (addrs l) -> nth_error h' a = nth_error h a) -> holds h hdr l -> holds h' hdr l.
Proof using Type. intros E (ND & C & H). split; auto. split; auto. eapply chain_frame; eauto. Qed.
Lemma holds_lt h hdr l a : holds h hdr l -> In a (addrs l) -> (a < length h)%nat.
Proof using Type. intros (_ & C & _). eapply chain_addr; eauto. Qed.

Definition off_list h l : nat -> option (snode T) := fun a => if in_dec Nat.eq_dec a (addrs l) then None else nth_error h a.
Lemma off_list_keeps h l : keeps (off_list h l) h.
Proof using Type. intros a nd. unfold off_list. destruct (in_dec _ _ _); [discriminate|auto]. Qed.
Lemma off_list_own h l a : In a (addrs l) -> off_list h l a = None.
Proof using Type. intros I. unfold off_list. now destruct (in_dec _ _ _). Qed.

Lemma push_front_head (v : T) h hdr : fst (snd (PushFront v (h, hdr))) = h ++ [mkSNode (s_head hdr) v] /\ s_head (snd (snd (PushFront v (h, hdr)))) = Some (length h).
Proof using Type. destruct hdr as [hd [tl|] n]; auto. Qed.
Lemma push_back_tail (v : T) h hdr l : holds h hdr l -> length (fst (snd (PushBack v (h, hdr)))) = S (length h) /\ s_tail (snd (snd (PushBack v (h, hdr)))) = Some (length h) /\
  (l = [] -> fst (snd (PushBack v (h, hdr))) = h ++ [mkSNode None v]).
Proof using Type.
  destruct hdr as [hd tl n]. intros (ND & C & Et & En). cbn in Et. subst tl. unfold PushBack, bind, hget, hmod, pnew, ret. cbn [fst snd s_tail].
  destruct (snoc_case l) as [->|(l' & [b w] & ->)].
  - cbn. destruct (is_nil hd); cbn; rewrite app_length, Nat.add_1_r; auto.
  - rewrite last_ptr_snoc. cbn [is_nil negb]. destruct (chain_last h l' b w _ C) as [q Eb]. rewrite (pmod_ok _ _ b (mkSNode q w)) by (now apply nth_app_old). cbn.
    destruct (is_nil hd); cbn; rewrite upd_length, app_length, Nat.add_1_r; (split; [auto|]; split; [auto|]); destruct l'; discriminate.
Qed.
(** The addresses are the numbers. *)
Lemma call_numbers (o : sop T St) h hdr l : holds h hdr l ->
  exists l', fst (slist_step zero o (h, hdr)) = fst (slist_spec o (map snd l)) /\ map snd l' = snd (slist_spec o (map snd l)) /\
  holds (fst (snd (slist_step zero o (h, hdr)))) (snd (snd (slist_step zero o (h, hdr)))) l' /\
  (length (fst (snd (slist_step zero o (h, hdr)))), addrs l') = number_call o (length h) (addrs l) /\
  keeps (off_list h l) (fst (snd (slist_step zero o (h, hdr)))) /\
  (in_place o (addrs l) = false -> keeps (nth_error h) (fst (snd (slist_step zero o (h, hdr))))).
Proof using Type.
  intros Ho. pose proof (holds_rep _ _ _ _ Ho (off_list_keeps h l) (off_list_own h l)) as R.
  destruct (step_full zero _ l _ o R) as (l' & Er & Ev & R' & Mv). exists l'. split; [exact Er|]. split; [exact Ev|].
  destruct (slist_step zero o (h, hdr)) as [r [h' hdr']] eqn:Es. cbn [fst snd] in *. split; [eapply rep_holds; eauto|].
  assert (Same : snd (slist_step zero o (h, hdr)) = (h, hdr) -> addrs l' = addrs l -> number_call o (length h) (addrs l) = (length h, addrs l) ->
    (length h', addrs l') = number_call o (length h) (addrs l) /\ keeps (off_list h l) h' /\ (in_place o (addrs l) = false -> keeps (nth_error h) h')).
  { rewrite Es. cbn [snd]. intros E. injection E as -> ->. intros -> ->. split; auto. split; [apply off_list_keeps|]. intros _. apply keeps_refl. }
  assert (K : keeps (off_list h l) h') by (destruct R' as ((_ & _ & K) & _); exact K).
  assert (InP : lp (fun s => (slist_step zero o s)) -> addrs l' = snd (number_call o (length h) (addrs l)) -> fst (number_call o (length h) (addrs l)) = length h -> in_place o (addrs l) = true ->
    (length h', addrs l') = number_call o (length h) (addrs l) /\ keeps (off_list h l) h' /\ (in_place o (addrs l) = false -> keeps (nth_error h) h')).
  { intros L E1 E2 Ip. specialize (L (h, hdr)). cbn beta in L. rewrite Es in L. cbn [fst snd] in L. split; [|split; [exact K|congruence]]. rewrite L, E1. rewrite <- E2 at 1. now destruct (number_call o (length h) (addrs l)). }
  assert (LpS : forall A R (f : A -> R) (p : SP A), lp p -> lp (fun s => show f p s)) by (intros A R0 f p Hp s; specialize (Hp s); unfold show; destruct (p s); exact Hp).
  destruct o; cbn [moved] in Mv; 
    lazymatch goal with |- context [LForEachMutable] => idtac | |- context [LForEachMutableIf] => idtac | |- context [LIterSet] => idtac | _ => try (apply Same; [|exact Mv|reflexivity]; cbn [slist_step]; unfold show) end.
  - destruct Mv as [a Ea]. cbn [slist_step] in Es. unfold show in Es. pose proof (push_front_head v h hdr) as [H1 H2]. destruct (PushFront v (h, hdr)) as [r0 [h0 hdr0]]. injection Es as _ <- <-. cbn [fst snd] in *. subst h0.
    destruct R' as (_ & C & _). cbn [fst snd] in C. rewrite H2 in C. destruct l' as [|[b w] l']; [discriminate|]. destruct C as (E & _). injection E as <-. cbn in Ea. injection Ea as <- Ea.
    cbn [number_call]. rewrite app_length, Nat.add_1_r. unfold addrs in *. cbn [map fst]. rewrite Ea. split; [reflexivity|]. split; [exact K|]. intros _. apply keeps_app, keeps_refl.
  - destruct Mv as [a Ea]. cbn [slist_step] in Es. unfold show in Es. pose proof (push_back_tail v h hdr l Ho) as (H1 & H2 & H3). destruct (PushBack v (h, hdr)) as [r0 [h0 hdr0]]. injection Es as _ <- <-. cbn [fst snd] in *.
    destruct R' as (_ & C & Et & _). cbn [fst snd] in Et. rewrite H2 in Et.
    assert (a = length h) as ->.
    { destruct (snoc_case l') as [->|(k & [b w] & ->)]; [destruct (addrs l); discriminate|]. rewrite last_ptr_snoc in Et. injection Et as ->. unfold addrs in Ea. rewrite map_app in Ea. cbn in Ea. now apply app_inj_tail in Ea. }
    cbn [number_call]. rewrite Ea, H1. split; [reflexivity|]. split; [exact K|]. cbn [in_place]. destruct l as [|c l]; [|discriminate]. intros _. rewrite H3 by auto. apply keeps_app, keeps_refl.
  - destruct Mv as [Ea Eh]. cbn [fst] in Eh. subst h'. cbn [number_call]. rewrite Ea. split; [reflexivity|]. split; [exact K|]. intros _. apply keeps_refl.
  - apply InP; [apply LpS; apply lp_Reverse|exact Mv|reflexivity|reflexivity].
  - destruct Mv as [-> Eh]. cbn [fst] in Eh. subst h'. cbn [number_call]. split; [reflexivity|]. split; [exact K|]. intros _. apply keeps_refl.
  - reflexivity.
  - reflexivity.
  - rewrite (Front_ok _ l _ R). reflexivity.
  - rewrite (Back_ok _ l _ R). reflexivity.
  - rewrite (Values_ok zero _ l _ R). reflexivity.
  - rewrite (ForEach_ok cb _ l _ st R). reflexivity.
  - rewrite (ForEachIf_ok cb _ l _ st R). reflexivity.
  - apply InP; [|exact Mv|reflexivity|reflexivity]. apply LpS. unfold ForEachMutable. apply lp_bind; [lp|intros f]. apply lp_bind; [lp|intros n]. apply lp_ForEachMutable_loop.
  - apply InP; [|exact Mv|reflexivity|reflexivity]. apply LpS. unfold ForEachMutableIf. apply lp_bind; [lp|intros f]. apply lp_bind; [lp|intros n]. apply lp_ForEachMutableIf_loop.
  - pose proof R as (G & C & _). cbn [fst snd] in G, C. unfold iter_all, Iterate, hget, heap_fuel, bind. cbn [fst snd]. rewrite (iter_loop_ok hdr h l _ _ [] C (fuel_ok _ _ _ _ G C)). reflexivity.
  - rewrite (IterGet_ok _ l _ i R). reflexivity.
  - apply InP; [|exact Mv|reflexivity|reflexivity]. apply LpS. apply lp_bind; [unfold Iterate; lp|intros it]. apply lp_bind; [apply lp_advance|intros it']. unfold Pointer_store. lp.
Qed.
Lemma of_numbers (vs : list T) h : exists l', let s' := snd (SListOf vs (h, empty_slist)) in
  fst (SListOf vs (h, empty_slist)) = Ok tt /\ map snd l' = vs /\ holds (fst s') (snd s') l' /\ length (fst s') = (length h + length vs)%nat /\ addrs l' = seq (length h) (length vs) /\ keeps (nth_error h) (fst s').
Proof using Type.
  cbv zeta. change (SListOf vs (h, empty_slist)) with (SListOf_loop vs (h, empty_slist)).
  assert (Gen : forall (ws : list T) h1 hdr l, rep (nth_error h) l (h1, hdr) -> exists l', fst (SListOf_loop ws (h1, hdr)) = Ok tt /\ map snd l' = map snd l ++ ws /\
     rep (nth_error h) l' (snd (SListOf_loop ws (h1, hdr))) /\ length (fst (snd (SListOf_loop ws (h1, hdr)))) = (length h1 + length ws)%nat /\ addrs l' = addrs l ++ seq (length h1) (length ws)).
  { induction ws as [|v ws IH]; intros h1 hdr l R; cbn [SListOf_loop].
    - exists l. cbn. rewrite !app_nil_r, Nat.add_0_r. auto.
    - destruct (PushBack_ok _ l _ v R) as (s1 & a & E & R1). pose proof (push_back_tail v h1 hdr l (rep_holds _ _ _ _ R)) as (H1 & H2 & _). unfold bind. rewrite E in *. cbn [fst snd] in *. destruct s1 as [h2 hdr2]. cbn [fst snd] in *.
      assert (a = length h1) as ->. { destruct R1 as (_ & _ & Et & _). cbn [snd] in Et. rewrite H2, last_ptr_snoc in Et. now injection Et. }
      destruct (IH h2 hdr2 _ R1) as (l' & E1 & E2 & E3 & E4 & E5). exists l'. split; [exact E1|]. split; [rewrite E2, map_app, <- app_assoc; reflexivity|]. split; [exact E3|].
      split; [rewrite E4, H1; cbn [length]; lia|]. rewrite E5, H1, addrs_app, <- app_assoc. reflexivity. }
  destruct (Gen vs h empty_slist []) as (l' & E1 & E2 & E3 & E4 & E5).
  - unfold rep, good. cbn. repeat split; auto; [constructor|intros a []|apply keeps_refl].
  - exists l'. split; [exact E1|]. split; [exact E2|]. destruct (snd (SListOf_loop vs (h, empty_slist))) as [h2 hdr2]. split; [eapply rep_holds; eauto|]. split; [exact E4|]. split; [exact E5|].
    destruct E3 as ((_ & _ & K) & _). exact K.
Qed.

(** *** Many variables *)
Definition lrel (w : numbers * list (list T)) (s : @svars T) : Prop :=
  fst (fst w) = length (fst s) /\
  exists L : list cells, Forall2 (holds (fst s)) (snd s) L /\ snd (fst w) = map addrs L /\ snd w = map (map snd) L.
Import Proof_DListCopy.
Lemma keep_all h h' hs L : keeps (nth_error h) h' -> Forall2 (holds h) hs L -> Forall2 (holds h') hs L.
Proof using Type.
  intros K F. eapply F2_imp; [|exact F]. intros hdr l Ho. apply (holds_same h); auto. intros a I. pose proof (holds_lt _ _ _ _ Ho I) as Lt.
  apply nth_error_Some in Lt. destruct (nth_error h a) as [nd|] eqn:E; [|congruence]. now apply K.
Qed.
Lemma F2_upd_other {A B} (P Q : A -> B -> Prop) xs ys i x y : Forall2 P xs ys -> Q x y -> (forall j a b, j <> i -> nth_error xs j = Some a -> nth_error ys j = Some b -> P a b -> Q a b) ->
  Forall2 Q (upd i x xs) (upd i y ys).
Proof using Type.
  intros F Hq H. revert i H. induction F as [|a b xs ys Hab F IH]; intros i H; [destruct i; constructor|]. destruct i as [|i]; cbn [upd].
  - constructor; auto. assert (H' : forall j a b, nth_error xs j = Some a -> nth_error ys j = Some b -> P a b -> Q a b) by (intros j a0 b0 E1 E2; apply (H (S j)); auto).
    clear -F H'. induction F as [|a b xs ys Hab F IH]; constructor; [exact (H' O a b eq_refl eq_refl Hab)|]. apply IH. intros j. exact (H' (S j)).
  - constructor; [apply (H O); auto|]. apply IH. intros j a0 b0 NE. apply (H (S j)). lia.
Qed.
Lemma map_upd {A B} (f : A -> B) i x (xs : list A) : map f (upd i x xs) = upd i (f x) (map f xs).
Proof using Type. revert i. induction xs as [|y xs IH]; intros [|i]; cbn; auto. now rewrite IH. Qed.

Lemma svars_step_ok (o : wop T St) ns ls s : lrel (ns, ls) s ->
  match o with WCall i c => in_place c (nth i (snd ns) []) = true -> alone i ns | _ => True end ->
  fst (svars_step zero o s) = fst (own_spec o ls) /\ lrel (number o ns, snd (own_spec o ls)) (snd (svars_step zero o s)).
Proof using Type.
  destruct ns as [n ids], s as [h hs]. intros (En & L & F & Ei & El) Hp. cbn [fst snd] in *. subst n ids ls.
  destruct o as [|vs|i|i j|i o]; cbn [svars_step own_spec number fst snd].
  - split; [reflexivity|]. split; [reflexivity|]. exists (L ++ [[]]). cbn [fst snd]. rewrite !map_app. split; auto. apply Forall2_app; auto. constructor; [|constructor]. repeat split; cbn; auto. constructor.
  - destruct (of_numbers vs h) as (l & E1 & E2 & E3 & E4 & E5 & E6). destruct (SListOf vs (h, empty_slist)) as [r [h' hdr']]. cbn [fst snd] in *. subst r. cbn [omap].
    split; [reflexivity|]. split; [cbn [fst]; auto|]. exists (L ++ [l]). cbn [fst snd]. rewrite !map_app. cbn [map]. rewrite E2, E5. split; auto. apply Forall2_app; [eapply keep_all; eauto|auto].
  - rewrite !nth_error_map. destruct (nth_error hs i) as [hdr|] eqn:Ei.
    + destruct (F2_nth _ _ _ _ _ F Ei) as (l & El & Ho). rewrite El. cbn. split; [reflexivity|]. split; [reflexivity|]. exists (L ++ [l]). cbn. rewrite !map_app. split; auto. apply Forall2_app; auto.
    + rewrite (F2_nth_none _ _ _ _ F Ei). cbn. split; [reflexivity|]. split; [reflexivity|]. exists L. auto.
  - rewrite !nth_error_map. destruct (nth_error hs i) as [hdr|] eqn:Ei.
    + destruct (F2_nth _ _ _ _ _ F Ei) as (l & El & Ho). rewrite El. cbn [option_map]. destruct (nth_error hs j) as [hdrj|] eqn:Ej.
      * destruct (F2_nth _ _ _ _ _ F Ej) as (lj & Elj & Hoj). rewrite Elj. cbn. split; [reflexivity|]. split; [reflexivity|]. exists (upd i lj L). cbn. rewrite !map_upd. split; auto. now apply F2_upd.
      * rewrite (F2_nth_none _ _ _ _ F Ej). cbn. split; [reflexivity|]. split; [reflexivity|]. exists L. auto.
    + rewrite (F2_nth_none _ _ _ _ F Ei). cbn. split; [reflexivity|]. split; [reflexivity|]. exists L. auto.
  - rewrite !nth_error_map. destruct (nth_error hs i) as [hdr|] eqn:Ei.
    2: { rewrite (F2_nth_none _ _ _ _ F Ei). cbn. split; [reflexivity|]. split; [reflexivity|]. exists L. auto. }
    destruct (F2_nth _ _ _ _ _ F Ei) as (l & El & Ho). rewrite El. cbn [option_map].
    destruct (call_numbers o h hdr l Ho) as (l' & Er & Ev & Ho' & En & K & Ks). destruct (slist_step zero o (h, hdr)) as [r [h' hdr']]. cbn [fst snd] in *.
    destruct (slist_spec o (map snd l)) as [r' ys]. cbn [fst snd] in *. subst r' ys. destruct (number_call o (length h) (addrs l)) as [n' ids']. injection En as <- <-.
    split; [reflexivity|]. split; [reflexivity|]. exists (upd i l' L). cbn [fst snd]. rewrite !map_upd. split; auto.
    apply (F2_upd_other (holds h)); auto. intros j hdrj lj NE Ej Elj Hoj. apply (holds_same h); auto. intros a I. pose proof (holds_lt _ _ _ _ Hoj I) as Lt. apply nth_error_Some in Lt.
    destruct (nth_error h a) as [nd|] eqn:E; [|congruence]. destruct (in_place o (addrs l)) eqn:Ip; [|now apply Ks].
    apply K. unfold off_list. destruct (in_dec _ _ _) as [I2|_]; [|exact E]. exfalso.
    rewrite (nth_error_nth (map addrs L) i [] (x := addrs l)) in Hp by (rewrite nth_error_map, El; reflexivity). specialize (Hp Ip).
    refine (Hp j (addrs l) (addrs lj) a NE _ _ I2 I); cbn [snd]; rewrite nth_error_map; [now rewrite El|now rewrite Elj].
Qed.
Lemma svars_run (ops : list (wop T St)) : forall ns ls s, lrel (ns, ls) s -> polite ops ns ->
  fst (run (svars_step zero) ops s) = fst (run own_spec ops ls) /\ lrel (fold_left (fun w o => number o w) ops ns, snd (run own_spec ops ls)) (snd (run (svars_step zero) ops s)).
Proof using Type.
  induction ops as [|o ops IH]; intros ns ls s R Hp; [cbn; auto|]. cbn [polite] in Hp. destruct Hp as [Hp1 Hp2].
  destruct (svars_step_ok o ns ls s R Hp1) as [E R1]. cbn [run fold_left]. destruct (svars_step zero o s) as [r s1]. destruct (own_spec o ls) as [r' ls1]. cbn [fst snd] in *. subst r'.
  destruct (IH _ _ _ R1 Hp2) as [E2 R2]. destruct (run (svars_step zero) ops s1) as [rs s2]. destruct (run own_spec ops ls1) as [rs' ls2]. cbn [fst snd] in *. subst rs'. auto.
Qed.
Lemma lrel_init : lrel ((O, []), []) ([], []).
Proof using Type. split; [reflexivity|]. exists []. split; [constructor|auto]. Qed.

(** *** A list continued through a copy *)
Definition rd {A} (p : SP A) : Prop := forall h hdr1 hdr2, s_head hdr1 = s_head hdr2 -> exists o, p (h, hdr1) = (o, (h, hdr1)) /\ p (h, hdr2) = (o, (h, hdr2)).
Lemma rd_ret {A} (a : A) : rd (ret a). Proof using Type. intros h h1 h2 E. eexists. split; reflexivity. Qed.
Lemma rd_nofuel {A} : rd (@nofuel _ A). Proof using Type. intros h h1 h2 E. eexists. split; reflexivity. Qed.
Lemma rd_head : rd (@hget (snode T) slist _ s_head). Proof using Type. intros h h1 h2 E. exists (Ok (s_head h1)). unfold hget. cbn [snd]. split; [reflexivity|]. now rewrite E. Qed.
Lemma rd_fuel : rd (@heap_fuel (snode T) slist). Proof using Type. intros h h1 h2 E. eexists. split; reflexivity. Qed.
Lemma rd_pload p : rd (@pload (snode T) slist p).
Proof using Type. intros h h1 h2 E. destruct p as [a|]; [|eexists; split; reflexivity]. unfold pload. cbn [fst]. destruct (nth_error h a); eexists; split; reflexivity. Qed.
Lemma rd_bind {A B} (p : SP A) (k : A -> SP B) : rd p -> (forall a, rd (k a)) -> rd (x <- p ;; k x).
Proof using Type. intros Hp Hk h h1 h2 E. destruct (Hp h h1 h2 E) as (o & E1 & E2). unfold bind. rewrite E1, E2. destruct o as [a| |]; [exact (Hk a h h1 h2 E)| |]; eexists; split; reflexivity. Qed.
Lemma rd_if {A} (b : bool) (p q : SP A) : rd p -> rd q -> rd (if b then p else q). Proof using Type. now destruct b. Qed.
Ltac rd := repeat first [apply rd_ret | apply rd_nofuel | apply rd_head | apply rd_fuel | apply rd_pload | apply rd_if | (apply rd_bind; [|intros ?])].
Lemma rd_ForEach_loop (cb : St -> T -> St) fuel : forall p st, rd (ForEach_loop cb fuel p st).
Proof using Type. induction fuel as [|f IH]; intros p st; cbn [ForEach_loop]; rd. apply IH. Qed.
Lemma rd_ForEachIf_loop (cb : St -> T -> bool * St) fuel : forall p st, rd (ForEachIf_loop cb fuel p st).
Proof using Type. induction fuel as [|f IH]; intros p st; cbn [ForEachIf_loop]; rd. destruct (cb st _) as [go st']. rd. apply IH. Qed.
Lemma rd_advance i : forall it, rd (@advance T i it).
Proof using Type. induction i as [|i IH]; intros it; cbn [advance]; unfold MoveToNext; rd. apply IH. Qed.
Lemma rd_iter_loop fuel : forall it seen, rd (@iter_loop T fuel it seen).
Proof using Type. induction fuel as [|f IH]; intros it seen; cbn [iter_loop]; unfold MoveToNext, IsNotEnd, Value; rd. apply IH. Qed.

Lemma Values_loop_panic hdr h l : forall fuel p i (s : list T), chain h p l -> (length l < fuel)%nat -> 0 <= i <= zlen s -> zlen s < i + zlen l ->
  Values_loop fuel p i s (h, hdr) = (Panic, (h, hdr)).
Proof using Type.
  induction l as [|[a v] l IH]; intros fuel p i s C F Hi Hl; (destruct fuel as [|fuel]; [cbn in F; lia|]); cbn [Values_loop].
  - change (zlen (@nil (nat * T))) with 0 in Hl. lia.
  - destruct C as (-> & q & E & C). cbn [is_nil]. unfold bind at 1. rewrite (pload_ok _ _ a _ E). cbn [s_next s_value]. rewrite zlen_cons in Hl.
    unfold bind, lift_o, at_. destruct (zget s i) as [x|] eqn:Ex; [|reflexivity]. apply zget_Some_range in Ex. apply IH; auto; [cbn in F; lia| |]; rewrite zlen_zupd; lia.
Qed.
Lemma stale_ok fr h hdr hdr' l new (o : sop T St) : l <> [] -> s_head hdr = s_head hdr' -> s_tail hdr = last_ptr l -> s_length hdr = zlen l -> rep fr (l ++ new) (h, hdr') -> looks o ->
  slist_step zero o (h, hdr) = (stale_spec (map snd l) (map snd new) o, (h, hdr)).
Proof using Type.
  intros Hl Eh Et En R Lo. pose proof R as (G & C & _ & _). cbn [fst snd] in G, C. rewrite <- Eh in C. pose proof (fuel_ok _ _ _ _ G C) as Fu.
  assert (Hz : (zlen l =? 0) = false) by (apply Z.eqb_neq; destruct l as [|c l]; [congruence|]; rewrite zlen_cons; pose proof (zlen_nonneg l); lia).
  assert (Via : forall A (p : SP A) R0 (f : A -> R0) r, rd p -> p (h, hdr') = (r, (h, hdr')) -> show f p (h, hdr) = (omap f r, (h, hdr))).
  { intros A p R0 f r Hp E. destruct (Hp h hdr hdr' Eh) as (r1 & E1 & E2). unfold show. rewrite E1. rewrite E in E2. injection E2 as ->. reflexivity. }
  destruct o; try destruct Lo; cbn [slist_step stale_spec].
  - unfold show, Len, hget. cbn [snd]. rewrite En. unfold zlen. rewrite map_length. reflexivity.
  - unfold show, IsEmpty, hget, bind, ret. cbn [snd]. rewrite En, Hz. reflexivity.
  - unfold show, Front, IsEmpty, hget, bind, ret. cbn [snd]. rewrite En, Hz. cbn [snd]. destruct l as [|[a v] l]; [congruence|]. destruct C as (Ehd & q & E & _). rewrite Ehd, (pload_ok _ _ a _ E). reflexivity.
  - unfold show, Back, IsEmpty, hget, bind, ret. cbn [snd]. rewrite En, Hz. cbn [snd]. rewrite Et. destruct (snoc_case l) as [->|(l' & [a v] & ->)]; [congruence|]. rewrite last_ptr_snoc.
    assert (exists q, nth_error h a = Some (mkSNode q v)) as [q E]. { apply (chain_nth h ((l' ++ [(a, v)]) ++ new) (s_head hdr) (length l') a v C). rewrite nth_error_app1 by (rewrite app_length; cbn; lia). rewrite nth_error_app2, Nat.sub_diag by lia. reflexivity. }
    rewrite (pload_ok _ _ a _ E), map_app. unfold seq_back. rewrite rev_app_distr. reflexivity.
  - unfold show, Values, heap_fuel, Len, hget, bind, ret. cbn [fst snd]. rewrite En. destruct (Z.ltb_spec (zlen l) 0); [pose proof (zlen_nonneg l); lia|]. cbn [fst snd].
    destruct new as [|c new].
    + cbn [map]. rewrite app_nil_r in *. replace (Z.to_nat (zlen l)) with (length l) by (unfold zlen; now rewrite Nat2Z.id).
      change 0 with (zlen (@nil T)). change (repeat zero (length l)) with ([] ++ repeat zero (length l)).
      rewrite Values_loop_ok with (l := l); auto. apply repeat_length.
    + rewrite (Values_loop_panic hdr h (l ++ c :: new)); auto; rewrite ?zlen_repeat, ?zlen_app, ?zlen_cons; pose proof (zlen_nonneg l); pose proof (zlen_nonneg new); try lia.
  - rewrite <- map_app. rewrite (Via _ (ForEach cb st) _ RSt _ ltac:(unfold ForEach; rd; apply rd_ForEach_loop) (ForEach_ok cb _ _ _ st R)). reflexivity.
  - rewrite <- map_app. rewrite (Via _ (ForEachIf cb st) _ RSt _ ltac:(unfold ForEachIf; rd; apply rd_ForEachIf_loop) (ForEachIf_ok cb _ _ _ st R)). reflexivity.
  - unfold show, iter_all, Iterate, hget, heap_fuel, bind. cbn [fst snd]. rewrite (iter_loop_ok hdr h (l ++ new) _ _ [] C Fu). rewrite <- map_app. reflexivity.
  - rewrite <- map_app. erewrite Via; [|unfold Iterate, Value; rd; apply rd_advance|apply (IterGet_ok _ _ _ i R)]. now destruct (nth_error (map snd (l ++ new)) i).
Qed.
(** Appending ys through the copy. *)
Lemma append_calls fr n (ys : list T) : forall h hs hdr l, nth_error hs n = Some hdr -> rep fr l (h, hdr) -> exists h' hdr' new,
  run (svars_step zero) (map (fun y => WCall (St:=St) n (LPushBack y)) ys) (h, hs) = (map (fun _ => Ok (RObs ONone)) ys, (h', upd n hdr' hs)) /\ map snd new = ys /\ rep fr (l ++ new) (h', hdr').
Proof using Type.
  induction ys as [|y ys IH]; intros h hs hdr l En R; cbn [map run].
  - exists h, hdr, []. rewrite app_nil_r. split; auto. f_equal. f_equal. clear -En. revert n En. induction hs as [|x hs IH]; intros [|n] E; try discriminate; cbn in *; [congruence|]. now rewrite <- IH.
  - cbn [svars_step fst snd]. rewrite En. cbn [slist_step]. unfold show. destruct (PushBack_ok _ _ _ y R) as ([h1 hdr1] & a & E & R1). rewrite E.
    assert (Lt : (n < length hs)%nat) by (apply nth_error_Some; congruence).
    destruct (IH h1 (upd n hdr1 hs) hdr1 _ (nth_error_upd_eq _ _ _ Lt) R1) as (h' & hdr' & new & E2 & E3 & R2).
    rewrite E2. exists h', hdr', ((a, y) :: new). rewrite <- app_assoc in R2. cbn [map snd]. rewrite E3. split; [|split; [reflexivity|exact R2]]. cbn [omap]. rewrite upd_upd. reflexivity.
Qed.
End SC2.
