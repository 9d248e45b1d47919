(** Proofs for C100. *)
From Verif Require Import BaseLemmas Spec Trace Spec_List Spec_BSet Spec_BSetFx Model_BuiltinSet Model_BSetFx Proof_BuiltinSet.
Local Arguments zlen : simpl never.

Section S.
Context {K : Type}.
Variables (eqb : K -> K -> bool) (pick : K -> K -> K).
Hypothesis KE : key_eq eqb.
Hypothesis RF : key_refl eqb.
Hypothesis PK : picks_one pick.
Notation gomap := (gomap K).
Notation heap := (list gomap).
Notation world := (@world K).

(** Every call keeps all entries it does not remove, in every set, or removes only. *)
Definition grows (m m' : gomap) : Prop := forall e, In e (g_ents m) -> exists e', In e' (g_ents m') /\ fst e' = fst e /\ eqb (snd e) (snd e') = true.
Definition Grow (h h' : heap) : Prop := forall s, grows (look h s) (look h' s).
Definition Shrink (h h' : heap) : Prop := forall s, grows (look h' s) (look h s).
Lemma grows_refl m : grows m m.
Proof. intros e I. exists e. auto. Qed.
Lemma grows_trans a b c : grows a b -> grows b c -> grows a c.
Proof. intros H H' e I. destruct (H e I) as (e1 & I1 & F1 & E1). destruct (H' e1 I1) as (e2 & I2 & F2 & E2). exists e2. split; [auto|]. split; [congruence|]. eapply (ke_trans _ KE); eauto. Qed.

Section Moves.
Variable R : heap -> heap -> Prop.
Hypothesis Rr : forall h, R h h.
Hypothesis Rt : forall a b c, R a b -> R b c -> R a c.
Definition moves {A} (p : M heap A) : Prop := forall h, R h (snd (p h)).
Lemma mv_ret {A} (a : A) : moves (ret a).
Proof. intros h. apply Rr. Qed.
Lemma mv_bind {A B} (p : M heap A) (f : A -> M heap B) : moves p -> (forall a, moves (f a)) -> moves (bind p f).
Proof. intros Hp Hf h. unfold bind. specialize (Hp h). destruct (p h) as [[a| |] h1]; cbn [snd] in *; auto. eapply Rt; [exact Hp|apply Hf]. Qed.
Lemma mv_show {A B} (f : A -> B) (p : M heap A) : moves p -> moves (show f p).
Proof. intros Hp h. unfold show. specialize (Hp h). destruct (p h) as [r h1]. exact Hp. Qed.
Lemma mv_loop {A} s (b : A -> K -> M heap (bool * A)) os : (forall a k, moves (b a k)) -> forall a, moves (range_loop s b os a).
Proof.
  intros Hb. induction os as [|i os IH]; intros a h; cbn [range_loop]; [apply Rr|]. destruct (g_find i (look h s)) as [[j k]|]; [|apply IH].
  apply (mv_bind (b a k) (fun r => if fst r then range_loop s b os (snd r) else ret (snd r)) (Hb a k)). intros [[] a']; cbn [fst snd]; [apply IH|apply mv_ret].
Qed.
Lemma mv_range {A} s o (b : A -> K -> M heap (bool * A)) a : (forall a k, moves (b a k)) -> moves (range s o b a).
Proof. intros Hb h. unfold range. apply mv_loop. exact Hb. Qed.
Lemma mv_len s : moves (len_map s).
Proof. intros h. apply Rr. Qed.
Lemma mv_has s k : moves (has_key eqb s k).
Proof. intros h. apply Rr. Qed.
End Moves.

Lemma look_put (h : heap) s m t : look (put s m h) t = look h t \/ (look (put s m h) t = m /\ s = t).
Proof.
  assert (s = t \/ s <> t) as [<-|N] by (destruct s as [a|], t as [b|]; auto; try (right; congruence); destruct (Nat.eq_dec a b); [left|right]; congruence).
  - destruct (allocated h s) eqn:L; [right; split; [now apply look_put_same|reflexivity]|left; now rewrite put_dead].
  - left. now apply look_put_other.
Qed.
Lemma mv_set s k : moves Grow (set_key eqb pick s k).
Proof.
  intros h t. unfold set_key. destruct (allocated h s); [|apply grows_refl]. cbn [snd]. destruct (look_put h s (g_set eqb pick k (look h s)) t) as [->|[-> <-]]; [apply grows_refl|].
  intros e I. unfold g_set. destruct (g_has eqb k (look h s)); cbn [g_ents].
  - destruct (eqb (snd e) k) eqn:E.
    + exists (fst e, pick (snd e) k). split; [apply in_map_iff; exists e; now rewrite E|]. split; [reflexivity|]. cbn [snd]. rewrite (eq_sym_b eqb KE), (pick_eq eqb pick KE PK) by exact E. apply RF.
    + exists e. split; [apply in_map_iff; exists e; now rewrite E|]. split; [reflexivity|apply RF].
  - exists e. split; [apply in_or_app; now left|]. split; [reflexivity|apply RF].
Qed.
Lemma mv_del s k : moves Shrink (del_key eqb s k).
Proof.
  intros h t. unfold del_key. cbn [snd]. destruct (look_put h s (g_del eqb k (look h s)) t) as [->|[-> <-]]; [apply grows_refl|].
  intros e I. apply filter_In in I as [I _]. exists e. split; [auto|]. split; [reflexivity|apply RF].
Qed.
Lemma mv_make : moves Grow make_map.
Proof.
  intros h t. cbn [make_map snd]. destruct t as [a|]; [|apply grows_refl]. cbn [look]. destruct (Nat.lt_ge_cases a (length h)); [rewrite app_nth1 by auto; apply grows_refl|].
  rewrite (nth_overflow h) by auto. intros e [].
Qed.

Lemma Grow_refl h : Grow h h.
Proof. intros s. apply grows_refl. Qed.
Lemma Grow_trans a b c : Grow a b -> Grow b c -> Grow a c.
Proof. intros H H' s. eapply grows_trans; eauto. Qed.
Lemma Shrink_refl h : Shrink h h.
Proof. intros s. apply grows_refl. Qed.
Lemma Shrink_trans a b c : Shrink a b -> Shrink b c -> Shrink a c.
Proof. intros H H' s. eapply grows_trans; eauto. Qed.

Ltac mv :=
  repeat match goal with
  | |- moves _ (bset_step _ _ _) => cbn [bset_step]
  | |- moves ?R (show _ _) => apply mv_show
  | |- moves Grow (bind _ _) => apply (mv_bind Grow Grow_trans); [|intros ?]
  | |- moves Shrink (bind _ _) => apply (mv_bind Shrink Shrink_trans); [|intros ?]
  | |- moves Grow (ret _) => apply (mv_ret Grow Grow_refl)
  | |- moves Shrink (ret _) => apply (mv_ret Shrink Shrink_refl)
  | |- moves Grow (len_map _) => apply (mv_len Grow Grow_refl)
  | |- moves Shrink (len_map _) => apply (mv_len Shrink Shrink_refl)
  | |- moves Grow (has_key _ _ _) => apply (mv_has Grow Grow_refl)
  | |- moves Shrink (has_key _ _ _) => apply (mv_has Shrink Shrink_refl)
  | |- moves Grow (set_key _ _ _ _) => apply mv_set
  | |- moves Shrink (del_key _ _ _) => apply mv_del
  | |- moves Grow make_map => apply mv_make
  | |- moves Grow (range _ _ _ _) => apply (mv_range Grow Grow_refl Grow_trans); intros ? ?
  | |- moves Shrink (range _ _ _ _) => apply (mv_range Shrink Shrink_refl Shrink_trans); intros ? ?
  | |- moves _ (if ?b then _ else _) => destruct b
  | |- moves _ (let '(_, _) := ?b in _) => destruct b
  | |- moves _ (match ?b with _ => _ end) => destruct b
  | |- moves _ ?p => let q := eval cbv delta [b_IsEmpty b_Len b_Clear b_Has b_Insert b_InsertN SetOf b_Remove b_Delete b_RemoveN b_Keys b_ForEach b_ForEachIf b_Update b_Union orderSet b_Intersection b_Difference b_IsDisjointOf b_IsSubsetOf b_IsSupersetOf do_each] in p in progress change p with q; cbv beta
  end.
Lemma mv_sets s ks : moves Grow (set_keys eqb pick s ks).
Proof. induction ks; cbn [set_keys]; mv. apply IHks. Qed.
Lemma mv_dels s ks : moves Shrink (del_keys eqb s ks).
Proof. induction ks; cbn [del_keys]; mv. apply IHks. Qed.
Lemma mv_step {St} (o : bop K St) : moves Grow (bset_step eqb pick o) \/ moves Shrink (bset_step eqb pick o).
Proof.
  destruct o.
  4,5,6,7: right; mv; try apply mv_dels.
  all: left; mv; try apply mv_sets.
Qed.

(** What a running loop over s knows: the remaining rounds os. *)
Definition Inv (s : sref) (os : list nat) (must done : K -> bool) (h : heap) : Prop :=
  (forall x, must x = true -> exists e, In e (g_ents (look h s)) /\ eqb (snd e) x = true /\ In (fst e) os) /\
  (forall x, done x = true -> exists e, In e (g_ents (look h s)) /\ eqb (snd e) x = true /\ ~ In (fst e) os).
Lemma Inv_le s os mu dn mu' dn' h : Inv s os mu dn h -> (forall x, mu' x = true -> mu x = true) -> (forall x, dn' x = true -> dn x = true) -> Inv s os mu' dn' h.
Proof. intros [A B] L1 L2. split; intros x H; auto. Qed.
Lemma still_nil s (q : K -> bool) x : still s q [] x = true -> q x = true.
Proof. unfold still. cbn. now rewrite andb_true_r. Qed.
Lemma still_app s (q : K -> bool) a b x : still s q (a ++ b) x = still s (still s q a) b x.
Proof. unfold still. now rewrite forallb_app, andb_assoc. Qed.

(** One call. *)
Lemma Inv_step {St} w h (o : bop K St) w1 s os mu dn : wrel eqb w h -> wrel eqb w1 (snd (bset_step eqb pick o h)) ->
  Inv s os mu dn h -> Inv s os (still s mu [w1]) (still s dn [w1]) (snd (bset_step eqb pick o h)).
Proof.
  intros Rw Rw1 [A B]. set (h1 := snd (bset_step eqb pick o h)) in *. destruct (wrel_sem eqb _ _ s Rw1) as [W1 H1]. destruct (wrel_sem eqb _ _ s Rw) as [W0 H0].
  assert (Tr : forall x e, In e (g_ents (look h s)) -> eqb (snd e) x = true -> sem w1 s x = true -> exists e', In e' (g_ents (look h1 s)) /\ eqb (snd e') x = true /\ fst e' = fst e).
  { intros x e I E X. destruct (mv_step o) as [G|G].
    - destruct (G h s e I) as (e' & I' & F & E'). exists e'. split; [exact I'|]. split; [|exact F]. eapply (ke_trans _ KE); [|exact E]. now apply (ke_sym _ KE).
    - rewrite H1 in X. apply has_in in X as (e' & I' & E'). exists e'. split; [exact I'|]. split; [exact E'|]. destruct (G h s e' I') as (e2 & I2 & F2 & E2). rewrite <- F2.
      destruct W0 as [[_ U] _]. apply U; auto. eapply (ke_trans _ KE); [|apply (ke_sym _ KE); exact E]. eapply (ke_trans _ KE); [apply (ke_sym _ KE); exact E2|exact E']. }
  unfold still. cbn [forallb]. split; intros x X; rewrite andb_true_r in X; apply andb_true_iff in X as [X1 X2].
  - destruct (A x X1) as (e & I & E & O). destruct (Tr x e I E X2) as (e' & I' & E' & F). exists e'. rewrite F. auto.
  - destruct (B x X1) as (e & I & E & O). destruct (Tr x e I E X2) as (e' & I' & E' & F). exists e'. rewrite F. auto.
Qed.

(** What a piece of program has to satisfy. *)
Definition fine {A} (spec : world -> outcome A -> list world -> world -> Prop) (p : M heap A) : Prop := forall w h, wrel eqb w h ->
  exists tr w', spec w (fst (p h)) tr w' /\ fst (p h) <> NoFuel /\ wrel eqb w' (snd (p h)) /\
    forall s os mu dn, Inv s os mu dn h -> Inv s os (still s mu tr) (still s dn tr) (snd (p h)).

Lemma find_eq (m : gomap) (e e' : nat * K) : wf eqb m -> In e (g_ents m) -> In e' (g_ents m) -> fst e = fst e' -> e = e'.
Proof. intros W I I' F. pose proof (find_in eqb m e W I) as A. pose proof (find_in eqb m e' W I') as B. rewrite F in A. congruence. Qed.

Lemma each_fine {St} s (B : St -> K -> world -> outcome (bool * St) -> list world -> world -> Prop) (cb : St -> K -> M heap (bool * St)) :
  (forall st k, fine (B st k) (cb st k)) -> forall os st mu dn w h, NoDup os -> wrel eqb w h -> Inv s os mu dn h ->
  let p := range_loop s (fun st k => r <- cb st k ;; if negb (fst r) then ret (false, snd r) else ret (true, snd r)) os st in
  exists ks tr w', each eqb s B w mu dn st ks (fst (p h)) tr w' /\ fst (p h) <> NoFuel /\ wrel eqb w' (snd (p h)) /\
    forall s os mu dn, Inv s os mu dn h -> Inv s os (still s mu tr) (still s dn tr) (snd (p h)).
Proof.
  intros HB. induction os as [|i os IH]; intros st mu dn w h ND Rw [I1 I2]; cbn zeta; cbn [range_loop].
  - exists [], [], w. cbn [ret fst snd]. split; [|split; [discriminate|split; [exact Rw|]]].
    + constructor. intros x. unfold none. apply not_true_iff_false. intros X. destruct (I1 x X) as (e & _ & _ & []).
    + intros s' os' mu' dn' H. eapply Inv_le; [exact H| |]; intros x; apply still_nil.
  - apply NoDup_cons_iff in ND as [Ni ND]. destruct (wrel_sem eqb _ _ s Rw) as [Wm Hm]. destruct (g_find i (look h s)) as [[j k]|] eqn:G.
    + apply find_some_in in G as [Ie Fi]. cbn [fst] in Fi. subst j.
      assert (Hk : sem w s k = true) by (rewrite Hm; apply has_in; exists (i, k); split; [exact Ie|apply RF]).
      assert (Hd : dn k = false). { apply not_true_iff_false. intros X. destruct (I2 k X) as (e & I & E & N). apply N. left. symmetry. destruct Wm as [[_ U] _]. apply (U e (i, k)); auto. }
      assert (Inv0 : Inv s os (without eqb mu k) (with_ eqb dn k) h).
      { split; intros x X.
        - apply andb_true_iff in X as [X N]. destruct (I1 x X) as (e & I & E & [O|O]); [|exists e; auto]. exfalso.
          assert (e = (i, k)) as -> by (apply (find_eq (look h s)); auto). cbn [snd] in E. rewrite (eq_sym_b eqb KE) in E. now rewrite E in N.
        - apply orb_true_iff in X as [X|X].
          + destruct (I2 x X) as (e & I & E & O). exists e. split; [auto|]. split; [auto|]. intros O'. apply O. now right.
          + exists (i, k). split; [exact Ie|]. split; [cbn; now rewrite (eq_sym_b eqb KE)|exact Ni]. }
      destruct (HB st k w h Rw) as (tr & w1 & S1 & N1 & R1 & V1). unfold bind. destruct (cb st k h) as [[[go st1]| |] h1] eqn:E1; cbn [fst snd] in *.
      * destruct go; cbn [negb ret fst snd].
        -- destruct (IH st1 _ _ w1 h1 ND R1 (V1 _ _ _ _ Inv0)) as (ks & tr2 & w2 & S2 & N2 & R2 & V2). cbn zeta in *. unfold bind in S2, N2, R2, V2. exists (k :: ks), (tr ++ tr2), w2.
           split; [econstructor; eauto|]. split; [exact N2|]. split; [exact R2|]. intros s' os' mu' dn' H. eapply Inv_le; [apply V2, V1, H| |]; intros x; now rewrite still_app.
        -- exists [k], tr, w1. split; [eapply e_stop; eauto|]. split; [discriminate|auto].
      * exists [k], tr, w1. split; [eapply e_panic; eauto|]. split; [discriminate|auto].
      * congruence.
    + apply IH; auto. split; intros x X.
      * destruct (I1 x X) as (e & I & E & [O|O]); [|exists e; auto]. exfalso. pose proof (find_in eqb _ e Wm I) as F. rewrite <- O in F. congruence.
      * destruct (I2 x X) as (e & I & E & O). exists e. split; [auto|]. split; [auto|]. intros O'. apply O. now right.
Qed.

Lemma clip_ok {St} n (o : bop K St) : forallb (ref_ok n) (op_refs (clip n o)) = true.
Proof. assert (C : forall s, ref_ok n (clip_ref n s) = true) by (intros s; unfold clip_ref; destruct (ref_ok n s) eqn:E; auto). destruct o; cbn; rewrite ?C; reflexivity. Qed.
Lemma spec_fuel {St} w (o : bop K St) w' : ~ bset_spec eqb w o NoFuel w'.
Proof. intros H. inversion H. Qed.
Lemma Inv_start s o w h : wrel eqb w h -> Inv s (rounds o (look h s)) (sem w s) none h.
Proof.
  intros Rw. destruct (wrel_sem eqb _ _ s Rw) as [Wm Hm]. split; [|discriminate]. intros x X. rewrite Hm in X. apply has_in in X as (e & I & E). exists e. split; [exact I|]. split; [exact E|]. now apply rounds_all.
Qed.
Lemma exec_fine {R} (p : bprog K R) : fine (body eqb p) (exec eqb pick p).
Proof.
  induction p as [R r|R|R o next IH|R St s o cb IHcb st next IH]; intros w h Rw; cbn [exec body].
  - exists [], w. cbn. split; [auto|]. split; [discriminate|]. split; [exact Rw|]. intros s' os' mu' dn' H. eapply Inv_le; [exact H| |]; intros x; apply still_nil.
  - exists [], w. cbn. split; [auto|]. split; [discriminate|]. split; [exact Rw|]. intros s' os' mu' dn' H. eapply Inv_le; [exact H| |]; intros x; apply still_nil.
  - unfold try_. rewrite <- (wrel_len eqb w h Rw). destruct (step_ok eqb pick KE RF PK w h (clip (length w) o) Rw (clip_ok _ _)) as (w1 & S1 & R1 & _).
    pose proof (fun s os mu dn => Inv_step w h (clip (length w) o) w1 s os mu dn Rw R1) as V1. destruct (bset_step eqb pick (clip (length w) o) h) as [r1 h1]. cbn [fst snd] in *.
    destruct (IH r1 w1 h1 R1) as (tr2 & w2 & S2 & N2 & R2 & V2). exists (w1 :: tr2), w2. split; [eauto 8|]. split; [exact N2|]. split; [exact R2|].
    intros s' os' mu' dn' H. eapply Inv_le; [apply V2, V1, H| |]; intros x; now rewrite <- still_app.
  - unfold try_, ForEachIf_fx, range. destruct (each_fine s (fun st k => body eqb (cb st k)) (fun st k => exec eqb pick (cb st k)) IHcb (rounds o (look h s)) st (sem w s) none w h (rounds_nodup o _) Rw (Inv_start s o w h Rw)) as (ks & tr1 & w1 & S1 & N1 & R1 & V1).
    cbn zeta in *. destruct (range_loop s _ _ _ h) as [r1 h1]. cbn [fst snd] in *.
    destruct (IH r1 w1 h1 R1) as (tr2 & w2 & S2 & N2 & R2 & V2). exists (tr1 ++ tr2), w2. split; [do 5 eexists; eauto|]. split; [exact N2|]. split; [exact R2|].
    intros s' os' mu' dn' H. eapply Inv_le; [apply V2, V1, H| |]; intros x; now rewrite <- still_app.
Qed.
Lemma loop_fine {St} s o (cb : St -> K -> bprog K (bool * St)) st w h : wrel eqb w h ->
  exists ks tr w', each eqb s (fun st k => body eqb (cb st k)) w (sem w s) none st ks (fst (b_ForEachIf_fx eqb pick s o cb st h)) tr w' /\ wrel eqb w' (snd (b_ForEachIf_fx eqb pick s o cb st h)).
Proof.
  intros Rw. destruct (each_fine s (fun st k => body eqb (cb st k)) (fun st k => exec eqb pick (cb st k)) (fun st k => exec_fine (cb st k)) (rounds o (look h s)) st (sem w s) none w h (rounds_nodup o _) Rw (Inv_start s o w h Rw)) as (ks & tr1 & w1 & S1 & _ & R1 & _).
  exists ks, tr1, w1. auto.
Qed.
Lemma exec_map {A B} (f : A -> B) (p : bprog K A) h : exec eqb pick (bmap f p) h = (a <- exec eqb pick p ;; ret (f a)) h.
Proof.
  revert h. induction p as [R r|R|R o next IH|R St s o cb IHcb st next IH]; intros h; cbn [exec bmap]; auto.
  - unfold try_, bind. destruct (bset_step eqb pick (clip (length h) o) h) as [r1 h1]. rewrite IH. reflexivity.
  - unfold try_, bind at 1. destruct (ForEachIf_fx s o _ st h) as [r1 h1]. rewrite IH. reflexivity.
Qed.
Lemma foreach_if {St} s o (cb : St -> K -> bprog K St) st h : b_ForEach_fx eqb pick s o cb st h = b_ForEachIf_fx eqb pick s o (fun st k => bmap (pair true) (cb st k)) st h.
Proof.
  unfold b_ForEach_fx, b_ForEachIf_fx, ForEach_fx, ForEachIf_fx, range. generalize (rounds o (look h s)). intros os. revert st h. induction os as [|i os IH]; intros st h; cbn [range_loop]; auto.
  destruct (g_find i (look h s)) as [[j k]|]; auto. unfold bind. rewrite exec_map. unfold bind. destruct (exec eqb pick (cb st k) h) as [[st1| |] h1]; cbn; auto.
Qed.
End S.

(** ** What the specification means *)
Section Facts.
Context {K : Type}.
Variable eqb : K -> K -> bool.
Hypothesis KE : key_eq eqb.
Notation world := (@world K).
Lemma sem_of s (w : world) k : sem w s k = true -> exists i, s = Some i /\ (i < length w)%nat.
Proof. destruct s as [i|]; [|discriminate]. intros H. exists i. split; [reflexivity|]. destruct (Nat.lt_ge_cases i (length w)); auto. cbn in H. rewrite nth_overflow in H by auto. discriminate. Qed.
Lemma sem_change_same i (p : K -> bool) (w : world) : (i < length w)%nat -> sem (change (Some i) p w) (Some i) = p.
Proof. revert i. induction w as [|q w IH]; intros [|i] H; cbn in *; try lia; auto. apply IH. lia. Qed.
Lemma sem_change_other s t (p : K -> bool) (w : world) : s <> t -> sem (change s p w) t = sem w t.
Proof.
  destruct s as [i|], t as [j|]; intros N; cbn; auto. assert (i <> j) by congruence. clear N. revert i j H. induction w as [|q w IH]; intros [|i] [|j] H; cbn in *; auto; try lia.
Qed.
Lemma sem_snoc s (p : K -> bool) (w : world) x : sem w s x = true -> sem (w ++ [p]) s x = true.
Proof. intros H. destruct (sem_of _ _ _ H) as (i & -> & L). cbn in *. now rewrite app_nth1. Qed.

Section Each.
Context {St : Type}.
Variable s : sref.
Variable B : St -> K -> world -> outcome (bool * St) -> list world -> world -> Prop.
Hypothesis Blast : forall st k w r tr w', B st k w r tr w' -> w' = last tr w.
Lemma last_cons' {A} (x : A) l d : last (x :: l) d = last l x.
Proof. revert x d. induction l as [|y l IH]; intros x d; [reflexivity|]. change (last (y :: l) d = last (y :: l) x). now rewrite !IH. Qed.
Lemma last_app {A} (a b : list A) d : last (a ++ b) d = last b (last a d).
Proof. revert d. induction a as [|x a IH]; intros d; [reflexivity|]. rewrite <- app_comm_cons, !last_cons'. apply IH. Qed.
Lemma each_last w mu dn st ks r tr w' : each eqb s B w mu dn st ks r tr w' -> w' = last tr w.
Proof. induction 1; auto; try (eapply Blast; eassumption). rewrite last_app, <- (Blast _ _ _ _ _ _ H1). auto. Qed.
Lemma last_in {A} (l : list A) d : last l d = d /\ l = [] \/ In (last l d) l.
Proof. induction l as [|x l IH]; cbn; auto. destruct l as [|y l]; [auto|]. destruct IH as [[_ X]|X]; [discriminate|auto]. Qed.
Lemma each_from w mu dn st ks r tr w' : each eqb s B w mu dn st ks r tr w' -> forall k, In k ks -> sem w s k = true \/ exists w1, In w1 tr /\ sem w1 s k = true.
Proof.
  induction 1; intros x I; [destruct I|destruct I as [<-|[]]; auto..|destruct I as [<-|I]; auto]. destruct (IHeach x I) as [X|(w3 & I3 & X)].
  - rewrite (Blast _ _ _ _ _ _ H1) in X. destruct (last_in tr w) as [[E ->]|I1]; [cbn in X; auto|]. right. exists (last tr w). split; [apply in_or_app; auto|exact X].
  - right. exists w3. split; [apply in_or_app; auto|exact X].
Qed.
Lemma each_all : (forall st k w st' tr w', ~ B st k w (Ok (false, st')) tr w') -> forall w mu dn st ks r tr w', each eqb s B w mu dn st ks r tr w' -> r <> Panic ->
  forall x, mu x = true -> forallb (fun w1 => sem w1 s x) tr = true -> exists k, In k ks /\ eqb x k = true.
Proof.
  intros NF. induction 1; intros Hr x M F.
  - rewrite H in M. discriminate.
  - congruence.
  - destruct (NF _ _ _ _ _ _ H1).
  - rewrite forallb_app in F. apply andb_true_iff in F as [F1 F2]. destruct (eqb x k) eqn:E; [exists k; split; [now left|exact E]|].
    destruct (IHeach Hr x) as (k' & I & E'); [unfold still, without; now rewrite M, E, F1|exact F2|]. exists k'. split; [now right|exact E'].
Qed.
Lemma each_done w mu dn st ks r tr w' : each eqb s B w mu dn st ks r tr w' -> forall k, In k ks -> dn k = true -> exists w1, In w1 tr /\ sem w1 s k = false.
Proof.
  assert (NA : forall k (tr : list world), forallb (fun w1 => sem w1 s k) tr = false -> exists w1, In w1 tr /\ sem w1 s k = false).
  { intros k tr0. induction tr0 as [|w0 tr0 IH]; cbn; [discriminate|]. destruct (sem w0 s k) eqn:E; [cbn; intros H; destruct (IH H) as (w1 & I & X); eauto|eauto]. }
  induction 1; intros x I D; [destruct I|destruct I as [<-|[]]; congruence..|destruct I as [<-|I]; [congruence|]].
  destruct (forallb (fun w1 => sem w1 s x) tr) eqn:F.
  - destruct (IHeach x I) as (w3 & I3 & X); [unfold still, with_; now rewrite D, F|]. exists w3. split; [apply in_or_app; auto|exact X].
  - destruct (NA _ _ F) as (w3 & I3 & X). exists w3. split; [apply in_or_app; auto|exact X].
Qed.
Lemma each_once w mu dn st ks r tr w' : each eqb s B w mu dn st ks r tr w' -> forall i j a b, (i < j)%nat -> nth_error ks i = Some a -> nth_error ks j = Some b -> eqb b a = true ->
  exists w1, In w1 tr /\ sem w1 s b = false.
Proof.
  assert (NA : forall k (tr : list world), forallb (fun w1 => sem w1 s k) tr = false -> exists w1, In w1 tr /\ sem w1 s k = false).
  { intros k tr0. induction tr0 as [|w0 tr0 IH]; cbn; [discriminate|]. destruct (sem w0 s k) eqn:E; [cbn; intros H; destruct (IH H) as (w1 & I & X); eauto|eauto]. }
  induction 1; intros i j a b L Ha Hb E; try (destruct j as [|[|j]]; [lia|discriminate..]).
  destruct j as [|j]; [lia|]. cbn in Hb. destruct i as [|i]; cbn in Ha.
  - injection Ha as <-. destruct (forallb (fun w1 => sem w1 s b) tr) eqn:F.
    + destruct (each_done _ _ _ _ _ _ _ _ H2 b (nth_error_In _ _ Hb)) as (w3 & I3 & X); [unfold still, with_; now rewrite E, F, orb_true_r|]. exists w3. split; [apply in_or_app; auto|exact X].
    + destruct (NA _ _ F) as (w3 & I3 & X). exists w3. split; [apply in_or_app; auto|exact X].
  - destruct (IHeach i j a b) as (w3 & I3 & X); [lia|auto..|]. exists w3. split; [apply in_or_app; auto|exact X].
Qed.
(** What every callback preserves. *)
Lemma each_pres (P : world -> Prop) : (forall st k w r tr w', B st k w r tr w' -> P w -> forall w1, In w1 (w' :: tr) -> P w1) ->
  forall w mu dn st ks r tr w', each eqb s B w mu dn st ks r tr w' -> P w -> forall w1, In w1 (w' :: tr) -> P w1.
Proof.
  intros HB. induction 1; intros X w3 I3; [destruct I3 as [<-|[]]; exact X|eapply HB; eassumption..|].
  destruct I3 as [<-|I3]; [apply IHeach; [eapply HB; [eassumption|exact X|now left]|now left]|]. apply in_app_or in I3 as [I3|I3]; [eapply HB; [eassumption|exact X|now right]|].
  apply IHeach; [eapply HB; [eassumption|exact X|now left]|now right].
Qed.
End Each.

Lemma body_last {R} (p : bprog K R) : forall w r tr w', body eqb p w r tr w' -> w' = last tr w.
Proof.
  induction p as [R r|R|R o next IH|R St s o cb IHcb st next IH]; intros w r' tr w' H; cbn [body] in H.
  - now destruct H as (_ & -> & ->).
  - now destruct H as (_ & -> & ->).
  - destruct H as (res & w1 & tr1 & _ & H & ->). rewrite (IH _ _ _ _ _ H). change (w1 :: tr1) with ([w1] ++ tr1). now rewrite last_app.
  - destruct H as (ks & r1 & tr1 & w1 & tr2 & E & H & ->). rewrite last_app, <- (each_last s _ (fun st k w r tr w' => IHcb st k w r tr w') _ _ _ _ _ _ _ _ E). eapply IH; eauto.
Qed.
Lemma bmap_true {St} (p : bprog K St) : forall w st tr w', ~ body eqb (bmap (pair true) p) w (Ok (false, st)) tr w'.
Proof.
  induction p as [R r|R|R o next IH|R St0 s o cb IHcb st next IH]; intros w st' tr w' H; cbn [body bmap] in H.
  - destruct H as (H & _). discriminate.
  - destruct H as (H & _). discriminate.
  - destruct H as (res & w1 & tr1 & _ & H & _). eapply IH; eauto.
  - destruct H as (ks & r1 & tr1 & w1 & tr2 & E & H & _). eapply IH; eauto.
Qed.

Lemma spec_keeps {St} w (o : bop K St) r w1 s x : bset_spec eqb w (clip (length w) o) r w1 -> ~ takes_from s o -> sem w s x = true -> sem w1 s x = true.
Proof.
  intros H N X. destruct (sem_of _ _ _ X) as (i & -> & L).
  assert (Ne : forall t, t <> Some i -> clip_ref (length w) t <> Some i) by (intros t Nt; unfold clip_ref; destruct (ref_ok (length w) t); congruence).
  assert (Ad : forall t q, q x = true \/ t <> Some i -> sem (change t q w) (Some i) x = true).
  { intros t q Hq. assert (t = Some i \/ t <> Some i) as [->|N2] by (destruct t as [j|]; [destruct (Nat.eq_dec j i); [left|right]; congruence|right; congruence]).
    - rewrite sem_change_same by exact L. destruct Hq as [Hq|Hq]; [exact Hq|congruence].
    - rewrite sem_change_other by exact N2. exact X. }
  assert (Ad2 : forall t (q : K -> bool), sem (change t (fun y => sem w t y || q y) w) (Some i) x = true).
  { intros t q. apply Ad. assert (t = Some i \/ t <> Some i) as [->|N2] by (destruct t as [j|]; [destruct (Nat.eq_dec j i); [left|right]; congruence|right; congruence]); [left; now rewrite X|right; exact N2]. }
  destruct o; cbn [clip takes_from] in *; inversion H; subst; auto; try (apply sem_snoc; exact X); try apply Ad2; apply Ad; right; apply Ne; exact N.
Qed.
Lemma body_pres {R} (P : world -> Prop) (Q : bop K unit -> Prop) (p : bprog K R) : (forall w o r w1, Q o -> bset_spec eqb w (clip (length w) o) r w1 -> P w -> P w1) ->
  uses Q p -> forall w r tr w', body eqb p w r tr w' -> P w -> forall w1, In w1 (w' :: tr) -> P w1.
Proof.
  intros HQ. induction p as [R r|R|R o next IH|R St t o cb IHcb st next IH]; intros U w r' tr w' H X w3 I3; cbn [body uses] in *.
  - destruct H as (_ & -> & ->). destruct I3 as [<-|[]]; exact X.
  - destruct H as (_ & -> & ->). destruct I3 as [<-|[]]; exact X.
  - destruct H as (res & w1 & tr1 & S1 & H & ->). destruct U as [U1 U2]. pose proof (HQ _ _ _ _ U1 S1 X) as X1. destruct I3 as [<-|[<-|I3]]; [|exact X1|]; eapply (IH res (U2 res)); try exact H; try exact X1; [now left|now right].
  - destruct H as (ks & r1 & tr1 & w1 & tr2 & E & H & ->). destruct U as [U1 U2].
    assert (X1 : forall w4, In w4 (w1 :: tr1) -> P w4) by (eapply each_pres; [intros st0 k0 w0 r0 tr0 w0' Hb Xb; exact (IHcb st0 k0 (U1 st0 k0) w0 r0 tr0 w0' Hb Xb)|exact E|exact X]).
    destruct I3 as [<-|I3]; [|apply in_app_or in I3 as [I3|I3]; [apply X1; now right|]]; eapply (IH r1 (U2 r1)); try exact H; try (apply X1; now left); [now left|now right].
Qed.
Lemma body_keeps {R} s x (p : bprog K R) : uses (fun o => ~ takes_from s o) p -> forall w r tr w', body eqb p w r tr w' -> sem w s x = true -> forall w1, In w1 (w' :: tr) -> sem w1 s x = true.
Proof. apply (body_pres (fun w => sem w s x = true)). intros w o r w1 N S X. eapply spec_keeps; eauto. Qed.
Lemma uses_true {R} (p : bprog K R) : uses (fun _ => True) p.
Proof. induction p; cbn; auto. Qed.
Definition cong (w : world) : Prop := forall t a b, eqb a b = true -> sem w t a = sem w t b.
Lemma spec_cong {St} w (o : bop K St) r w1 : bset_spec eqb w o r w1 -> cong w -> cong w1.
Proof.
  intros H C. assert (Eq : forall k a b, eqb a b = true -> eqb a k = eqb b k) by (intros; now apply (eq_cong eqb KE)).
  assert (Oo : forall ks a b, eqb a b = true -> oneof eqb ks a = oneof eqb ks b) by (intros; now apply (oneof_cong eqb KE)).
  assert (Ch : forall s q, (forall a b, eqb a b = true -> q a = q b) -> cong (change s q w)).
  { intros s q Hq t a b E. assert (s = t \/ s <> t) as [<-|N] by (destruct s as [i|], t as [j|]; auto; try (right; congruence); destruct (Nat.eq_dec i j); [left|right]; congruence); [|rewrite !sem_change_other by exact N; now apply C].
    destruct s as [i|]; [|reflexivity]. destruct (Nat.lt_ge_cases i (length w)); [rewrite !sem_change_same by auto; auto|]. cbn. rewrite !nth_overflow; [reflexivity|..]; rewrite ?upd_length; auto. }
  assert (Sn : forall q, (forall a b, eqb a b = true -> q a = q b) -> cong (w ++ [q])).
  { intros q Hq [i|] a b E; [|reflexivity]. cbn. destruct (Nat.lt_trichotomy i (length w)) as [L|[->|L]].
    - rewrite app_nth1 by auto. exact (C (Some i) a b E).
    - rewrite nth_middle. auto.
    - rewrite !nth_overflow by (rewrite app_length; cbn; lia). reflexivity. }
  inversion H; subst; auto; (apply Ch || apply Sn); intros a b E; unfold none; rewrite ?(C _ a b E), ?(Eq _ a b E), ?(Oo _ a b E); reflexivity.
Qed.
Lemma body_cong {R} (p : bprog K R) w r tr w' : body eqb p w r tr w' -> cong w -> forall w1, In w1 (w' :: tr) -> cong w1.
Proof. apply (body_pres cong (fun _ => True)); [|apply uses_true]. intros w0 o r0 w1 _ S. eapply spec_cong; eauto. Qed.
Lemma uses_map {A B} P (f : A -> B) (p : bprog K A) : uses P p -> uses P (bmap f p).
Proof. induction p; cbn [uses bmap]; intuition. Qed.

(** Removing while iterating. *)
Definition weed (s : sref) (p : K -> bool) (l : list K) (k : K) : bprog K (list K) := if p k then BDo (BRemove s k) (fun _ => BRet (l ++ [k])) else BRet (l ++ [k]).
Hypothesis RF : key_refl eqb.
Lemma weed_each s p (Hp : forall a b, eqb a b = true -> p a = p b) w mu dn l ks r tr w' :
  (forall x, dn x = true -> p x = false) ->
  each eqb s (fun st k => body eqb (bmap (pair true) (weed s p st k))) w mu dn l ks r tr w' ->
  r = Ok (l ++ ks) /\ (forall x, sem w' s x = sem w s x && negb (oneof eqb (filter p ks) x)) /\ (forall t x, t <> s -> sem w' t x = sem w t x) /\
  (forall x, sem w' s x = true -> forallb (fun w1 => sem w1 s x) tr = true) /\
  (forall k, In k ks -> sem w s k = true /\ dn k = false) /\
  (forall i j a b, (i < j)%nat -> nth_error ks i = Some a -> nth_error ks j = Some b -> eqb a b = false).
Proof.
  intros Hdn H. induction H as [w must done st Hm|w must done st k tr w1 Hk Hd Hb|w must done st k st1 tr w1 Hk Hd Hb|w must done st k st1 tr w1 ks r tr2 w2 Hk Hd Hb He IH].
  - rewrite app_nil_r. split; [reflexivity|]. split; [intros x; cbn; now rewrite andb_true_r|]. split; [reflexivity|]. split; [reflexivity|]. split; [intros k []|]. intros [|i] j a b _ X; discriminate.
  - exfalso. unfold weed in Hb. destruct (p k); cbn in Hb; [destruct Hb as (res & w2 & tr2 & _ & (X & _) & _); discriminate|destruct Hb as (X & _); discriminate].
  - exfalso. eapply bmap_true; exact Hb.
  - assert (Q : st1 = st ++ [k] /\ (forall x, sem w1 s x = sem w s x && negb (p k && eqb x k)) /\ (forall t x, t <> s -> sem w1 t x = sem w t x) /\ (tr = [w1] \/ p k = false /\ tr = [])).
    { unfold weed in Hb. destruct (p k) eqn:Ep; cbn [bmap body] in Hb.
      - destruct Hb as (res & w3 & tr3 & S & (E & -> & ->) & ->). injection E as ->. split; [reflexivity|]. destruct (sem_of _ _ _ Hk) as (i & -> & L).
        assert (C : clip_ref (length w) (Some i) = Some i) by (unfold clip_ref; cbn [ref_ok]; apply Nat.ltb_lt in L; now rewrite L). cbn [clip] in S. rewrite C in S. inversion S; subst.
        split; [intros x; now rewrite sem_change_same by exact L|]. split; [intros t x N; rewrite sem_change_other by congruence; reflexivity|now left].
      - destruct Hb as (E & -> & ->). injection E as ->. split; [reflexivity|]. split; [intros x; cbn; now rewrite andb_true_r|]. split; [reflexivity|right; auto]. }
    destruct Q as (-> & Q1 & Q2 & Q3).
    assert (Tr : forall x, sem w1 s x = true -> forallb (fun y => sem y s x) tr = true) by (intros x X; destruct Q3 as [->|[_ ->]]; cbn; rewrite ?X; reflexivity).
    assert (Sub : forall x, sem w1 s x = true -> sem w s x = true) by (intros x X; rewrite Q1 in X; now apply andb_true_iff in X as [X _]).
    destruct IH as (E & I1 & I2 & I3 & I4 & I5).
    { intros x X. unfold still, with_ in X. apply andb_true_iff in X as [X X2]. apply orb_true_iff in X as [X|X]; [auto|]. rewrite (Hp _ _ X). destruct Q3 as [->|[Q3 _]]; [|exact Q3].
      cbn in X2. rewrite andb_true_r, Q1, X, andb_true_r in X2. apply andb_true_iff in X2 as [_ X2]. now apply negb_true_iff in X2. }
    split; [rewrite E, <- app_assoc; reflexivity|]. split; [|split; [|split; [|split]]].
    + intros x. rewrite I1, Q1, <- andb_assoc. f_equal. cbn [filter]. destruct (p k); cbn [oneof existsb andb]; [unfold oneof; cbn [existsb]; now rewrite negb_orb|now rewrite andb_true_l].
    + intros t x N. now rewrite I2, Q2.
    + intros x X. rewrite forallb_app, (I3 x X), andb_true_r. apply Tr. rewrite I1 in X. now apply andb_true_iff in X as [X _].
    + intros k' [<-|I]; [auto|]. destruct (I4 k' I) as [S D]. split; [auto|]. apply not_true_iff_false. intros X. unfold still, with_ in D. rewrite X, (Tr k' S) in D. discriminate.
    + intros i j a b L Ha Hb'. destruct j as [|j]; [lia|]. cbn in Hb'. destruct i as [|i]; cbn in Ha; [|eapply (I5 i j); eauto; lia]. injection Ha as <-. apply not_true_iff_false. intros X. rewrite (eq_sym_b eqb KE) in X.
      destruct (I4 b (nth_error_In _ _ Hb')) as [S D]. unfold still, with_ in D. rewrite X, orb_true_r, (Tr b S) in D. discriminate.
Qed.
End Facts.
