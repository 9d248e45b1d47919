(** C100: callbacks of BuiltinSet.ForEach and ForEachIf that use sets. *)
From Verif Require Import BaseLemmas Spec Trace Spec_List Spec_BSet Spec_BSetFx Model_BuiltinSet Model_BSetFx Proof_BuiltinSet Proof_BSetFx Props_BuiltinSet.
Local Arguments zlen : simpl never.

(** After any calls, a loop with any callback program ends in a way the
    specification allows, and so do all sets. *)
Theorem C100_callbacks : forall K S0 St (eqb : K -> K -> bool) pick, key_eq eqb -> key_refl eqb -> picks_one pick ->
  forall (ops : list (bop K S0)) s o (cb : St -> K -> bprog K (bool * St)) st, refs_ok 0 ops = true ->
  let h := bset_after eqb pick ops in let (r, h') := b_ForEachIf_fx eqb pick s o cb st h in
  exists w ks tr w', accepts (bset_spec eqb) [] ops (bset_results eqb pick ops) w /\
  each eqb s (fun st k => body eqb (cb st k)) w (sem w s) none st ks r tr w' /\
  length w' = length h' /\ forall t x, holds eqb h' t x = sem w' t x.
Proof.
  intros K S0 St eqb pick KE RF PK ops s o cb st V h. destruct (bset_run eqb pick KE RF PK ops [] []) as (w & A & R); [constructor|auto|]. fold (bset_after eqb pick ops) in R. fold h in R.
  destruct (loop_fine eqb pick KE RF PK s o cb st w h R) as (ks & tr & w' & E & R'). destruct (b_ForEachIf_fx eqb pick s o cb st h) as [r h'].
  exists w, ks, tr, w'. split; [exact A|]. split; [exact E|]. split; [exact (wrel_len eqb w' h' R')|]. intros t x. symmetry. apply (wrel_sem eqb w' h' t R').
Qed.
Print Assumptions C100_callbacks.
(** ForEach is ForEachIf with a callback that always goes on. *)
Theorem C100_ForEach : forall K St (eqb : K -> K -> bool) pick s o (cb : St -> K -> bprog K St) st h,
  b_ForEach_fx eqb pick s o cb st h = b_ForEachIf_fx eqb pick s o (fun st k => bmap (pair true) (cb st k)) st h.
Proof. intros. apply foreach_if. Qed.
Print Assumptions C100_ForEach.

(** What ForEach visits: [ks].  [tr] are the sets after every single call made
    by the callbacks. *)
Theorem C100_visits : forall K S0 St (eqb : K -> K -> bool) pick, key_eq eqb -> key_refl eqb -> picks_one pick ->
  forall (ops : list (bop K S0)) s o (cb : St -> K -> bprog K St) st, refs_ok 0 ops = true ->
  let h := bset_after eqb pick ops in let (r, h') := b_ForEach_fx eqb pick s o cb st h in
  exists w ks tr w', (forall t x, holds eqb h t x = sem w t x) /\ (forall t x, holds eqb h' t x = sem w' t x) /\
  each eqb s (fun st k => body eqb (bmap (pair true) (cb st k))) w (sem w s) none st ks r tr w' /\
  (** only keys that are or come into the set, *)
  (forall k, In k ks -> sem w s k = true \/ exists w1, In w1 tr /\ sem w1 s k = true) /\
  (** all keys that are in it from the start to the end, *)
  (r <> Panic -> forall x, sem w s x = true -> (forall w1, In w1 tr -> sem w1 s x = true) -> exists k, In k ks /\ eqb x k = true) /\
  (** no key twice unless it was removed, *)
  (forall i j a b, (i < j)%nat -> nth_error ks i = Some a -> nth_error ks j = Some b -> eqb b a = true -> exists w1, In w1 tr /\ sem w1 s b = false) /\
  (** so each key at most once, and all the set had at the start, if callbacks remove none. *)
  ((forall st k, uses (fun o => ~ takes_from s o) (cb st k)) ->
    (forall i j a b, (i < j)%nat -> nth_error ks i = Some a -> nth_error ks j = Some b -> eqb b a = false) /\
    (forall x, sem w s x = true -> sem w' s x = true) /\ (forall x, In x ks -> sem w' s x = true) /\
    (r <> Panic -> forall x, sem w s x = true -> exists k, In k ks /\ eqb x k = true)).
Proof.
  intros K S0 St eqb pick KE RF PK ops s o cb st V h. rewrite C100_ForEach. pose proof (C100_callbacks K S0 St eqb pick KE RF PK ops s o (fun st k => bmap (pair true) (cb st k)) st V) as H. cbv zeta in H. fold h in H.
  destruct (bset_run eqb pick KE RF PK ops [] []) as (w & A & R); [constructor|auto|]. fold (bset_after eqb pick ops) in R. fold h in R.
  destruct (loop_fine eqb pick KE RF PK s o (fun st k => bmap (pair true) (cb st k)) st w h R) as (ks & tr & w' & E & R'). clear H. destruct (b_ForEachIf_fx eqb pick s o _ st h) as [r h'].
  cbn [fst snd] in *. set (B := fun st k => body eqb (bmap (pair true) (cb st k))) in *.
  assert (BL : forall st k w r tr w', B st k w r tr w' -> w' = last tr w) by (intros; eapply body_last; eauto).
  assert (NF : forall st k w st' tr w', ~ B st k w (Ok (false, st')) tr w') by (intros; apply bmap_true).
  exists w, ks, tr, w'. split; [intros t x; symmetry; apply (wrel_sem eqb w h t R)|]. split; [intros t x; symmetry; apply (wrel_sem eqb w' h' t R')|]. split; [exact E|].
  pose proof (each_from eqb s B BL _ _ _ _ _ _ _ _ E) as F1. pose proof (each_all eqb s B NF _ _ _ _ _ _ _ _ E) as F2. pose proof (each_once eqb s B BL _ _ _ _ _ _ _ _ E) as F3.
  assert (F2' : r <> Panic -> forall x, sem w s x = true -> (forall w1, In w1 tr -> sem w1 s x = true) -> exists k, In k ks /\ eqb x k = true).
  { intros N x X T. apply F2; auto. apply forallb_forall. exact T. }
  split; [exact F1|]. split; [exact F2'|]. split; [exact F3|]. intros U.
  assert (BK : forall x st k w r tr w', B st k w r tr w' -> sem w s x = true -> forall w1, In w1 (w' :: tr) -> sem w1 s x = true).
  { intros x st0 k0 w0 r0 tr0 w0' Hb. eapply body_keeps; [|exact Hb]. apply uses_map, U. }
  assert (Kp : forall x w0 mu dn st0 ks0 r0 tr0 w0', each eqb s B w0 mu dn st0 ks0 r0 tr0 w0' -> sem w0 s x = true -> forall w1, In w1 (w0' :: tr0) -> sem w1 s x = true).
  { intros x. apply (each_pres eqb s B (fun w => sem w s x = true)). apply BK. }
  assert (Vis : forall w0 mu dn st0 ks0 r0 tr0 w0', each eqb s B w0 mu dn st0 ks0 r0 tr0 w0' -> forall x, In x ks0 -> sem w0' s x = true).
  { induction 1 as [|? ? ? ? k tr0 w1 Hk Hd Hb|? ? ? ? k st1 tr0 w1 Hk Hd Hb|? ? ? ? k st1 tr0 w1 ks0 r0 tr2 w2 Hk Hd Hb He IH]; intros x I; [destruct I|destruct I as [<-|[]]..|destruct I as [<-|I]; auto].
    - eapply BK; [exact Hb|exact Hk|now left].
    - eapply BK; [exact Hb|exact Hk|now left].
    - eapply Kp; [exact He| |now left]. eapply BK; [exact Hb|exact Hk|now left]. }
  split; [|split; [|split]].
  - assert (Once : forall w0 mu dn st0 ks0 r0 tr0 w0', each eqb s B w0 mu dn st0 ks0 r0 tr0 w0' -> cong eqb w0 ->
      forall i j a b, (i < j)%nat -> nth_error ks0 i = Some a -> nth_error ks0 j = Some b -> eqb b a = false).
    { induction 1 as [|? ? ? ? k tr0 w1 Hk Hd Hb|? ? ? ? k st1 tr0 w1 Hk Hd Hb|w0 mu dn st0 k st1 tr0 w1 ks0 r0 tr2 w2 Hk Hd Hb He IH]; intros C i j a b L Ha Hj.
      - destruct i; discriminate.
      - destruct j as [|[|j]]; [lia|discriminate..].
      - destruct j as [|[|j]]; [lia|discriminate..].
      - destruct j as [|j]; [lia|]. cbn in Hj. destruct i as [|i]; cbn in Ha; [|apply (IH (body_cong eqb KE _ _ _ _ _ Hb C w1 (or_introl eq_refl)) i j a b); auto; lia].
        injection Ha as <-. apply not_true_iff_false. intros X. assert (Xb : sem w0 s b = true) by (rewrite (C s b k X); exact Hk).
        assert (T : forall w3, In w3 (w1 :: tr0) -> sem w3 s b = true) by (eapply BK; [exact Hb|exact Xb]).
        assert (D : still s (with_ eqb dn k) tr0 b = true). { unfold still, with_. rewrite X, orb_true_r. apply forallb_forall. intros w3 I3. apply T. now right. }
        destruct (each_done eqb s B _ _ _ _ _ _ _ _ He b (nth_error_In _ _ Hj) D) as (w3 & I3 & F). assert (sem w3 s b = true) by (eapply Kp; [exact He|apply T; now left|now right]). congruence. }
    apply (Once _ _ _ _ _ _ _ _ E). intros t a b Eab. pose proof (proj2 (wrel_sem eqb w h t R)) as Hs. rewrite !Hs. now apply (has_cong eqb KE).
  - intros x X. eapply Kp; [exact E|exact X|now left].
  - apply (Vis _ _ _ _ _ _ _ _ E).
  - intros N x X. apply F2'; auto. intros w1 I. eapply Kp; [exact E|exact X|now right].
Qed.
Print Assumptions C100_visits.

(** Removing the keys that satisfy p while iterating: every key is visited
    once, and just those are removed, whatever the order. *)
Theorem C100_remove_while_iterating : forall K S0 (eqb : K -> K -> bool) pick, key_eq eqb -> key_refl eqb -> picks_one pick ->
  forall (ops : list (bop K S0)) s o (p : K -> bool), (forall a b, eqb a b = true -> p a = p b) -> refs_ok 0 ops = true ->
  let cb l k := if p k then BDo (BRemove s k) (fun _ => BRet (l ++ [k])) else BRet (l ++ [k]) in
  let h := bset_after eqb pick ops in let (r, h') := b_ForEach_fx eqb pick s o cb [] h in
  exists ks, r = Ok ks /\ has_all eqb ks (holds eqb h s) /\
  (forall x, holds eqb h' s x = holds eqb h s x && negb (p x)) /\ (forall t x, t <> s -> holds eqb h' t x = holds eqb h t x).
Proof.
  intros K S0 eqb pick KE RF PK ops s o p Hp V cb h. pose proof (C100_visits K S0 (list K) eqb pick KE RF PK ops s o cb [] V) as H. cbv zeta in H. fold h in H.
  destruct (b_ForEach_fx eqb pick s o cb [] h) as [r h']. destruct H as (w & ks & tr & w' & H1 & H2 & E & _ & All & _).
  destruct (weed_each eqb KE s p Hp w (sem w s) none [] ks r tr w' ltac:(discriminate) E) as (-> & W1 & W2 & W3 & W4 & W5).
  assert (Cg : forall a b, eqb a b = true -> sem w s a = sem w s b). { intros a b Eab. rewrite <- !H1. unfold holds, b_Has, has_key. cbn. now apply (has_cong eqb KE). }
  assert (Fi : forall x, oneof eqb (filter p ks) x = true <-> p x = true /\ exists k, In k ks /\ eqb x k = true).
  { intros x. unfold oneof. rewrite existsb_exists. split.
    - intros (k & I & Ek). apply filter_In in I as [I Pk]. split; [now rewrite (Hp _ _ Ek)|eauto].
    - intros (Px & k & I & Ek). exists k. split; [apply filter_In; split; [auto|now rewrite <- (Hp _ _ Ek)]|auto]. }
  exists ks. split; [reflexivity|]. split; [|split].
  - split.
    + intros i j a b N Ha Hb. destruct (Nat.lt_trichotomy i j) as [L|[L|L]]; [eapply W5; eauto|congruence|]. rewrite (eq_sym_b eqb KE). eapply W5; eauto.
    + intros x. rewrite H1. split.
      * intros X. destruct (sem w' s x) eqn:X'.
        -- destruct (All ltac:(discriminate) x X) as (k & I & Ek); [apply forallb_forall; now apply W3|]. exists k. split; [auto|now rewrite (eq_sym_b eqb KE)].
        -- rewrite W1, X in X'. cbn in X'. apply negb_false_iff, Fi in X' as (_ & k & I & Ek). exists k. split; [auto|now rewrite (eq_sym_b eqb KE)].
      * intros (k & I & Ek). rewrite <- (Cg _ _ Ek). apply W4. exact I.
  - intros x. rewrite H2, H1. destruct (sem w' s x) eqn:X'.
    + assert (X : sem w s x = true) by (rewrite W1 in X'; now apply andb_true_iff in X' as [X _]). rewrite X. cbn. symmetry. apply negb_true_iff, not_true_iff_false. intros Px.
      destruct (All ltac:(discriminate) x X) as (k & I & Ek); [apply forallb_forall; now apply W3|]. rewrite W1, X in X'. cbn in X'. apply negb_true_iff in X'. rewrite <- not_true_iff_false in X'. apply X', Fi. eauto.
    + rewrite W1 in X'. destruct (sem w s x); [|reflexivity]. cbn in X'. apply negb_false_iff, Fi in X' as (Px & _). now rewrite Px.
  - intros t x N. rewrite H2, H1. now apply W2.
Qed.
Print Assumptions C100_remove_while_iterating.

(** Expected: what a loop with a deterministic callback does to the sets does
    not depend on the order of the keys. *)
Definition C100_expected : Prop := forall (ops : list (bop Z unit)) s o o' (cb : unit -> Z -> bprog Z unit), refs_ok 0 ops = true ->
  (forall k, uses (fun o => ~ takes_from s o) (cb tt k)) ->
  let h := bset_after Z.eqb (fun a _ => a) ops in
  forall x, holds Z.eqb (snd (b_ForEach_fx Z.eqb (fun a _ => a) s o cb tt h)) s x = holds Z.eqb (snd (b_ForEach_fx Z.eqb (fun a _ => a) s o' cb tt h)) s x.
Theorem C100_refuted : ~ C100_expected.
Proof.
  intros H. specialize (H [BSetOf [1]] (Some 0%nat) [] [0%nat; 1%nat] (fun _ k => if k <? 3 then BDo (BInsert (Some 0%nat) (k + 1)) (fun _ => BRet tt) else BRet tt) eq_refl).
  assert (U : forall k, uses (fun o => ~ takes_from (Some 0%nat) o) (if k <? 3 then BDo (BInsert (Some 0%nat) (k + 1)) (fun _ => BRet tt) else BRet tt)) by (intros k; destruct (k <? 3); cbn; auto).
  specialize (H U 3). vm_compute in H. discriminate.
Qed.
Print Assumptions C100_refuted.

(** A callback that removes and puts back a key may see it again; nested loops. *)
Example C100_hyp : let S := Some 0%nat in let ops := [BSetOf [1; 2; 5]] : list (bop Z unit) in let h := bset_after Z.eqb (fun a _ => a) ops in
  key_eq Z.eqb /\ key_refl Z.eqb /\ picks_one (fun a _ : Z => a) /\ refs_ok 0 ops = true /\
  fst (b_ForEach_fx Z.eqb (fun a _ => a) S [2%nat; 3%nat] (fun l k => if zlen l <? 3 then BDo (BRemove S k) (fun _ => BDo (BInsert S k) (fun _ => BRet (l ++ [k]))) else BRet (l ++ [k])) [] h) = Ok [5; 5; 1; 2] /\
  fst (b_ForEach_fx Z.eqb (fun a _ => a) S [] (fun l k => BEach S [] (fun l j => if j =? 2 then BRet (false, l) else BDo (BRemove S 5) (fun _ => BRet (true, l ++ [(k, j)]))) l (fun r => match r with Ok l => BRet l | _ => BFail end)) [] h)
    = Ok [(1, 1); (2, 1)] /\
  fst (b_ForEach_fx Z.eqb (fun a _ => a) S [] (fun l k => BDo (BInsert None 3) (fun r => match r with Panic => BFail | _ => BRet l end)) tt h) = Panic /\
  map snd (g_ents (look (snd (b_ForEach_fx Z.eqb (fun a _ => a) S [1%nat] (fun l k => if k <? 3 then BDo (BRemove S k) (fun _ => BRet l) else BRet l) tt h)) S)) = [5].
Proof.
  cbv zeta. split; [split; intros *; rewrite !Z.eqb_eq; lia|]. split; [intros a; apply Z.eqb_refl|]. split; [intros a b; now left|]. split; [reflexivity|]. repeat split.
Qed.
