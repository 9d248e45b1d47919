(** A SkipListSet whose order changes from call to call, from the SkipList's calls of
    Proof_SkipVary.v. *)
From Coq Require Import Sorted.
From Verif Require Import BaseLemmas Spec Trace Spec_List Spec_Map Spec_Set Nodes Proof_Nodes Model_SkipList Model_SkipListSet Proof_SkipList Proof_Map Proof_SkipListAny Props_SkipList Props_SkipListNaN Props_SkipListSet Spec_SkipVary Model_SkipVary Proof_SkipVary Spec_SetVary Model_SetVary.
Set Default Proof Using "Type".
Local Arguments zlen : simpl never.

Section Vary.
Context {K St : Type}.
Notation heap := (list (slnode K unit)).
Definition keys (ps : list (@cell K unit)) : list K := map fst (kvs ps).
Lemma call h0 hd ps (s : heap * sklist) cmp (o : mop K unit St) : rep h0 hd ps s ->
  exists ps' r s', map_step (implFunc cmp) o s = (r, s') /\ rep h0 hd ps' s' /\ loose (kvs ps) (cmp, o) r (kvs ps').
Proof. intros R. destruct (vary_call h0 hd ps s cmp o R) as (ps' & R' & L). destruct (map_step (implFunc cmp) o s) as [r s']. exists ps', r, s'. auto. Qed.
End Vary.
Section Vary2.
Context {K St : Type}.
Notation heap := (list (slnode K unit)).
Lemma show_inv {S A B} (f : A -> B) (p : M S A) s r s' : show f p s = (r, s') -> exists r0, p s = (r0, s') /\ r = omap f r0.
Proof. unfold show. destruct (p s) as [r0 s0]. intros E. injection E as <- <-. eauto. Qed.
Lemma len_keys h0 hd ps (s : heap * sklist) : rep h0 hd ps s -> set_Len s = (Ok (zlen (keys ps)), s).
Proof. intros R. pose proof (rep_lenv _ _ _ _ R) as E. unfold set_Len. unfold Len, hget in *. destruct s as [h l]. cbn in *. injection E as ->. unfold keys, zlen. now rewrite map_length. Qed.
Lemma insert_vary h0 hd ps (s : heap * sklist) cmp k r : rep h0 hd ps s ->
  exists new s' ps', set_Insert (implFunc cmp) k r s = (Ok new, s') /\ rep h0 hd ps' s' /\ puts_in cmp k (keys ps) new (keys ps').
Proof.
  intros R. destruct (call (St := unit) h0 hd ps s cmp (MInsert k tt r) R) as (ps' & r1 & s' & E & R' & Er & L). cbn [map_step] in E. apply show_inv in E as (r0 & E & ->). destruct r0 as [[]| |]; try discriminate.
  unfold set_Insert. rewrite (bind_eq _ _ _ _ _ (len_keys _ _ _ _ R)), (bind_eq _ _ _ _ _ E), (bind_eq _ _ _ _ _ (len_keys _ _ _ _ R')). unfold keys, ret.
  destruct L as [(A & B & E1 & [F1 F2] & E2)|(A & k' & v' & B & E1 & Ec & E2)]; rewrite E1, E2, !map_app; cbn [map fst].
  - exists true, s', ps'. split; [|split; [exact R'|]].
    + do 2 f_equal. unfold zlen. rewrite !app_length. cbn [length]. lia.
    + exists (map fst A), (map fst B). rewrite E2, map_app. split; [reflexivity|]. split; [reflexivity|]. split.
      * destruct F1 as [->|(A' & p & -> & F)]; [now left|]. right. exists (map fst A'), (fst p). rewrite map_app. auto.
      * destruct F2 as [->|(p & B' & -> & F)]; [now left|]. right. exists (fst p), (map fst B'). auto.
  - exists false, s', ps'. split; [|split; [exact R'|]].
    + do 2 f_equal. apply Z.ltb_irrefl.
    + rewrite E2, map_app. split; [reflexivity|]. exists k'. split; [|exact Ec]. apply in_app_iff. right. now left.
Qed.
Lemma puts_len cmp k a new (a' : list K) : puts_in cmp k a new a' -> zlen a' = zlen a + if new then 1 else 0.
Proof. destruct new; cbn [puts_in]; [intros (A & B & -> & -> & _); unfold zlen; rewrite !app_length; cbn [length]; lia|intros [-> _]; lia]. Qed.
Lemma takes_len cmp k a found (a' : list K) : takes_out cmp k a found a' -> zlen a' = zlen a - if found then 1 else 0.
Proof. destruct found; cbn [takes_out]; [intros (A & x & B & -> & -> & _); unfold zlen; rewrite !app_length; cbn [length]; lia|intros ->; lia]. Qed.
Lemma inserts_vary h0 hd cmp ks : forall ps (s : heap * sklist), rep h0 hd ps s ->
  exists n s' ps', insert_loop (implFunc cmp) ks s = (Ok tt, s') /\ rep h0 hd ps' s' /\ each (puts_in cmp) (map fst ks) (keys ps) n (keys ps') /\ n = zlen (keys ps') - zlen (keys ps).
Proof.
  induction ks as [|[k r] ks IH]; intros ps s R; cbn [insert_loop map fst].
  - exists 0, s, ps. split; [reflexivity|]. split; [exact R|]. split; [constructor|lia].
  - destruct (insert_vary h0 hd ps s cmp k r R) as (b & s1 & ps1 & E1 & R1 & P1). rewrite (bind_eq _ _ _ _ _ E1). destruct (IH ps1 s1 R1) as (n & s2 & ps2 & E2 & R2 & P2 & En).
    exists (n + if b then 1 else 0), s2, ps2. split; [exact E2|]. split; [exact R2|]. split; [econstructor; eauto|]. pose proof (puts_len _ _ _ _ _ P1). lia.
Qed.
Lemma remove_vary h0 hd ps (s : heap * sklist) cmp k : rep h0 hd ps s ->
  exists found s' ps', set_Remove (implFunc cmp) k s = (Ok found, s') /\ rep h0 hd ps' s' /\ takes_out cmp k (keys ps) found (keys ps').
Proof.
  intros R. destruct (call (St := unit) h0 hd ps s cmp (MRemove k) R) as (ps' & r1 & s' & E & R' & L). cbn [map_step] in E. apply show_inv in E as (r0 & E & ->). unfold set_Remove. rewrite E. unfold keys.
  cbn [loose] in L. destruct r0 as [b| |]; [|destruct L as [[L _]|(? & ? & ? & _ & _ & L & _)]; discriminate ..]. exists b, s', ps'. split; [reflexivity|]. split; [exact R'|]. cbn [omap] in L.
  destruct L as [(Eb & ->)|(A & p & B & E1 & Ec & Eb & E2)]; injection Eb as ->; cbn [takes_out].
  - reflexivity.
  - exists (map fst A), (fst p), (map fst B). rewrite E1, E2, !map_app. auto.
Qed.
Lemma removes_vary h0 hd cmp ks : forall ps (s : heap * sklist), rep h0 hd ps s ->
  exists n s' ps', remove_loop (implFunc cmp) ks s = (Ok tt, s') /\ rep h0 hd ps' s' /\ each (takes_out cmp) ks (keys ps) n (keys ps') /\ n = zlen (keys ps) - zlen (keys ps').
Proof.
  induction ks as [|k ks IH]; intros ps s R; cbn [remove_loop].
  - exists 0, s, ps. split; [reflexivity|]. split; [exact R|]. split; [constructor|lia].
  - destruct (remove_vary h0 hd ps s cmp k R) as (b & s1 & ps1 & E1 & R1 & P1). rewrite (bind_eq _ _ _ _ _ E1). destruct (IH ps1 s1 R1) as (n & s2 & ps2 & E2 & R2 & P2 & En).
    exists (n + if b then 1 else 0), s2, ps2. split; [exact E2|]. split; [exact R2|]. split; [econstructor; eauto|]. pose proof (takes_len _ _ _ _ _ P1). lia.
Qed.
Lemma set_vary_call h0 hd ps (s : heap * sklist) cmp (o : sop K St) : rep h0 hd ps s ->
  exists ps', rep h0 hd ps' (snd (set_step (implFunc cmp) o s)) /\ set_loose (keys ps) (cmp, o) (fst (set_step (implFunc cmp) o s)) (keys ps').
Proof.
  intros R. pose proof (fun o => call (St := unit) h0 hd ps s cmp o R) as C. destruct o; cbn [set_step set_loose]; unfold show.
  - destruct (insert_vary h0 hd ps s cmp k r R) as (b & s1 & ps1 & E1 & R1 & P1). rewrite E1. cbn [fst snd omap]. eauto.
  - destruct (inserts_vary h0 hd cmp ks ps s R) as (n & s1 & ps1 & E1 & R1 & P1 & En). unfold set_InsertN. rewrite (bind_eq _ _ _ _ _ (len_keys _ _ _ _ R)), (bind_eq _ _ _ _ _ E1), (bind_eq _ _ _ _ _ (len_keys _ _ _ _ R1)).
    cbn [ret fst snd omap]. exists ps1. split; [exact R1|]. exists n. subst n. auto.
  - destruct (remove_vary h0 hd ps s cmp k R) as (b & s1 & ps1 & E1 & R1 & P1). rewrite E1. cbn [fst snd omap]. eauto.
  - destruct (removes_vary h0 hd cmp ks ps s R) as (n & s1 & ps1 & E1 & R1 & P1 & En). unfold set_RemoveN. rewrite (bind_eq _ _ _ _ _ (len_keys _ _ _ _ R)), (bind_eq _ _ _ _ _ E1), (bind_eq _ _ _ _ _ (len_keys _ _ _ _ R1)).
    cbn [ret fst snd omap]. exists ps1. split; [exact R1|]. exists n. subst n. auto.
  - destruct (C MClear) as (ps' & r & s' & E & R' & Er & L). cbn [map_step] in E. apply show_inv in E as (r0 & E & ->). unfold set_Clear. rewrite E. cbn [fst snd]. exists ps'. split; [exact R'|]. unfold keys. rewrite L. split; [|reflexivity]. destruct r0; cbn in *; congruence.
  - rewrite (len_keys _ _ _ _ R). cbn [fst snd omap]. eauto.
  - destruct (C MIsEmpty) as (ps' & r & s' & E & R' & Er & L). cbn [map_step] in E. apply show_inv in E as (r0 & E & ->). unfold set_IsEmpty. rewrite E. cbn [fst snd]. exists ps'. split; [exact R'|]. unfold keys. rewrite L. split; [|reflexivity].
    destruct r0; cbn in *; try discriminate. injection Er as ->. now destruct (kvs ps).
  - destruct (C (MHas k)) as (ps' & r & s' & E & R' & L & Er). cbn [map_step] in E. apply show_inv in E as (r0 & E & ->). unfold set_Has. rewrite E. cbn [fst snd]. exists ps'. split; [exact R'|]. unfold keys. rewrite L. split; [reflexivity|].
    destruct Er as [Er|(Er & p & I & Ec)]; destruct r0; try discriminate; injection Er as ->; cbn; [now left|right]. split; [reflexivity|]. exists (fst p). split; [now apply in_map|exact Ec].
  - unfold set_Keys. rewrite (bind_eq _ _ _ _ _ (len_keys _ _ _ _ R)). assert (zlen (keys ps) <? 0 = false) as -> by (unfold zlen; lia). destruct s as [h l].
    unfold set_ForEach. rewrite (ForEach_ok _ h0 hd ps h l [] R). cbn [fst snd omap]. exists ps. split; [exact R|]. rewrite (fold_fst (fun a k => a ++ [k])), fold_snoc. auto.
  - destruct (C (MLower k)) as (ps' & r & s' & E & R' & L & A & B & Ea & Er). cbn [map_step] in E. apply show_inv in E as (r0 & E & ->). rewrite si_walk_walk. change (set_LowerBound (implFunc cmp) k) with (LowerBound (V := unit) (implFunc cmp) k). rewrite E. cbn [fst snd].
    exists ps'. split; [exact R'|]. unfold keys. rewrite L. split; [reflexivity|]. exists (map fst A), (map fst B). rewrite Ea, map_app. split; [reflexivity|]. destruct r0; cbn in *; congruence.
  - destruct (C (MUpper k)) as (ps' & r & s' & E & R' & L & A & B & Ea & Er). cbn [map_step] in E. apply show_inv in E as (r0 & E & ->). rewrite si_walk_walk. change (set_UpperBound (implFunc cmp) k) with (UpperBound (V := unit) (implFunc cmp) k). rewrite E. cbn [fst snd].
    exists ps'. split; [exact R'|]. unfold keys. rewrite L. split; [reflexivity|]. exists (map fst A), (map fst B). rewrite Ea, map_app. split; [reflexivity|]. destruct r0; cbn in *; congruence.
  - destruct (C (MRange first last)) as (ps' & r & s' & E & R' & L & Er). cbn [map_step] in E. apply show_inv in E as (r0 & E & ->). rewrite si_walk_walk. change (set_FindRange (implFunc cmp) first last) with (FindRange (V := unit) (implFunc cmp) first last). rewrite E. cbn [fst snd].
    exists ps'. split; [exact R'|]. unfold keys. rewrite L. split; [reflexivity|]. destruct Er as [Er|(A & B & D & Ea & Er)]; [left; destruct r0; cbn in *; congruence|right]. exists (map fst A), (map fst B), (map fst D). rewrite Ea, !map_app. split; [reflexivity|]. destruct r0; cbn in *; congruence.
  - destruct s as [h l]. unfold set_ForEach. rewrite (ForEach_ok _ h0 hd ps h l st R). cbn [fst snd omap]. exists ps. split; [exact R|]. rewrite (fold_fst cb). auto.
  - destruct s as [h l]. unfold set_ForEachIf. rewrite (ForEachIf_ok _ h0 hd ps h l st R). cbn [fst snd omap]. exists ps. split; [exact R|]. rewrite (fold_while_fst cb). auto.
Qed.
Lemma set_vary_run h0 hd (ops : list ((K -> K -> Z) * sop K St)) ps (s : heap * sklist) : rep h0 hd ps s ->
  exists ps', rep h0 hd ps' (snd (run set_vary_step ops s)) /\ accepts set_loose (keys ps) ops (fst (run set_vary_step ops s)) (keys ps').
Proof.
  intros R. destruct (run_accepts (set_vary_step (St := St)) set_loose (fun a s => exists ps, a = keys ps /\ rep h0 hd ps s)) with (ops := ops) (a := keys ps) (s := s) as (a' & Ha & ps' & -> & R').
  - intros a s1 [c o] (p & -> & R1). destruct (set_vary_call h0 hd p s1 c o R1) as (p' & R2 & L). exists (keys p'). split; [exact L|]. exists p'. auto.
  - eauto.
  - eauto.
Qed.

(** Calls that insert nothing keep any order of the keys. *)
Definition no_insert (o : sop K St) : Prop := match o with SInsert _ _ | SInsertN _ => False | _ => True end.
Lemma sorted_del (R : K -> K -> Prop) A (x : K) B : StronglySorted R (A ++ x :: B) -> StronglySorted R (A ++ B).
Proof.
  induction A as [|a A IH]; cbn; intros S.
  - now inversion S.
  - apply StronglySorted_inv in S as [S F]. constructor; [now apply IH|]. rewrite Forall_app in *. destruct F as [F1 F2]. split; auto. now inversion F2.
Qed.
Lemma takes_sorted (R : K -> K -> Prop) cmp k a b a' : takes_out cmp k a b a' -> StronglySorted R a -> StronglySorted R a' /\ incl a' a.
Proof.
  destruct b; cbn [takes_out]; [|intros ->; split; [auto|apply incl_refl]]. intros (A & x & B & -> & -> & _) S. split; [eapply sorted_del; eauto|]. intros y. rewrite !in_app_iff. cbn. tauto.
Qed.
Lemma each_sorted (R : K -> K -> Prop) cmp ks a n a' : each (takes_out cmp) ks a n a' -> StronglySorted R a -> StronglySorted R a' /\ incl a' a.
Proof.
  induction 1 as [a|k ks a b a1 n a2 T E IH]; intros S; [split; [auto|apply incl_refl]|]. destruct (takes_sorted R _ _ _ _ _ T S) as [S1 I1]. destruct (IH S1) as [S2 I2]. split; [exact S2|eapply incl_tran; eauto].
Qed.
Lemma set_loose_sorted (R : K -> K -> Prop) a co r (a' : list K) : no_insert (snd co) -> set_loose (St := St) a co r a' -> StronglySorted R a -> StronglySorted R a' /\ incl a' a.
Proof.
  destruct co as [cmp o]. cbn [snd]. intros N L S. assert (Same : a' = a -> StronglySorted R a' /\ incl a' a) by (intros ->; split; [auto|apply incl_refl]).
  destruct o; cbn [set_loose] in L; try contradiction; try (apply Same; tauto).
  - destruct L as (b & _ & L). eapply takes_sorted; eauto.
  - destruct L as (n & _ & L). eapply each_sorted; eauto.
  - destruct L as [_ ->]. split; [constructor|intros x []].
Qed.
Lemma set_accepts_sorted (R : K -> K -> Prop) ops : forall a rs (a' : list K), accepts (set_loose (St := St)) a ops rs a' -> (forall c o, In (c, o) ops -> no_insert o) -> StronglySorted R a -> StronglySorted R a' /\ incl a' a.
Proof.
  induction ops as [|[c o] ops IH]; intros a rs a' H N S.
  - apply accepts_nil_inv in H as [_ ->]. split; [auto|apply incl_refl].
  - apply accepts_cons_inv in H as (r & a1 & rs' & -> & L & H). destruct (set_loose_sorted R a (c, o) r a1) as [S1 I1]; auto.
    + apply (N c). now left.
    + destruct (IH a1 rs' a' H) as [S2 I2]; auto; [|split; [auto|eapply incl_tran; eauto]]. intros c' o' I. apply (N c'). now right.
Qed.
Lemma sorted_keys (lt : K -> K -> bool) ps : StronglySorted (fun a b => lt a b = true) (keys ps) -> ksorted lt (kvs ps).
Proof.
  unfold keys, ksorted. induction (kvs ps) as [|p l IH]; cbn; intros S; [constructor|]. apply StronglySorted_inv in S as [S F]. constructor; [now apply IH|]. now rewrite Forall_map in F.
Qed.
End Vary2.
