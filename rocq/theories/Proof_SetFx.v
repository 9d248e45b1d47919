(** A SkipListSet whose key comparison function may panic. *)
From Verif Require Import BaseLemmas Spec Trace Spec_List Spec_Map Spec_Set Spec_Fx Spec_SkipFx Spec_SetFx Nodes Proof_Nodes Model_SkipList Proof_SkipList Proof_Map Props_SkipList
  Model_SkipListSet Props_SkipListSet Model_SkipFx Proof_SkipFx Model_SetFx.
Set Default Proof Using "Type".

Section Fx.
Context {K X : Type}.
Variable keyCmp : K -> K -> M X Z.
Variables (P Q : X -> Prop) (cmp : K -> K -> Z).
Hypothesis C : contract_of P Q keyCmp.
Hypothesis A : answers_sign P cmp keyCmp.
Hypothesis TW : three_way cmp.
Notation lt := (fun a b => cmp a b <? 0).
Notation impl := (implFunc (V := unit) cmp).
Notation heap := (list (slnode K unit)).
Lemma set_kind : kind impl lt.
Proof using TW. right. exists cmp. auto. Qed.
Lemma SRel_kept fr m (s s' : heap * sklist) : SRel lt fr m s -> kept s s' -> SRel lt fr m s'.
Proof. intros (mm & E & R) Kp. exists mm. split; auto. eapply Rel_kept; eauto. Qed.
Lemma quiet_len fr m s (x : X) : SRel lt fr m s -> quiet set_Len (s, x) = (Ok (zlen m), (s, x)).
Proof using TW. intros R. unfold quiet. cbn [fst snd]. now rewrite (SRel_len impl lt set_kind fr m s R). Qed.

Lemma Insert_call k r : call_ok P Q (Insert_fx keyCmp k tt r) (Insert impl k tt r).
Proof using C A. unfold Insert_fx, Insert. eapply call_then. now apply findInsertPoint_tracks. Qed.
Lemma Remove_call k : call_ok (V := unit) P Q (Remove_fx keyCmp k) (Remove impl k).
Proof using C A. unfold Remove_fx, Remove. eapply call_then. now apply findRemovePoint_tracks. Qed.

Lemma Insert_fx_set fr m s x k r : SRel lt fr m s -> P x ->
  (exists s' x', set_Insert_fx keyCmp k r (s, x) = (Ok (negb (mem lt k m)), (s', x')) /\ SRel lt fr (add lt k m) s' /\ P x') \/
  (exists s' x', set_Insert_fx keyCmp k r (s, x) = (Panic, (s', x')) /\ SRel lt fr m s' /\ Q x').
Proof using C A TW.
  intros R Px. destruct (Insert_set impl lt set_kind fr m s k r R) as (s1 & E & R1). unfold set_Insert in E. rewrite (bind_eq _ _ _ _ _ (SRel_len impl lt set_kind fr m s R)) in E.
  unfold set_Insert_fx. rewrite (bind_eq _ _ _ _ _ (quiet_len fr m s x R)).
  destruct (Insert_call k r s x Px) as (o & s' & x' & E1 & [[E2 Px']|(-> & Kp & Qx')]).
  - left. unfold bind in E at 1. rewrite E2 in E. destruct o as [u| |]; try discriminate E. rewrite (bind_eq _ _ _ _ _ E1).
    unfold bind, set_Len, Len, hget, ret in E. injection E as Eb Es. subst s1. rewrite (bind_eq _ _ _ _ _ (quiet_len fr _ s' x' R1)).
    exists s', x'. split; auto. unfold ret. pose proof (SRel_len impl lt set_kind fr _ _ R1) as L. unfold set_Len, Len, hget in L. injection L as L. rewrite L in Eb. now rewrite Eb.
  - right. exists s', x'. split; [|split; auto; eapply SRel_kept; eauto]. unfold bind. now rewrite E1.
Qed.
Lemma Remove_fx_set fr m s x k : SRel lt fr m s -> P x ->
  (exists s' x', set_Remove_fx keyCmp k (s, x) = (Ok (mem lt k m), (s', x')) /\ SRel lt fr (drop lt k m) s' /\ P x') \/
  (exists s' x', set_Remove_fx keyCmp k (s, x) = (Panic, (s', x')) /\ SRel lt fr m s' /\ Q x').
Proof using C A TW.
  intros R Px. destruct (Remove_set impl lt set_kind fr m s k R) as (s1 & E & R1). unfold set_Remove_fx, set_Remove in *.
  destruct (Remove_call k s x Px) as (o & s' & x' & E1 & [[E2 Px']|(-> & Kp & Qx')]).
  - left. rewrite E2 in E. injection E as -> ->. eauto.
  - right. exists s', x'. split; [|split]; auto. eapply SRel_kept; eauto.
Qed.
Lemma insertN_loop_set fr ks : forall m s x, SRel lt fr m s -> P x ->
  (exists s' x', insertN_loop_fx keyCmp ks (s, x) = (Ok tt, (s', x')) /\ SRel lt fr (fold_left (fun m p => add lt (fst p) m) ks m) s' /\ P x') \/
  (exists ks1 ks2 s' x', ks = ks1 ++ ks2 /\ ks2 <> [] /\ insertN_loop_fx keyCmp ks (s, x) = (Panic, (s', x')) /\ SRel lt fr (fold_left (fun m p => add lt (fst p) m) ks1 m) s' /\ Q x').
Proof using C A TW.
  induction ks as [|[k r] ks IH]; intros m s x R Px; cbn [insertN_loop_fx]; [left; exists s, x; auto|].
  destruct (Insert_fx_set fr m s x k r R Px) as [(s' & x' & E & R' & Px')|(s' & x' & E & R' & Qx')].
  - rewrite (bind_eq _ _ _ _ _ E). destruct (IH _ _ _ R' Px') as [H|(ks1 & ks2 & s2 & x2 & -> & N & E2 & R2 & Q2)]; [left; exact H|]. right. exists ((k, r) :: ks1), ks2, s2, x2. auto.
  - right. exists [], ((k, r) :: ks), s', x'. split; auto. split; [discriminate|]. split; auto. unfold bind. now rewrite E.
Qed.
Lemma removeN_loop_set fr ks : forall m s x, SRel lt fr m s -> P x ->
  (exists s' x', removeN_loop_fx keyCmp ks (s, x) = (Ok tt, (s', x')) /\ SRel lt fr (fold_left (fun m k => drop lt k m) ks m) s' /\ P x') \/
  (exists ks1 ks2 s' x', ks = ks1 ++ ks2 /\ ks2 <> [] /\ removeN_loop_fx keyCmp ks (s, x) = (Panic, (s', x')) /\ SRel lt fr (fold_left (fun m k => drop lt k m) ks1 m) s' /\ Q x').
Proof using C A TW.
  induction ks as [|k ks IH]; intros m s x R Px; cbn [removeN_loop_fx]; [left; exists s, x; auto|].
  destruct (Remove_fx_set fr m s x k R Px) as [(s' & x' & E & R' & Px')|(s' & x' & E & R' & Qx')].
  - rewrite (bind_eq _ _ _ _ _ E). destruct (IH _ _ _ R' Px') as [H|(ks1 & ks2 & s2 & x2 & -> & N & E2 & R2 & Q2)]; [left; exact H|]. right. exists (k :: ks1), ks2, s2, x2. auto.
  - right. exists [], (k :: ks), s', x'. split; auto. split; [discriminate|]. split; auto. unfold bind. now rewrite E.
Qed.
Lemma call_si_walk (p : FP (K := K) (V := unit) (X := X) iter) q : tracks P Q p q -> call_ok P Q (si_walk_fx p) (si_walk q).
Proof.
  intros H. unfold si_walk_fx, si_walk. intros s x Hx.
  change ((fuel <- quiet heap_fuel ;; it <- p ;; quiet (si_loop fuel it [])) (s, x)) with ((it <- p ;; quiet (si_loop (S (length (fst s))) it [])) (s, x)).
  change ((fuel <- heap_fuel ;; it <- q ;; si_loop fuel it []) s) with ((it <- q ;; si_loop (S (length (fst s))) it []) s).
  exact (call_then P Q p q (fun it => si_loop (S (length (fst s))) it []) H s x Hx).
Qed.
(** All calls but InsertN, RemoveN and Insert, which read the length between. *)
Definition single {St} (o : sop K St) : bool := match o with SInsert _ _ | SInsertN _ | SRemoveN _ => false | _ => true end.
Lemma set_step_call {St} (o : sop K St) : single o = true -> call_ok P Q (set_step_fx keyCmp o) (set_step impl o).
Proof using C A.
  destruct o; cbn [single set_step_fx set_step]; intros S1; try discriminate S1; apply call_show; try apply call_quiet.
  - apply Remove_call.
  - apply tracks_call. apply tracks_bind; [now apply findNode_tracks|]. intros. apply tracks_ret.
  - apply call_si_walk. apply tracks_bind; [now apply lowerBound_tracks|]. intros. apply tracks_ret.
  - apply call_si_walk. apply tracks_bind; [now apply upperBound_tracks|]. intros. apply tracks_ret.
  - apply call_si_walk. apply tracks_bind; [now apply lowerBound_tracks|]. intros. apply tracks_bind; [now apply upperBound_tracks|]. intros. apply tracks_ret.
Qed.
Lemma set_step_quiet {St} (o : sop K St) s x : set_compares o = false -> set_step_fx keyCmp o (s, x) = (fst (set_step impl o s), (snd (set_step impl o s), x)).
Proof. destruct o; cbn [set_compares set_step_fx set_step]; intros H; try discriminate H; apply show_quiet. Qed.

Lemma set_fx_step {St} fr (a : list K * X) s (o : sop K St) : (forall y, Q y -> P y) ->
  (SRel lt fr (fst a) (fst s) /\ snd a = snd s /\ P (snd s)) ->
  exists a', set_may_panic lt P Q a o (fst (set_step_fx keyCmp o s)) a' /\
    (SRel lt fr (fst a') (fst (snd (set_step_fx keyCmp o s))) /\ snd a' = snd (snd (set_step_fx keyCmp o s)) /\ P (snd (snd (set_step_fx keyCmp o s)))).
Proof using C A TW.
  intros QP. destruct a as [m xa], s as [s x]. cbn [fst snd]. intros (R & -> & Px).
  destruct (set_call impl lt set_kind fr o m s R) as [E R1].
  destruct (set_compares o) eqn:Eo; [|rewrite (set_step_quiet o s x Eo); cbn [fst snd]; exists (snd (set_spec lt o m), x); cbn [fst snd]; split; [left|auto]; cbn [fst snd]; rewrite E; split; [now destruct (set_spec lt o m)|auto]].
  destruct (single o) eqn:So.
  - destruct (set_step_call o So s x Px) as (r & s' & x' & Er & [[Eq Px']|(-> & Kp & Qx')]); rewrite Er; cbn [fst snd].
    + rewrite Eq in *. cbn [fst snd] in *. exists (snd (set_spec lt o m), x'). cbn [fst snd]. split; auto. left.
      cbn [fst snd]. split; [rewrite E; now destruct (set_spec lt o m)|]. split; auto. intros F. rewrite Eo in F. discriminate F.
    + exists (m, x'). cbn [fst snd]. split; [right|split; [eapply SRel_kept; eauto|split; auto]]. split; auto. split; auto. split; auto. exists SLen. split; [|reflexivity]. destruct o; try discriminate So; reflexivity.
  - destruct o; try discriminate So; clear So Eo E R1; cbn [set_step_fx]; unfold show.
    + destruct (Insert_fx_set fr m s x k r R Px) as [(s' & x' & E & R' & Px')|(s' & x' & E & R' & Qx')]; rewrite E; cbn [omap fst snd].
      * exists (add lt k m, x'). split; [|auto]. left. cbn. auto using eq_refl. split; [reflexivity|]. split; auto. discriminate.
      * exists (m, x'). split; [|auto]. right. cbn [fst snd]. split; auto. split; auto. split; auto. exists SLen. split; reflexivity.
    + unfold set_InsertN_fx. rewrite (bind_eq _ _ _ _ _ (quiet_len fr m s x R)).
      destruct (insertN_loop_set fr ks m s x R Px) as [(s' & x' & E & R' & Px')|(ks1 & ks2 & s' & x' & Ek & N & E & R' & Qx')].
      * rewrite (bind_eq _ _ _ _ _ E), (bind_eq _ _ _ _ _ (quiet_len fr _ s' x' R')). cbn [ret omap fst snd]. exists (fold_left (fun m p => add lt (fst p) m) ks m, x'). split; [|auto]. left. cbn [fst snd set_spec set_compares].
        split; [|split; auto; discriminate]. destruct (InsertN_set impl lt set_kind fr ks m s R) as (s2 & E2 & R2). unfold set_InsertN in E2. rewrite (bind_eq _ _ _ _ _ (SRel_len impl lt set_kind fr m s R)) in E2.
        destruct (insert_loop_ok impl lt set_kind fr ks m s R) as (s3 & E3 & R3). rewrite (bind_eq _ _ _ _ _ E3), (bind_eq _ _ _ _ _ (SRel_len impl lt set_kind fr _ s3 R3)) in E2. unfold ret in E2. injection E2 as -> _. reflexivity.
      * assert (E' : forall g, bind (insertN_loop_fx keyCmp ks) g (s, x) = (Panic (A := Z), (s', x'))) by (intros g; unfold bind; now rewrite E). rewrite E'. cbn [omap fst snd]. exists (fold_left (fun m p => add lt (fst p) m) ks1 m, x'). split; [|auto]. right. cbn [fst snd]. split; auto. split; auto. split; auto. exists (SInsertN ks1). split; [|reflexivity]. exists ks1, ks2. auto.
    + unfold set_RemoveN_fx. rewrite (bind_eq _ _ _ _ _ (quiet_len fr m s x R)).
      destruct (removeN_loop_set fr ks m s x R Px) as [(s' & x' & E & R' & Px')|(ks1 & ks2 & s' & x' & Ek & N & E & R' & Qx')].
      * rewrite (bind_eq _ _ _ _ _ E), (bind_eq _ _ _ _ _ (quiet_len fr _ s' x' R')). cbn [ret omap fst snd]. exists (fold_left (fun m k => drop lt k m) ks m, x'). split; [|auto]. left. cbn [fst snd set_spec set_compares].
        split; [|split; auto; discriminate]. destruct (RemoveN_set impl lt set_kind fr ks m s R) as (s2 & E2 & R2). unfold set_RemoveN in E2. rewrite (bind_eq _ _ _ _ _ (SRel_len impl lt set_kind fr m s R)) in E2.
        destruct (remove_loop_ok impl lt set_kind fr ks m s R) as (s3 & E3 & R3). rewrite (bind_eq _ _ _ _ _ E3), (bind_eq _ _ _ _ _ (SRel_len impl lt set_kind fr _ s3 R3)) in E2. unfold ret in E2. injection E2 as -> _. reflexivity.
      * assert (E' : forall g, bind (removeN_loop_fx keyCmp ks) g (s, x) = (Panic (A := Z), (s', x'))) by (intros g; unfold bind; now rewrite E). rewrite E'. cbn [omap fst snd]. exists (fold_left (fun m k => drop lt k m) ks1 m, x'). split; [|auto]. right. cbn [fst snd]. split; auto. split; auto. split; auto. exists (SRemoveN ks1). split; [|reflexivity]. exists ks1, ks2. auto.
Qed.
End Fx.
