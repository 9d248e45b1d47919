(** Walks from kept iterators end. *)
From Verif Require Import BaseLemmas Spec Trace Spec_List Spec_Client Spec_ListIter Proof_Client Proof_ListIter Proof_ListEach.
Set Default Proof Using "Type".

Section Walk.
Context {T Q : Type}.
Variables (to : option nat -> Q) (idof : Q -> option nat).
Hypothesis idof_to : forall q, idof (to q) = q.
Notation W := (lworld T Q).
Implicit Types (w : W).
Notation live w := (map fst (w_live w)).
(** From q one gets to a stored element or stops. *)
Inductive out w : Q -> Prop :=
| out_stop q : idof q = None -> out w q
| out_live q i : idof q = Some i -> In i (live w) -> out w q
| out_gone q i v q' : idof q = Some i -> In (i, v, q') (w_gone w) -> out w q' -> out w q.
Definition leave w : Prop := forall i v q, In (i, v, q) (w_gone w) -> out w q.
Lemma out_mono w w' : (forall i, In i (live w) -> In i (live w') \/ exists v q, In (i, v, q) (w_gone w') /\ out w' q) -> (forall i v q, In (i, v, q) (w_gone w) -> exists v', In (i, v', q) (w_gone w')) ->
  forall q, out w q -> out w' q.
Proof.
  intros H1 H2 q. induction 1 as [q E|q i E I|q i v q' E I _ IH]; [now apply out_stop| |].
  - destruct (H1 i I) as [I'|(v & q' & I' & O)]; [eapply out_live; eauto|eapply out_gone; eauto].
  - destruct (H2 _ _ _ I) as (v' & I'). eapply out_gone; eauto.
Qed.
Lemma leave_mono w w' : leave w -> (forall i, In i (live w) -> In i (live w') \/ exists v q, In (i, v, q) (w_gone w') /\ out w' q) -> (forall i v q, In (i, v, q) (w_gone w) -> exists v', In (i, v', q) (w_gone w')) ->
  (forall i v q, In (i, v, q) (w_gone w') -> (exists v0, In (i, v0, q) (w_gone w)) \/ out w' q) -> leave w'.
Proof. intros H H1 H2 H3 i v q I. destruct (H3 _ _ _ I) as [(v0 & I0)|O]; auto. apply (out_mono w w'); eauto. Qed.
Lemma leave_push_front v w : leave w -> leave (push_front v w).
Proof. intros H. apply (leave_mono w); eauto. intros i I. left. now right. Qed.
Lemma leave_push_back v w : leave w -> leave (push_back v w).
Proof. intros H. apply (leave_mono w); eauto. intros i I. left. cbn. rewrite map_app. apply in_app_iff. now left. Qed.
Lemma leave_reverse w : leave w -> leave (reverse w).
Proof. intros H. apply (leave_mono w); eauto. intros i I. left. cbn. rewrite map_rev. now apply -> in_rev. Qed.
Lemma leave_revalue xs w : length xs = length (w_live w) -> leave w -> leave (revalue xs w).
Proof. intros E H. apply (leave_mono w); eauto. intros i I. left. cbn. rewrite combine_fst; auto. now rewrite map_length. Qed.
Lemma leave_store j v w : leave w -> leave (store j v w).
Proof.
  intros H. apply (leave_mono w); auto.
  - intros i I. left. cbn. rewrite map_map. erewrite map_ext; [exact I|]. intros. apply write_fst.
  - intros i u q I. unfold store. cbn [w_gone]. exists (snd (write j v (i, u))). apply in_map_iff. exists (i, u, q). cbn [fst snd]. split; auto. f_equal. rewrite (surjective_pairing (write j v (i, u))). now rewrite write_fst.
  - intros i u q I. left. unfold store in I. cbn [w_gone] in I. apply in_map_iff in I as ([[i' u'] q'] & E & I). cbn [fst snd] in E. assert (Ei : i' = i) by (apply (f_equal fst), (f_equal fst) in E; cbn [fst] in E; now rewrite write_fst in E). subst i'. injection E as _ <-. eauto.
Qed.
Lemma leave_pop_front qf w : (forall n, idof (qf n) = None \/ idof (qf n) = n) -> leave w -> leave (pop_front qf w).
Proof using idof_to.
  intros Hq H. unfold pop_front. destruct (w_live w) as [|[i v] r] eqn:E; auto. set (w' := mkW _ _ _).
  assert (O : out w' (qf (first_id r))). { destruct (Hq (first_id r)) as [N|N]; [now apply out_stop|]. destruct r as [|[j u] r]; [now apply out_stop|]. eapply out_live; [exact N|]. now left. }
  apply (leave_mono w); auto.
  - rewrite E. intros j [<-|I]; [right; exists v, (qf (first_id r)); split; auto; now left|now left].
  - intros j u q I. exists u. now right.
  - intros j u q [I|I]; [injection I as _ _ <-; now right|left; eauto].
Qed.
Lemma leave_pop_back q0 w : idof q0 = None -> leave w -> leave (pop_back q0 w).
Proof using idof_to.
  intros Hq H. unfold pop_back. destruct (rev (w_live w)) as [|[i v] r] eqn:E; auto. apply (f_equal (@rev _)) in E. rewrite rev_involutive in E. cbn [rev] in E. set (w' := mkW _ _ _).
  assert (O : out w' q0) by now apply out_stop.
  apply (leave_mono w); auto.
  - rewrite E, map_app. intros j I. apply in_app_iff in I as [I|[<-|[]]]; [now left|right; exists v, q0; split; auto; now left].
  - intros j u q I. exists u. now right.
  - intros j u q [I|I]; [injection I as _ _ <-; now right|left; eauto].
Qed.
Lemma leave_clear w : leave w -> leave (clear to w).
Proof using idof_to.
  intros H. set (w' := clear to w).
  assert (O : forall R L, w_live w = L ++ R -> out w' (to (first_id R))).
  { induction R as [|[i v] R IH]; intros L E; [apply out_stop; apply idof_to|]. eapply (out_gone _ _ i v (to (first_id R))); [apply idof_to| |apply (IH (L ++ [(i, v)])); now rewrite <- app_assoc].
    unfold w', clear. cbn [w_gone]. apply in_app_iff. left. rewrite E. apply leaving_has. }
  apply (leave_mono w); auto.
  - intros i I. right. apply in_map_iff in I as ([j v] & <- & I). apply in_split in I as (L & R & E). exists v, (to (first_id R)). cbn [fst]. split; [unfold w', clear; cbn [w_gone]; apply in_app_iff; left; rewrite E; apply leaving_has|].
    apply (O R (L ++ [(j, v)])). now rewrite <- app_assoc.
  - intros i v q I. exists v. unfold w', clear. cbn [w_gone]. apply in_app_iff. now right.
  - intros i v q I. unfold w', clear in I. cbn [w_gone] in I. apply in_app_iff in I as [I|I]; [|left; eauto]. right. apply leaving_in in I as (L & R & E & ->). apply (O R (L ++ [(i, v)])). now rewrite <- app_assoc.
Qed.

(** The elements on the way from q until it stops. *)
Inductive way w : Q -> list nat -> Prop :=
| way_stop q : idof q = None -> way w q []
| way_step q i q' l : idof q = Some i -> next_of to i w = Some q' -> way w q' l -> way w q (i :: l).
Lemma way_live w : wf w -> forall R L, w_live w = L ++ R -> way w (to (first_id R)) (map fst R).
Proof using idof_to.
  intros H. induction R as [|[i v] R IH]; intros L E; [apply way_stop; apply idof_to|]. cbn [map fst]. eapply way_step; [apply idof_to|apply (at_live to w L i v R); auto|apply (IH (L ++ [(i, v)])); now rewrite <- app_assoc].
Qed.
Lemma way_id w q q' l : idof q = idof q' -> way w q l -> way w q' l.
Proof. intros E H. inversion H; subst; [apply way_stop; congruence|eapply way_step; eauto; congruence]. Qed.
Lemma out_way w q : wf w -> out w q -> exists l, way w q l.
Proof using idof_to.
  intros H. induction 1 as [q E|q i E I|q i v q' E I _ (l & IH)].
  - exists []. now apply way_stop.
  - apply in_map_iff in I as ([j v] & <- & I). apply in_split in I as (L & R & El). exists (map fst ((j, v) :: R)). apply (way_id w (to (first_id ((j, v) :: R)))); [now rewrite idof_to|]. now apply (way_live w H _ L).
  - exists (i :: l). eapply way_step; eauto. now apply (at_gone to w i v q').
Qed.
Lemma way_from w i q : wf w -> leave w -> idof q = Some i -> (i < w_made w)%nat -> exists l, way w q l.
Proof using idof_to.
  intros H Hl E Li. apply out_way; auto. destruct (id_cases to w i H Li) as [(L & v & R & El & _)|(v & q' & I & _)].
  - eapply out_live; [exact E|]. rewrite El, map_app. apply in_app_iff. right. now left.
  - eapply out_gone; eauto.
Qed.
Lemma way_det w q l : way w q l -> forall q' l', idof q = idof q' -> way w q' l' -> l = l'.
Proof.
  induction 1 as [q E|q i p l E En _ IH]; intros q' l' Eq H'; inversion H' as [q0 E0|q0 i0 p0 l0 E0 En0 H0]; subst; try congruence.
  assert (i0 = i) by congruence. subst i0. f_equal. apply (IH p0); auto. congruence.
Qed.
Lemma way_in w q l : way w q l -> forall j, In j l -> exists q' l', idof q' = Some j /\ way w q' (j :: l') /\ (length l' < length l)%nat.
Proof.
  induction 1 as [q E|q i p l E En Hw IH]; intros j I; [destruct I|]. destruct I as [<-|I].
  - exists q, l. split; auto. split; [eapply way_step; eauto|cbn; lia].
  - destruct (IH j I) as (q' & l' & E' & W' & Ll). exists q', l'. split; auto. split; auto. cbn. lia.
Qed.
Lemma way_nodup w q l : way w q l -> NoDup l.
Proof.
  induction 1 as [q E|q i p l E En Hw IH]; constructor; auto. intros I. destruct (way_in _ _ _ Hw i I) as (q' & l' & E' & W' & Ll).
  assert (W0 : way w q (i :: l)) by (eapply way_step; eauto). pose proof (way_det _ _ _ W0 q' _ ltac:(congruence) W') as X. injection X as ->. lia.
Qed.
Lemma next_id w i q : next_of to i w = Some q -> In i (ids w).
Proof.
  unfold next_of, ids. intros H. apply in_app_iff. destruct (behind i (w_live w)) eqn:Eb.
  - left. destruct (in_dec Nat.eq_dec i (live w)) as [I|N]; auto. rewrite behind_none in Eb by auto. discriminate.
  - right. destruct (find _ (w_gone w)) as [[[j v] q']|] eqn:Ef; [|discriminate]. apply find_some in Ef as [I E]. cbn in E. apply Nat.eqb_eq in E. subst j. now apply (in_map fst), (in_map fst) in I.
Qed.
Lemma way_made w q l : wf w -> way w q l -> Forall (fun i => (i < w_made w)%nat) l.
Proof. intros H. induction 1 as [q E|q i p l E En Hw IH]; constructor; auto. apply wf_in; auto. eapply next_id; eauto. Qed.
Lemma way_length w q l : wf w -> way w q l -> (length l <= w_made w)%nat.
Proof.
  intros H Hw. rewrite <- (seq_length (w_made w) 0). apply NoDup_incl_length; [now apply (way_nodup w q)|]. intros i I. apply in_seq. pose proof (way_made _ _ _ H Hw) as F. rewrite Forall_forall in F. specialize (F i I). lia.
Qed.
End Walk.

(** *** Statements keep it *)
Definition place_id (p : place) : option nat := match p with At i => Some i | _ => None end.
Lemma place_id_to q : place_id (to_place q) = q.
Proof. now destruct q. Qed.
Section SLW.
Context {T St : Type}.
Notation W := (lworld T (option nat)).
Notation L := (@sl_spec T St).
Notation id_to := (fun q : option nat => q).
Lemma sl_leave (o : sop T St) (w : W) : leave id_to w -> leave id_to (sl_world o w).
Proof.
  intros H. pose proof (slist_len o (values w)) as E. destruct o; cbn [sl_world]; try (apply leave_revalue; [rewrite E; unfold values; now rewrite map_length|exact H]).
  - now apply leave_push_front.
  - now apply leave_push_back.
  - apply (leave_pop_front id_to id_to (fun q => eq_refl)); auto.
  - now apply leave_reverse.
  - now apply (leave_clear id_to id_to (fun q => eq_refl)).
Qed.
Lemma sl_client_leave o w vars : leave id_to w -> leave id_to (fst (snd (client L o (w, vars)))).
Proof. intros H. rewrite sl_client_world. destruct o; auto; [now apply sl_leave|]. destruct (nth_error vars x) as [[i|]|]; auto. now apply leave_store. Qed.
Lemma sl_client_made o w vars : w_made (fst (snd (client L o (w, vars)))) = (sl_pushes o + w_made w)%nat.
Proof.
  rewrite sl_client_world. destruct o as [c| | | | | |x v]; auto; [destruct c; cbn; auto; unfold pop_front; destruct (w_live w); auto|]. destruct (nth_error vars x) as [[i|]|]; auto.
Qed.
Lemma sl_run ops : forall x, wf (fst x) -> leave id_to (fst x) -> let x' := snd (run (client L) ops x) in wf (fst x') /\ leave id_to (fst x') /\ w_made (fst x') = (total sl_pushes ops + w_made (fst x))%nat.
Proof.
  induction ops as [|o ops IH]; intros [w vars] H Hl; [auto|]. cbn [run]. pose proof (sl_client_wf o w vars H) as H1. pose proof (sl_client_leave o w vars Hl) as Hl1. pose proof (sl_client_made o w vars) as M1.
  destruct (client L o (w, vars)) as [r x1]. cbn [fst snd] in *. specialize (IH x1 H1 Hl1). destruct (run (client L) ops x1) as [rs x2]. cbn [fst snd] in *. destruct IH as (A & B & C). split; auto. split; auto. cbn [total fold_right]. unfold total in C. lia.
Qed.
End SLW.
Section DLW.
Context {T St : Type}.
Variable zero : T.
Notation W := (dworld T).
Notation L := (@dl_spec T St zero).
Lemma dl_leave (o : dop T St) (w : W) : leave place_id (dw_list w) -> leave place_id (dw_list (dl_world zero o w)).
Proof.
  intros H. pose proof (dlist_len zero o (values (dw_list w))) as E. destruct o; cbn [dl_world on_world dw_list]; try (apply leave_revalue; [rewrite E; unfold values; now rewrite map_length|exact H]).
  - now apply leave_push_front.
  - now apply leave_push_back.
  - apply (leave_pop_front to_place place_id place_id_to); auto.
  - now apply (leave_pop_back to_place place_id place_id_to).
  - apply (leave_pop_front to_place place_id place_id_to); auto.
  - now apply (leave_pop_back to_place place_id place_id_to).
  - now apply (leave_clear to_place place_id place_id_to).
Qed.
Lemma dl_client_leave o w vars : leave place_id (dw_list w) -> leave place_id (dw_list (fst (snd (client L o (w, vars))))).
Proof. intros H. rewrite dl_client_world. destruct o; auto; [now apply dl_leave|]. destruct (nth_error vars x) as [[| |i]|]; auto. now apply leave_store. Qed.
Lemma dl_client_made o w vars : w_made (dw_list (fst (snd (client L o (w, vars))))) = (dl_pushes o + w_made (dw_list w))%nat.
Proof.
  rewrite dl_client_world. destruct o as [c| | | | | |x v]; auto; [|destruct (nth_error vars x) as [[| |i]|]; auto].
  destruct c; cbn; auto; unfold pop_front, pop_back; try (destruct (w_live (dw_list w)); auto); destruct (rev _); auto.
Qed.
Lemma dl_run ops : forall x, dwf (fst x) -> leave place_id (dw_list (fst x)) -> let x' := snd (run (client L) ops x) in dwf (fst x') /\ leave place_id (dw_list (fst x')) /\ w_made (dw_list (fst x')) = (total dl_pushes ops + w_made (dw_list (fst x)))%nat.
Proof.
  induction ops as [|o ops IH]; intros [w vars] H Hl; [auto|]. cbn [run]. pose proof (dl_client_wf zero o w vars H) as H1. pose proof (dl_client_leave o w vars Hl) as Hl1. pose proof (dl_client_made o w vars) as M1.
  destruct (client L o (w, vars)) as [r x1]. cbn [fst snd] in *. specialize (IH x1 H1 Hl1). destruct (run (client L) ops x1) as [rs x2]. cbn [fst snd] in *. destruct IH as (A & B & C). split; auto. split; auto. cbn [total fold_right]. unfold total in C. lia.
Qed.
(** Without pops no element leads nowhere. *)
Definition linked (w : W) : Prop := forall i v q, In (i, v, q) (w_gone (dw_list w)) -> q <> Nowhere.
Lemma dl_client_linked o w vars : ~ dl_pops o -> linked w -> linked (fst (snd (client L o (w, vars)))).
Proof.
  intros N H. rewrite dl_client_world. destruct o as [c| | | | | |x u]; auto.
  - destruct c; auto; try (destruct (N I)). intros i u q. cbn [dl_world on_world dw_list clear w_gone]. rewrite in_app_iff. intros [I|I]; [|eauto]. apply leaving_in in I as (L0 & R & _ & ->). destruct (first_id R); discriminate.
  - destruct (nth_error vars x) as [[| |i]|]; auto. intros j u' q I. unfold on_world, store in I. cbn [dw_list w_gone] in I. apply in_map_iff in I as ([[j0 u0] q0] & E & I). cbn [fst snd] in E. apply (f_equal snd) in E. cbn in E. subst q0. eauto.
Qed.
Lemma dl_run_linked ops : forall x, Forall (fun o => ~ dl_pops o) ops -> linked (fst x) -> linked (fst (snd (run (client L) ops x))).
Proof.
  induction ops as [|o ops IH]; intros [w vars] F H; [auto|]. cbn [run]. inversion F as [|? ? F1 F2]; subst. pose proof (dl_client_linked o w vars F1 H) as H1. destruct (client L o (w, vars)) as [r x1]. cbn [fst snd] in *. specialize (IH x1 F2 H1). now destruct (run (client L) ops x1).
Qed.
Lemma linked_next w i q : linked w -> next_of to_place i (dw_list w) = Some q -> q <> Nowhere.
Proof.
  unfold next_of. intros H E. destruct (behind i (w_live (dw_list w))) as [[j|]|]; [injection E as <-; discriminate|injection E as <-; discriminate|]. destruct (find _ (w_gone (dw_list w))) as [[[j v] q']|] eqn:Ef; [|discriminate]. injection E as <-. apply find_some in Ef as [I _]. eauto.
Qed.
End DLW.
