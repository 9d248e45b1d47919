(** Programs that only read, and their interleavings. *)
From Verif Require Import Base BaseLemmas Nodes Trace Spec_List Spec_Reads.
From Verif Require Model_SList Model_DList Model_DListQueue Model_SkipList Model_SkipListSet Model_Vector Model_PriorityQueue Model_BuiltinSet.

Lemma nth_error_same {A} (l l' : list A) : (forall i, nth_error l i = nth_error l' i) -> l = l'.
Proof.
  revert l'. induction l as [|x l IH]; intros [|y l'] H; [reflexivity | discriminate (H O) | discriminate (H O) |].
  f_equal; [injection (H O); auto | apply IH; intros i; exact (H (S i))].
Qed.

Section Together.
Context {S A : Type}.
Variable allowed : forall B, M S B -> Prop.
Hypothesis reading : forall B p, allowed B p -> forall s, snd (p s) = s.

Lemma advance_state (r : prog S A) s : made_of allowed r -> snd (advance r s) = s.
Proof.
  destruct r as [o | B p k]; [reflexivity|]. intros [H _]. cbn.
  pose proof (reading B p H s) as E. destruct (p s) as [o s']. exact E.
Qed.
Lemma advance_made (r : prog S A) s : made_of allowed r -> made_of allowed (fst (advance r s)).
Proof.
  destruct r as [o | B p k]; [exact (fun _ => I)|]. intros [_ H]. cbn.
  destruct (p s) as [[b| |] s']; [exact (H b) | exact I | exact I].
Qed.
Lemma advance_alone (r : prog S A) s : made_of allowed r -> alone (fst (advance r s)) s = alone r s.
Proof.
  destruct r as [o | B p k]; [reflexivity|]. intros [H _].
  pose proof (reading B p H s) as E. cbn. unfold bind.
  destruct (p s) as [[b| |] s']; cbn in E |- *; subst s'; reflexivity.
Qed.
Lemma alone_state (r : prog S A) : made_of allowed r -> forall s, snd (alone r s) = s.
Proof.
  induction r as [o | B p k IH]; [reflexivity|]. intros [H Hk] s. cbn. unfold bind.
  pose proof (reading B p H s) as E. destruct (p s) as [[b| |] s']; cbn in E |- *; subst s'; auto.
Qed.

(** How often r has to be advanced from s. *)
Fixpoint turns_of (r : prog S A) (s : S) : nat :=
  match r with
  | Done _ => O
  | Step p k => Datatypes.S (match fst (p s) with Ok b => turns_of (k b) s | _ => O end)
  end.
Lemma advance_turns r s : made_of allowed r -> turns_of (fst (advance r s)) s = pred (turns_of r s).
Proof.
  destruct r as [o | B p k]; [reflexivity|]. intros [H _]. cbn.
  destruct (p s) as [[b| |] s']; reflexivity.
Qed.
Lemma done_of (r : prog S A) s : turns_of r s = O -> r = Done (fst (alone r s)).
Proof. destruct r as [o | B p k]; [reflexivity | discriminate]. Qed.

Lemma together_state turns : forall (rs : list (prog S A)) s, Forall (made_of allowed) rs -> snd (together turns rs s) = s.
Proof.
  induction turns as [|i turns IH]; intros rs s H; [reflexivity|]. cbn.
  destruct (nth_error rs i) as [r|] eqn:E; [|exact (IH rs s H)].
  assert (Hr : made_of allowed r) by (rewrite Forall_forall in H; exact (H r (nth_error_In _ _ E))).
  pose proof (advance_state r s Hr) as Es. pose proof (advance_made r s Hr) as Em.
  destruct (advance r s) as [r' s']. cbn in Es, Em. subst s'. apply IH.
  apply Forall_forall. intros x Hx. apply In_nth_error in Hx. destruct Hx as [j Hj].
  destruct (Nat.eq_dec j i) as [->|n].
  - rewrite nth_error_upd_eq in Hj by (apply nth_error_Some; congruence). injection Hj as <-. exact Em.
  - rewrite nth_error_upd_ne in Hj by auto. rewrite Forall_forall in H. exact (H x (nth_error_In _ _ Hj)).
Qed.

Lemma together_results turns : forall (rs : list (prog S A)) s, Forall (made_of allowed) rs ->
  (forall i r, nth_error rs i = Some r -> (turns_of r s <= count_occ Nat.eq_dec turns i)%nat) ->
  fst (together turns rs s) = map (fun r => Done (fst (alone r s))) rs.
Proof.
  induction turns as [|i turns IH]; intros rs s H Hn.
  - cbn. rewrite <- (map_id rs) at 1. apply map_ext_in. intros r Hr.
    apply In_nth_error in Hr. destruct Hr as [i Hi]. apply done_of. specialize (Hn i r Hi). cbn in Hn. lia.
  - cbn [together]. destruct (nth_error rs i) as [r|] eqn:E.
    + assert (Hr : made_of allowed r) by (rewrite Forall_forall in H; exact (H r (nth_error_In _ _ E))).
      pose proof (advance_state r s Hr) as Es. pose proof (advance_made r s Hr) as Em.
      pose proof (advance_alone r s Hr) as Ea. pose proof (advance_turns r s Hr) as Et.
      destruct (advance r s) as [r' s']. cbn in Es, Em, Ea, Et. subst s'.
      assert (Hlen : (i < length rs)%nat) by (apply nth_error_Some; congruence).
      rewrite IH.
      * apply nth_error_same. intros j. rewrite !nth_error_map.
        destruct (Nat.eq_dec j i) as [->|n].
        -- rewrite nth_error_upd_eq, E by assumption. cbn. rewrite Ea. reflexivity.
        -- rewrite nth_error_upd_ne by auto. reflexivity.
      * apply Forall_forall. intros x Hx. apply In_nth_error in Hx. destruct Hx as [j Hj].
        destruct (Nat.eq_dec j i) as [->|n].
        -- rewrite nth_error_upd_eq in Hj by assumption. injection Hj as <-. exact Em.
        -- rewrite nth_error_upd_ne in Hj by auto. rewrite Forall_forall in H. exact (H x (nth_error_In _ _ Hj)).
      * intros j x Hj. destruct (Nat.eq_dec j i) as [->|n].
        -- rewrite nth_error_upd_eq in Hj by assumption. injection Hj as <-. specialize (Hn i r E).
           cbn in Hn. destruct (Nat.eq_dec i i); [|congruence]. lia.
        -- rewrite nth_error_upd_ne in Hj by auto. specialize (Hn j x Hj). cbn in Hn.
           destruct (Nat.eq_dec i j); [congruence|]. exact Hn.
    + apply IH; [exact H|]. intros j x Hj. specialize (Hn j x Hj). cbn in Hn.
      destruct (Nat.eq_dec i j) as [->|n]; [congruence|]. exact Hn.
Qed.

Lemma many_turns (rs : list (prog S A)) s : exists n, forall i r, nth_error rs i = Some r -> (turns_of r s <= n)%nat.
Proof.
  exists (fold_right Nat.max O (map (fun r => turns_of r s) rs)). intros i r H. apply nth_error_In in H.
  induction rs as [|x rs IH]; [contradiction|]. cbn. destruct H as [->|H]; [lia|]. specialize (IH H). lia.
Qed.
End Together.

(** [p] carried out from the states in [good] is made of allowed accesses. *)
Definition rd {S A} (allowed : forall B, M S B -> Prop) (good : S -> Prop) (p : M S A) : Type :=
  { r : prog S A | made_of allowed r /\ forall s, good s -> alone r s = p s }.

Section Rd.
Context {S : Type}.
Variable allowed : forall B, M S B -> Prop.
Hypothesis reading : forall B p, allowed B p -> forall s, snd (p s) = s.

Lemma rd_out {A} good (o : outcome A) : rd allowed good (lift_o o).
Proof. exists (Done o). split; [exact I | reflexivity]. Defined.
Lemma rd_ret {A} good (a : A) : rd allowed good (ret a).
Proof. exact (rd_out good (Ok a)). Defined.
Lemma rd_panic {A} good : rd allowed good (@panic S A).
Proof. exact (rd_out good Panic). Defined.
Lemma rd_nofuel {A} good : rd allowed good (@nofuel S A).
Proof. exact (rd_out good NoFuel). Defined.
Lemma rd_access {A} good (p : M S A) : allowed A p -> rd allowed good p.
Proof.
  intros H. exists (Step p (fun a => Done (Ok a))). split; [split; [exact H | exact (fun _ => I)]|].
  intros s _. cbn. unfold bind. destruct (p s) as [[a| |] s']; reflexivity.
Defined.
Lemma rd_ext {A} (good : S -> Prop) (p q : M S A) : (forall s, good s -> q s = p s) -> rd allowed good p -> rd allowed good q.
Proof. intros E [r [Hm Ha]]. exists r. split; [exact Hm|]. intros s Hs. rewrite E by exact Hs. exact (Ha s Hs). Defined.
Lemma rd_weaken {A} (good good' : S -> Prop) (p : M S A) : (forall s, good' s -> good s) -> rd allowed good p -> rd allowed good' p.
Proof. intros E [r [Hm Ha]]. exists r. split; [exact Hm|]. intros s Hs. exact (Ha s (E s Hs)). Defined.

Fixpoint prog_bind {A B} (r : prog S A) (k : A -> prog S B) : prog S B :=
  match r with
  | Done (Ok a) => k a
  | Done Panic => Done Panic
  | Done NoFuel => Done NoFuel
  | Step p rest => Step p (fun b => prog_bind (rest b) k)
  end.
Lemma prog_bind_made {A B} (r : prog S A) (k : A -> prog S B) :
  made_of allowed r -> (forall a, made_of allowed (k a)) -> made_of allowed (prog_bind r k).
Proof.
  induction r as [[a| |] | C p rest IH]; cbn; intros H Hk; auto. destruct H as [H1 H2]. auto.
Qed.
Lemma prog_bind_alone {A B} (r : prog S A) (k : A -> prog S B) s : alone (prog_bind r k) s = (a <- alone r ;; alone (k a)) s.
Proof.
  revert s. induction r as [[a| |] | C p rest IH]; intros s; try reflexivity. cbn. unfold bind.
  destruct (p s) as [[b| |] s']; try reflexivity. rewrite IH. reflexivity.
Qed.
(** What the first part returned is known in the second. *)
Lemma rd_bind {A B} (good : S -> Prop) (p : M S A) (f : A -> M S B) :
  rd allowed good p -> (forall a, rd allowed (fun s => good s /\ fst (p s) = Ok a) (f a)) -> rd allowed good (bind p f).
Proof.
  intros [r [Hm Ha]] Hf. exists (prog_bind r (fun a => proj1_sig (Hf a))). split.
  - apply prog_bind_made; [exact Hm|]. intros a. exact (proj1 (proj2_sig (Hf a))).
  - intros s Hs. rewrite prog_bind_alone. unfold bind at 1 2. pose proof (alone_state allowed reading r Hm s) as E.
    rewrite (Ha s Hs) in E |- *. destruct (p s) as [[a| |] s'] eqn:Ep; cbn in E; subst s'; [|reflexivity|reflexivity].
    apply (proj2 (proj2_sig (Hf a))). split; [exact Hs | rewrite Ep; reflexivity].
Defined.
Lemma rd_then {A B} (good : S -> Prop) (p : M S A) (f : A -> M S B) :
  rd allowed good p -> (forall a, rd allowed good (f a)) -> rd allowed good (bind p f).
Proof. intros H Hf. apply rd_bind; [exact H|]. intros a. apply (rd_weaken good); [tauto | exact (Hf a)]. Defined.
Lemma rd_show {A R} good (f : A -> R) (p : M S A) : rd allowed good p -> rd allowed good (show f p).
Proof.
  intros H. apply (rd_ext good (a <- p ;; ret (f a))).
  - intros s _. unfold show, bind. destruct (p s) as [[a| |] s']; reflexivity.
  - apply rd_then; [exact H|]. intros a. apply rd_ret.
Defined.
Lemma rd_observe {A T} good (f : A -> obs T) (p : M S A) : rd allowed good p -> rd allowed good (observe f p).
Proof. exact (rd_show good f p). Defined.

Lemma run_together {O R} (good : S -> Prop) (step : O -> M S R) (ops : list O) :
  (forall o, In o ops -> rd allowed good (step o)) -> may_run_together allowed good step ops.
Proof.
  intros H.
  assert (X : exists rs, Forall2 (fun r o => made_of allowed r /\ forall s, good s -> alone r s = step o s) rs ops).
  { induction ops as [|o ops IH]; [exists []; constructor|].
    destruct IH as [rs Hrs]; [intros o' Ho'; apply H; right; exact Ho'|].
    destruct (H o (or_introl eq_refl)) as [r Hr]. exists (r :: rs). constructor; assumption. }
  destruct X as [rs Hrs]. exists rs. split; [exact Hrs|]. intros s Hs.
  assert (Hm : Forall (made_of allowed) rs).
  { clear - Hrs. induction Hrs as [|r o rs ops Hro _ IH]; constructor; tauto. }
  split; [intros turns; exact (together_state allowed reading turns rs s Hm)|].
  destruct (many_turns rs s) as [n Hn]. exists n. intros turns Ht.
  rewrite (together_results allowed reading turns rs s Hm).
  - clear - Hrs Hs. induction Hrs as [|r o rs ops Hro _ IH]; [reflexivity|]. cbn. f_equal; [|exact IH].
    rewrite (proj2 Hro s Hs). reflexivity.
  - intros i r Hi. specialize (Hn i r Hi). assert (Hl : (i < length ops)%nat).
    { assert (El : length rs = length ops) by (clear - Hrs; induction Hrs; cbn; congruence).
      rewrite <- El. apply nth_error_Some. congruence. }
    specialize (Ht i Hl). lia.
Qed.
End Rd.

Lemma node_reading {N H} B (p : M (list N * H) B) : node_read B p -> forall s, snd (p s) = s.
Proof.
  intros [q | A f |] s; [|reflexivity|reflexivity]. unfold pload. destruct q as [a|]; [|reflexivity].
  destruct (nth_error (fst s) a); reflexivity.
Qed.

(** All states. *)
Definition any {S} (s : S) : Prop := True.

Ltac reads :=
  repeat first
    [ assumption
    | apply rd_ret | apply rd_panic | apply rd_nofuel
    | apply rd_access; constructor
    | apply (rd_show _ node_reading)
    | apply (rd_then _ node_reading); [|intros ?]
    | match goal with |- rd _ _ (match ?x with _ => _ end) => destruct x end ].

Section SList.
Import Model_SList.
Context {T : Type}.
Variable zero : T.
Notation R := (rd (@node_read (snode T) slist) any).
Lemma sl_Values_loop fuel : forall node i (s : list T), R (Values_loop fuel node i s).
Proof. induction fuel as [|fuel IH]; intros node i s; cbn [Values_loop]; reads; [apply rd_out | apply IH]. Defined.
Lemma sl_ForEach_loop {St} (cb : St -> T -> St) fuel : forall node st, R (ForEach_loop cb fuel node st).
Proof. induction fuel as [|fuel IH]; intros node st; cbn [ForEach_loop]; reads; apply IH. Defined.
Lemma sl_ForEachIf_loop {St} (cb : St -> T -> bool * St) fuel : forall node st, R (ForEachIf_loop cb fuel node st).
Proof. induction fuel as [|fuel IH]; intros node st; cbn [ForEachIf_loop]; reads; apply IH. Defined.
Lemma sl_advance i : forall it, R (Model_SList.advance i it).
Proof. induction i as [|i IH]; intros it; cbn [Model_SList.advance]; unfold MoveToNext; reads; apply IH. Defined.
Lemma sl_iter_loop fuel : forall it (seen : list T), R (iter_loop fuel it seen).
Proof. induction fuel as [|fuel IH]; intros it seen; cbn [iter_loop]; unfold IsNotEnd, Value, MoveToNext; reads; apply IH. Defined.
End SList.

Section DList.
Import Model_DList.
Context {T : Type}.
Variable zero : T.
Notation R := (rd (@node_read (dnode T) dlist) any).
Lemma dl_ForEach_loop {St} (cb : St -> T -> St) fuel : forall node st, R (ForEach_loop cb fuel node st).
Proof. induction fuel as [|fuel IH]; intros node st; cbn [ForEach_loop]; unfold ld_value, ld_next; reads; apply IH. Defined.
Lemma dl_ForEachIf_loop {St} (cb : St -> T -> bool * St) fuel : forall node st, R (ForEachIf_loop cb fuel node st).
Proof. induction fuel as [|fuel IH]; intros node st; cbn [ForEachIf_loop]; unfold ld_value, ld_next; reads; apply IH. Defined.
Lemma dl_advance i : forall it, R (Model_DList.advance i it).
Proof. induction i as [|i IH]; intros it; cbn [Model_DList.advance]; unfold IsNotEnd, MoveToNext, ld_next; reads; apply IH. Defined.
Lemma dl_iter_loop fuel : forall it (seen : list T), R (iter_loop fuel it seen).
Proof. induction fuel as [|fuel IH]; intros it seen; cbn [iter_loop]; unfold IsNotEnd, Value, MoveToNext, ld_value, ld_next; reads; apply IH. Defined.
End DList.

Section SkipList.
Import Model_SkipList.
Context {K V : Type}.
Notation R := (rd (@node_read (slnode K V) sklist) any).
Lemma sk_key p : R (@ld_key K V p).
Proof. unfold ld_key. reads. Defined.
Lemma sk_value p : R (@ld_value K V p).
Proof. unfold ld_value. reads. Defined.
Lemma sk_next p i : R (@ld_next K V p i).
Proof. unfold ld_next. reads. Defined.
Ltac sk := repeat first [apply sk_key | apply sk_value | apply sk_next | progress reads].
Lemma sk_scan hit stop fuel : forall i prev cur, R (@scan K V hit stop fuel i prev cur).
Proof. induction fuel as [|fuel IH]; intros i prev cur; cbn [scan]; sk; apply IH. Defined.
Lemma sk_descend hit stop fuel level : forall prev, R (@descend K V hit stop fuel level prev).
Proof. induction level as [|level IH]; intros prev; cbn [descend]; sk; [apply sk_scan | apply IH]. Defined.
Section Impl.
Variables (ltb eqb : K -> K -> bool) (cmp : K -> K -> Z).
Lemma sk_ord_do key eq : R (@ord_doFindNode K V ltb eqb key eq).
Proof. unfold ord_doFindNode. sk. apply sk_descend. Defined.
Lemma sk_ord_upper key : R (@ord_upperBound K V ltb eqb key).
Proof. unfold ord_upperBound, ord_lowerBound. sk; apply sk_descend. Defined.
Lemma sk_fn_lower key : R (@fn_lowerBound K V cmp key).
Proof. unfold fn_lowerBound. sk. apply sk_descend. Defined.
Lemma sk_fn_find key : R (@fn_findNode K V cmp key).
Proof. unfold fn_findNode. sk; apply sk_descend. Defined.
Lemma sk_fn_upper key : R (@fn_upperBound K V cmp key).
Proof. unfold fn_upperBound. sk; apply sk_descend. Defined.
End Impl.
(** The reading part of an implementation. *)
Definition impl_reads (impl : @slimpl K V) : Type :=
  ((forall k, R (findNode impl k)) * (forall k, R (lowerBound impl k)) * (forall k, R (upperBound impl k)))%type.
Lemma ordered_reads ltb eqb : impl_reads (implOrdered ltb eqb).
Proof. repeat split; intros k; cbn; [apply sk_ord_do | apply sk_ord_do | apply sk_ord_upper]. Defined.
Lemma func_reads cmp : impl_reads (implFunc cmp).
Proof. repeat split; intros k; cbn; [apply sk_fn_find | apply sk_fn_lower | apply sk_fn_upper]. Defined.
Lemma sk_ForEach_loop {St} (cb : St -> K * V -> St) fuel : forall e st, R (ForEach_loop cb fuel e st).
Proof. induction fuel as [|fuel IH]; intros e st; cbn [ForEach_loop]; sk; apply IH. Defined.
Lemma sk_ForEachIf_loop {St} (cb : St -> K * V -> bool * St) fuel : forall e st, R (ForEachIf_loop cb fuel e st).
Proof. induction fuel as [|fuel IH]; intros e st; cbn [ForEachIf_loop]; sk; apply IH. Defined.
Lemma sk_iter_loop fuel : forall it seen, R (@iter_loop K V fuel it seen).
Proof. induction fuel as [|fuel IH]; intros it seen; cbn [iter_loop]; unfold Key, Value, MoveToNext; sk; apply IH. Defined.
Lemma sk_si_loop fuel : forall it seen, rd (@node_read (slnode K unit) sklist) any (@Model_SkipListSet.si_loop K fuel it seen).
Proof.
  induction fuel as [|fuel IH]; intros it seen; cbn [Model_SkipListSet.si_loop];
    unfold Model_SkipListSet.si_Value, Model_SkipListSet.si_MoveToNext, ld_key, ld_next; sk; apply IH.
Defined.
End SkipList.

Section Cells.
Context {T : Type}.
Lemma cell_reading B (p : M (cell T) B) : cell_read B p -> forall c, snd (p c) = c.
Proof. intros [|v i] c; reflexivity. Qed.
(** The slice header is one a Go program can hold. *)
Definition sound (c : cell T) : Prop := wf_slice (fst c) (snd c).
Lemma cell_hdr good : rd (@cell_read T) good get_hdr.
Proof. apply rd_access. constructor. Defined.
(** An element of the slice read from the variable. *)
Lemma cell_load (good : cell T -> Prop) (v : slice) i : (forall c, good c -> wf_slice (fst c) v) ->
  rd (@cell_read T) good (lift_mem (sload v i)).
Proof.
  intros H. apply (rd_ext _ _ (load v i)); [|apply rd_access; constructor].
  intros c Hc. specialize (H c Hc). unfold lift_mem, load, sload, on_slice, wload, at_.
  destruct (zget (contents (fst c) v) i); rewrite write_at_same by exact H; destruct c; reflexivity.
Defined.
Lemma cell_each_loop {St} (cb : St -> T -> St) (good : cell T -> Prop) v : (forall c, good c -> wf_slice (fst c) v) ->
  forall n i st, rd (@cell_read T) good (lift_mem (Model_Vector.VForEach_loop v cb n i st)).
Proof.
  intros H. induction n as [|n IH]; intros i st.
  - apply (rd_ext _ _ (ret st)); [intros [m s] _; reflexivity | apply rd_ret].
  - apply (rd_ext _ _ (e <- lift_mem (sload v i) ;; lift_mem (Model_Vector.VForEach_loop v cb n (i + 1) (cb st e)))).
    + intros [m s] _. cbn [Model_Vector.VForEach_loop]. unfold lift_mem, bind. cbn [fst snd].
      destruct (sload v i m) as [[x| |] m']; reflexivity.
    + apply (rd_then _ cell_reading); [apply cell_load; exact H | intros e; apply IH].
Defined.
Lemma cell_eachif_loop {St} (cb : St -> T -> bool * St) (good : cell T -> Prop) v : (forall c, good c -> wf_slice (fst c) v) ->
  forall n i st, rd (@cell_read T) good (lift_mem (Model_Vector.VForEachIf_loop v cb n i st)).
Proof.
  intros H. induction n as [|n IH]; intros i st.
  - apply (rd_ext _ _ (ret st)); [intros [m s] _; reflexivity | apply rd_ret].
  - apply (rd_ext _ _ (e <- lift_mem (sload v i) ;; if negb (fst (cb st e)) then ret (snd (cb st e)) else lift_mem (Model_Vector.VForEachIf_loop v cb n (i + 1) (snd (cb st e))))).
    + intros [m s] _. cbn [Model_Vector.VForEachIf_loop]. unfold lift_mem, bind. cbn [fst snd].
      destruct (sload v i m) as [[x| |] m']; [|reflexivity|reflexivity]. destruct (cb st x) as [[|] st']; reflexivity.
    + apply (rd_then _ cell_reading); [apply cell_load; exact H | intros e].
      destruct (negb (fst (cb st e))); [apply rd_ret | apply IH].
Defined.
Lemma cell_collect (good : cell T -> Prop) v : (forall c, good c -> wf_slice (fst c) v) ->
  forall fuel i, rd (@cell_read T) good (lift_mem (Model_Vector.vi_collect fuel (Model_Vector.mkVIt v i))).
Proof.
  intros H. induction fuel as [|n IH]; intros i.
  - apply (rd_ext _ _ (if i <? s_len v then nofuel else ret [])).
    + intros [m s] _. cbn. unfold Model_Vector.vi_IsNotEnd. cbn. destruct (i <? s_len v); reflexivity.
    + destruct (i <? s_len v); [apply rd_nofuel | apply rd_ret].
  - apply (rd_ext _ _ (if i <? s_len v then x <- lift_mem (sload v i) ;; r <- lift_mem (Model_Vector.vi_collect n (Model_Vector.mkVIt v (wrap64 (i + 1)))) ;; ret (x :: r) else ret [])).
    + intros [m s] _. cbn [Model_Vector.vi_collect]. unfold Model_Vector.vi_IsNotEnd. cbn [Model_Vector.vi_i Model_Vector.vi_v].
      destruct (i <? s_len v); [|reflexivity]. unfold Model_Vector.vi_Value, Model_Vector.vi_MoveToNext. cbn [Model_Vector.vi_i Model_Vector.vi_v].
      unfold lift_mem, bind. cbn [fst snd]. destruct (sload v i m) as [[x| |] m']; [|reflexivity|reflexivity]. cbn [fst snd].
      destruct (Model_Vector.vi_collect n (Model_Vector.mkVIt v (wrap64 (i + 1))) m') as [[r| |] m'']; reflexivity.
    + destruct (i <? s_len v); [|apply rd_ret].
      apply (rd_then _ cell_reading); [apply cell_load; exact H | intros e].
      apply (rd_then _ cell_reading); [apply IH | intros r; apply rd_ret].
Defined.
(** What follows the reading of the variable. *)
Lemma cell_of_hdr {A} (f : slice -> M (cell T) A) :
  (forall v, rd (@cell_read T) (fun c => sound c /\ snd c = v) (f v)) -> rd (@cell_read T) sound (v <- get_hdr ;; f v).
Proof.
  intros H. apply (rd_bind _ cell_reading); [apply cell_hdr|]. intros v. apply (rd_weaken _ (fun c => sound c /\ snd c = v)); [|apply H].
  intros c [Hc E]. split; [exact Hc|]. injection E as E. exact E.
Defined.
Lemma sound_wf v : forall c : cell T, sound c /\ snd c = v -> wf_slice (fst c) v.
Proof. intros c [H <-]. exact H. Qed.
End Cells.

(** Programs inside a larger state. *)
Section Inside.
Context {S S' : Type}.
Variable lift : forall B, M S B -> M S' B.
Variables (allowed : forall B, M S B -> Prop) (allowed' : forall B, M S' B -> Prop).
Hypothesis lift_out : forall A (o : outcome A) s, lift A (lift_o o) s = lift_o o s.
Hypothesis lift_bind : forall A B (p : M S A) (f : A -> M S B) s, lift B (bind p f) s = bind (lift A p) (fun a => lift B (f a)) s.
Hypothesis lift_allowed : forall B p, allowed B p -> allowed' B (lift B p).
Fixpoint prog_lift {A} (r : prog S A) : prog S' A :=
  match r with Done o => Done o | Step p k => Step (lift _ p) (fun b => prog_lift (k b)) end.
Lemma prog_lift_made {A} (r : prog S A) : made_of allowed r -> made_of allowed' (prog_lift r).
Proof. induction r as [o | B p k IH]; cbn; [auto|]. intros [H1 H2]. split; [apply lift_allowed; exact H1 | intros b; apply IH, H2]. Qed.
Lemma prog_lift_alone {A} (r : prog S A) : forall s, alone (prog_lift r) s = lift A (alone r) s.
Proof.
  induction r as [o | B p k IH]; intros s; cbn [alone prog_lift]; [symmetry; apply lift_out|].
  rewrite lift_bind. unfold bind. destruct (lift B p s) as [[b| |] s']; [apply IH | reflexivity | reflexivity].
Qed.
End Inside.

Section Maps.
Import Model_BuiltinSet.
Context {K : Type}.
Variable eqb : K -> K -> bool.
Notation R := (rd (map_read eqb) any).
Lemma map_reading B (p : M (list (gomap K)) B) : map_read eqb B p -> forall s, snd (p s) = s.
Proof. intros [s | s k | s o | s i] h; reflexivity. Qed.
Lemma map_range_loop {A} s (body : A -> K -> M (list (gomap K)) (bool * A)) : (forall a k, R (body a k)) ->
  forall o a, R (range_loop s body o a).
Proof.
  intros Hb. induction o as [|i o IH]; intros a; cbn [range_loop]; [apply rd_ret|].
  apply (rd_ext _ _ (e <- (fun h => (Ok (g_find i (look h s)), h)) ;;
    match e with None => range_loop s body o a | Some (_, k) => r <- body a k ;; if fst r then range_loop s body o (snd r) else ret (snd r) end)).
  - intros h _. unfold bind at 2. destruct (g_find i (look h s)) as [[j k]|]; reflexivity.
  - apply (rd_then _ map_reading); [apply rd_access; constructor|]. intros [[j k]|]; [|apply IH].
    apply (rd_then _ map_reading); [apply Hb|]. intros r. destruct (fst r); [apply IH | apply rd_ret].
Defined.
Lemma map_range {A} s o (body : A -> K -> M (list (gomap K)) (bool * A)) a : (forall a k, R (body a k)) -> R (range s o body a).
Proof.
  intros Hb. apply (rd_ext _ _ (l <- (fun h => (Ok (rounds o (look h s)), h)) ;; range_loop s body l a)); [reflexivity|].
  apply (rd_then _ map_reading); [apply rd_access; constructor|]. intros l. apply map_range_loop. exact Hb.
Defined.
Lemma map_has s k : R (has_key eqb s k).
Proof. apply rd_access. constructor. Defined.
Lemma map_len s : R (len_map s).
Proof. apply rd_access. constructor. Defined.
Lemma map_orderSet a b : R (orderSet a b).
Proof.
  unfold orderSet, b_Len. apply (rd_then _ map_reading); [apply map_len|]. intros la.
  apply (rd_then _ map_reading); [apply map_len|]. intros lb. destruct (la <? lb); apply rd_ret.
Defined.
End Maps.
