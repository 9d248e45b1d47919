(** Lemmas for C103. *)
From Coq Require Import Permutation.
From Verif Require Import BaseLemmas Spec Spec_Fx Spec_Sort Model_Sort Proof_Mem Proof_Transform Proof_TransformMem Proof_Lookup Proof_Sort
  Model_TransformFx Proof_TransformFx Model_SortFx.

Section SFx.
Context {T St : Type}.
Variables (D : T -> Prop) (P Q : St -> Prop) (less : T -> T -> M St bool).
Hypothesis Hless : contract D P Q less.
Implicit Types (l : list T).

Lemma zget_in l i x : zget l i = Some x -> In x l.
Proof using Type. unfold zget. destruct (i <? 0); [discriminate|]. apply nth_error_In. Qed.

(** What a run of less and swap calls comes to, beside the run with the pure
    order f if less answers as f does. *)
Lemma run_fx p : forall l st, (forall x, In x l -> D x) -> P st ->
  exists o l' st', run_sort_fx less p (l, st) = (o, (l', st')) /\ Permutation l' l /\
    match o with Ok _ => P st' | Panic => P st' \/ Q st' | NoFuel => False end /\
    (forall f, answers D P f less ->
       run_sort (funcSortable f) p l = (o, l') \/ (o = Panic /\ Q st')).
Proof using Hless.
  induction p as [|i j k IH|i j k IH]; intros l st Hl HP; cbn [run_sort_fx].
  - exists (Ok tt), l, st. repeat split; auto.
  - destruct (zget l i) as [x|] eqn:Ei.
    2:{ exists Panic, l, st. split; [unfold LessFx, bind, own, wload; cbn; now rewrite Ei|]. split; [auto|]. split; [auto|].
        intros f _. left. cbn [run_sort LessAt funcSortable]. unfold bind, wload. now rewrite Ei. }
    destruct (zget l j) as [y|] eqn:Ej.
    2:{ exists Panic, l, st. split; [unfold LessFx, bind, own, wload; cbn; rewrite Ei; cbn; now rewrite Ej|]. split; [auto|]. split; [auto|].
        intros f _. left. cbn [run_sort LessAt funcSortable]. unfold bind, wload. now rewrite Ei, Ej. }
    assert (Dx : D x) by (apply Hl; eapply zget_in; eauto). assert (Dy : D y) by (apply Hl; eapply zget_in; eauto).
    assert (E : LessFx less i j (l, st) = (let '(o, st') := less x y st in (o, (l, st')))).
    { unfold LessFx, bind, own, callback, wload. cbn. rewrite Ei. cbn. rewrite Ej. cbn. now destruct (less x y st) as [[]]. }
    pose proof (Hless x y st Dx Dy HP) as C. unfold bind at 1. rewrite E.
    destruct (less x y st) as [[b| |] st1] eqn:L; [|exists Panic, l, st1; split; [reflexivity|]; split; [auto|]; split; [auto|]; auto|contradiction].
    destruct (IH b l st1 Hl C) as (o & l' & st' & R & Pm & O & F). exists o, l', st'. split; [exact R|]. split; [auto|]. split; [auto|].
    intros f A. destruct (F f A) as [G|G]; [left|auto].
    cbn [run_sort LessAt funcSortable]. unfold bind, wload, ret. rewrite Ei, Ej. now rewrite <- (A x y st b st1 Dx Dy HP L).
  - unfold bind at 1. unfold SwapFx, own. cbn [fst snd].
    destruct (zget l i) as [x|] eqn:Ei; [destruct (zget l j) as [y|] eqn:Ej|].
    + apply zget_Some_range in Ei, Ej. rewrite wswap_ok by auto.
      destruct (IH (zswap l i j) st) as (o & l' & st' & R & Pm & O & F); [|auto|].
      { intros z Hz. apply Hl. eapply Permutation_in; [apply zswap_perm; auto|exact Hz]. }
      exists o, l', st'. split; [exact R|]. split; [rewrite Pm; apply zswap_perm; auto|]. split; [auto|].
      intros f A. destruct (F f A) as [G|G]; [left|auto].
      cbn [run_sort Swap funcSortable]. unfold bind at 1. rewrite wswap_ok by auto. exact G.
    + assert (S : wswap i j l = (Panic, l)) by (unfold wswap, bind, wload; now rewrite Ej).
      rewrite S. exists Panic, l, st. split; [reflexivity|]. split; [auto|]. split; [auto|].
      intros f A. left. cbn [run_sort Swap funcSortable]. unfold bind at 1. now rewrite S.
    + assert (S : wswap i j l = (Panic, l)) by (unfold wswap, bind, wload; destruct (zget l j); rewrite ?Ei; auto).
      rewrite S. exists Panic, l, st. split; [reflexivity|]. split; [auto|]. split; [auto|].
      intros f A. left. cbn [run_sort Swap funcSortable]. unfold bind at 1. now rewrite S.
Qed.
End SFx.
