(** Checking brackets with a stack. *)
From Verif Require Import Base BaseLemmas Spec Trace Proof_Mem Model_Stack Spec_Containers Proof_StackPQ Proof_Median Spec_Brackets Model_Brackets.

Section Brackets.
Context {B : Type}.
Variables (zero : B) (grow : Z -> Z -> Z) (eqb : B -> B -> bool).
Hypothesis Heq : forall a b, eqb a b = true <-> a = b.
(** The kinds that are open after w, if no bracket of w is wrong. *)
Fixpoint go (st : list B) (w : list (symbol B)) : option (list B) :=
  match w with
  | [] => Some st
  | Open k :: r => go (k :: st) r
  | Close k :: r => match st with j :: st' => if eqb j k then go st' r else None | [] => None end
  | Other :: r => go st r
  end.
Lemma go_app u : forall st w, go st (u ++ w) = match go st u with Some st' => go st' w | None => None end.
Proof using Type. induction u as [|[k|k|] u IH]; intros st w; cbn; auto. destruct st as [|j st]; auto. now destruct (eqb j k). Qed.
Lemma go_balanced w : balanced w -> forall st, go st w = Some st.
Proof using Heq.
  induction 1 as [|w H IH|k u w H1 IH1 H2 IH2]; intros st; cbn; auto. rewrite go_app, IH1. cbn. rewrite (proj2 (Heq k k) eq_refl). apply IH2.
Qed.
Lemma balanced_app (u w : list (symbol B)) : balanced u -> balanced w -> balanced (u ++ w).
Proof using Type.
  induction 1 as [|u H IH|k u v H1 IH1 H2 IH2]; intros Hw; cbn; auto; [constructor; auto|]. rewrite <- app_assoc. cbn. constructor; auto.
Qed.
(** w closes the open brackets st, and is balanced otherwise. *)
Inductive closes : list B -> list (symbol B) -> Prop :=
| closes_nil w : balanced w -> closes [] w
| closes_cons k st u w : balanced u -> closes st w -> closes (k :: st) (u ++ Close k :: w).
Lemma closes_app u st w : balanced u -> closes st w -> closes st (u ++ w).
Proof using Type.
  intros Hu [w' H|k st' v w' H1 H2]; [constructor; now apply balanced_app|]. rewrite app_assoc. constructor; [now apply balanced_app|auto].
Qed.
Lemma go_closes w : forall st, go st w = Some [] -> closes st w.
Proof using Heq.
  induction w as [|[k|k|] w IH]; intros st E; cbn in E.
  - injection E as ->. constructor. constructor.
  - specialize (IH _ E). inversion IH as [|? ? u w' H1 H2]; subst. replace (Open k :: u ++ Close k :: w') with ((Open k :: u ++ Close k :: []) ++ w') by (cbn; now rewrite <- app_assoc).
    apply closes_app; auto. constructor; auto. constructor.
  - destruct st as [|j st]; [discriminate E|]. destruct (eqb j k) eqn:Ej; [|discriminate E]. apply Heq in Ej. subst j. apply (closes_cons k st [] w); auto. constructor.
  - apply (closes_app [Other]); auto. constructor. constructor.
Qed.
Lemma balanced_iff w : balanced w <-> go [] w = Some [].
Proof using Heq.
  split; [intros H; now apply go_balanced|]. intros E. apply go_closes in E. now inversion E.
Qed.
Lemma go_closers st : go st (map Close st) = Some [].
Proof using Heq. induction st as [|k st IH]; cbn; auto. now rewrite (proj2 (Heq k k) eq_refl). Qed.
Lemma viable_iff w : viable w <-> exists st, go [] w = Some st.
Proof using Heq.
  split.
  - intros (t & H). apply balanced_iff in H. rewrite go_app in H. destruct (go [] w) as [st|]; [eauto|discriminate H].
  - intros (st & E). exists (map Close st). apply balanced_iff. rewrite go_app, E. apply go_closers.
Qed.

(** *** The program *)
Lemma empty_ok st (c : cell B) : stack_rel st c -> Stack_IsEmpty c = (Ok (match st with [] => true | _ => false end), c).
Proof using zero grow.
  clear Heq eqb. intros R. destruct (stack_step_ok zero grow st c SIsEmpty R) as [E _]. destruct c as [m s]. unfold stack_step, observe, Stack_IsEmpty, bind, get_hdr, ret in *. cbn in *. injection E as E. rewrite E. destruct st as [|a st]; [reflexivity|].
  replace (zlen (a :: st) =? 0) with false; [reflexivity|]. symmetry. apply Z.eqb_neq. unfold zlen. cbn [length]. lia.
Qed.
Lemma push_ok st (c : cell B) k : stack_rel st c -> exists c', Stack_Push zero grow k c = (Ok tt, c') /\ stack_rel (k :: st) c'.
Proof using Type.
  intros R. destruct (stack_step_ok zero grow st c (SPush k) R) as [E R']. unfold stack_step, observe in *. destruct (Stack_Push zero grow k c) as [[[]| |] c']; cbn in *; try discriminate E. eauto.
Qed.
Lemma trypop_ok st (c : cell B) : stack_rel st c -> exists c', Stack_TryPop zero c = (Ok (match st with [] => (zero, false) | k :: _ => (k, true) end), c') /\ stack_rel (tl st) c'.
Proof using grow.
  intros R. destruct (stack_step_ok zero grow st c STryPop R) as [E R']. unfold stack_step, observe in *. destruct (Stack_TryPop zero c) as [[[v b]| |] c']; destruct st; cbn in *; try discriminate E; injection E as <- <-; eauto.
Qed.
Lemma loop_ok word : forall i st c, stack_rel st c -> exists n b, fst (check_loop zero grow eqb word i c) = Ok (i + Z.of_nat n, b) /\ (n <= length word)%nat /\
  (b = true <-> go st word = Some []) /\ (exists st', go st (firstn n word) = Some st') /\ ((n < length word)%nat -> go st (firstn (S n) word) = None).
Proof using Type.
  clear Heq. induction word as [|[k|k|] word IH]; intros i st c R; cbn [check_loop].
  - exists O, (match st with [] => true | _ => false end). rewrite (bind_eq _ _ _ _ _ (empty_ok st c R)). cbn. rewrite Z.add_0_r. split; [reflexivity|]. split; [lia|].
    split; [|split; [eauto|lia]]. destruct st; split; congruence.
  - destruct (push_ok st c k R) as (c' & E & R'). rewrite (bind_eq _ _ _ _ _ E). destruct (IH (i + 1) _ _ R') as (n & b & E1 & L & H1 & H2 & H3). exists (S n), b.
    split; [rewrite E1; do 2 f_equal; lia|]. cbn [length]. split; [lia|]. cbn [go firstn]. split; [exact H1|]. split; [exact H2|]. intros L'. apply H3. lia.
  - destruct (trypop_ok st c R) as (c' & E & R'). rewrite (bind_eq _ _ _ _ _ E). destruct st as [|j st]; cbn [fst snd andb].
    + exists O, false. cbn. rewrite Z.add_0_r. split; [reflexivity|]. split; [lia|]. split; [split; discriminate|]. split; [eauto|auto].
    + destruct (eqb j k) eqn:Ej.
      * destruct (IH (i + 1) _ _ R') as (n & b & E1 & L & H1 & H2 & H3). exists (S n), b. split; [rewrite E1; do 2 f_equal; lia|]. cbn [length]. split; [lia|]. cbn [go firstn]. rewrite Ej.
        split; [exact H1|]. split; [exact H2|]. intros L'. apply H3. lia.
      * exists O, false. cbn. rewrite Z.add_0_r, Ej. split; [reflexivity|]. split; [lia|]. split; [split; discriminate|]. split; [eauto|auto].
  - destruct (IH (i + 1) _ _ R) as (n & b & E1 & L & H1 & H2 & H3). exists (S n), b. split; [rewrite E1; do 2 f_equal; lia|]. cbn [length]. split; [lia|]. cbn [go firstn].
    split; [exact H1|]. split; [exact H2|]. intros L'. apply H3. lia.
Qed.
End Brackets.
