(** Depth first search with a stack. *)
From Verif Require Import Base BaseLemmas Spec Trace Proof_Mem Model_Stack Spec_Containers Proof_StackPQ Proof_Median Proof_Brackets Spec_Bfs Spec_Dfs Model_Dfs.

Section Dfs.
Context {V : Type}.
Variables (zero : V) (grow : Z -> Z -> Z) (eqb : V -> V -> bool) (adj : V -> list V).
Hypothesis Heq : forall a b, eqb a b = true <-> a = b.

Lemma visits_det ws s t : visits adj ws s t -> forall t', visits adj ws s t' -> t = t'.
Proof using Type.
  clear Heq. induction 1 as [s|v r s t I H IH|v r s t u N H1 IH1 H2 IH2]; intros t' H'; inversion H' as [|v' r' s' t1 I' K|v' r' s' t1 u' N' K1 K2]; subst; auto; try contradiction.
  apply IH1 in K1. subst t1. auto.
Qed.
Lemma visits_app a : forall b s u, visits adj (a ++ b) s u -> exists t, visits adj a s t /\ visits adj b t u.
Proof using Type.
  clear Heq eqb zero grow. induction a as [|v a IH]; intros b s u H; cbn in H; [exists s; split; [constructor|exact H]|].
  inversion H as [|v' r' s' t1 I' K|v' r' s' t1 u' N' K1 K2]; subst.
  - apply IH in K as (t & A & B). exists t. split; [now apply visits_seen|exact B].
  - apply IH in K2 as (t & A & B). exists t. split; [now apply (visits_new adj v a s t1 t)|exact B].
Qed.
Lemma n_edges_app a b : n_edges adj (a ++ b) = (n_edges adj a + n_edges adj b)%nat.
Proof using Type. clear Heq eqb zero grow. unfold n_edges. induction a as [|v a IH]; cbn; [reflexivity|]. rewrite IH. lia. Qed.
Lemma n_edges_incl a : NoDup a -> forall U, incl a U -> (n_edges adj a <= n_edges adj U)%nat.
Proof using Type.
  clear Heq eqb zero grow. induction 1 as [|v a N Nd IH]; intros U S; [cbn; lia|]. destruct (in_split v U) as (U1 & U2 & ->); [apply S; now left|].
  assert (L : (n_edges adj a <= n_edges adj (U1 ++ U2))%nat).
  { apply IH. intros x Ix. assert (Ix' : In x (U1 ++ v :: U2)) by (apply S; now right). apply in_app_iff in Ix' as [H|[H|H]]; [apply in_app_iff; now left|subst; contradiction|apply in_app_iff; now right]. }
  rewrite n_edges_app in *. cbn. unfold n_edges in *. lia.
Qed.

Lemma pop_ok v st (c : cell V) : stack_rel (v :: st) c -> exists c', Stack_Pop c = (Ok v, c') /\ stack_rel st c'.
Proof using zero grow.
  clear Heq eqb adj. intros R. destruct (stack_step_ok zero grow (v :: st) c SPop R) as [E R']. unfold stack_step, observe in *. destruct (Stack_Pop c) as [[x| |] c']; cbn in *; try discriminate E. injection E as ->. eauto.
Qed.
Lemma push_all_ok ws : forall st (c : cell V), stack_rel st c -> exists c', push_all zero grow ws c = (Ok tt, c') /\ stack_rel (rev ws ++ st) c'.
Proof using Type.
  clear Heq eqb adj. induction ws as [|w ws IH]; intros st c R; cbn [push_all rev app]; [exists c; split; [reflexivity|exact R]|].
  destruct (push_ok zero grow st c w R) as (c1 & E1 & R1). rewrite (bind_eq _ _ _ _ _ E1). destruct (IH _ _ R1) as (c2 & E2 & R2). exists c2. split; [exact E2|]. now rewrite <- app_assoc.
Qed.

Variable v0 : V.
Variable U : list V.
Hypothesis HU : forall v n, walk adj n v0 v -> In v U.
Record inv (n : nat) (st out : list V) (seen : V -> bool) : Prop := {
  i_seen : forall x, seen x = true <-> In x out;
  i_nd : NoDup out;
  i_walk : forall x, In x (st ++ out) -> exists k, walk adj k v0 x;
  i_next : forall x w, In x out -> In w (adj x) -> In w (st ++ out);
  i_from : In v0 (st ++ out);
  i_count : (n + length st = S (n_edges adj out))%nat }.
Lemma loop_ok fuel : forall n st out seen c, inv n st out seen -> stack_rel st c -> (S (n_edges adj U) <= n + fuel)%nat ->
  exists t c' n' seen', dfs_loop zero grow eqb adj fuel seen out c = (Ok t, c') /\ visits adj st out t /\ inv n' [] t seen'.
Proof using Heq HU.
  induction fuel as [|fuel IH]; intros n st out seen c I R L; cbn [dfs_loop]; rewrite (bind_eq _ _ _ _ _ (empty_ok zero grow st c R)).
  all: destruct st as [|v st]; [exists out, c, n, seen; split; [reflexivity|]; split; [constructor|exact I]|].
  all: destruct I as [A B C D F G].
  - exfalso. assert ((n_edges adj out <= n_edges adj U)%nat); [|cbn [length] in G; lia]. apply n_edges_incl; [exact B|]. intros x Ix. destruct (C x) as (k & W); [apply in_app_iff; now right|]. eapply HU; eauto.
  - destruct (pop_ok v st c R) as (c1 & E1 & R1). rewrite (bind_eq _ _ _ _ _ E1). destruct (seen v) eqn:Sv.
    + assert (Iv : In v out) by now apply A. assert (Sub : forall x, In x ((v :: st) ++ out) -> In x (st ++ out)) by (intros x [<- |H]; [apply in_app_iff; now right|exact H]).
      destruct (IH (S n) st out seen c1) as (t & c' & n' & seen' & E & W & I'); auto.
      * constructor; auto; [intros x H; apply C; now right|intros x w H1 H2; apply Sub; eauto|cbn [length] in G; lia].
      * lia.
      * exists t, c', n', seen'. split; [exact E|]. split; [now apply visits_seen|exact I'].
    + assert (Nv : ~ In v out) by (intros H; apply A in H; congruence). destruct (push_all_ok (rev (adj v)) _ _ R1) as (c2 & E2 & R2). rewrite (bind_eq _ _ _ _ _ E2). rewrite rev_involutive in R2.
      assert (Sub : forall x, In x ((v :: st) ++ out) -> In x ((adj v ++ st) ++ out ++ [v])).
      { intros x H. rewrite !in_app_iff in *. cbn [In] in *. tauto. }
      destruct (IH (S n) (adj v ++ st) (out ++ [v]) (fun x => eqb x v || seen x) c2) as (t & c' & n' & seen' & E & W & I'); auto.
      * constructor.
        -- intros x. rewrite orb_true_iff, Heq, A, in_app_iff. cbn [In]. split; [intros [-> |H]; auto|intros [H|[H|[]]]; auto].
        -- apply NoDup_Add with (a := v) (l := out); [rewrite <- (app_nil_r out) at 1; apply Add_app|auto].
        -- intros x H. rewrite !in_app_iff in H. cbn [In] in H. destruct (C v) as (k & Wv); [now left|].
           destruct H as [[H|H]|[H|[<- |[]]]]; [exists (S k); now apply (walk_step adj k v0 v x)|apply C; right; apply in_app_iff; now left|apply C; right; apply in_app_iff; now right|eauto].
        -- intros x w H1 H2. apply in_app_iff in H1 as [H1|[<- |[]]]; [apply Sub; eauto|rewrite !in_app_iff; auto].
        -- now apply Sub.
        -- rewrite n_edges_app, app_length. cbn. cbn [length] in G. lia.
      * lia.
      * exists t, c', n', seen'. split; [exact E|]. split; [|exact I']. apply visits_app in W as (t1 & W1 & W2). now apply (visits_new adj v st out t1 t).
Qed.
Lemma depth_first_ok fuel m : (0 < length m)%nat -> (S (n_edges adj U) <= fuel)%nat ->
  exists out, fst (depth_first zero grow eqb adj fuel v0 m) = Ok out /\ visits adj [v0] [] out /\ NoDup out /\ forall v, In v out <-> exists k, walk adj k v0 v.
Proof using Heq HU.
  intros Hm L. assert (R : stack_rel (T := V) [] (m, nil_slice)) by (split; [now apply wf_nil|reflexivity]). destruct (push_ok zero grow [] (m, nil_slice) v0 R) as (c & E & R1).
  destruct (loop_ok fuel 0 [v0] [] (fun _ => false) c) as (t & c' & n' & seen' & E' & W & [A B C D F G]); auto.
  { constructor; [intros x; split; [discriminate|intros []]|constructor|intros x [<- |[]]; exists O; constructor|intros x w []|now left|reflexivity]. }
  exists t. split; [unfold depth_first, NewStack, ret; unfold cell, mem in *; rewrite (bind_eq _ _ _ _ _ E), E'; reflexivity|]. split; [exact W|]. split; [exact B|].
  intros v. split; [intros H; apply C; exact H|]. intros (k & Wk). remember v0 as u eqn:Hu in Wk. induction Wk as [v|k u v w Wk IHk Iw]; subst; [exact F|]. apply (D v w); auto.
Qed.
End Dfs.
