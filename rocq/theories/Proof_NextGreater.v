(** Next greater elements with a stack. *)
From Verif Require Import Base BaseLemmas Spec Trace Proof_Mem Model_Stack Spec_Containers Proof_StackPQ Proof_Median Proof_Brackets Proof_Dfs Spec_NextGreater Model_NextGreater.

Section NextGreater.
Context {T : Type}.
Variables (zero : T) (grow : Z -> Z -> Z) (less : T -> T -> bool).
Hypothesis NT : forall a b c, less a b = false -> less b c = false -> less a c = false.

Lemma top_ok v st (c : cell T) : stack_rel (v :: st) c -> exists c', Stack_Top c = (Ok v, c') /\ stack_rel (v :: st) c'.
Proof.
  intros R. destruct (stack_step_ok zero grow (v :: st) c STop R) as [E R']. unfold stack_step, observe in *. destruct (Stack_Top c) as [[x| |] c']; cbn in *; try discriminate E. injection E as ->. eauto.
Qed.
Fixpoint dropw (a : T) (st : list T) : list T := match st with [] => [] | t :: r => if less a t then st else dropw a r end.
Fixpoint mono (l : list T) : list T := match l with [] => [] | a :: r => a :: dropw a (mono r) end.
Lemma hd_dropw a st : hd_error (dropw a st) = find (fun x => less a x) st.
Proof. induction st as [|t r IH]; cbn; auto. destruct (less a t); auto. Qed.
Lemma find_dropw a b st : less a b = false -> find (fun x => less a x) (dropw b st) = find (fun x => less a x) st.
Proof. intros H. induction st as [|t r IH]; cbn; auto. destruct (less b t) eqn:E; [reflexivity|]. now rewrite (NT a b t H E). Qed.
Lemma find_mono a l : find (fun x => less a x) (mono l) = find (fun x => less a x) l.
Proof. induction l as [|b l IH]; cbn; auto. destruct (less a b) eqn:E; auto. now rewrite find_dropw. Qed.
Lemma dropw_length a st : (length (dropw a st) <= length st)%nat.
Proof. induction st as [|t r IH]; cbn; auto. destruct (less a t); cbn; lia. Qed.

Lemma drop_ok a : forall st n (c : cell T), stack_rel st c -> (length st <= n + length (dropw a st))%nat ->
  exists c', drop_small less n a c = (Ok (n + length (dropw a st) - length st)%nat, c') /\ stack_rel (dropw a st) c'.
Proof.
  induction st as [|t st IH]; intros n c R L; destruct n as [|n]; cbn [drop_small]; rewrite (bind_eq _ _ _ _ _ (empty_ok zero grow _ c R)).
  1, 2: exists c; cbn; split; [unfold ret; do 2 f_equal; lia|exact R].
  all: destruct (top_ok t st c R) as (c1 & E1 & R1); rewrite (bind_eq _ _ _ _ _ E1); cbn [dropw] in *; destruct (less a t) eqn:E.
  1, 3: exists c1; split; [unfold ret; do 2 f_equal; lia|exact R1].
  - pose proof (dropw_length a st). cbn [length] in L. lia.
  - destruct (pop_ok zero grow t st c1 R1) as (c2 & E2 & R2). rewrite (bind_eq _ _ _ _ _ E2). cbn [length] in *. destruct (IH n c2 R2) as (c3 & E3 & R3); [lia|]. exists c3. split; [|exact R3]. exact E3.
Qed.
Lemma topopt_ok st (c : cell T) : stack_rel st c -> exists c', top_opt c = (Ok (hd_error st), c') /\ stack_rel st c'.
Proof.
  intros R. unfold top_opt. rewrite (bind_eq _ _ _ _ _ (empty_ok zero grow _ c R)). destruct st as [|t st]; [exists c; split; [reflexivity|exact R]|].
  destruct (top_ok t st c R) as (c1 & E1 & R1). rewrite (bind_eq _ _ _ _ _ E1). exists c1. split; [reflexivity|exact R1].
Qed.
(** Every element is pushed once, so popped at most once. *)
Lemma loop_ok l : forall n (c : cell T), stack_rel [] c -> (length l <= n)%nat ->
  exists k c', next_loop zero grow less n l c = (Ok (k, next_spec less l), c') /\ stack_rel (mono l) c' /\ (k + length l = n + length (mono l))%nat.
Proof.
  induction l as [|a l IH]; intros n c R L; cbn [next_loop]; [exists n, c; split; [reflexivity|]; split; [exact R|cbn; lia]|].
  cbn [length] in L. destruct (IH n c R) as (k & c1 & E1 & R1 & K); [lia|]. rewrite (bind_eq _ _ _ _ _ E1). cbn [fst snd]. pose proof (dropw_length a (mono l)) as DL.
  destruct (drop_ok a (mono l) k c1 R1) as (c2 & E2 & R2); [lia|]. rewrite (bind_eq _ _ _ _ _ E2). destruct (topopt_ok _ c2 R2) as (c3 & E3 & R3). rewrite (bind_eq _ _ _ _ _ E3).
  destruct (push_ok zero grow _ c3 a R3) as (c4 & E4 & R4). rewrite (bind_eq _ _ _ _ _ E4). eexists _, c4. split; [cbn [next_spec]; rewrite hd_dropw, find_mono; reflexivity|]. split; [exact R4|]. cbn [length mono]. lia.
Qed.
Lemma next_ok l n m : (0 < length m)%nat -> (length l <= n)%nat -> fst (next_greater zero grow less n l m) = Ok (next_spec less l).
Proof.
  intros Hm L. assert (R : stack_rel (T := T) [] (m, nil_slice)) by (split; [now apply wf_nil|reflexivity]). destruct (loop_ok l n _ R L) as (k & c & E & _).
  unfold next_greater, NewStack, ret at 1. unfold cell, mem in *. rewrite (bind_eq _ _ _ _ _ E). reflexivity.
Qed.
End NextGreater.
