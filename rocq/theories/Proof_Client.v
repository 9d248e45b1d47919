(** Clients of two listings that simulate each other. *)
From Verif Require Import BaseLemmas Spec Trace Spec_Client.
Set Default Proof Using "Type".

Section Sim.
Context {C R T S1 P1 S2 P2 : Type}.
Variables (L1 : listing C R T S1 P1) (L2 : listing C R T S2 P2).
(** What is known about addresses, growing over time. *)
Variable K : Type.
Variable le : K -> K -> Prop.
Hypothesis le_refl : forall k, le k k.
Hypothesis le_trans : forall a b c, le a b -> le b c -> le a c.
Variable Rs : K -> S1 -> S2 -> Prop.
Variable Rp : K -> P1 -> P2 -> Prop.
Hypothesis Rp_le : forall a b p q, le a b -> Rp a p q -> Rp b p q.

(** Two programs end the same way, with related results. *)
Definition agree {A B X Y} (RX : K -> X -> Y -> Prop) (Q : K -> A -> B -> Prop) k (r1 : outcome A * X) (r2 : outcome B * Y) : Prop :=
  exists k', le k k' /\ RX k' (snd r1) (snd r2) /\
    match fst r1, fst r2 with Ok a, Ok b => Q k' a b | Panic, Panic => True | NoFuel, NoFuel => True | _, _ => False end.
Definition sim {A B X Y} (RX : K -> X -> Y -> Prop) (Q : K -> A -> B -> Prop) k (m1 : M X A) (m2 : M Y B) : Prop :=
  forall k' s1 s2, le k k' -> RX k' s1 s2 -> agree RX Q k' (m1 s1) (m2 s2).
Definition same {A} (k : K) (a b : A) : Prop := a = b.

Lemma sim_ret {A B X Y} (RX : K -> X -> Y -> Prop) (Q : K -> A -> B -> Prop) k a b : (forall k', le k k' -> Q k' a b) -> sim RX Q k (ret a) (ret b).
Proof using le_refl. intros H k' s1 s2 L R1. exists k'. split; auto. split; auto. cbn. auto. Qed.
Lemma sim_panic {A B X Y} (RX : K -> X -> Y -> Prop) (Q : K -> A -> B -> Prop) k : sim RX Q k panic panic.
Proof using le_refl. intros k' s1 s2 L R1. exists k'. split; auto. split; auto. cbn. auto. Qed.
Lemma sim_bind {A B A' B' X Y} (RX : K -> X -> Y -> Prop) (Q : K -> A -> B -> Prop) (Q' : K -> A' -> B' -> Prop) k (m1 : M X A) (m2 : M Y B) f1 f2 :
  sim RX Q k m1 m2 -> (forall k' a b, le k k' -> Q k' a b -> sim RX Q' k' (f1 a) (f2 b)) -> sim RX Q' k (x <- m1 ;; f1 x) (x <- m2 ;; f2 x).
Proof using le_trans le_refl.
  intros H1 H2 k' s1 s2 L R1. destruct (H1 k' s1 s2 L R1) as (k1 & L1' & R2 & Hq). unfold agree, bind.
  destruct (m1 s1) as [[a| |] s1'], (m2 s2) as [[b| |] s2']; cbn [fst snd] in *; try contradiction; try (exists k1; split; [|split]; now auto).
  assert (Lk : le k k1) by (eapply le_trans; [exact L|exact L1']). destruct (H2 k1 a b Lk Hq k1 s1' s2' (le_refl _) R2) as (k2 & L2' & R3 & Hq2). exists k2. split; [|split]; [eapply le_trans; [exact L1'|exact L2']|auto|auto].
Qed.
Lemma sim_le {A B X Y} (RX : K -> X -> Y -> Prop) (Q : K -> A -> B -> Prop) k k' m1 m2 : le k k' -> sim RX Q k m1 m2 -> sim RX Q k' m1 m2.
Proof using le_trans. intros L H k2 s1 s2 L2' Rr. apply H; auto. eapply le_trans; [exact L|exact L2']. Qed.

(** The operations of the two listings agree. *)
Record sims : Prop := {
  sim_call : forall k c, sim Rs same k (l_call L1 c) (l_call L2 c);
  sim_iterate : forall k, sim Rs Rp k (l_iterate L1) (l_iterate L2);
  sim_pointer : forall k p q, Rp k p q -> sim Rs same k (l_pointer L1 p) (l_pointer L2 q);
  sim_more : forall k p q, Rp k p q -> sim Rs same k (l_more L1 p) (l_more L2 q);
  sim_next : forall k p q, Rp k p q -> sim Rs Rp k (l_next L1 p) (l_next L2 q);
  sim_value : forall k p q, Rp k p q -> sim Rs same k (l_value L1 p) (l_value L2 q);
  sim_store : forall k p q v, Rp k p q -> sim Rs same k (l_store L1 p v) (l_store L2 q v) }.
Hypothesis H : sims.

Definition RC k (x : S1 * list P1) (y : S2 * list P2) : Prop := Rs k (fst x) (fst y) /\ Forall2 (Rp k) (snd x) (snd y).
Lemma vars_le k k' ps qs : le k k' -> Forall2 (Rp k) ps qs -> Forall2 (Rp k') ps qs.
Proof using Rp_le. intros L. induction 1; constructor; auto. eapply Rp_le; [exact L|auto]. Qed.
Lemma sim_on_list {A B} (Q : K -> A -> B -> Prop) k m1 m2 : sim Rs Q k m1 m2 -> sim RC Q k (on_list m1) (on_list m2).
Proof using Rp_le.
  intros Hm k' [s1 v1] [s2 v2] L [R1 R2]. destruct (Hm k' s1 s2 L R1) as (k1 & L1' & R3 & Hq). exists k1. unfold on_list. cbn [fst snd] in *. destruct (m1 s1), (m2 s2). cbn [fst snd] in *.
  split; auto. split; auto. split; auto. eapply vars_le; [exact L1'|auto].
Qed.
Lemma sim_declare k p q : Rp k p q -> sim RC same k (declare p) (declare q).
Proof using le_refl Rp_le.
  intros Hp k' [s1 v1] [s2 v2] L [R1 R2]. exists k'. split; auto. cbn [fst snd declare] in *. split.
  - split; auto. cbn [snd]. apply Forall2_app; auto. constructor; [|constructor]. eapply Rp_le; [exact L|auto].
  - red. clear - R2. induction R2; cbn; congruence.
Qed.
Lemma sim_assign k x p q : Rp k p q -> sim RC same k (assign x p) (assign x q).
Proof using le_refl Rp_le.
  intros Hp k' [s1 v1] [s2 v2] L [R1 R2]. exists k'. split; auto. cbn [fst snd assign] in *. split; [|reflexivity]. split; auto. cbn [snd].
  assert (Hp' : Rp k' p q) by (eapply Rp_le; [exact L|auto]). clear - R2 Hp'. revert x. induction R2; intros [|n]; cbn; auto; constructor; auto.
Qed.
Lemma sim_with_var k x f1 f2 : (forall k' p q, le k k' -> Rp k' p q -> sim RC same k' (f1 p) (f2 q)) -> sim RC same k (@with_var R T S1 P1 x f1) (@with_var R T S2 P2 x f2).
Proof using le_refl.
  intros Hf k' [s1 v1] [s2 v2] L [R1 R2]. unfold with_var. cbn [fst snd] in *.
  assert (Hn : match nth_error v1 x, nth_error v2 x with Some p, Some q => Rp k' p q | None, None => True | _, _ => False end).
  { clear - R2. revert x. induction R2 as [|p q ps qs Hpq R2 IH]; intros [|n]; cbn; auto. apply IH. }
  destruct (nth_error v1 x) as [p|], (nth_error v2 x) as [q|]; try contradiction.
  - apply (Hf k' p q); auto. split; auto.
  - exists k'. split; auto. split; [split; auto|]. reflexivity.
Qed.
Lemma client_sim k o : sim RC same k (client L1 o) (client L2 o).
Proof using le_refl le_trans Rp_le H.
  destruct o; cbn [client]; try (apply sim_with_var; intros k' p q Lk Hp).
  - eapply sim_bind; [apply sim_on_list, (sim_call H)|]. intros k' a b L ->. apply sim_ret. reflexivity.
  - eapply sim_bind; [apply sim_on_list, (sim_iterate H)|]. intros k' p q L Hp. eapply sim_bind; [apply sim_declare; auto|]. intros. apply sim_ret. reflexivity.
  - eapply sim_bind; [apply sim_on_list, (sim_pointer H); exact Hp|]. intros k2 [] [] L2' _. eapply sim_bind; [apply sim_declare; eapply Rp_le; eauto|]. intros. apply sim_ret. reflexivity.
  - eapply sim_bind; [apply sim_on_list, (sim_more H); exact Hp|]. intros k2 b c L2' ->. apply sim_ret. reflexivity.
  - eapply sim_bind; [apply sim_on_list, (sim_next H); exact Hp|]. intros k2 p' q' L2' Hp'. eapply sim_bind; [apply sim_assign; auto|]. intros. apply sim_ret. reflexivity.
  - eapply sim_bind; [apply sim_on_list, (sim_value H); exact Hp|]. intros k2 b c L2' ->. apply sim_ret. reflexivity.
  - eapply sim_bind; [apply sim_on_list, (sim_store H); exact Hp|]. intros k2 b c L2' _. apply sim_ret. reflexivity.
Qed.
Lemma exec_sim {A} (p : prog (iop C T) (ires R T) A) : forall k, sim RC same k (exec (client L1) p) (exec (client L2) p).
Proof using le_refl le_trans Rp_le H.
  induction p as [a|o rest IH]; intros k k' s1 s2 L Rr.
  - exists k'. split; auto. split; auto. reflexivity.
  - cbn [exec]. destruct (client_sim k o k' s1 s2 L Rr) as (k1 & L1' & R2 & Hq).
    destruct (client L1 o s1) as [[a| |] s1'], (client L2 o s2) as [[b| |] s2']; cbn [fst snd] in *; try contradiction; try (exists k1; split; [|split]; now auto).
    red in Hq. subst b. destruct (IH a k1 k1 s1' s2' (le_refl _) R2) as (k2 & L2' & R3 & Hq2). exists k2. split; [|split]; auto. eapply le_trans; [exact L1'|exact L2'].
Qed.
Lemma run_client_sim ops : forall k s1 s2, RC k s1 s2 ->
  fst (run (client L1) ops s1) = fst (run (client L2) ops s2) /\ exists k', le k k' /\ RC k' (snd (run (client L1) ops s1)) (snd (run (client L2) ops s2)).
Proof using le_refl le_trans Rp_le H.
  induction ops as [|o ops IH]; intros k s1 s2 Rr; cbn [run].
  - split; auto. exists k. auto.
  - destruct (client_sim k o k s1 s2 (le_refl _) Rr) as (k1 & L1' & R2 & Hq). destruct (client L1 o s1) as [r1 s1'], (client L2 o s2) as [r2 s2']. cbn [fst snd] in *.
    destruct (IH k1 s1' s2' R2) as (E & k2 & L2' & R3). destruct (run (client L1) ops s1'), (run (client L2) ops s2'). cbn [fst snd] in *. split.
    + f_equal; auto. destruct r1, r2; try contradiction; auto. red in Hq. congruence.
    + exists k2. split; auto. eapply le_trans; [exact L1'|exact L2'].
Qed.
Lemma each_sim {A St} give1 give2 (op : St -> A -> prog (iop C T) (ires R T) (bool * St)) fuel : (forall k p q, Rp k p q -> sim RC same k (give1 p) (give2 q)) ->
  forall k p q st, Rp k p q -> sim RC same k (each L1 give1 op fuel p st) (each L2 give2 op fuel q st).
Proof using le_refl le_trans Rp_le H.
  intros Hg. induction fuel as [|fuel IH]; intros k p q st Hp; cbn [each].
  - intros k' s1 s2 L Rr. exists k'. split; auto. split; auto. exact I.
  - eapply sim_bind; [apply sim_on_list, (sim_more H); exact Hp|]. intros k1 e e' L1' ->. destruct e'; cbn [negb]; [|apply sim_ret; reflexivity].
    assert (Hp1 : Rp k1 p q) by (eapply Rp_le; eauto).
    eapply sim_bind; [apply Hg; exact Hp1|]. intros k2 a a' L2' ->. assert (Hp2 : Rp k2 p q) by (eapply Rp_le; eauto).
    eapply sim_bind; [apply exec_sim|]. intros k3 r r' L3 Er. red in Er. subst r'. assert (Hp3 : Rp k3 p q) by (eapply Rp_le; eauto). destruct (fst r).
    + eapply sim_bind; [apply sim_on_list, (sim_next H); exact Hp3|]. intros k4 p' q' L4 Hp'. apply IH; auto.
    + apply sim_ret. reflexivity.
Qed.
Lemma give_value_sim k p q : Rp k p q -> sim RC same k (give_value L1 p) (give_value L2 q).
Proof using le_refl le_trans Rp_le H. intros Hp. apply sim_on_list, (sim_value H). exact Hp. Qed.
Lemma give_pointer_sim k p q : Rp k p q -> sim RC same k (give_pointer L1 p) (give_pointer L2 q).
Proof using le_refl le_trans Rp_le H.
  intros Hp. eapply sim_bind; [apply sim_on_list, (sim_pointer H); exact Hp|]. intros k2 b c L2' _. apply sim_declare. eapply Rp_le; eauto.
Qed.
Lemma from_start_sim {A St} give1 give2 (op : St -> A -> prog (iop C T) (ires R T) (bool * St)) fuel st : (forall k p q, Rp k p q -> sim RC same k (give1 p) (give2 q)) ->
  forall k, sim RC same k (from_start L1 give1 op fuel st) (from_start L2 give2 op fuel st).
Proof using le_refl le_trans Rp_le H. intros Hg k. eapply sim_bind; [apply sim_on_list, (sim_iterate H)|]. intros k' p q L Hp. apply each_sim; auto. Qed.
Lemma agree_alike {A} k (a : outcome A * (S1 * list P1)) (b : outcome A * (S2 * list P2)) : agree RC same k a b -> alike L1 L2 a b.
Proof using le_refl le_trans Rp_le H.
  intros (k' & L & Rr & Hq). split; [|intros rest; now apply (run_client_sim rest k')]. destruct (fst a), (fst b); try contradiction; auto. red in Hq. congruence.
Qed.
End Sim.
Lemma exec_bind {O R A B S} (step : O -> M S R) (p : prog O R A) (k : A -> prog O R B) : forall s, exec step (pbind p k) s = (a <- exec step p ;; exec step (k a)) s.
Proof. induction p as [a|o rest IH]; intros s; cbn [pbind exec]; [reflexivity|]. unfold bind in *. destruct (step o s) as [[r| |] s1]; auto. Qed.
Lemma exec_map {O R A B S} (step : O -> M S R) (p : prog O R A) (f : A -> B) : forall s, exec step (pmap f p) s = (a <- exec step p ;; ret (f a)) s.
Proof. induction p as [a|o rest IH]; intros s; cbn [pmap exec]; [reflexivity|]. unfold bind in *. destruct (step o s) as [[r| |] s1]; auto. Qed.
(** What every statement keeps, every body keeps. *)
Lemma exec_inv {O R A S} (step : O -> M S R) (Q : O -> Prop) (Inv : S -> Prop) (p : prog O R A) : only Q p -> (forall o s, Q o -> Inv s -> Inv (snd (step o s))) -> forall s, Inv s -> Inv (snd (exec step p s)).
Proof. intros On Hs. induction On as [a|o rest Ho _ IH]; intros s Hi; cbn [exec]; auto. specialize (Hs o s Ho Hi). destruct (step o s) as [[r| |] s1]; auto. Qed.
Lemma only_map {O R A B} (Q : O -> Prop) (f : A -> B) (p : prog O R A) : only Q p -> only Q (pmap f p).
Proof. induction 1; cbn; constructor; auto. Qed.
Lemma only_all {O R A} (Q : O -> Prop) (p : prog O R A) : (forall o, Q o) -> only Q p.
Proof. intros Hq. induction p; constructor; auto. Qed.
Lemma only_imp {O R A} (P Q : O -> Prop) (p : prog O R A) : (forall o, P o -> Q o) -> only P p -> only Q p.
Proof. intros Hq. induction 1; constructor; auto. Qed.
