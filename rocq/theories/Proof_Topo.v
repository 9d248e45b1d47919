(** Orders of the vertices of a graph with a queue. *)
From Verif Require Import Base BaseLemmas Spec Trace Nodes Model_DList Model_DListQueue Props_DList Proof_Median Proof_Window Spec_Bfs Spec_Topo Model_Topo.

Section Topo.
Context {V : Type}.
Variables (zero : V) (eqb : V -> V -> bool) (adj : V -> list V).
Hypothesis Heq : forall a b, eqb a b = true <-> a = b.
Variable h0 : list (dnode V).
Variable U : list V.
Hypothesis ND : NoDup U.
Hypothesis Cl : forall v w, In v U -> In w (adj v) -> In w U.
Notation rel := (QRel h0).

Lemma eq_refl_b v : eqb v v = true.
Proof. now apply Heq. Qed.
Lemma eq_cases x v : x = v \/ x <> v /\ eqb x v = false.
Proof. destruct (eqb x v) eqn:E; [left; now apply Heq|right; split; auto; intros ->; rewrite eq_refl_b in E; discriminate E]. Qed.
(** How often x is in l. *)
Fixpoint cnt (x : V) (l : list V) : Z := match l with [] => 0 | y :: r => (if eqb x y then 1 else 0) + cnt x r end.
Lemma cnt_app x l r : cnt x (l ++ r) = cnt x l + cnt x r.
Proof. induction l as [|y l IH]; cbn; [auto|rewrite IH; lia]. Qed.
Lemma cnt_nonneg x l : 0 <= cnt x l.
Proof. induction l as [|y l IH]; cbn; [lia|destruct (eqb x y); lia]. Qed.
Lemma cnt_zero x l : cnt x l = 0 <-> ~ In x l.
Proof.
  induction l as [|y l IH]; cbn; [tauto|]. pose proof (cnt_nonneg x l). destruct (eq_cases x y) as [-> |[N E]]; [rewrite eq_refl_b; split; [lia|intros []; now left]|]. rewrite E. rewrite Z.add_0_l, IH. split; [intros A [B|B]; [congruence|contradiction]|tauto].
Qed.
Lemma cnt_pos x l : cnt x l <> 0 -> In x l.
Proof. induction l as [|y l IH]; cbn; [contradiction|]. destruct (eq_cases x y) as [-> |[N E]]; [now left|]. rewrite E. intros H. right. apply IH. lia. Qed.
Lemma cnt_perm x l r : Permutation l r -> cnt x l = cnt x r.
Proof. induction 1; cbn; lia. Qed.
Lemma add_all l : forall f x, fold_left (in_add eqb 1) l f x = f x + cnt x l.
Proof. induction l as [|y l IH]; intros f x; cbn; [lia|]. rewrite IH. unfold in_add. destruct (eqb x y); lia. Qed.
Lemma count_ok us : forall f x, count_in eqb adj us f x = f x + cnt x (flat_map adj us).
Proof. induction us as [|v us IH]; intros f x; cbn [count_in flat_map]; [cbn; lia|]. rewrite IH, add_all, cnt_app. lia. Qed.
Lemma sources_ok f us : forall q st, rel q st -> exists st', push_sources zero us f st = (Ok tt, st') /\ rel (q ++ filter (fun v => f v =? 0) us) st'.
Proof.
  induction us as [|v us IH]; intros q st R; cbn [push_sources filter]; [exists st; rewrite app_nil_r; auto|]. destruct (f v =? 0).
  - destruct (w_pushback zero h0 v _ _ R) as (st1 & E1 & R1). rewrite (bind_eq _ _ _ _ _ E1). destruct (IH _ _ R1) as (st2 & E2 & R2). exists st2. split; [exact E2|]. rewrite <- app_assoc in R2. exact R2.
  - destruct (IH _ _ R) as (st2 & E2 & R2). exists st2. split; [exact E2|exact R2].
Qed.

(** X: the edges that still count; dn: the vertices already in the result. *)
Record part (X dn q : list V) (f : V -> Z) : Prop := {
  t_cnt : forall x, f x = cnt x X;
  t_in : forall x, In x U -> (In x (dn ++ q) <-> f x = 0);
  t_nd : NoDup (dn ++ q);
  t_q : incl q U }.
Lemma release_ok X dn ws : (forall w, In w ws -> In w U) -> forall q f st, part (ws ++ X) dn q f -> rel q st ->
  exists q' f' st', release zero eqb ws f st = (Ok f', st') /\ rel q' st' /\ part X dn q' f'.
Proof.
  induction ws as [|w ws IH]; intros Sub q f st [A1 A2 A3 A4] R; cbn [release]; [exists q, f, st; split; [reflexivity|]; split; [exact R|now constructor]|].
  assert (Sub' : forall x, In x ws -> In x U) by (intros x I; apply Sub; now right). assert (Uw : In w U) by (apply Sub; now left).
  set (f1 := in_add eqb (-1) f w).
  assert (F1 : forall x, f1 x = cnt x (ws ++ X)) by (intros x; unfold f1, in_add; rewrite A1; cbn [app cnt]; destruct (eqb x w); lia).
  assert (Fo : forall x, x <> w -> f1 x = f x) by (intros x N; unfold f1, in_add; destruct (eq_cases x w) as [|[_ E]]; [contradiction|now rewrite E]).
  assert (Fw : f w <> 0) by (rewrite A1; cbn [app cnt]; rewrite eq_refl_b; pose proof (cnt_nonneg w (ws ++ X)); lia).
  assert (Nw : ~ In w (dn ++ q)) by (intros I; apply A2 in I; auto).
  destruct (Z.eqb_spec (f1 w) 0) as [Z0|NZ].
  - destruct (w_pushback zero h0 w _ _ R) as (st1 & E1 & R1). rewrite (bind_eq _ _ _ _ _ E1). apply (IH Sub' (q ++ [w]) f1 st1); auto. constructor; auto.
    + intros x Ux. rewrite app_assoc, in_app_iff. destruct (eq_cases x w) as [-> |[N _]]; [split; [auto|intros _; right; now left]|]. rewrite (Fo x N), A2 by auto. split; [intros [H|[H|[]]]; auto; congruence|auto].
    + rewrite app_assoc. apply NoDup_Add with (a := w) (l := dn ++ q); [rewrite <- (app_nil_r (dn ++ q)) at 1; apply Add_app|auto].
    + intros x I. apply in_app_iff in I as [I|[<- |[]]]; auto.
  - change (bind (ret tt) (fun _ : unit => release zero eqb ws f1) st) with (release zero eqb ws f1 st). apply (IH Sub' q f1 st); auto. constructor; auto.
    intros x Ux. destruct (eq_cases x w) as [-> |[N _]]; [tauto|]. rewrite (Fo x N). now apply A2.
Qed.
Record inv (rem dn q : list V) (f : V -> Z) : Prop := {
  o_part : part (flat_map adj rem) dn q f;
  o_perm : Permutation U (dn ++ rem);
  o_order : after_sources adj U dn }.
Lemma topo_loop_ok fuel : forall rem dn q f st, inv rem dn q f -> rel q st -> (length U <= length dn + fuel)%nat ->
  exists out rem' f' st', topo_loop zero eqb adj fuel f dn st = (Ok out, st') /\ inv rem' out [] f'.
Proof.
  induction fuel as [|fuel IH]; intros rem dn q f st [Pt Pm Or] R L; cbn [topo_loop]; destruct (w_empty zero h0 _ _ R) as (st1 & E1 & R1); rewrite (bind_eq _ _ _ _ _ E1); clear E1 R st.
  all: destruct q as [|v q]; [exists dn, rem, f, st1; split; [reflexivity|now constructor]|].
  all: assert (NDv := t_nd _ _ _ _ Pt); assert (Uv : In v U) by (apply (t_q _ _ _ _ Pt); now left).
  all: assert (Nv : ~ In v dn) by (apply NoDup_remove_2 in NDv; rewrite in_app_iff in NDv; tauto).
  all: assert (Rv : In v rem) by (assert (H := Uv); rewrite Pm in H; apply in_app_iff in H; tauto).
  - exfalso. apply Permutation_length in Pm. rewrite app_length in Pm. destruct rem; [destruct Rv|cbn in Pm; lia].
  - replace (zlen (v :: q) =? 0) with false by (symmetry; apply Z.eqb_neq; unfold zlen; cbn [length]; lia).
    destruct (w_popfront zero h0 _ _ _ R1) as (st2 & E2 & R2). rewrite (bind_eq _ _ _ _ _ E2).
    apply in_split in Rv as (r1 & r2 & ->). set (rem' := r1 ++ r2).
    assert (Fv : f v = 0) by (apply (t_in _ _ _ _ Pt); [exact Uv|apply in_app_iff; right; now left]).
    assert (Pm1 : Permutation (flat_map adj (r1 ++ v :: r2)) (adj v ++ flat_map adj rem')) by (change (adj v ++ flat_map adj rem') with (flat_map adj (v :: rem')); apply Permutation_flat_map; apply Permutation_sym, Permutation_middle).
    assert (Pt1 : part (adj v ++ flat_map adj rem') (dn ++ [v]) q f).
    { destruct Pt as [A1 A2 A3 A4]. constructor.
      - intros x. rewrite A1. now apply cnt_perm.
      - intros x Ux. rewrite <- app_assoc. now apply A2.
      - rewrite <- app_assoc. exact A3.
      - intros x I. apply A4. now right. }
    destruct (release_ok (flat_map adj rem') (dn ++ [v]) (adj v) (fun w I => Cl v w Uv I) q f st2 Pt1 R2) as (q' & f' & st3 & E3 & R3 & Pt3). rewrite (bind_eq _ _ _ _ _ E3).
    apply (IH rem' (dn ++ [v]) q' f' st3); [|exact R3|rewrite app_length; cbn [length]; lia]. constructor; [exact Pt3| |].
    + rewrite Pm, <- app_assoc. apply Permutation_app_head. cbn [app]. apply Permutation_sym, Permutation_middle.
    + intros l1 w l2 E u Uu Iw. destruct l2 as [|z l2 _] using rev_ind.
      * apply app_inj_tail in E as [<- <-]. assert (H := Uu). rewrite Pm in H. apply in_app_iff in H as [H|H]; [exact H|]. exfalso.
        rewrite (t_cnt _ _ _ _ Pt) in Fv. apply cnt_zero in Fv. apply Fv. apply in_flat_map. eauto.
      * rewrite app_comm_cons, app_assoc in E. apply app_inj_tail in E as [E _]. exact (Or l1 w l2 E u Uu Iw).
Qed.

(** *** Cycles *)
Lemma walk_front n : forall x y z, In y (adj x) -> walk adj n y z -> walk adj (S n) x z.
Proof.
  intros x y z I W. revert I. induction W as [v|n u v w W IH Iw]; intros I; [apply (walk_step adj 0 x x v); [constructor|exact I]|]. apply (walk_step adj (S n) x v w); auto.
Qed.
Fixpoint chain (p : list V) : Prop := match p with [] => True | x :: r => (match r with [] => True | y :: _ => In y (adj x) end) /\ chain r end.
Lemma chain_walk p : forall x y, chain (x :: p) -> In y (x :: p) -> exists n, walk adj n x y.
Proof.
  induction p as [|z p IH]; intros x y C I.
  - destruct I as [<- |[]]. exists O. constructor.
  - destruct C as [Iz C]. destruct I as [<- |I]; [exists O; constructor|]. destruct (IH z y C I) as (n & W). exists (S n). now apply (walk_front n x z y).
Qed.
Lemma back_chain rem : rem <> [] -> (forall w, In w rem -> exists v, In v rem /\ In w (adj v)) -> forall k,
  (exists v n, In v rem /\ walk adj (S n) v v) \/ exists x p, NoDup (x :: p) /\ length p = k /\ incl (x :: p) rem /\ chain (x :: p).
Proof.
  intros NE H k. induction k as [|k [C|(x & p & N & L & I & C)]]; [|now left|].
  - right. destruct rem as [|x rem]; [contradiction|]. exists x, []. split; [constructor; [intros []|constructor]|]. split; [reflexivity|]. split; [intros y [<- |[]]; now left|cbn; auto].
  - destruct (H x) as (y & Iy & E); [apply I; now left|]. destruct (Z.eq_dec (cnt y (x :: p)) 0) as [Z0|NZ].
    + apply cnt_zero in Z0. right. exists y, (x :: p). split; [now constructor|]. split; [cbn; lia|]. split; [intros z [<- |Iz]; auto|]. split; auto.
    + left. assert (Iyp : In y (x :: p)) by now apply cnt_pos.
      destruct (chain_walk p x y C Iyp) as (n & W). exists y, n. split; [exact Iy|]. now apply (walk_front n y x y).
Qed.
Lemma walk_in n u v : walk adj n u v -> In u U -> In v U.
Proof. induction 1; intros I; eauto. Qed.
Lemma order_acyclic out : NoDup out -> incl U out -> after_sources adj U out -> acyclic adj U.
Proof.
  intros No Al Or. assert (H : forall n v w, In v U -> walk adj n v w -> n <> O -> exists l1 l2, out = l1 ++ w :: l2 /\ In v l1).
  { intros n v w Iv W. induction W as [v|n v u w W IH Iw]; intros N0; [contradiction|].
    assert (Iu : In u U) by (eapply walk_in; eauto). assert (I2 : In w out) by (apply Al; eauto). apply in_split in I2 as (l1 & l2 & E).
    assert (I1 : In u l1) by exact (Or l1 w l2 E u Iu Iw). exists l1, l2. split; [exact E|]. destruct n as [|n]; [inversion W; now subst|].
    destruct (IH Iv) as (k1 & k2 & E' & Ik); [discriminate|]. apply in_split in I1 as (a & b & ->).
    assert (a = k1) as ->; [|apply in_app_iff; now left]. clear - E E' No. rewrite <- app_assoc in E. cbn in E. subst out. revert k1 E'. induction a as [|x a IHa]; intros [|y k1] E'; cbn in *; auto.
    - injection E' as <- E'. exfalso. inversion No as [|? ? N _]; subst. apply N. rewrite E'. apply in_app_iff. right. now left.
    - injection E' as -> E'. exfalso. inversion No as [|? ? N _]; subst. apply N. apply in_app_iff. right. now left.
    - injection E' as <- E'. inversion No; subst. f_equal. now apply IHa. }
  intros v n Iv W. destruct (H _ _ _ Iv W) as (l1 & l2 & E & I); [discriminate|]. subst out. apply NoDup_remove_2 in No. apply No. apply in_app_iff. now left.
Qed.
Lemma topo_ok : exists out st, topo zero eqb adj U (h0, NewDListQueue) = (Ok out, st) /\ NoDup out /\ incl out U /\ after_sources adj U out /\ (incl U out <-> acyclic adj U).
Proof.
  unfold topo. set (f := count_in eqb adj U (fun _ => 0)). destruct (sources_ok f U [] _ (QRel_init h0)) as (st1 & E1 & R1). rewrite (bind_eq _ _ _ _ _ E1). cbn [app] in R1.
  assert (I0 : inv U [] (filter (fun v => f v =? 0) U) f).
  { constructor; [|reflexivity|intros [|? ?] ? ? E; discriminate E]. constructor.
    - intros x. unfold f. rewrite count_ok. reflexivity.
    - intros x Ux. cbn [app]. rewrite filter_In, Z.eqb_eq. tauto.
    - cbn [app]. now apply NoDup_filter.
    - intros x I. apply filter_In in I. tauto. }
  destruct (topo_loop_ok (length U) U [] _ f st1 I0 R1) as (out & rem & f' & st & E & [[A1 A2 A3 A4] Pm Or]); [cbn; lia|].
  rewrite app_nil_r in A3. exists out, st. split; [exact E|]. split; [exact A3|]. split; [intros x I; rewrite Pm; apply in_app_iff; now left|]. split; [exact Or|].
  split; [intros Al; now apply (order_acyclic out)|]. intros Ac. destruct rem as [|r rem]; [intros x I; rewrite Pm, app_nil_r in I; exact I|]. exfalso.
  assert (SubU : incl (r :: rem) U) by (intros x I; rewrite Pm; apply in_app_iff; now right).
  assert (NDU : NoDup (out ++ r :: rem)) by (eapply Permutation_NoDup; eauto).
  destruct (back_chain (r :: rem)) with (k := length (r :: rem)) as [(v & n & Iv & W)|(x & p & N & L & I & _)]; [discriminate| | |].
  - intros w Iw. assert (Nw : ~ In w out). { intros Io. apply in_split in Iw as (a & b & Eab). rewrite Eab, app_assoc in NDU. apply NoDup_remove_2 in NDU. apply NDU. rewrite <- app_assoc. apply in_app_iff. now left. }
    assert (F : f' w <> 0). { intros F. apply A2 in F; [|now apply SubU]. rewrite app_nil_r in F. contradiction. }
    rewrite A1 in F. apply cnt_pos in F. now apply in_flat_map in F.
  - exact (Ac v n (SubU v Iv) W).
  - apply NoDup_incl_length in I; [|exact N]. cbn [length] in *. lia.
Qed.
End Topo.
