(** Distances by breadth first search. *)
From Verif Require Import Base BaseLemmas Spec Trace Nodes Model_DList Model_DListQueue Props_DList Proof_Median Proof_Window Spec_Bfs Model_Bfs.

Section Bfs.
Context {V : Type}.
Variables (zero : V) (eqb : V -> V -> bool) (adj : V -> list V).
Hypothesis Heq : forall a b, eqb a b = true <-> a = b.
Variable h0 : list (dnode V).
Variable s : V.
Notation rel := (QRel h0).

Lemma set_same d v n : dist_set eqb d v n v = Some n.
Proof using Heq. unfold dist_set. now rewrite (proj2 (Heq v v) eq_refl). Qed.
Lemma set_other d v n x : x <> v -> dist_set eqb d v n x = d x.
Proof using Heq. intros N. unfold dist_set. destruct (eqb x v) eqn:E; auto. apply Heq in E. contradiction. Qed.
Lemma set_cases (v x : V) : x = v \/ x <> v.
Proof using Heq. destruct (eqb x v) eqn:E; [left; now apply Heq|right; intros ->; rewrite (proj2 (Heq v v) eq_refl) in E; discriminate E]. Qed.

(** done: the vertices already taken from the queue; the queue holds q1, at distance m,
    then q2, at distance m + 1. *)
Record inv (m : Z) (dn q1 q2 : list V) (d : @dist_map V) : Prop := {
  i_dom : forall x, d x <> None <-> In x (dn ++ q1 ++ q2);
  i_nd : NoDup (dn ++ q1 ++ q2);
  i_sound : forall x k, d x = Some k -> 0 <= k <= m + 1 /\ walk adj (Z.to_nat k) s x;
  i_q1 : forall x, In x q1 -> d x = Some m;
  i_q2 : forall x, In x q2 -> d x = Some (m + 1) }.
Definition ext (d d' : @dist_map V) := forall x k, d x = Some k -> d' x = Some k.

Lemma visit_ok m dn q1 v ws : (forall w, In w ws -> In w (adj v)) -> forall q2 d st, inv m dn q1 q2 d -> d v = Some m -> rel (q1 ++ q2) st ->
  exists q2' d' st', visit zero eqb v ws d st = (Ok d', st') /\ rel (q1 ++ q2') st' /\ inv m dn q1 q2' d' /\ ext d d' /\ forall w, In w ws -> exists k, d' w = Some k /\ k <= m + 1.
Proof using Heq.
  induction ws as [|w ws IH]; intros Sub q2 d st I Dv R; cbn [visit].
  - exists q2, d, st. split; [reflexivity|]. split; [exact R|]. split; [exact I|]. split; [intros x k E; exact E|intros w []].
  - assert (Sub' : forall x, In x ws -> In x (adj v)) by (intros x Ix; apply Sub; now right). destruct (d w) as [k|] eqn:Dw.
    + destruct (IH Sub' q2 d st I Dv R) as (q2' & d' & st' & E & R' & I' & X & A). exists q2', d', st'. split; [exact E|]. split; [exact R'|]. split; [exact I'|]. split; [exact X|].
      intros x [<- |Ix]; [|now apply A]. exists k. split; [now apply X|]. apply (i_sound _ _ _ _ _ I) in Dw. lia.
    + destruct (w_pushback zero h0 w _ _ R) as (st1 & E1 & R1). rewrite (bind_eq _ _ _ _ _ E1). rewrite <- app_assoc in R1.
      assert (G : dist_get d v = m) by (unfold dist_get; now rewrite Dv). rewrite G.
      assert (Nw : ~ In w (dn ++ q1 ++ q2)) by (intros H; apply (i_dom _ _ _ _ _ I) in H; auto).
      assert (Old : ext d (dist_set eqb d w (m + 1))) by (intros x k Dx; rewrite set_other; auto; intros ->; congruence).
      assert (I1 : inv m dn q1 (q2 ++ [w]) (dist_set eqb d w (m + 1))).
      { constructor.
        - intros x. rewrite !app_assoc, in_app_iff, <- app_assoc. destruct (set_cases w x) as [-> |N].
          + rewrite set_same. split; [intros _; right; now left|discriminate].
          + rewrite set_other, (i_dom _ _ _ _ _ I) by auto. split; [now left|]. intros [H|[H|[]]]; auto. congruence.
        - rewrite !app_assoc, <- (app_assoc dn). apply NoDup_Add with (a := w) (l := dn ++ q1 ++ q2).
          + rewrite <- (app_nil_r (dn ++ q1 ++ q2)) at 1. apply Add_app.
          + split; [exact (i_nd _ _ _ _ _ I)|exact Nw].
        - intros x k. destruct (set_cases w x) as [-> |N].
          + rewrite set_same. intros [= <-]. destruct (i_sound _ _ _ _ _ I _ _ Dv) as [Hm W]. split; [lia|]. replace (Z.to_nat (m + 1)) with (S (Z.to_nat m)) by lia.
            apply (walk_step adj _ s v w W). apply Sub. now left.
          + rewrite set_other by auto. apply (i_sound _ _ _ _ _ I).
        - intros x Ix. apply Old. now apply (i_q1 _ _ _ _ _ I).
        - intros x Ix. apply in_app_iff in Ix as [Ix|[<- |[]]]; [apply Old; now apply (i_q2 _ _ _ _ _ I)|apply set_same]. }
      destruct (IH Sub' _ _ _ I1 (Old _ _ Dv) R1) as (q2' & d' & st' & E & R' & I' & X & A). exists q2', d', st'. split; [exact E|]. split; [exact R'|]. split; [exact I'|].
      split; [intros x k Dx; apply X; now apply Old|]. intros x [<- |Ix]; [|now apply A]. exists (m + 1). split; [apply X; apply set_same|lia].
Qed.

(** Every edge from a vertex taken from the queue. *)
Definition edges (dn : list V) (d : @dist_map V) := forall x k, In x dn -> d x = Some k -> forall w, In w (adj x) -> exists j, d w = Some j /\ j <= k + 1.
Lemma shift m dn q2 d : inv m dn [] q2 d -> inv (m + 1) dn q2 [] d.
Proof using Type.
  clear Heq eqb. intros [A B C D E]. constructor.
  - intros x. rewrite app_nil_r. apply A.
  - rewrite app_nil_r. exact B.
  - intros x k H. apply C in H as [H W]. split; [lia|exact W].
  - exact E.
  - intros x [].
Qed.
Lemma loop_ok U fuel : (forall v n, walk adj n s v -> In v U) -> forall m dn q1 q2 d st, inv m dn q1 q2 d -> rel (q1 ++ q2) st -> edges dn d -> d s = Some 0 -> (length U <= length dn + fuel)%nat ->
  exists d' dn' m' st', bfs_loop zero eqb adj fuel d st = (Ok d', st') /\ inv m' dn' [] [] d' /\ edges dn' d' /\ d' s = Some 0.
Proof using Heq.
  intros HU. induction fuel as [|fuel IH]; intros m dn q1 q2 d st I R Ed Ds L.
  all: cbn [bfs_loop]; destruct (w_empty zero h0 _ _ R) as (st1 & E1 & R1); rewrite (bind_eq _ _ _ _ _ E1); clear E1 R st.
  all: destruct (q1 ++ q2) as [|v q] eqn:Q.
  1, 3: apply app_eq_nil in Q as [-> ->]; exists d, dn, m, st1; split; [reflexivity|]; auto.
  - exfalso. assert (Le : (length (dn ++ q1 ++ q2) <= length U)%nat).
    { apply NoDup_incl_length; [exact (i_nd _ _ _ _ _ I)|]. intros x Ix. apply (i_dom _ _ _ _ _ I) in Ix. destruct (d x) as [k|] eqn:Dx; [|congruence]. apply (i_sound _ _ _ _ _ I) in Dx as [_ W]. eapply HU; eauto. }
    rewrite Q, app_length in Le. cbn [length] in Le. lia.
  - replace (zlen (v :: q) =? 0) with false by (symmetry; apply Z.eqb_neq; unfold zlen; cbn [length]; lia).
    destruct (w_popfront zero h0 _ _ _ R1) as (st2 & E2 & R2). rewrite (bind_eq _ _ _ _ _ E2).
    assert (exists m1 r1 r2, inv m1 dn (v :: r1) r2 d /\ q = r1 ++ r2) as (m1 & r1 & r2 & I1 & ->).
    { destruct q1 as [|a q1]; cbn in Q.
      - subst q2. exists (m + 1), q, []. split; [now apply shift|now rewrite app_nil_r].
      - injection Q as -> <-. now exists m, q1, q2. }
    assert (Dv : d v = Some m1) by (apply (i_q1 _ _ _ _ _ I1); now left).
    assert (I2 : inv m1 (dn ++ [v]) r1 r2 d).
    { destruct I1 as [A B C D F]. constructor; auto.
      - intros x. rewrite <- app_assoc. apply A.
      - rewrite <- app_assoc. exact B.
      - intros x Ix. apply D. now right. }
    destruct (visit_ok m1 (dn ++ [v]) r1 v (adj v) (fun w H => H) r2 d st2 I2 Dv R2) as (q2' & d' & st' & E & R' & I' & X & A). rewrite (bind_eq _ _ _ _ _ E).
    apply (IH m1 (dn ++ [v]) r1 q2' d' st'); auto.
    + intros x k Ix Dx w Iw. apply in_app_iff in Ix as [Ix|[<- |[]]].
      * destruct (d x) as [k0|] eqn:Dx0; [|exfalso; apply (proj2 (i_dom _ _ _ _ _ I1 x)); [apply in_app_iff; now left|exact Dx0]].
        assert (k0 = k) by (apply X in Dx0; congruence). subst k0. destruct (Ed x k Ix Dx0 w Iw) as (j & Dj & Lj). exists j. auto.
      * apply X in Dv. assert (k = m1) by congruence. subst k. now apply A.
    + rewrite app_length. cbn [length]. lia.
Qed.
Lemma distances_ok U fuel : (forall v n, walk adj n s v -> In v U) -> (length U <= fuel)%nat ->
  exists d st, distances zero eqb adj fuel s (h0, NewDListQueue) = (Ok d, st) /\
    (forall v n, d v = Some n -> exists k, n = Z.of_nat k /\ shortest adj s v k) /\ (forall v k, walk adj k s v -> d v <> None).
Proof using Heq.
  intros HU L. unfold distances. destruct (w_pushback zero h0 s _ _ (QRel_init h0)) as (st1 & E1 & R1). rewrite (bind_eq _ _ _ _ _ E1).
  assert (I0 : inv 0 [] [s] [] (dist_set eqb (fun _ => None) s 0)).
  { constructor.
    - intros x. cbn. destruct (set_cases s x) as [-> |N]; [rewrite set_same; split; [now left|discriminate]|]. rewrite set_other by auto. split; [congruence|]. intros [H|[]]. congruence.
    - cbn. constructor; [intros []|constructor].
    - intros x k. destruct (set_cases s x) as [-> |N]; [rewrite set_same; intros [= <-]; split; [lia|constructor]|]. rewrite set_other by auto. discriminate.
    - intros x [<- |[]]. apply set_same.
    - intros x []. }
  destruct (loop_ok U fuel HU 0 [] [s] [] _ st1 I0 R1) as (d & dn & m & st & E & I & Ed & Ds); auto.
  { intros x k []. }
  { apply set_same. }
  exists d, st. split; [exact E|].
  assert (W : forall k v, walk adj k s v -> exists j, d v = Some j /\ j <= Z.of_nat k).
  { intros k v Hw. remember s as u eqn:Hu in Hw. induction Hw as [v|n u v w Hw IHw Iw]; subst.
    - exists 0. split; [exact Ds|lia].
    - destruct (IHw eq_refl) as (j & Dj & Lj). assert (In v dn). { assert (H : d v <> None) by congruence. apply (i_dom _ _ _ _ _ I) in H. now rewrite !app_nil_r in H. }
      destruct (Ed v j H Dj w Iw) as (j' & Dj' & Lj'). exists j'. split; [exact Dj'|lia]. }
  split.
  - intros v n Dn. destruct (i_sound _ _ _ _ _ I _ _ Dn) as [Hn Wn]. exists (Z.to_nat n). split; [lia|]. split; [exact Wn|]. intros k Wk. destruct (W k v Wk) as (j & Dj & Lj). assert (j = n) by congruence. lia.
  - intros v k Wk. destruct (W k v Wk) as (j & Dj & _). congruence.
Qed.
End Bfs.
