(** Distances with a priority queue. *)
From Verif Require Import Base BaseLemmas Spec Trace Proof_Mem Model_PriorityQueue Spec_Containers Proof_StackPQ Spec_Idioms Proof_Idioms Spec_Alloc Proof_Alloc Proof_Median Proof_TopK Model_Bfs Proof_Bfs Spec_Dijkstra Model_Dijkstra.

Lemma entry_sw {V} : strict_weak (@entry_less V).
Proof. unfold entry_less. constructor; intros *; rewrite ?Z.ltb_lt, ?Z.ltb_ge; lia. Qed.

Section Dijkstra.
Context {V : Type}.
Variables (zero : Z * V) (grow : Z -> Z -> Z) (eqb : V -> V -> bool) (adj : V -> list (V * Z)).
Hypothesis Heq : forall a b, eqb a b = true <-> a = b.
Hypothesis Hpos : forall v w c, In (w, c) (adj v) -> 0 <= c.
Variable s : V.
Notation rel := (pq_rel entry_less).
Notation dmap := (@dist_map V).

Lemma push_edges_ok n es : forall bag q, rel bag q -> zlen bag + zlen es <= max_int ->
  exists q' bag', push_edges zero grow n es q = (Ok tt, q') /\ rel bag' q' /\ Permutation bag' (map (fun e => (n + snd e, fst e)) es ++ bag).
Proof.
  induction es as [|[w c] es IH]; intros bag q R L; cbn [push_edges map app]; [exists q, bag; auto|].
  rewrite zlen_cons in L. pose proof (zlen_nonneg es). destruct (push_ok entry_less entry_sw zero grow bag q (n + c, w) R) as (q1 & bag1 & E1 & R1 & P1 & _); [lia|]. rewrite (bind_eq _ _ _ _ _ E1).
  pose proof (perm_zlen _ _ P1) as L1. rewrite zlen_cons in L1. destruct (IH bag1 q1 R1) as (q2 & bag2 & E2 & R2 & P2); [lia|]. exists q2, bag2. split; [exact E2|]. split; [exact R2|].
  rewrite P2, P1. cbn [fst snd]. apply Permutation_sym, Permutation_middle.
Qed.

(** The distance of w is known to be at most n, or (n, w) waits in the queue. *)
Definition cov (d : dmap) (B : list (Z * V)) (n : Z) (w : V) : Prop := (exists j, d w = Some j /\ j <= n) \/ In (n, w) B.
Record inv (d : dmap) (B : list (Z * V)) : Prop := {
  j_bag : forall n v, In (n, v) B -> 0 <= n /\ wwalk adj n s v;
  j_map : forall v n, d v = Some n -> 0 <= n /\ wwalk adj n s v;
  j_mono : forall v n k w, d v = Some n -> In (k, w) B -> n <= k;
  j_edges : forall x k w c, d x = Some k -> In (w, c) (adj x) -> cov d B (k + c) w;
  j_start : cov d B 0 s }.
Definition left (U : list V) (d : dmap) : nat := list_sum (map (fun u => match d u with None => length (adj u) | Some _ => O end) U).
Lemma left_set_le U d v n : (left U (dist_set eqb d v n) <= left U d)%nat.
Proof.
  induction U as [|u U IH]; [apply le_n|]. unfold left in *. cbn [map list_sum fold_right] in *. unfold list_sum in IH. apply Nat.add_le_mono; [|exact IH].
  unfold dist_set. destruct (eqb u v); [apply Nat.le_0_l|apply le_n].
Qed.
Lemma left_set U d v n : d v = None -> In v U -> (left U (dist_set eqb d v n) + length (adj v) <= left U d)%nat.
Proof.
  intros Dv. induction U as [|u U IH]; intros I; [destruct I|]. pose proof (left_set_le U d v n) as Le. unfold left in *. cbn [map list_sum fold_right] in *. unfold list_sum in *.
  destruct I as [-> |I].
  - rewrite (set_same eqb Heq), Dv. lia.
  - specialize (IH I). assert ((match dist_set eqb d v n u with Some _ => 0 | None => length (adj u) end <= match d u with Some _ => 0 | None => length (adj u) end)%nat) by (unfold dist_set; destruct (eqb u v); lia). lia.
Qed.
Lemma inv_old d B B1 n v j : inv d B -> Permutation ((n, v) :: B1) B -> d v = Some j -> inv d B1.
Proof.
  intros [A1 A2 A3 A4 A5] P Dv.
  assert (Sub : forall x, In x B1 -> In x B) by (intros x I; rewrite <- P; now right).
  assert (Cv : forall k w, cov d B k w -> cov d B1 k w).
  { intros k w [H|H]; [now left|]. rewrite <- P in H. destruct H as [H|H]; [|now right]. injection H as <- <-. left. exists j. split; [exact Dv|]. apply (A3 v j n v Dv). rewrite <- P. now left. }
  constructor; eauto.
Qed.
Lemma inv_new d B B1 B2 n v : inv d B -> Permutation ((n, v) :: B1) B -> (forall y, In y B -> entry_less y (n, v) = false) -> d v = None ->
  Permutation B2 (map (fun e => (n + snd e, fst e)) (adj v) ++ B1) -> inv (dist_set eqb d v n) B2.
Proof.
  intros [A1 A2 A3 A4 A5] P Mn Dv P2.
  assert (Iv : In (n, v) B) by (rewrite <- P; now left). destruct (A1 _ _ Iv) as [Hn Wn].
  assert (Min : forall k w, In (k, w) B -> n <= k) by (intros k w I; specialize (Mn _ I); unfold entry_less in Mn; cbn in Mn; apply Z.ltb_ge in Mn; exact Mn).
  assert (In2 : forall k w, In (k, w) B2 -> In (k, w) B \/ exists c, In (w, c) (adj v) /\ k = n + c).
  { intros k w I. rewrite P2 in I. apply in_app_iff in I as [I|I]; [|left; rewrite <- P; now right]. apply in_map_iff in I as ([w' c] & E & I). cbn in E. injection E as <- <-. right. eauto. }
  assert (Cv : forall k w, cov d B k w -> cov (dist_set eqb d v n) B2 k w).
  { intros k w [(j & Dj & Lj)|H].
    - left. exists j. split; [|exact Lj]. rewrite (set_other eqb Heq); auto. intros ->. congruence.
    - rewrite <- P in H. destruct H as [H|H]; [|right; rewrite P2; apply in_app_iff; now right]. injection H as <- <-. left. exists n. split; [apply (set_same eqb Heq)|lia]. }
  constructor.
  - intros k w I. apply In2 in I as [I|(c & I & ->)]; [now apply A1|]. specialize (Hpos _ _ _ I). split; [lia|]. now apply (wwalk_step adj n s v w c).
  - intros w k. destruct (set_cases eqb Heq v w) as [-> |N]; [rewrite (set_same eqb Heq); intros [= <-]; auto|]. rewrite (set_other eqb Heq) by auto. apply A2.
  - intros w k k' w' Dw I. assert (k <= n). { destruct (set_cases eqb Heq v w) as [-> |N]; [rewrite (set_same eqb Heq) in Dw; injection Dw as <-; lia|]. rewrite (set_other eqb Heq) in Dw by auto. exact (A3 _ _ _ _ Dw Iv). }
    apply In2 in I as [I|(c & I & ->)]; [apply Min in I; lia|]. specialize (Hpos _ _ _ I). lia.
  - intros x k w c Dx I. destruct (set_cases eqb Heq v x) as [-> |N].
    + rewrite (set_same eqb Heq) in Dx. injection Dx as <-. right. rewrite P2. apply in_app_iff. left. apply in_map_iff. exists (w, c). auto.
    + rewrite (set_other eqb Heq) in Dx by auto. apply Cv. eauto.
  - apply Cv, A5.
Qed.
Lemma dloop_ok U fuel : (forall v n, wwalk adj n s v -> In v U) -> forall d B q, inv d B -> rel B q -> (length B + left U d <= fuel)%nat -> zlen B + Z.of_nat (left U d) <= max_int ->
  exists d' q', dijkstra_loop zero grow eqb adj fuel d q = (Ok d', q') /\ inv d' [].
Proof.
  intros HU. induction fuel as [|fuel IH]; intros d B q I R L M; cbn [dijkstra_loop]; destruct (len_ok _ _ _ R) as [_ EE]; rewrite (bind_eq _ _ _ _ _ EE).
  all: destruct B as [|b B']; [exists d, q; split; [reflexivity|exact I]|].
  - cbn [length] in L. lia.
  - remember (b :: B') as B eqn:EB. assert (NE : B <> []) by (subst B; discriminate).
    replace (zlen B =? 0) with false by (subst B; rewrite zlen_cons; pose proof (zlen_nonneg B'); lia). clear EB b B'.
    destruct (pop_ok entry_less entry_sw zero grow B q R) as (q1 & B1 & [n v] & E1 & R1 & [_ Mn] & P1 & _); [lia|exact NE|]. rewrite (bind_eq _ _ _ _ _ E1). cbn [fst snd].
    pose proof (perm_zlen _ _ P1) as L1. rewrite zlen_cons in L1. pose proof (Permutation_length P1) as N1. cbn [length] in N1.
    destruct (d v) as [j|] eqn:Dv.
    + apply (IH d B1 q1); [exact (inv_old d B B1 n v j I P1 Dv)|exact R1|lia|lia].
    + assert (Iv : In v U). { destruct (j_bag _ _ I n v) as [_ W]; [rewrite <- P1; now left|]. exact (HU _ _ W). }
      pose proof (left_set U d v n Dv Iv) as LS.
      destruct (push_edges_ok n (adj v) B1 q1 R1) as (q2 & B2 & E2 & R2 & P2); [unfold zlen in *; lia|]. rewrite (bind_eq _ _ _ _ _ E2).
      pose proof (Permutation_length P2) as N2. rewrite app_length, map_length in N2.
      apply (IH _ B2 q2); [exact (inv_new d B B1 B2 n v I P1 Mn Dv P2)|exact R2|lia|unfold zlen in *; lia].
Qed.
Lemma dijkstra_ok U fuel q : new_queue entry_less q -> (forall v n, wwalk adj n s v -> In v U) -> (1 + edges_from adj U <= fuel)%nat -> 1 + Z.of_nat (edges_from adj U) <= max_int ->
  exists d q', dijkstra zero grow eqb adj fuel s q = (Ok d, q') /\ (forall v n, d v = Some n -> distance adj s v n) /\ (forall v n, wwalk adj n s v -> d v <> None).
Proof.
  intros N HU L M. unfold dijkstra. destruct (push_ok entry_less entry_sw zero grow [] q (0, s) (new_rel entry_less grow q N)) as (q1 & B & E1 & R1 & P1 & _); [change (zlen (@nil (Z * V))) with 0; lia|]. rewrite (bind_eq _ _ _ _ _ E1).
  assert (I0 : inv (fun _ => None) B).
  { assert (HB : forall x, In x B -> x = (0, s)) by (intros x I; rewrite P1 in I; destruct I as [<- |[]]; reflexivity).
    constructor; try discriminate.
    - intros n v I. apply HB in I. injection I as -> ->. split; [lia|constructor].
    - right. rewrite P1. now left. }
  assert (LB : length B = 1%nat) by (rewrite (Permutation_length P1); reflexivity).
  assert (LU : left U (fun _ => None) = edges_from adj U) by reflexivity.
  destruct (dloop_ok U fuel HU (fun _ => None) B q1 I0 R1) as (d & q' & E & [A1 A2 A3 A4 A5]); [lia|unfold zlen; lia|].
  exists d, q'. split; [exact E|].
  assert (W : forall k v, wwalk adj k s v -> exists j, d v = Some j /\ j <= k).
  { intros k v Hw. remember s as u eqn:Hu in Hw. induction Hw as [v|n u v w c Hw IHw Iw]; subst.
    - destruct A5 as [H|[]]. exact H.
    - destruct (IHw eq_refl) as (j & Dj & Lj). destruct (A4 v j w c Dj Iw) as [(j' & Dj' & Lj')|[]]. exists j'. split; [exact Dj'|lia]. }
  split.
  - intros v n Dn. split; [exact (proj2 (A2 _ _ Dn))|]. intros k Wk. destruct (W k v Wk) as (j & Dj & Lj). assert (j = n) by congruence. lia.
  - intros v n Wn. destruct (W n v Wn) as (j & Dj & _). congruence.
Qed.
End Dijkstra.
