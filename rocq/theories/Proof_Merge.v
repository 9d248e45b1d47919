From Verif Require Import BaseLemmas Spec Trace Proof_Mem Model_PriorityQueue Spec_Containers Proof_StackPQ Spec_Idioms Proof_Idioms Spec_Alloc Proof_Alloc Proof_TopK Spec_Sort Spec_Merge Model_Merge.

Section Streams.
Context {T : Type}.
(** The streams of lists. *)
Definition one (i : Z) (l : list T) : list (stream T) := match l with [] => [] | x :: t => [Stream x i t] end.
Fixpoint streams (i : Z) (ls : list (list T)) : list (stream T) :=
  match ls with [] => [] | l :: r => one i l ++ streams (i + 1) r end.
Lemma streams_app l r : forall i, streams i (l ++ r) = streams i l ++ streams (i + zlen l) r.
Proof.
  induction l as [|a l IH]; intros i; cbn [app streams].
  - change (zlen (@nil (list T))) with 0. now rewrite Z.add_0_r.
  - rewrite IH, <- app_assoc, zlen_cons. do 2 f_equal. f_equal. lia.
Qed.
Lemma streams_in s ls : forall i, In s (streams i ls) -> exists l r, ls = l ++ (st_head s :: st_rest s) :: r /\ st_num s = i + zlen l.
Proof.
  induction ls as [|a ls IH]; intros i I; [destruct I|]. cbn [streams] in I. apply in_app_iff in I as [I|I].
  - destruct a as [|x t]; [destruct I|]. destruct I as [<-|[]]. exists [], ls. split; [reflexivity|]. cbn [st_num]. change (zlen (@nil (list T))) with 0. lia.
  - destruct (IH _ I) as (l & r & -> & E). exists (a :: l), r. split; [reflexivity|]. rewrite zlen_cons. lia.
Qed.
Lemma streams_len ls : forall i, zlen (streams i ls) <= zlen ls.
Proof.
  induction ls as [|a ls IH]; intros i; cbn [streams]; [unfold zlen; cbn; lia|]. rewrite zlen_app, zlen_cons. specialize (IH (i + 1)). destruct a; [change (zlen (one i [])) with 0|change (zlen (one i (t :: a))) with 1]; lia.
Qed.

End Streams.

Section MergeProof.
Context {T : Type}.
Variable before : Z * T -> Z * T -> bool.
Hypothesis SW : strict_weak before.
Variable zero : stream T.
Variable grow : Z -> Z -> Z.
Notation less := (stream_less before).

Lemma less_sw : strict_weak less.
Proof.
  unfold stream_less. constructor; intros *; [apply (sw_irrefl _ SW)|apply (sw_trans _ SW)|apply (sw_negtrans _ SW)].
Qed.

Lemma push_streams_ok ls : forall i bag q, pq_rel less bag q -> zlen bag + zlen ls <= max_int ->
  exists q' bag', push_streams zero grow i ls q = (Ok tt, q') /\ pq_rel less bag' q' /\ Permutation bag' (streams i ls ++ bag) /\ lean grow (zlen bag + zlen (streams i ls)) q q'.
Proof.
  induction ls as [|a ls IH]; intros i bag q R L; cbn [push_streams streams]; [exists q, bag; split; [reflexivity|]; split; [exact R|]; split; [reflexivity|apply (lean_refl less zero)]|].
  rewrite zlen_cons in L. pose proof (zlen_nonneg ls). destruct a as [|x t].
  - apply (IH (i + 1)); [exact R|lia].
  - destruct (push_ok less less_sw zero grow bag q (Stream x i t) R) as (q1 & bag1 & E1 & R1 & P1 & Le1); [lia|]. unfold bind. rewrite E1.
    pose proof (perm_zlen _ _ P1) as L1. rewrite zlen_cons in L1. destruct (IH (i + 1) bag1 q1 R1) as (q2 & bag2 & E2 & R2 & P2 & Le2); [lia|].
    exists q2, bag2. split; [exact E2|]. split; [exact R2|]. cbn [one]. split.
    + rewrite P2, P1. cbn [app]. apply Permutation_sym, Permutation_middle.
    + rewrite zlen_app. change (zlen [Stream x i t]) with 1. pose proof (zlen_nonneg (streams (i + 1) ls)). eapply (lean_trans less zero); [eapply (lean_more less zero); [|exact Le1]; lia|]. eapply (lean_more less zero); [|exact Le2]. lia.
Qed.

Lemma merge_loop_ok most n : most <= max_int -> forall ls bag q out, pq_rel less bag q -> Permutation bag (streams 0 ls) -> zlen bag <= most -> length (concat ls) = n ->
  exists o q', merge_loop zero grow n out q = (Ok (out ++ map snd o), q') /\ picked before ls o /\ pq_rel less [] q' /\ lean grow most q q'.
Proof.
  intros MI. induction n as [|n IH]; intros ls bag q out R P L En; cbn [merge_loop]; destruct (len_ok _ _ _ R) as [_ EE]; unfold bind at 1; rewrite EE.
  - assert (bag = []) as ->.
    { destruct bag as [|s bag]; [reflexivity|]. assert (I : In s (streams 0 ls)) by (rewrite <- P; now left). destruct (streams_in s ls 0 I) as (l & r & -> & _).
      rewrite concat_app, app_length in En. cbn in En. lia. }
    exists [], q. split; [now rewrite app_nil_r|]. split; [|split; [exact R|apply (lean_refl less zero)]]. constructor. intros l I. destruct l as [|x t]; [reflexivity|]. apply in_split in I as (l1 & l2 & ->). rewrite concat_app, app_length in En. cbn in En. lia.
  - assert (NE : bag <> []).
    { intros ->. apply Permutation_nil in P. assert (A : concat ls = []); [|now rewrite A in En]. clear -P. revert P. generalize 0. induction ls as [|l ls IH]; intros i P; [reflexivity|]. cbn [streams] in P. destruct l; [|discriminate]. apply (IH (i + 1)), P. }
    destruct (pop_ok less less_sw zero grow bag q R) as (q1 & bag1 & s & E1 & R1 & [I Mn] & P1 & Le1); [lia|exact NE|].
    replace (zlen bag =? 0) with false by (destruct bag; [contradiction|rewrite zlen_cons; pose proof (zlen_nonneg bag); lia]). unfold bind at 1. rewrite E1.
    assert (Is : In s (streams 0 ls)) by (now rewrite <- P). destruct (streams_in s ls 0 Is) as (l & r & El & Num). rewrite Z.add_0_l in Num.
    assert (Ps : Permutation bag1 (streams 0 l ++ streams (zlen l + 1) r)).
    { apply Permutation_cons_inv with (a := s). rewrite P1, P, El, streams_app. cbn [streams one]. rewrite Z.add_0_l, <- Num. destruct s as [h i t]. cbn [st_head st_num st_rest one app]. apply Permutation_sym, Permutation_middle. }
    assert (Pk : forall l' y u r', l ++ (st_head s :: st_rest s) :: r = l' ++ (y :: u) :: r' -> before (zlen l', y) (zlen l, st_head s) = false).
    { intros l' y u r' Q. rewrite <- Num. change (before (zlen l', y) (st_num s, st_head s)) with (less (Stream y (zlen l') u) s). apply Mn. rewrite P, El, Q, streams_app. apply in_app_iff. right. cbn [streams one]. now left. }
    pose proof (perm_zlen _ _ P1) as L1. rewrite zlen_cons in L1.
    assert (Nx : exists q2 bag2, (match st_rest s with [] => ret tt | x :: t => PQ_Push zero grow (Stream x (st_num s) t) end) q1 = (Ok tt, q2) /\ pq_rel less bag2 q2 /\ Permutation bag2 (streams 0 (l ++ st_rest s :: r)) /\ zlen bag2 <= most /\ lean grow most q1 q2).
    { rewrite streams_app. cbn [streams]. rewrite Z.add_0_l. destruct (st_rest s) as [|x t].
      - exists q1, bag1. split; [reflexivity|]. split; [exact R1|]. cbn [one app]. split; [exact Ps|]. split; [lia|apply (lean_refl less zero)].
      - destruct (push_ok less less_sw zero grow bag1 q1 (Stream x (st_num s) t) R1) as (q2 & bag2 & E2 & R2 & P2 & Le2); [lia|]. exists q2, bag2. split; [exact E2|]. split; [exact R2|]. pose proof (perm_zlen _ _ P2) as L2. rewrite zlen_cons in L2.
        split; [rewrite P2, Ps, Num; cbn [one app]; apply Permutation_middle|]. split; [lia|eapply (lean_more less zero); [|exact Le2]; lia]. }
    destruct Nx as (q2 & bag2 & E2 & R2 & P2 & L2 & Le2). unfold bind at 1. rewrite E2.
    destruct (IH (l ++ st_rest s :: r) bag2 q2 (out ++ [st_head s]) R2 P2 L2) as (o & q3 & E3 & K & R3 & Le3).
    { rewrite El in En. rewrite concat_app, app_length in *. cbn in En. cbn. lia. }
    exists ((zlen l, st_head s) :: o), q3. split; [rewrite E3, <- app_assoc; reflexivity|]. split; [rewrite El; now constructor|]. split; [exact R3|].
    eapply (lean_trans less zero); [eapply (lean_more less zero); [|exact Le1]; lia|]. eapply (lean_trans less zero); eauto.
Qed.

Lemma merge_ok ls q : new_queue less q -> zlen ls <= max_int ->
  exists o q', merge zero grow (length (concat ls)) ls q = (Ok (map snd o), q') /\ picked before ls o /\ pq_rel less [] q' /\ lean grow (zlen ls) q q'.
Proof.
  intros N L. destruct (push_streams_ok ls 0 [] q (new_rel less grow q N)) as (q1 & bag & E1 & R1 & P1 & Le1); [change (zlen (@nil (stream T))) with 0; lia|]. rewrite app_nil_r in P1. change (zlen (@nil (stream T))) with 0 in Le1.
  pose proof (streams_len ls 0) as SL. pose proof (perm_zlen _ _ P1) as PL.
  destruct (merge_loop_ok (zlen ls) (length (concat ls)) L ls bag q1 [] R1 P1 ltac:(lia) eq_refl) as (o & q' & E & K & R & Le).
  exists o, q'. split; [unfold merge, bind; rewrite E1; exact E|]. split; [exact K|]. split; [exact R|]. eapply (lean_trans less zero); [eapply (lean_more less zero); [|exact Le1]; lia|exact Le].
Qed.
End MergeProof.

Section Picked.
Context {T : Type}.
Variable before : Z * T -> Z * T -> bool.
Lemma picked_perm ls o : picked before ls o -> Permutation (map snd o) (concat ls).
Proof.
  induction 1 as [ls E|l x t r o M K IH].
  - assert (concat ls = []) as ->; [|constructor]. induction ls as [|a ls IH]; [reflexivity|]. cbn. rewrite (E a) by now left. apply IH. intros. apply E. now right.
  - cbn [map snd]. rewrite IH, !concat_app. cbn [concat app]. apply Permutation_middle.
Qed.
Lemma picked_from ls o : picked before ls o -> forall i, from_list i o = match zget ls i with Some l => l | None => [] end.
Proof.
  induction 1 as [ls E|l x t r o M K IH]; intros i.
  - cbn. destruct (zget ls i) as [a|] eqn:G; [|reflexivity]. symmetry. apply E. eapply i_In; eauto.
  - unfold from_list. cbn [filter fst]. destruct (Z.eqb_spec (zlen l) i) as [<-|Ne].
    + cbn [map snd]. fold (from_list (zlen l) o). rewrite IH. rewrite !zget_app_r, !Z.sub_diag by lia. reflexivity.
    + fold (from_list i o). rewrite IH. destruct (Z_lt_le_dec i (zlen l)); [rewrite !zget_app_l by lia; reflexivity|]. rewrite !zget_app_r by lia. change (t :: r) with ([t] ++ r). change ((x :: t) :: r) with ([x :: t] ++ r). rewrite !zget_app_r; [reflexivity|change (zlen [x :: t]) with 1; lia|change (zlen [t]) with 1; lia].
Qed.
End Picked.

Section Order.
Context {T : Type}.
Variable less : T -> T -> bool.
Hypothesis SW : strict_weak less.
Lemma element_sw : strict_weak (by_element less).
Proof. unfold by_element. constructor; intros *; [apply (sw_irrefl _ SW)|apply (sw_trans _ SW)|apply (sw_negtrans _ SW)]. Qed.
Lemma both_sw : strict_weak (by_element_and_list less).
Proof.
  unfold by_element_and_list. constructor.
  - intros [i x]. cbn. rewrite (sw_irrefl _ SW). cbn. lia.
  - intros [i x] [j y] [k z]. cbn. rewrite !orb_true_iff, !andb_true_iff, !negb_true_iff. intros [A|[A1 A2]] [B|[B1 B2]].
    + left. eapply (sw_trans _ SW); eauto.
    + left. destruct (less x z) eqn:E; auto. pose proof (sw_negtrans _ SW x z y E B1). congruence.
    + left. destruct (less x z) eqn:E; auto. pose proof (sw_negtrans _ SW y x z A1 E). congruence.
    + right. split; [apply (sw_negtrans _ SW z y x); auto|lia].
  - intros [i x] [j y] [k z]. cbn. rewrite !orb_false_iff, !andb_false_iff, !negb_false_iff. intros [A1 A2] [B1 B2]. split; [apply (sw_negtrans _ SW x y z); auto|].
    destruct A2 as [A2|A2].
    + left. destruct (less z x) eqn:E; auto. pose proof (sw_negtrans _ SW y z x B1 E). congruence.
    + destruct B2 as [B2|B2]; [|right; lia]. left. destruct (less z x) eqn:E; auto. pose proof (sw_negtrans _ SW z x y E A1). congruence.
Qed.
(** If each list is sorted, so is what is picked. *)
Lemma picked_sorted before ls o : (forall p q, before p q = false -> less (snd p) (snd q) = false) -> picked before ls o -> (forall l, In l ls -> sorted_by less l) -> sorted_by less (map snd o).
Proof.
  intros B. induction 1 as [ls E|l x t r o M K IH]; intros S; [apply i_nil|]. cbn [map snd]. apply i_cons.
  - apply IH. intros a I. apply in_app_iff in I as [I|[<-|I]].
    + apply S, in_app_iff. now left.
    + eapply i_tail. apply (S (x :: t)). apply in_elt.
    + apply S, in_app_iff. right. now right.
  - intros y I. rewrite (picked_perm before _ _ K) in I. apply in_concat in I as (a & Ia & Iy).
    assert (A : exists a', In a' (l ++ (x :: t) :: r) /\ In y a').
    { apply in_app_iff in Ia as [Ia|[<-|Ia]]; [exists a|exists (x :: t)|exists a]; (split; [apply in_app_iff; auto with datatypes|auto with datatypes]). }
    clear a Ia Iy. destruct A as (a & Ia & Iy). pose proof (S a Ia) as Sa. apply in_split in Ia as (l' & r' & E). destruct a as [|h u]; [destruct Iy|].
    specialize (M l' h u r' E). apply B in M. cbn in M. destruct Iy as [->|Iy]; [exact M|]. apply (sw_negtrans _ SW y h x); [exact (i_head _ _ _ Sa y Iy)|exact M].
Qed.
(** With list numbers deciding between equivalent elements, equivalent elements stay in order. *)
Lemma picked_stable ls o : picked (by_element_and_list less) ls o -> (forall l, In l ls -> sorted_by less l) -> keeps_order less (concat ls) (map snd o).
Proof.
  intros K S x0. set (E := fun y => negb (less x0 y) && negb (less y x0)). cbn zeta. induction K as [ls En|l x t r o M K IH].
  - cbn. symmetry. assert (concat ls = []) as ->; [|reflexivity]. induction ls as [|a ls IH]; [reflexivity|]. cbn. rewrite (En a) by now left. apply IH; intros; [apply En|apply S]; now right.
  - cbn [map snd filter]. rewrite IH.
    2:{ intros a I. apply in_app_iff in I as [I|[<-|I]]; [apply S, in_app_iff; now left|eapply i_tail; apply (S (x :: t)); apply in_elt|apply S, in_app_iff; right; now right]. }
    rewrite !concat_app, !filter_app. cbn [concat app filter]. destruct (E x) eqn:Ex; [|reflexivity].
    assert (filter E (concat l) = []) as ->; [|reflexivity]. destruct (filter E (concat l)) as [|y ys] eqn:F; [reflexivity|exfalso].
    assert (I : In y (filter E (concat l))) by (rewrite F; now left). apply filter_In in I as [I Ey]. apply in_concat in I as (a & Ia & Iy).
    assert (Sa : sorted_by less a) by (apply S, in_app_iff; now left). apply in_split in Ia as (l' & r' & ->). destruct a as [|h u]; [destruct Iy|].
    specialize (M l' h u (r' ++ (x :: t) :: r) ltac:(now rewrite <- app_assoc)). unfold by_element_and_list in M. cbn [fst snd] in M. apply orb_false_iff in M as [M1 M2].
    assert (LT : zlen l' <? zlen (l' ++ (h :: u) :: r') = true) by (rewrite zlen_app, zlen_cons; pose proof (zlen_nonneg r'); lia). rewrite LT, andb_true_r in M2. apply negb_false_iff in M2.
    assert (Hy : less y h = false) by (destruct Iy as [->|Iy]; [apply (sw_irrefl _ SW)|exact (i_head _ _ _ Sa y Iy)]).
    unfold E in Ex, Ey. apply andb_true_iff in Ex as [X1 X2], Ey as [Y1 Y2]. apply negb_true_iff in X1, X2, Y1, Y2.
    (* x <= x0 <= .. y >= h > x and y ~ x0 ~ x *)
    pose proof (sw_negtrans _ SW x x0 y X2 Y1) as Q. pose proof (sw_negtrans _ SW x y h Q Hy). congruence.
Qed.
End Order.
