From Verif Require Import BaseLemmas Spec Trace Proof_Mem Model_PriorityQueue Spec_Containers Proof_StackPQ Model_TopK Spec_TopK Spec_Idioms Proof_Idioms Spec_Alloc Proof_Alloc.

Section TopKProof.
Context {T : Type}.
Variable less : T -> T -> bool.
Hypothesis SW : strict_weak less.
Variable zero : T.
Variable grow : Z -> Z -> Z.
Notation pq_rel := (pq_rel less).


(** Storage: what a queue may allocate when it never needs room for more than [most]
    elements. *)
Definition lean (most : Z) (q q' : PriorityQueue T) : Prop :=
  forall g b, 0 <= g -> 1 <= b -> grows g grow -> not_more b grow ->
  slots (fst (pq_heap q')) - (g + 1) * s_cap (snd (pq_heap q')) <= slots (fst (pq_heap q)) - (g + 1) * s_cap (snd (pq_heap q)) /\
  s_cap (snd (pq_heap q')) <= Z.max (s_cap (snd (pq_heap q))) (b * most).
Lemma lean_refl most q : lean most q q.
Proof. clear SW. intros g b _ _ _ _. lia. Qed.
Lemma lean_trans most q q1 q2 : lean most q q1 -> lean most q1 q2 -> lean most q q2.
Proof. clear SW. intros A B g b Hg Hb G N. specialize (A g b Hg Hb G N). specialize (B g b Hg Hb G N). lia. Qed.
Lemma lean_more a b q q' : a <= b -> lean a q q' -> lean b q q'.
Proof. clear SW. intros L A g c Hg Hb G N. specialize (A g c Hg Hb G N). nia. Qed.
Lemma step_lean most o q : wf_slice (fst (pq_heap q)) (snd (pq_heap q)) -> s_len (snd (pq_heap q)) + queued o <= most -> lean most q (snd (pq_step zero grow o q)).
Proof.
  clear SW. intros W L g b Hg Hb G N. destruct (pq_took zero grow o q W) as [(_ & _ & C) _]. pose proof W as (A1 & A2 & A3 & A4).
  destruct C as [(_ & -> & ->)|(_ & -> & need & C1 & C2)]; [lia|].
  set (c := s_cap (snd (pq_heap q))) in *. assert (0 <= c < need) by lia. specialize (G c need H). specialize (N c need H). rewrite <- C2 in G.
  split; [nia|]. rewrite C2. apply Z.max_le_iff. right. nia.
Qed.
Lemma rel_wf bag q : pq_rel bag q -> wf_slice (fst (pq_heap q)) (snd (pq_heap q)) /\ s_len (snd (pq_heap q)) = zlen bag.
Proof. clear SW. destruct q as [[m h] im]. intros (W & _ & P & _). split; auto. cbn [pq_heap snd]. now rewrite <- (perm_zlen _ _ P), (zlen_contents m h W). Qed.

Lemma push_ok bag q v : pq_rel bag q -> zlen bag <= max_int ->
  exists q' bag', PQ_Push zero grow v q = (Ok tt, q') /\ pq_rel bag' q' /\ Permutation bag' (v :: bag) /\ lean (zlen bag + 1) q q'.
Proof.
  intros R L. destruct (rel_wf _ _ R) as [W LN]. pose proof (step_lean (zlen bag + 1) (PPush v) q W ltac:(cbn [queued]; lia)) as Le. destruct (pq_step_ok less SW zero grow bag q (PPush v) R L) as (bag' & S & R'). cbn in S. unfold pq_step, observe in *.
  destruct (PQ_Push zero grow v q) as [[[]| |] q']; cbn in *; destruct S as [S P]; try discriminate. exists q', bag'. auto 10.
Qed.
Lemma pop_ok bag q : pq_rel bag q -> zlen bag <= max_int -> bag <> [] ->
  exists q' bag' x, PQ_Pop q = (Ok x, q') /\ pq_rel bag' q' /\ is_min less x bag /\ Permutation (x :: bag') bag /\ lean (zlen bag) q q'.
Proof.
  intros R L N. destruct (rel_wf _ _ R) as [W LN]. pose proof (step_lean (zlen bag) PPop q W ltac:(cbn [queued]; lia)) as Le. destruct (pq_step_ok less SW zero grow bag q PPop R L) as (bag' & S & R'). cbn in S. unfold pq_step, observe in *.
  destruct S as [(E & _)|(x & E & Mn & P)]; [contradiction|]. destruct (PQ_Pop q) as [[y| |] q']; cbn in *; try discriminate.
  injection E as ->. exists q', bag', x. auto 10.
Qed.
Lemma len_ok bag q : pq_rel bag q -> PQ_Len q = (Ok (zlen bag), q) /\ PQ_IsEmpty q = (Ok (zlen bag =? 0), q).
Proof.
  destruct q as [[m h] im]. intros (W & _ & P & _). rewrite <- (perm_zlen _ _ P), (zlen_contents m h W). split; reflexivity.
Qed.

Definition kept (k : Z) (seen bag : list T) : Prop := greatest less k seen bag.

Lemma kept_push k v seen bag bag1 : kept k seen bag -> Permutation bag1 (v :: bag) -> zlen bag1 <= k -> kept k (seen ++ [v]) bag1.
Proof.
  intros (L & rest & P & G) P1 K. pose proof (perm_zlen _ _ P1) as L1. rewrite zlen_cons in L1.
  pose proof (perm_zlen _ _ P) as L2. rewrite zlen_app in L2. pose proof (zlen_nonneg bag). pose proof (zlen_nonneg rest).
  assert (rest = []) as -> by (destruct rest; auto; rewrite zlen_cons in *; pose proof (zlen_nonneg rest); lia).
  split; [rewrite zlen_app; change (zlen [v]) with 1; change (zlen (@nil T)) with 0 in *; lia|].
  exists []. split; [|intros x y _ []]. rewrite app_nil_r in *. rewrite P1, P. apply Permutation_cons_append.
Qed.
Lemma kept_pop k v seen bag bag1 x bag2 : kept k seen bag -> Permutation bag1 (v :: bag) -> k < zlen bag1 ->
  is_min less x bag1 -> Permutation (x :: bag2) bag1 -> kept k (seen ++ [v]) bag2.
Proof.
  intros (L & rest & P & G) P1 K [I Mn] P2. pose proof (perm_zlen _ _ P1) as L1. rewrite zlen_cons in L1.
  pose proof (perm_zlen _ _ P) as L2. rewrite zlen_app in L2. pose proof (perm_zlen _ _ P2) as L3. rewrite zlen_cons in L3.
  pose proof (zlen_nonneg bag). pose proof (zlen_nonneg rest). pose proof (zlen_nonneg bag2).
  split; [rewrite zlen_app; change (zlen [v]) with 1; lia|].
  exists (x :: rest). split.
  - rewrite <- Permutation_middle. change (x :: bag2 ++ rest) with ((x :: bag2) ++ rest). rewrite P2, P1. cbn [app]. rewrite P. apply Permutation_cons_append.
  - intros a y Ia [<- |Iy].
    + apply Mn. rewrite <- P2. now right.
    + assert (Ia' : In a (v :: bag)) by (rewrite <- P1, <- P2; now right).
      destruct Ia' as [<- |Ia']; [|auto].
      assert (Ix : In x (v :: bag)) by (now rewrite <- P1).
      destruct Ix as [<- |Ix].
      * apply G; auto. assert (E : Permutation (v :: bag2) (v :: bag)) by (now rewrite P2). apply Permutation_cons_inv in E. now rewrite <- E.
      * apply (sw_negtrans _ SW v x y); [|auto]. apply Mn. rewrite P1. now left.
Qed.

Lemma top_k_ok k vs : k < max_int -> forall seen bag q, pq_rel bag q -> kept k seen bag ->
  exists q' bag', top_k zero grow k vs q = (Ok tt, q') /\ pq_rel bag' q' /\ kept k (seen ++ vs) bag' /\ lean (Z.max 0 k + 1) q q'.
Proof.
  intros K. assert (MI : 0 < max_int) by reflexivity.
  induction vs as [|v vs IH]; intros seen bag q R G; cbn [top_k].
  - exists q, bag. rewrite app_nil_r. auto using lean_refl.
  - pose proof (zlen_nonneg seen). pose proof G as (L & _).
    destruct (push_ok bag q v R) as (q1 & bag1 & E1 & R1 & P1 & Le1); [lia|].
    pose proof (perm_zlen _ _ P1) as L1. rewrite zlen_cons in L1. destruct (len_ok _ _ R1) as [EL _]. pose proof (zlen_nonneg bag).
    unfold bind at 1. rewrite E1. unfold bind at 1. rewrite EL.
    replace (seen ++ v :: vs) with ((seen ++ [v]) ++ vs) by (now rewrite <- app_assoc).
    destruct (Z.gtb_spec (zlen bag1) k) as [C|C].
    + destruct (pop_ok bag1 q1 R1) as (q2 & bag2 & x & E2 & R2 & Mn & P2 & Le2); [lia|intros ->; change (zlen (@nil T)) with 0 in *; lia|].
      unfold bind, ret. rewrite E2. destruct (IH (seen ++ [v]) bag2 q2 R2) as (q3 & bag3 & E3 & R3 & K3 & Le3); [eapply kept_pop; eauto|].
      exists q3, bag3. split; [exact E3|]. split; [exact R3|]. split; [exact K3|]. eapply lean_trans; [eapply lean_more; [|exact Le1]; lia|]. eapply lean_trans; [eapply lean_more; [|exact Le2]; lia|exact Le3].
    + unfold bind, ret. destruct (IH (seen ++ [v]) bag1 q1 R1) as (q3 & bag3 & E3 & R3 & K3 & Le3); [eapply kept_push; eauto|].
      exists q3, bag3. split; [exact E3|]. split; [exact R3|]. split; [exact K3|]. eapply lean_trans; [eapply lean_more; [|exact Le1]; lia|exact Le3].
Qed.

Lemma sorted_snoc l x : sorted_by less l -> (forall y, In y l -> less x y = false) -> sorted_by less (l ++ [x]).
Proof.
  clear SW. intros S A i j a b H Hi Hj. pose proof (zget_Some_range _ _ _ Hj) as J. rewrite zlen_app in J. change (zlen [x]) with 1 in J.
  rewrite zget_app_l in Hi by lia. destruct (Z.eq_dec j (zlen l)) as [-> |N].
  - rewrite zget_app_r in Hj by lia. rewrite Z.sub_diag in Hj. injection Hj as <-. apply A. eapply in_zget; eauto. 
  - rewrite zget_app_l in Hj by lia. exact (S i j a b H Hi Hj).
Qed.
Lemma drain_ok n : forall bag q out, pq_rel bag q -> zlen bag <= max_int -> length bag = n -> sorted_by less out ->
  (forall x y, In x out -> In y bag -> less y x = false) ->
  exists r q', drain n out q = (Ok (out ++ r), q') /\ Permutation r bag /\ sorted_by less (out ++ r) /\ pq_rel [] q'.
Proof.
  induction n as [|n IH]; intros bag q out R L En S A; cbn [drain]; destruct (len_ok _ _ R) as [_ EE]; unfold bind at 1; rewrite EE.
  - destruct bag; [|discriminate]. exists [], q. rewrite app_nil_r. cbn. auto.
  - destruct (pop_ok bag q R L) as (q' & bag' & x & E & R' & [I Mn] & P & _); [intros ->; discriminate|].
    replace (zlen bag =? 0) with false by (unfold zlen; lia). unfold bind at 1. rewrite E.
    pose proof (perm_zlen _ _ P) as L'. rewrite zlen_cons in L'. pose proof (Permutation_length P) as N. cbn in N.
    destruct (IH bag' q' (out ++ [x]) R') as (r & q2 & E2 & P2 & S2 & R2); [lia|lia|apply sorted_snoc; auto| |].
    + intros a y Ia Iy. assert (Iy' : In y bag) by (rewrite <- P; now right). apply in_app_iff in Ia as [Ia|[<- |[]]]; auto.
    + exists (x :: r), q2. rewrite <- app_assoc in E2, S2. cbn [app] in E2, S2. repeat split; auto. now rewrite P2.
Qed.

Definition new_queue (q : PriorityQueue T) : Prop := exists m, (0 < length m)%nat /\ (q = NewPriorityQueue less m \/ q = NewPriorityQueueFunc less m).
Lemma new_rel q : new_queue q -> pq_rel [] q.
Proof.
  clear SW. intros (m & H & [-> | ->]); (split; [now apply wf_nil|]); (split; [now apply empty_heap|]); split; auto.
Qed.

Lemma top_k_run k vs q : k < max_int -> new_queue q ->
  exists q' r q'', top_k zero grow k vs q = (Ok tt, q') /\ PQ_Len q' = (Ok (zlen r), q') /\
    drain (length r) [] q' = (Ok r, q'') /\ greatest less k vs r /\ sorted_by less r /\ PQ_Len q'' = (Ok 0, q'') /\ lean (Z.max 0 k + 1) q q'.
Proof.
  intros K N. destruct (top_k_ok k vs K [] [] q) as (q' & bag & E & R & G & Le).
  - now apply new_rel.
  - split; [change (zlen (@nil T)) with 0; lia|]. exists []. split; [constructor|intros x y []].
  - cbn [app] in G. assert (MI : 0 < max_int) by reflexivity. pose proof G as (L & rest & P & D). pose proof (zlen_nonneg vs).
    destruct (drain_ok (length bag) bag q' [] R) as (r & q'' & E2 & P2 & S & R2); auto; [lia|intros i j a b H1 H2; pose proof (zget_Some_range _ _ _ H2) as J; change (zlen (@nil T)) with 0 in J; lia|intros x y []|].
    cbn [app] in E2, S. exists q', r, q''. pose proof (Permutation_length P2) as PL. rewrite PL.
    split; [exact E|]. split; [rewrite (perm_zlen _ _ P2); apply (len_ok _ _ R)|]. split; [exact E2|]. split.
    + split; [now rewrite (perm_zlen _ _ P2)|]. exists rest. split; [now rewrite P2|]. intros x y Ix. apply D. now rewrite <- P2.
    + split; auto. split; auto. apply (len_ok _ _ R2).
Qed.

Lemma f2_length {A B} (R : A -> B -> Prop) l l' : Forall2 R l l' -> length l = length l'.
Proof. clear. induction 1; cbn; auto. Qed.
(** The greatest elements, in order, are the end of the sequence when it is sorted. *)
Definition same (x y : T) : bool := negb (less x y) && negb (less y x).
Lemma same_ordered : ordered less same.
Proof. constructor; auto. Qed.
Lemma ins_sorted x l : sorted_by less l -> exists l', Permutation l' (x :: l) /\ sorted_by less l'.
Proof.
  induction l as [|y l IH]; intros S.
  - exists [x]. split; auto. apply i_cons; [apply i_nil|intros y []].
  - destruct (less y x) eqn:E.
    + destruct IH as (l' & P & S'); [eapply i_tail; eauto|]. exists (y :: l'). split; [rewrite P; apply perm_swap|]. apply i_cons; auto.
      intros z I. rewrite P in I. destruct I as [<- |I]; [|exact (i_head _ _ _ S z I)].
      destruct (less x y) eqn:E2; auto. rewrite <- (sw_irrefl _ SW x). symmetry. eapply (sw_trans _ SW); eauto.
    + exists (x :: y :: l). split; auto. apply i_cons; auto. intros z [<- |I]; auto. apply (sw_negtrans _ SW z y x); auto. exact (i_head _ _ _ S z I).
Qed.
Lemma any_sorted l : exists l', Permutation l' l /\ sorted_by less l'.
Proof.
  induction l as [|x l (l' & P & S)]; [exists []; split; auto; apply i_nil|]. destruct (ins_sorted x l' S) as (l2 & P2 & S2). exists l2. split; auto. now rewrite P2, P.
Qed.
Lemma sorted_app l r : sorted_by less l -> sorted_by less r -> (forall x y, In x r -> In y l -> less x y = false) -> sorted_by less (l ++ r).
Proof.
  clear SW. induction l as [|x l IH]; intros S R A; auto. cbn [app]. apply i_cons.
  - apply IH; auto; [eapply i_tail; eauto|]. intros a b Ia Ib. apply A; auto. now right.
  - intros y I. apply in_app_iff in I as [I|I]; [exact (i_head _ _ _ S y I)|]. apply A; auto. now left.
Qed.
Lemma greatest_end k vs r s : greatest less k vs r -> sorted_by less r -> sorted_by less s -> Permutation s vs ->
  Forall2 (fun x y => less x y = false /\ less y x = false) r (skipn (length s - length r) s).
Proof.
  intros (_ & rest & P & D) R S Ps. destruct (any_sorted rest) as (rest' & P' & S').
  assert (A : alike same (rest' ++ r) s).
  { apply (i_unique_perm _ _ same_ordered _ _ vs); auto; [|rewrite P', Permutation_app_comm; auto]. apply sorted_app; auto. intros x y Ix Iy. apply D; auto. now rewrite <- P'. }
  apply Forall2_app_inv_l in A as (s1 & s2 & A1 & A2 & ->). pose proof (f2_length _ _ _ A1) as L1. pose proof (f2_length _ _ _ A2) as L2.
  rewrite app_length, <- L2. replace (length s1 + length r - length r)%nat with (length s1 + 0)%nat by lia. rewrite skipn_app, skipn_all2, Nat.add_0_r, Nat.sub_diag by lia. cbn [app skipn].
  clear - A2. induction A2 as [|x y l l' E A2 IH]; constructor; [|auto]. unfold same in E. apply andb_true_iff in E as [E1 E2]. apply negb_true_iff in E1, E2. auto.
Qed.
End TopKProof.
