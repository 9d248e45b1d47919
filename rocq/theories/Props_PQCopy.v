(** C101: PriorityQueue values that are copied (priority_queue.go). *)
From Verif Require Import BaseLemmas Spec Trace Proof_Mem Model_PriorityQueue Spec_Containers Proof_StackPQ Spec_PQCopy Model_PQCopy Proof_PQCopy.
Local Arguments zlen : simpl never.

(** Programs with any number of queues, copies of them and zero values do
    exactly what [copy_spec] says: a copy is a queue for Push and Pop -- the one
    it was copied from -- but Len, IsEmpty, Clear and Top look at the copy's
    own length, and Top at the storage the copy was made of. *)
Theorem C101_copies : forall T (zero : T) grow ops m, (0 < length m)%nat -> cpushes ops <= max_int ->
  (forall less, In (CNew less) ops \/ In (CNewFunc less) ops -> strict_weak less) ->
  exists w, accepts copy_spec [] ops (fst (run (copy_step zero grow) ops (mkWorld m []))) w.
Proof.
  intros T zero grow ops m Hm Hp HL.
  destruct (run_rel zero grow ops [] (mkWorld m []) 0) as (w & A & _); [|intros l b f []|lia|lia|exact HL|eauto].
  split; [exact Hm|]. split; [reflexivity|]. split; [intros [|i] v h; discriminate|]. intros i j s t _ [im H]. destruct i; discriminate.
Qed.
Print Assumptions C101_copies.

(** The calls that act on one queue -- Push and Pop through it or through any
    copy, everything else through it only -- are a priority queue's, whatever
    else is done with the copies and with other queues in between. *)
Theorem C101_one_queue : forall T (zero : T) grow less c before after m, c = CNew less \/ c = CNewFunc less ->
  let ops := before ++ c :: after in
  (0 < length m)%nat -> cpushes ops <= max_int -> (forall less, In (CNew less) ops \/ In (CNewFunc less) ops -> strict_weak less) ->
  let calls := calls_of (vars_made before) [] ops (fst (run (copy_step zero grow) ops (mkWorld m []))) in
  exists bag, accepts (pq_spec less) [] (map fst calls) (map snd calls) bag.
Proof.
  intros T zero grow less c before after m Hc ops Hm Hp HL calls. destruct (C101_copies T zero grow ops m Hm Hp HL) as [w A].
  unfold calls. exact (new_queue_calls _ less c before after _ w Hc eq_refl A).
Qed.
Print Assumptions C101_one_queue.

(** Whatever is pushed and popped, through the copy or otherwise, the copy's
    length remains the one copied, until it is cleared. *)
Theorem C101_length : forall T (zero : T) grow before i after m,
  let k := vars_made before in
  let ops := before ++ CCall i PLen :: CCopy i :: after ++ [CCall k PLen] in
  (0 < length m)%nat -> cpushes ops <= max_int -> (forall less, In (CNew less) ops \/ In (CNewFunc less) ops -> strict_weak less) ->
  ~ In (CCall k PClear) after ->
  exists rs r rs2, fst (run (copy_step zero grow) ops (mkWorld m [])) = rs ++ r :: rs2 ++ [r] /\ length rs = length before.
Proof.
  intros T zero grow before i after m k ops Hm Hp HL Hc. destruct (C101_copies T zero grow ops m Hm Hp HL) as [w A].
  set (R := fst (run (copy_step zero grow) ops (mkWorld m []))) in *. clearbody R. unfold ops in A. clear Hm Hp HL ops.
  apply accepts_split in A as (rs1 & rs2 & w1 & -> & A1 & A).
  assert (O0 : origins ([] : list (handle T)) []) by (split; [reflexivity|intros [|j]; reflexivity]).
  destruct (not_yet k before [] [] rs1 w1 [] [] O0 ltac:(intros [|j]; discriminate) ltac:(cbn; lia) A1) as (_ & _ & Lw & _). cbn in Lw. fold k in Lw.
  apply accepts_cons_inv in A as (r & w2 & rs3 & -> & S1 & A). apply accepts_cons_inv in A as (r2 & w3 & rs4 & -> & S2 & A).
  apply accepts_split in A as (rs5 & rs6 & w4 & -> & A3 & A). apply accepts_cons_inv in A as (r3 & w5 & rs7 & -> & S3 & A). apply accepts_nil_inv in A as [-> _].
  exists rs1, r, (r2 :: rs5). assert (La : forall a ops rs b, @accepts _ (cop T) _ copy_spec a ops rs b -> length rs = length ops) by (induction 1; cbn; lia).
  split; [|exact (La _ _ _ _ A1)]. do 2 f_equal. cbn [app]. do 2 f_equal. f_equal.
  (* the copy *)
  assert (I3 : (r = Ok (OInt 0) /\ nth k w3 HZero = HZero) \/ exists q n s, r = Ok (OInt n) /\ nth k w3 HZero = HCopy q n s).
  { inversion S2; subst. replace k with (length w2).
    2:{ inversion S1; subst; rewrite ?upd_length; exact Lw. }
    rewrite app_nth2, Nat.sub_diag by lia. cbn [nth].
    inversion S1; subst.
    - (* a queue *) match goal with H : acts_on _ _ _ = _ |- _ => unfold acts_on in H; destruct (nth i w1 HZero) as [l0 b0 f0|q0 n0 s0|] eqn:Ei; try discriminate; injection H as <- end.
      assert (Li : (i < length w1)%nat) by (destruct (Nat.lt_ge_cases i (length w1)); [auto|]; rewrite nth_overflow in Ei by auto; discriminate).
      rewrite nth_upd_eq by auto. cbn [copied]. match goal with H : queue_call _ _ _ _ _ _ _ |- _ => destruct H as ((-> & Pm) & _) end. right. exists i, (zlen bag'), None. split; [do 2 f_equal; unfold zlen; f_equal; symmetry; apply Permutation_length; exact Pm|reflexivity].
    - right. exists q, n, s. match goal with H : nth i _ _ = _ |- _ => rewrite H end. auto.
    - left. match goal with H : nth i _ _ = _ |- _ => rewrite H end. auto. }
  assert (I4 : (r = Ok (OInt 0) /\ nth k w4 HZero = HZero) \/ exists q n s, r = Ok (OInt n) /\ nth k w4 HZero = HCopy q n s).
  { assert (Lk : (k < length w3)%nat) by (inversion S2; subst; rewrite app_length; cbn; inversion S1; subst; rewrite ?upd_length; lia).
    clear - I3 A3 Hc Lk. revert I3 Hc Lk. induction A3 as [a|a o r0 a1 ops rs a2 S A IH]; intros I3 Hc Lk; [exact I3|].
    assert (Ll : (k < length a1)%nat) by (inversion S; subst; rewrite ?app_length, ?upd_length, ?map_length; cbn; lia).
    apply IH; [|intros K; apply Hc; right; exact K|exact Ll]. clear IH A.
    assert (Nq : forall q0 l b f, nth q0 a HZero = HQueue l b f -> q0 <> k) by (intros q0 l b f E ->; destruct I3 as [[_ I3]|(?q & ?n & ?s & _ & I3)]; congruence).
    inversion S; subst; rewrite ?app_nth1 by exact Lk; try exact I3.
    - rewrite nth_upd_ne by (eapply Nq; eauto). exact I3.
    - rewrite nth_upd_ne by (eapply Nq; eauto). rewrite nth_leave. destruct I3 as [[-> ->]|(q1 & n1 & s1 & -> & ->)]; [left; auto|right]. cbn. destruct s1; [eauto|]. destruct (Nat.eqb q1 q); eauto.
    - destruct (Nat.eq_dec i k) as [->|N]; [elim Hc; left; reflexivity|]. rewrite nth_upd_ne by auto. exact I3. }
  clear - I4 S3. inversion S3; subst.
  - unfold acts_on in *. destruct I4 as [[_ I4]|(q0 & n & s & _ & I4)]; rewrite I4 in *; discriminate.
  - destruct I4 as [[_ I4]|(q0 & n0 & s0 & -> & I4)]; congruence.
  - destruct I4 as [[-> I4]|(q0 & n0 & s0 & -> & I4)]; congruence.
Qed.
Print Assumptions C101_length.

(** Expected: a copy is a queue of its own (as a copied value would be), or
    else another name of the same queue (as a copied reference would be). *)
Inductive own_spec {T} (w : list (handle T)) : cop T -> outcome (obs T) -> list (handle T) -> Prop :=
| os_new less : own_spec w (CNew less) (Ok ONone) (w ++ [HQueue less [] None])
| os_copy i : own_spec w (CCopy i) (Ok ONone) (w ++ [nth i w HZero])
| os_call i o less bag f r bag' : nth i w HZero = HQueue less bag f -> pq_spec less bag o r bag' -> own_spec w (CCall i o) r (upd i (HQueue less bag' f) w).
Definition C101_expected_own : Prop := forall (before after : list (pq_op Z)) (i : nat) m, (0 < length m)%nat -> (i < 2)%nat ->
  let ops := CNew Z.ltb :: map (CCall 0) before ++ CCopy 0 :: map (CCall i) after ++ map (CCall (1 - i)) after in
  exists w, accepts own_spec [] ops (fst (run (copy_step 0 (fun _ n => n)) ops (mkWorld m []))) w.
Definition C101_expected_alias : Prop := forall (before : list (pq_op Z)) (after : list (bool * pq_op Z)) m, (0 < length m)%nat ->
  let ops := CNew Z.ltb :: map (CCall 0) before ++ CCopy 0 :: map (fun c : bool * pq_op Z => CCall (if fst c then 0%nat else 1%nat) (snd c)) after in
  let rs := fst (run (copy_step 0 (fun _ n => n)) ops (mkWorld m [])) in
  exists bag, accepts (pq_spec Z.ltb) [] (before ++ map snd after) (firstn (length before) (tl rs) ++ skipn (2 + length before) rs) bag.
Theorem C101_refuted : ~ C101_expected_own /\ ~ C101_expected_alias.
Proof.
  split; intros H.
  - (* c := *q; c.Push(1); c.Len() *)
    specialize (H [] [PPush 1; PLen] 1%nat [[]] ltac:(cbn; lia) ltac:(lia)). destruct H as [w A].
    set (rs := fst _) in A. vm_compute in rs. subst rs.
    repeat match goal with A : accepts _ _ (_ :: _) _ _ |- _ => apply accepts_cons_inv in A as (? & ? & ? & E & S & A); injection E as <- <-; inversion S; subst; clear S; cbn in * end.
    repeat match goal with H : HQueue _ _ _ = HQueue _ _ _ |- _ => injection H as <- <- <- end. cbn in *.
    repeat match goal with H : HQueue _ _ _ = HQueue _ _ _ |- _ => injection H as <- <- <- end. cbn in *.
    repeat match goal with H : _ /\ _ |- _ => destruct H end.
    repeat match goal with H : HQueue _ _ _ = HQueue _ _ _ |- _ => injection H as <- <- <- end.
    repeat match goal with H : Permutation _ [_] |- _ => apply Permutation_sym, Permutation_length_1_inv in H; subst end. discriminate.
  - specialize (H [] [(false, PPush 1); (false, PLen)] [[]] ltac:(cbn; lia)). destruct H as [bag A].
    set (rs := _ ++ _ : list (outcome (obs Z))) in A. vm_compute in rs. subst rs. cbn [app map snd] in A.
    repeat match goal with A : accepts _ _ (_ :: _) _ _ |- _ => apply accepts_cons_inv in A as (? & ? & ? & E & S & A); injection E as <- <-; cbn in S; destruct S end.
    match goal with H : Permutation _ [_] |- _ => apply Permutation_sym, Permutation_length_1_inv in H; subst end. discriminate.
Qed.
Print Assumptions C101_refuted.

(** A queue (0), a copy of it made with two elements (1), a copy of the copy
    (2): pushes through the copies reach queue 0; the copies keep their lengths
    and see the top until the queue moves. *)
Example C101_hyp :
  let ops := [CNew Z.ltb; CCall 0 (PPush 5); CCall 0 (PPush 7); CCopy 0; CCopy 1; CCall 1 (PPush 3); CCall 0 PTop; CCall 1 PTop; CCall 2 PPop; CCall 1 PLen; CCall 0 PLen;
              CCall 1 PTop; CCall 2 PClear; CCall 2 PTop; CCall 0 PLen; CCall 0 PPop; CCall 1 PTop; CCall 0 PPop; CCall 1 PPop; CCall 1 PTop; CCall 1 PLen; CZero; CCall 3 (PPush 1); CCall 3 PLen] in
  cpushes ops <= max_int /\ (forall less, In (CNew less) ops \/ In (CNewFunc less) ops -> strict_weak less) /\
  fst (run (copy_step 0 (fun _ n => 2 * n)) ops (mkWorld [[]] [])) =
  [Ok ONone; Ok ONone; Ok ONone; Ok ONone; Ok ONone; Ok ONone; Ok (OVal 3); Ok (OVal 5); Ok (OVal 3); Ok (OInt 2); Ok (OInt 2);
   Ok (OVal 5); Ok ONone; Panic; Ok (OInt 2); Ok (OVal 5); Ok (OVal 5); Ok (OVal 7); Panic; Ok (OVal 5); Ok (OInt 2); Ok ONone; Panic; Ok (OInt 0)] /\
  calls_of 0 [] ops (fst (run (copy_step 0 (fun _ n => 2 * n)) ops (mkWorld [[]] []))) =
  [(PPush 5, Ok ONone); (PPush 7, Ok ONone); (PPush 3, Ok ONone); (PTop, Ok (OVal 3)); (PPop, Ok (OVal 3)); (PLen, Ok (OInt 2)); (PLen, Ok (OInt 2)); (PPop, Ok (OVal 5)); (PPop, Ok (OVal 7)); (PPop, Panic)].
Proof.
  cbv zeta. split; [vm_compute; discriminate|]. split.
  - intros less H. cbn in H. repeat match goal with H : _ \/ _ |- _ => destruct H | H : False |- _ => destruct H end; try discriminate. injection H as <-. exact Z_ltb_strict_weak.
  - split; vm_compute; reflexivity.
Qed.
