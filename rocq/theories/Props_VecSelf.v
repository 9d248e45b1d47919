(** C123: Vector.RemoveIf with a condition that uses the vector. *)
From Verif Require Import BaseLemmas Spec Trace Proof_Mem Proof_Peek Model_Transform Model_Vector Spec_Vector Proof_Vector Spec_TransformFx Spec_Client Proof_Client Spec_VecClient Model_VecClient Proof_VecClient Proof_VecLoop Props_VecClient Spec_VecSelf Model_VecSelf Proof_VecSelf.

(** Whatever the condition does to the vector, and to iterators and pointers, when
    RemoveIf returns, the vector is the beginning of what it was before: same
    storage, not longer than it was, zero values from there to its old end.
    RemoveIf panics only if a call of the condition does.  Memory of others is
    not written. *)
Theorem C123_back_in_place : forall T St (zero : T) grow m s (ops : list (vop T)) (cond : St -> T -> vprog T (bool * St)) st, wf_slice m s -> s_len s <= max_int ->
  let c := v_after zero grow ops (m, s, []) in let v := snd (fst c) in let F := Vec_RemoveIf zero grow cond st c in let m' := fst (fst (snd F)) in let v' := snd (fst (snd F)) in
  old_same_except m m' (s_arr s) (s_off s) (s_off s + s_cap s) /\
  match fst F with
  | Ok _ => v' = mkSlice (s_arr v) (s_off v) (s_len v') (s_cap v) /\ 0 <= s_len v' <= s_len v /\ wf_slice m' v' /\
            contents m' v = contents m' v' ++ repeat zero (Z.to_nat (s_len v - s_len v'))
  | r => cond_failed (client (vec_listing zero grow)) cond r
  end.
Proof.
  intros T St zero grow m s ops cond st W Hm. cbn zeta. destruct (v_start zero grow m s ops W Hm) as (_ & k & R). set (c := v_after zero grow ops (m, s, [])) in *.
  destruct (RemoveIf_any zero grow m s cond k c _ st R) as (Fr & Q). split; [exact Fr|]. destruct (Vec_RemoveIf zero grow cond st c) as [[st'| |] c']; cbn [fst snd] in *; auto.
  destruct Q as (n & m1 & l & Hn & Ev & (Wv & C & _ & _ & _ & Cv & _)). rewrite Ev in *. cbn [s_len] in *. split; [reflexivity|]. split; [exact Hn|]. split; [exact Wv|]. rewrite Cv. now rewrite <- C.
Qed.
Print Assumptions C123_back_in_place.
(** If the condition writes no element and removes none, it is asked about the
    elements the vector had at the start, in order, and what it answered no to is
    what the vector has at the end: nothing it added is there.  When it looks at
    the vector's places it sees the kept elements moved to the front already. *)
Theorem C123_adding : forall T St (zero : T) grow m s (ops : list (vop T)) (cond : St -> T -> vprog T (bool * St)) st, wf_slice m s -> s_len s <= max_int -> (forall st x, only adds_only (cond st x)) ->
  let L := vec_listing zero grow in let c := v_after zero grow ops (m, s, []) in let v := snd (fst c) in let xs := c_contents (fst c) in let F := Vec_RemoveIf zero grow cond st c in
  match fst F with
  | Ok st' => exists bs, asked (client L) cond (fun c => contents (fst (fst c)) v) xs [] xs st bs st' /\ c_contents (fst (snd F)) = answered false xs bs
  | r => cond_failed (client L) cond r
  end.
Proof.
  intros T St zero grow m s ops cond st W Hm Ho. cbn zeta. destruct (v_start zero grow m s ops W Hm) as (_ & k & R). exact (RemoveIf_adds zero grow m s cond Ho k _ _ st R).
Qed.
Print Assumptions C123_adding.
(** So a condition that adds, and whose answer depends on the element only, leaves
    exactly the elements it answers no to. *)
Theorem C123_filters : forall T St (zero : T) grow m s (ops : list (vop T)) (cond : St -> T -> vprog T (bool * St)) (p : T -> bool) st st', wf_slice m s -> s_len s <= max_int -> (forall st x, only adds_only (cond st x)) ->
  let L := vec_listing zero grow in let c := v_after zero grow ops (m, s, []) in let F := Vec_RemoveIf zero grow cond st c in
  (forall st x c0 b st1 c1, exec (client L) (cond st x) c0 = (Ok (b, st1), c1) -> b = p x) -> fst F = Ok st' -> c_contents (fst (snd F)) = filter (fun x => negb (p x)) (c_contents (fst c)).
Proof.
  intros T St zero grow m s ops cond p st st' W Hm Ho. cbn zeta. intros Hp EF. pose proof (C123_adding T St zero grow m s ops cond st W Hm Ho) as Q. cbn zeta in Q. rewrite EF in Q. destruct Q as (bs & A & ->).
  revert A. generalize (@nil T) as kept. generalize (c_contents (fst (v_after zero grow ops (m, s, [])))) at 2 3 4 as r. intros r. clear EF. revert st bs. induction r as [|x r IH]; intros st bs kept A; [destruct bs; reflexivity|].
  destruct bs as [|b bs]; [contradiction|]. cbn [asked] in A. destruct A as (c0 & c1 & st1 & _ & E & A). pose proof (Hp _ _ _ _ _ _ E) as Eb. subst b. cbn [answered filter]. rewrite (IH _ _ _ A). destruct (p x); reflexivity.
Qed.
Print Assumptions C123_filters.
(** Expected: what the condition adds to the vector is in the vector afterwards. *)
Definition C123_expected : Prop := forall T St (zero : T) grow m s (cond : St -> T -> vprog T (bool * St)) st, wf_slice m s -> s_len s <= max_int -> 
  forall x y r, In x (contents m s) -> (forall st, cond st x = Do (ICall (VCall (VPushBack y))) (r st)) -> let F := Vec_RemoveIf zero grow cond st (m, s, []) in
  forall st', fst F = Ok st' -> In y (c_contents (fst (snd F))).
Theorem C123_refuted : ~ C123_expected.
Proof.
  intros H. assert (W : wf_slice [[1; 2; 3; 0]] (mkSlice 0 0 3 4)) by (unfold wf_slice, zlen; simpl; lia).
  specialize (H Z unit 0 (fun c n => 2 * c) [[1; 2; 3; 0]] (mkSlice 0 0 3 4) (fun st x => if x =? 2 then Do (ICall (VCall (VPushBack 7))) (fun _ => Done (true, st)) else Done (false, st)) tt W ltac:(vm_compute; congruence) 2 7 (fun st _ => Done (true, st))).
  assert (Q : In 7 [1; 3]); [|destruct Q as [Q|[Q|[]]]; discriminate]. apply (H ltac:(vm_compute; auto) (fun st => eq_refl) tt). vm_compute. reflexivity.
Qed.
Print Assumptions C123_refuted.
(** The condition pushes twice what it lets go, and looks at the first element:
    the vector moves, and comes back. *)
Example C123_hyp : let g := fun c n => 2 * c in
  let cond := fun (st : list (ires (obs Z) Z)) x => Do (ICall (VCall (VAt 0))) (fun a => if Z.odd x then Do (ICall (VCall (VAppend [x; x]))) (fun _ => Done (true, st ++ [a])) else Done (false, st ++ [a])) in
  let F := Vec_RemoveIf 0 g cond [] ([[9; 1; 2; 3; 4; 9]], mkSlice 0 1 4 4, []) in
  (forall st x, only adds_only (cond st x)) /\ fst F = Ok [IRes (OVal 1); IRes (OVal 1); IRes (OVal 1); IRes (OVal 1)] /\ c_contents (fst (snd F)) = [2; 4] /\ fst (fst (snd F)) = [[9; 2; 4; 0; 0; 9]; [1; 1]; [1; 2; 3; 4; 1; 1; 3; 3]; [3; 3]].
Proof.
  cbn zeta. split; [|vm_compute; auto]. intros st x. constructor; [exact I|]. intros r. destruct (Z.odd x); [|constructor]. constructor; [exact I|]. constructor.
Qed.
