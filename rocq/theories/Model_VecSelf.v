(** /repo/vector.go RemoveIf, with a condition that uses the vector itself. *)
From Verif Require Import Base Spec Trace Model_Transform Model_Vector Spec_Vector Spec_Client Spec_VecClient Model_VecClient.
Section VecSelf.
Context {T St : Type}.
Variable zero : T.
Variable grow : Z -> Z -> Z.
Notation CS := (cell T * list vectorIterator)%type.
Notation vprog := (prog (iop (vcall T) T) (ires (obs T) T)).
(** transform.go:183-192 RemoveIf of the slice a: n elements to go, the next at i. *)
Fixpoint SelfRemoveIf_loop (cond : St -> T -> vprog (bool * St)) (a : slice) (n : nat) (i j : Z) (st : St) : M CS (Z * St) :=
  match n with
  | O => ret (j, st)
  | S n' => x <- vec_value a i ;; r <- exec (client (vec_listing zero grow)) (cond st x) ;;
            if negb (fst r) then on_list (lift_mem (sstore a j x)) ;; SelfRemoveIf_loop cond a n' (i + 1) (j + 1) (snd r)
            else SelfRemoveIf_loop cond a n' (i + 1) j (snd r)
  end.
Definition SelfRemoveIf (cond : St -> T -> vprog (bool * St)) (a : slice) (st : St) : M CS (slice * St) :=
  r <- SelfRemoveIf_loop cond a (Z.to_nat (s_len a)) 0 0 st ;; s <- lift_o (reslice a 0 (fst r)) ;; ret (s, snd r).
(** vector.go:166-170: *v is read before the condition is called, and written after. *)
Definition Vec_RemoveIf (cond : St -> T -> vprog (bool * St)) (st : St) : M CS St :=
  oldV <- on_list get_hdr ;;
  r <- SelfRemoveIf cond oldV st ;;
  on_list (set_hdr (fst r)) ;;
  n <- on_list Vector_Len ;;
  t <- lift_o (reslice_from oldV n) ;;
  on_list (lift_mem (on_slice t (FillZero zero))) ;;
  ret (snd r).
End VecSelf.
