(** Clients of /repo/vector.go with kept iterators and pointers, and its ForEach
    methods with callbacks that use the vector themselves. *)
From Verif Require Import Base Spec Trace Model_Vector Spec_Vector Spec_Client Spec_VecClient.
Section VecClient.
Context {T : Type}.
Variable zero : T.
Variable grow : Z -> Z -> Z.
(** vector.go:216-235.  A pointer &it.v[it.i] is kept as the slice and the index. *)
Definition vec_listing : listing (vcall T) (obs T) T (cell T) vectorIterator := {|
  l_call c := fun s => match c with
    | VCall o => if in_scope (s_len (snd s)) (s_cap (snd s)) o then vec_step zero grow o s else (Ok ONone, s)
    | VCap => observe OInt Vector_Cap s end;
  l_iterate := v <- get_hdr ;; ret (Vector_Iterate v);
  l_pointer it := lift_mem (_ <- vi_Value it ;; ret tt);
  l_more it := ret (vi_IsNotEnd it);
  l_next it := ret (vi_MoveToNext it);
  l_value it := lift_mem (vi_Value it);
  l_store it x := lift_mem (vi_write it x) |}.

Context {St : Type}.
Notation CS := (cell T * list vectorIterator)%type.
Notation vprog := (prog (iop (vcall T) T) (ires (obs T) T)).
(** for i := range v { if !cb(...) { break } }: v and its length are evaluated once. *)
Fixpoint vec_each {A} (give : slice -> Z -> M CS A) (cb : St -> A -> vprog (bool * St)) (v : slice) (n : nat) (i : Z) (st : St) : M CS St :=
  match n with
  | O => ret st
  | S n' => a <- give v i ;; r <- exec (client vec_listing) (cb st a) ;; if fst r then vec_each give cb v n' (i + 1) (snd r) else ret (snd r)
  end.
(** e of range v, and &v[i]. *)
Definition vec_value (v : slice) (i : Z) : M CS T := on_list (lift_mem (sload v i)).
Definition vec_pointer (v : slice) (i : Z) : M CS nat := on_list (lift_mem (_ <- sload v i ;; ret tt)) ;; declare (mkVIt v i).
Definition vec_from_start {A} (give : slice -> Z -> M CS A) (cb : St -> A -> vprog (bool * St)) (st : St) : M CS St :=
  v <- on_list get_hdr ;; vec_each give cb v (Z.to_nat (s_len v)) 0 st.
(** vector.go:173-177 ForEach, 181-187 ForEachIf, 190-194 ForEachMutable,
    198-204 ForEachMutableIf. *)
Definition Vec_ForEach (cb : St -> T -> vprog St) := vec_from_start vec_value (fun st v => always (cb st v)).
Definition Vec_ForEachIf (cb : St -> T -> vprog (bool * St)) := vec_from_start vec_value cb.
Definition Vec_ForEachMutable (cb : St -> nat -> vprog St) := vec_from_start vec_pointer (fun st p => always (cb st p)).
Definition Vec_ForEachMutableIf (cb : St -> nat -> vprog (bool * St)) := vec_from_start vec_pointer cb.
End VecClient.
