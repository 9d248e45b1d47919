(** The functions of /repo/transform.go and /repo/generate.go that take a
    callback, and Vector.RemoveIf of /repo/vector.go, for a callback that may
    panic.  [St] is the state of the callback's own variables.  Model_Transform.v
    and Model_Vector.v have the same functions for callbacks that return. *)
From Verif Require Import Base Model_Transform.

(** Code on a state S beside which the callback keeps its state. *)
Definition own {S St A} (p : M S A) : M (S * St) A :=
  fun s => let '(o, s') := p (fst s) in (o, (s', snd s)).
(** A call of the callback. *)
Definition callback {S St A} (p : M St A) : M (S * St) A :=
  fun s => let '(o, st) := p (snd s) in (o, (fst s, st)).
(** In-place code on the slice a. *)
Definition on_slice_fx {T St A} (a : slice) (p : M (list T * St) A) : M (mem T * St) A :=
  fun s => let '(o, (w, st)) := p (contents (fst s) a, snd s) in (o, (write_at (fst s) a 0 w, st)).

Section TransformFx.
Context {T St : Type}.
Variable zero : T.
Variable grow : Z -> Z -> Z.

(** transform.go:71-75 Transform. *)
Fixpoint TransformFx_loop (op : T -> M St T) (n : nat) (i : Z) : M (list T * St) unit :=
  match n with
  | O => ret tt
  | S n' => v <- own (wload i) ;; r <- callback (op v) ;; own (wstore i r) ;; TransformFx_loop op n' (i + 1)
  end.
Definition TransformFx (op : T -> M St T) : M (list T * St) unit :=
  n <- own wlen ;; TransformFx_loop op (Z.to_nat n) 0.

(** transform.go:60-66 TransformTo. *)
Fixpoint TransformToFx_loop (op : T -> M St T) (a : slice) (n : nat) (i : Z) (b : slice) : M (mem T * St) slice :=
  match n with
  | O => ret b
  | S n' =>
    v <- own (sload a i) ;;
    r <- callback (op v) ;;
    b' <- own (append_list zero grow b [r]) ;;
    TransformToFx_loop op a n' (i + 1) b'
  end.
Definition TransformToFx (a : slice) (op : T -> M St T) (b : slice) : M (mem T * St) slice :=
  b0 <- lift_o (reslice b 0 0) ;; TransformToFx_loop op a (Z.to_nat (s_len a)) 0 b0.

(** transform.go:80-86 TransformCopy. *)
Fixpoint TransformCopyFx_loop {R} (op : T -> M St R) (a : list T) (i : Z) : M (list R * St) unit :=
  match a with
  | [] => ret tt
  | v :: a' => r <- callback (op v) ;; own (wstore i r) ;; TransformCopyFx_loop op a' (i + 1)
  end.
Definition TransformCopyFx {R} (zeroR : R) (a : list T) (op : T -> M St R) : M (mem R * St) slice :=
  r <- own (make_slice zeroR (zlen a) (zlen a)) ;;
  on_slice_fx r (TransformCopyFx_loop op a 0) ;;
  ret r.

(** transform.go:102-108 ReplaceIf. *)
Fixpoint ReplaceIfFx_loop (pred : T -> M St bool) (new : T) (n : nat) (i : Z) : M (list T * St) unit :=
  match n with
  | O => ret tt
  | S n' =>
    v <- own (wload i) ;;
    c <- callback (pred v) ;;
    (if c : bool then own (wstore i new) else ret tt) ;;
    ReplaceIfFx_loop pred new n' (i + 1)
  end.
Definition ReplaceIfFx (pred : T -> M St bool) (new : T) : M (list T * St) unit :=
  n <- own wlen ;; ReplaceIfFx_loop pred new (Z.to_nat n) 0.

(** transform.go:183-192 RemoveIf. *)
Fixpoint RemoveIfFx_loop (cond : T -> M St bool) (n : nat) (i j : Z) : M (list T * St) Z :=
  match n with
  | O => ret j
  | S n' =>
    v <- own (wload i) ;;
    c <- callback (cond v) ;;
    if negb c then own (wstore j v) ;; RemoveIfFx_loop cond n' (i + 1) (j + 1)
    else RemoveIfFx_loop cond n' (i + 1) j
  end.
Definition RemoveIfFx (a : slice) (cond : T -> M St bool) : M (mem T * St) slice :=
  j <- on_slice_fx a (n <- own wlen ;; RemoveIfFx_loop cond (Z.to_nat n) 0 0) ;;
  lift_o (reslice a 0 j).

(** transform.go:198-206 RemoveIfCopy. *)
Fixpoint RemoveIfCopyFx_loop (a : slice) (cond : T -> M St bool) (n : nat) (i : Z) (r : slice) : M (mem T * St) slice :=
  match n with
  | O => ret r
  | S n' =>
    v <- own (sload a i) ;;
    c <- callback (cond v) ;;
    if negb c then r' <- own (append_list zero grow r [v]) ;; RemoveIfCopyFx_loop a cond n' (i + 1) r'
    else RemoveIfCopyFx_loop a cond n' (i + 1) r
  end.
Definition RemoveIfCopyFx (a : slice) (cond : T -> M St bool) : M (mem T * St) slice :=
  r <- own (make_slice zero 0 (s_len a)) ;;
  RemoveIfCopyFx_loop a cond (Z.to_nat (s_len a)) 0 r.

(** generate.go:18-22 Generate. *)
Fixpoint GenerateFx_loop (gen : M St T) (n : nat) (i : Z) : M (list T * St) unit :=
  match n with
  | O => ret tt
  | S n' => v <- callback gen ;; own (wstore i v) ;; GenerateFx_loop gen n' (i + 1)
  end.
Definition GenerateFx (gen : M St T) : M (list T * St) unit :=
  n <- own wlen ;; GenerateFx_loop gen (Z.to_nat n) 0.

(** vector.go:166-170 Vector.RemoveIf: the assignment to *v comes after the call. *)
Definition Vector_RemoveIfFx (cond : T -> M St bool) : M (cell T * St) unit :=
  oldV <- own get_hdr ;;
  r <- (fun s => let '(o, (m, st)) := RemoveIfFx oldV cond (fst (fst s), snd s) in (o, ((m, snd (fst s)), st))) ;;
  own (set_hdr r) ;;
  t <- lift_o (reslice_from oldV (s_len r)) ;;
  own (lift_mem (on_slice t (FillZero zero))).
End TransformFx.
