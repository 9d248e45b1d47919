(** The functions of /repo/transform.go and /repo/generate.go that take a callback,
    for a callback that may panic, keep variables, and read and write any memory,
    the slices of the function included.  `range a` evaluates a once and reads a[i]
    when its turn comes.  All slices have elements of one type: a callback between
    two types cannot be given a slice that shares memory with the other. *)
From Verif Require Import Base Spec_LookupFx Model_TransformFx.

Section SliceSelf.
Context {T St : Type}.
Variable zero : T.
Variable grow : Z -> Z -> Z.
Notation W := (world_of T St).

(** transform.go:71-75 Transform: for i, v := range a { a[i] = op(v) }. *)
Fixpoint TransformSelf_loop (a : slice) (op : T -> M W T) (n : nat) (i : Z) : M W unit :=
  match n with
  | O => ret tt
  | S n' => v <- own (sload a i) ;; r <- op v ;; own (sstore a i r) ;; TransformSelf_loop a op n' (i + 1)
  end.
Definition TransformSelf (a : slice) (op : T -> M W T) : M W unit := TransformSelf_loop a op (Z.to_nat (s_len a)) 0.

(** generate.go:18-22 Generate. *)
Fixpoint GenerateSelf_loop (a : slice) (gen : M W T) (n : nat) (i : Z) : M W unit :=
  match n with
  | O => ret tt
  | S n' => r <- gen ;; own (sstore a i r) ;; GenerateSelf_loop a gen n' (i + 1)
  end.
Definition GenerateSelf (a : slice) (gen : M W T) : M W unit := GenerateSelf_loop a gen (Z.to_nat (s_len a)) 0.

(** transform.go:102-108 ReplaceIf. *)
Fixpoint ReplaceIfSelf_loop (a : slice) (pred : T -> M W bool) (new : T) (n : nat) (i : Z) : M W unit :=
  match n with
  | O => ret tt
  | S n' => v <- own (sload a i) ;; c <- pred v ;; (if c : bool then own (sstore a i new) else ret tt) ;; ReplaceIfSelf_loop a pred new n' (i + 1)
  end.
Definition ReplaceIfSelf (a : slice) (pred : T -> M W bool) (new : T) : M W unit := ReplaceIfSelf_loop a pred new (Z.to_nat (s_len a)) 0.

(** transform.go:183-192 RemoveIf. *)
Fixpoint RemoveIfSelf_loop (a : slice) (cond : T -> M W bool) (n : nat) (i j : Z) : M W Z :=
  match n with
  | O => ret j
  | S n' => v <- own (sload a i) ;; c <- cond v ;;
            if negb c then own (sstore a j v) ;; RemoveIfSelf_loop a cond n' (i + 1) (j + 1) else RemoveIfSelf_loop a cond n' (i + 1) j
  end.
Definition RemoveIfSelf (a : slice) (cond : T -> M W bool) : M W slice :=
  j <- RemoveIfSelf_loop a cond (Z.to_nat (s_len a)) 0 0 ;; lift_o (reslice_to a j).

(** transform.go:198-206 RemoveIfCopy. *)
Fixpoint RemoveIfCopySelf_loop (a : slice) (cond : T -> M W bool) (n : nat) (i : Z) (r : slice) : M W slice :=
  match n with
  | O => ret r
  | S n' => v <- own (sload a i) ;; c <- cond v ;;
            if negb c then r' <- own (append_list zero grow r [v]) ;; RemoveIfCopySelf_loop a cond n' (i + 1) r' else RemoveIfCopySelf_loop a cond n' (i + 1) r
  end.
Definition RemoveIfCopySelf (a : slice) (cond : T -> M W bool) : M W slice :=
  r <- own (make_slice zero 0 (s_len a)) ;; RemoveIfCopySelf_loop a cond (Z.to_nat (s_len a)) 0 r.

(** transform.go:80-86 TransformCopy. *)
Fixpoint TransformCopySelf_loop (a r : slice) (op : T -> M W T) (n : nat) (i : Z) : M W unit :=
  match n with
  | O => ret tt
  | S n' => v <- own (sload a i) ;; x <- op v ;; own (sstore r i x) ;; TransformCopySelf_loop a r op n' (i + 1)
  end.
Definition TransformCopySelf (a : slice) (op : T -> M W T) : M W slice :=
  r <- own (make_slice zero (s_len a) (s_len a)) ;; TransformCopySelf_loop a r op (Z.to_nat (s_len a)) 0 ;; ret r.

(** transform.go:60-66 TransformTo. *)
Fixpoint TransformToSelf_loop (a : slice) (op : T -> M W T) (n : nat) (i : Z) (b : slice) : M W slice :=
  match n with
  | O => ret b
  | S n' => v <- own (sload a i) ;; x <- op v ;; b' <- own (append_list zero grow b [x]) ;; TransformToSelf_loop a op n' (i + 1) b'
  end.
Definition TransformToSelf (a : slice) (op : T -> M W T) (b : slice) : M W slice :=
  b0 <- lift_o (reslice b 0 0) ;; TransformToSelf_loop a op (Z.to_nat (s_len a)) 0 b0.
End SliceSelf.
