(** Model of /repo/stack.go.  A stack is a variable holding a slice. *)
From Verif Require Import Base Trace.

Section Stack.
Context {T : Type}.
Variable zero : T.
Variable grow : Z -> Z -> Z.

(** stack.go:10-12 NewStack. *)
Definition NewStack : M (mem T) slice := ret nil_slice.
(** stack.go:15-17 NewStackCap. *)
Definition NewStackCap (capicity : Z) : M (mem T) slice := make_slice zero 0 capicity.
(** stack.go:20-22 IsEmpty. *)
Definition Stack_IsEmpty : M (cell T) bool := s <- get_hdr ;; ret (s_len s =? 0).
(** stack.go:25-27 Len. *)
Definition Stack_Len : M (cell T) Z := s <- get_hdr ;; ret (s_len s).
(** stack.go:30-32 Cap. *)
Definition Stack_Cap : M (cell T) Z := s <- get_hdr ;; ret (s_cap s).
(** stack.go:35-37 Clear. *)
Definition Stack_Clear : M (cell T) unit :=
  s <- get_hdr ;; s' <- lift_o (reslice s 0 0) ;; set_hdr s'.
(** stack.go:40-42 Push. *)
Definition Stack_Push (t : T) : M (cell T) unit :=
  s <- get_hdr ;; s' <- lift_mem (append_list zero grow s [t]) ;; set_hdr s'.
(** stack.go:45-53 TryPop. *)
Definition Stack_TryPop : M (cell T) (T * bool) :=
  s <- get_hdr ;;
  if s_len s =? 0 then ret (zero, false) else
  t <- lift_mem (sload s (s_len s - 1)) ;;
  s' <- lift_o (reslice_to s (s_len s - 1)) ;;
  set_hdr s' ;; ret (t, true).
(** stack.go:58-62 Pop. *)
Definition Stack_Pop : M (cell T) T :=
  s <- get_hdr ;;
  t <- lift_mem (sload s (s_len s - 1)) ;;
  s' <- lift_o (reslice_to s (s_len s - 1)) ;;
  set_hdr s' ;; ret t.
(** stack.go:67-69 Top. *)
Definition Stack_Top : M (cell T) T := s <- get_hdr ;; lift_mem (sload s (s_len s - 1)).

Inductive stack_op : Type := SPush (t : T) | SPop | STryPop | STop | SLen | SIsEmpty | SClear.

Definition stack_step (o : stack_op) (c : cell T) : outcome (obs T) * cell T :=
  match o with
  | SPush t => observe (fun _ => ONone) (Stack_Push t) c
  | SPop => observe OVal Stack_Pop c
  | STryPop => observe (fun p => OTry (fst p) (snd p)) Stack_TryPop c
  | STop => observe OVal Stack_Top c
  | SLen => observe OInt Stack_Len c
  | SIsEmpty => observe OBool Stack_IsEmpty c
  | SClear => observe (fun _ => ONone) Stack_Clear c
  end.
End Stack.
Arguments stack_op : clear implicits.
