(** Values that hold a slice (Vector, Stack) copied by assignment.  Definitions
    only. *)
From Verif Require Import Base Spec Trace Model_Vector Spec_Vector Model_Stack Spec_Containers.

(** Variables are numbered in the order in which they come into being.
    XNew k: x := a constructor.  XCopy i: x := xi.  XAssign i j: xi = xj.
    XCall i o: a call on xi. *)
Inductive xop (K Op : Type) := XNew (k : K) | XCopy (i : nat) | XAssign (i j : nat) | XCall (i : nat) (o : Op).
Arguments XNew {K Op}. Arguments XCopy {K Op}. Arguments XAssign {K Op}. Arguments XCall {K Op}.

(** Memory and the headers of the variables. *)
Definition xvars (T : Type) : Type := (mem T * list slice)%type.
(** At the start there are no variables; array 0 is what nil slices refer to. *)
Definition xstart {T} : xvars T := ([[]], []).
(** States a program can be in: every header is that of a slice in memory, and
    two that refer to the same array refer to the same part of it, up to their
    lengths. *)
Definition xvars_ok {T} (w : xvars T) : Prop :=
  (forall i s, nth_error (snd w) i = Some s -> wf_slice (fst w) s) /\
  (forall i j s t, nth_error (snd w) i = Some s -> nth_error (snd w) j = Some t -> s_arr s = s_arr t -> s_off s = s_off t /\ s_cap s = s_cap t).
(** What variable i shows. *)
Definition shown {T} (w : xvars T) (i : nat) : list T := match nth_error (snd w) i with Some s => contents (fst w) s | None => [] end.
(** Variables i and j share their storage. *)
Definition share {T} (w : xvars T) (i j : nat) : Prop :=
  match nth_error (snd w) i, nth_error (snd w) j with Some s, Some t => s_arr s = s_arr t | _, _ => False end.

Section Copy.
Context {T K Op : Type}.
(** The elements after construction; what a call should do on a sequence; the
    first position a call may change, if any. *)
Variable made : K -> list T.
Variable spec : list T -> Op -> outcome (obs T) -> list T -> Prop.
Variable touched : Op -> list T -> option Z.

(** Every variable a sequence of its own. *)
Definition own_copy (ls : list (list T)) (o : xop K Op) (r : outcome (obs T)) (ls' : list (list T)) : Prop :=
  match o with
  | XNew k => r = Ok ONone /\ ls' = ls ++ [made k]
  | XCopy i => match nth_error ls i with Some l => r = Ok ONone /\ ls' = ls ++ [l] | None => r = Panic /\ ls' = ls end
  | XAssign i j => match nth_error ls i, nth_error ls j with
                   | Some _, Some l => r = Ok ONone /\ ls' = upd i l ls
                   | _, _ => r = Panic /\ ls' = ls
                   end
  | XCall i o => match nth_error ls i with
                 | Some l => exists l', spec l o r l' /\ ls' = upd i l' ls
                 | None => r = Panic /\ ls' = ls
                 end
  end.

(** A call changes no position that another variable with the same storage
    reaches. *)
Definition polite_at (o : xop K Op) (w : xvars T) : Prop :=
  match o with
  | XCall i c => forall j p, j <> i -> share w i j -> touched c (shown w i) = Some p -> zlen (shown w j) <= p
  | _ => True
  end.
Variable step : xop K Op -> xvars T -> outcome (obs T) * xvars T.
Fixpoint polite_run (ops : list (xop K Op)) (w : xvars T) : Prop :=
  match ops with [] => True | o :: r => polite_at o w /\ polite_run r (snd (step o w)) end.
End Copy.

(** ** Vectors *)
(** var v Vector[T]; MakeVector(); MakeVectorCap(c); VectorOf(xs...). *)
Inductive vec_make (T : Type) := VZero | VMake | VMakeCap (c : Z) | VOf (xs : list T).
Arguments VZero {T}. Arguments VMake {T}. Arguments VMakeCap {T}. Arguments VOf {T}.
Definition vec_made {T} (k : vec_make T) : list T := match k with VOf xs => xs | _ => [] end.
Fixpoint keep_while {T} (p : T -> bool) (l : list T) : list T :=
  match l with [] => [] | x :: r => if p x then x :: keep_while p r else [] end.
Definition vec_touched {T} (o : vec_op T) (l : list T) : option Z :=
  match o with
  | VPushBack _ | VAppend _ => Some (zlen l)
  | VInsert i _ => if (0 <=? i) && (i <=? zlen l) then Some i else None
  | VPopBack | VTryPopBack => if zlen l =? 0 then None else Some (zlen l - 1)
  | VSet i _ => match zget l i with Some _ => Some i | None => None end
  | VRemove i | VRemoveRange i _ | VRemoveLength i _ => if 0 <=? i then Some i else None
  | VRemoveIf p => Some (zlen (keep_while (fun x => negb (p x)) l))
  | VClear => Some 0
  | VBack | VAt _ | VLen | VIsEmpty | VReserve _ | VShrink => None
  end.
Definition vx_args {T} (o : xop (vec_make T) (vec_op T)) : Prop :=
  match o with XNew (VMakeCap c) => 0 <= c | XCall _ o => vec_args o | _ => True end.
Definition vx_growth {T} (o : xop (vec_make T) (vec_op T)) : Z :=
  match o with XNew (VOf xs) => zlen xs | XCall _ o => vec_growth o | _ => 0 end.
Fixpoint vx_total {T} (ops : list (xop (vec_make T) (vec_op T))) : Z :=
  match ops with [] => 0 | o :: r => vx_growth o + vx_total r end.
(** Calls that only append or look. *)
Definition vec_appends {T} (o : vec_op T) : Prop :=
  match o with
  | VPushBack _ | VAppend _ | VBack | VAt _ | VLen | VIsEmpty | VReserve _ | VShrink => True
  | _ => False
  end.
(** Calls that remove elements, with valid arguments. *)
Definition vec_removes {T} (o : vec_op T) (l : list T) : Prop :=
  match o with
  | VPopBack | VTryPopBack => l <> []
  | VRemove i => 0 <= i < zlen l
  | VRemoveRange i j => 0 <= i <= j /\ j <= zlen l
  | VRemoveLength i n => 0 <= i /\ 0 <= n /\ i + n <= zlen l
  | VRemoveIf _ | VClear => True
  | _ => False
  end.

(** ** Stacks *)
(** var s Stack[T], or *NewStack(); *NewStackCap(c). *)
Inductive stack_make := KNew | KNewCap (c : Z).
Definition stack_touched {T} (o : stack_op T) (l : list T) : option Z :=
  match o with SPush _ => Some (zlen l) | _ => None end.
Definition sx_args {T} (o : xop stack_make (stack_op T)) : Prop := match o with XNew (KNewCap c) => 0 <= c | _ => True end.
(** Every variable a stack of its own; elements from the top down. *)
Definition own_stack {T} (zero : T) (o : xop stack_make (stack_op T)) (sts : list (list T)) : outcome (obs T) * list (list T) :=
  match o with
  | XNew _ => (Ok ONone, sts ++ [[]])
  | XCopy i => match nth_error sts i with Some st => (Ok ONone, sts ++ [st]) | None => (Panic, sts) end
  | XAssign i j => match nth_error sts i, nth_error sts j with
                   | Some _, Some st => (Ok ONone, upd i st sts)
                   | _, _ => (Panic, sts)
                   end
  | XCall i o => match nth_error sts i with
                 | Some st => let '(r, st') := stack_spec zero o st in (r, upd i st' sts)
                 | None => (Panic, sts)
                 end
  end.
(** Elements forgotten: how many there are is all that is left. *)
Definition forget {T} (r : outcome (obs T)) : outcome (obs unit) :=
  match r with
  | Ok ONone => Ok ONone
  | Ok (OVal _) => Ok (OVal tt)
  | Ok (OTry _ b) => Ok (OTry tt b)
  | Ok (OInt n) => Ok (OInt n)
  | Ok (OBool b) => Ok (OBool b)
  | Ok (OSeq l) => Ok (OSeq (map (fun _ => tt) l))
  | Panic => Panic
  | NoFuel => NoFuel
  end.
