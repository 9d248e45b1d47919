(** Counting the storage that programs allocate.  Memory never shrinks in the
    model, so what a program has allocated is the memory there is more than before. *)
From Verif Require Import Base Model_Vector.

(** The number of elements all arrays in memory have room for. *)
Fixpoint slots {T} (m : mem T) : Z := match m with [] => 0 | a :: r => zlen a + slots r end.
(** append, when it must move a slice of capacity c to hold need elements, makes the
    capacity at least c * (k + 1) / k: what the runtime's growth policy is for.  (Go
    grows by a quarter or more, rounded; 1.2 times, k = 5, is a safe bound.) *)
Definition grows (k : Z) (grow : Z -> Z -> Z) : Prop := forall c need, 0 <= c < need -> (k + 1) * c <= k * Z.max need (grow c need).
(** and not more than b times what is needed. *)
Definition not_more (b : Z) (grow : Z -> Z -> Z) : Prop := forall c need, 0 <= c < need -> grow c need <= b * need.

(** The sum of f over a list of calls. *)
Definition total {Op} (f : Op -> Z) (ops : list Op) : Z := fold_right (fun o n => f o + n) 0 ops.
(** What a program may allocate that started with the slice h in memory m and ended with
    h' in m', besides the slices [args] it made itself: in all, k + 1 times what the
    capacity grew; and a times only if the capacity grew (1 + 1/k)^a-fold (from nothing,
    a - 1 times so). *)
Definition thrifty {T} (k : Z) (args : list (list T)) (m : mem T) (h : slice) (m' : mem T) (h' : slice) : Prop :=
  s_cap h <= s_cap h' /\ slots m' <= slots m + slots args + (k + 1) * (s_cap h' - s_cap h) /\
  exists a : nat, length m' = (length m + length args + a)%nat /\
    (k + 1) ^ Z.of_nat a * s_cap h <= k ^ Z.of_nat a * s_cap h' /\
    (forall b, a = S b -> (k + 1) ^ Z.of_nat b <= k ^ Z.of_nat b * s_cap h').
(** The length and capacity of h' after n elements were added to h. *)
Definition fits (b n : Z) (h h' : slice) : Prop := s_len h' <= s_len h + n /\ s_cap h' <= Z.max (s_cap h) (b * (s_len h + n)).

Section Ops.
Context {T : Type}.
(** All calls but Insert, Reserve and Shrink. *)
Definition appending (o : vec_op T) : Prop := match o with VInsert _ _ | VReserve _ | VShrink => False | _ => True end.
(** Removal of a range that does not end before it begins. *)
Definition forward (o : vec_op T) : Prop :=
  match o with
  | VRemove i => - 2 ^ 63 <= i < max_int
  | VRemoveRange i j => i <= j
  | VRemoveLength i n => 0 <= n /\ - 2 ^ 63 <= i /\ i + n <= max_int
  | _ => True
  end.
(** The number of elements a call adds, and the slices of arguments the caller makes
    for it. *)
Definition added (o : vec_op T) : Z := match o with VPushBack _ => 1 | VAppend xs | VInsert _ xs => zlen xs | _ => 0 end.
Definition args_of (o : vec_op T) : list (list T) := match o with VAppend xs | VInsert _ xs => [xs] | _ => [] end.
(** Inserting single elements at the given positions; positions that exist, into a
    vector of n elements. *)
Definition inserts (ps : list (Z * T)) : list (vec_op T) := map (fun p => VInsert (fst p) [snd p]) ps.
Fixpoint positions (n : Z) (ps : list (Z * T)) : Prop := match ps with [] => True | p :: r => 0 <= fst p <= n /\ positions (n + 1) r end.
(** Reserving room for each element before it is pushed, n elements being there. *)
Fixpoint reserved_pushes (n : Z) (xs : list T) : list (vec_op T) :=
  match xs with [] => [] | x :: r => VReserve (n + 1) :: VPushBack x :: reserved_pushes (n + 1) r end.
End Ops.

(** The elements a call adds to a stack, to a queue. *)
From Verif Require Import Model_Stack Model_PriorityQueue.
Definition pushed {T} (o : stack_op T) : Z := match o with SPush _ => 1 | _ => 0 end.
Definition queued {T} (o : pq_op T) : Z := match o with PPush _ => 1 | _ => 0 end.
