(** Calls that run at the same time: programs as sequences of single accesses to
    the shared state, and interleavings of several of them. *)
From Verif Require Import Base Nodes Spec_BSet.
From Verif Require Model_BuiltinSet Model_DListQueue Model_PriorityQueue.

Inductive prog (S A : Type) : Type :=
| Done (o : outcome A)
| Step (B : Type) (access : M S B) (rest : B -> prog S A).
Arguments Done {S A}. Arguments Step {S A B}.

Section Prog.
Context {S A : Type}.
(** The whole program run without interruption. *)
Fixpoint alone (r : prog S A) : M S A :=
  match r with Done o => lift_o o | Step access rest => b <- access ;; alone (rest b) end.
(** Every access the program can make is one of [allowed]. *)
Fixpoint made_of (allowed : forall B, M S B -> Prop) (r : prog S A) : Prop :=
  match r with Done _ => True | @Step _ _ B access rest => allowed B access /\ forall b, made_of allowed (rest b) end.
(** One access of one program; a program that is done stays as it is. *)
Definition advance (r : prog S A) (s : S) : prog S A * S :=
  match r with
  | Done _ => (r, s)
  | Step access rest => let '(o, s') := access s in
      (match o with Ok b => rest b | Panic => Done Panic | NoFuel => Done NoFuel end, s')
  end.
(** Several programs on one state; [turns] says whose access comes next. *)
Fixpoint together (turns : list nat) (rs : list (prog S A)) (s : S) : list (prog S A) * S :=
  match turns with
  | [] => (rs, s)
  | i :: turns' =>
    match nth_error rs i with
    | None => together turns' rs s
    | Some r => let '(r', s') := advance r s in together turns' (upd i r' rs) s'
    end
  end.
End Prog.

(** The calls ops are made of allowed accesses, and any number of them can be
    carried out at the same time from a state s: whatever the turns, the state
    stays s, and as soon as everyone has had enough turns each call has the result
    it has alone. *)
Definition may_run_together {S O R : Type} (allowed : forall B, M S B -> Prop) (good : S -> Prop) (step : O -> M S R) (ops : list O) : Prop :=
  exists rs : list (prog S R),
    Forall2 (fun r o => made_of allowed r /\ forall s, good s -> alone r s = step o s) rs ops /\
    forall s, good s ->
      (forall turns, snd (together turns rs s) = s) /\
      exists n, forall turns, (forall i, (i < length ops)%nat -> (n <= count_occ Nat.eq_dec turns i)%nat) ->
        fst (together turns rs s) = map (fun o => Done (fst (step o s))) ops.

(** The accesses that only read: a node or a field of the container's struct (and
    the size of the heap, which bounds loops in the model and is nothing in Go). *)
Inductive node_read {N H : Type} : forall B, M (list N * H) B -> Prop :=
| read_node p : node_read N (pload p)
| read_field A (f : H -> A) : node_read A (hget f)
| read_size : node_read nat heap_fuel.
(** The variable holding a slice, and an element of a slice. *)
Definition load {T} (v : slice) (i : Z) : M (cell T) T := fun c => (at_ (contents (fst c) v) i, c).
Inductive cell_read {T : Type} : forall B, M (cell T) B -> Prop :=
| read_header : cell_read slice get_hdr
| read_element v i : cell_read T (load v i).
(** Reads of a Go map: len(m), m[k], and the next entry of a range loop. *)
Inductive map_read {K : Type} (eqb : K -> K -> bool) : forall B, M (list (Model_BuiltinSet.gomap K)) B -> Prop :=
| read_len s : map_read eqb Z (Model_BuiltinSet.len_map s)
| read_key s k : map_read eqb bool (Model_BuiltinSet.has_key eqb s k)
| read_order s o : map_read eqb (list nat) (fun h => (Ok (Model_BuiltinSet.rounds o (Model_BuiltinSet.look h s)), h))
| read_entry s i : map_read eqb (option (nat * K)) (fun h => (Ok (Model_BuiltinSet.g_find i (Model_BuiltinSet.look h s)), h)).
(** The same inside a DListQueue and a PriorityQueue. *)
Inductive queue_read {T : Type} : forall B, M (list (Model_DList.dnode T) * Model_DListQueue.dqueue) B -> Prop :=
| read_list B p : node_read B p -> queue_read B (Model_DListQueue.on_list p).
Inductive pq_read {T : Type} : forall B, M (Model_PriorityQueue.PriorityQueue T) B -> Prop :=
| read_heap B p : cell_read B p -> pq_read B (Model_PriorityQueue.on_heap p).
