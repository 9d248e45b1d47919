(** Model of /repo/pool.go, goroutines sharing one Pool[T], for clients that also
    reach the sync.Pool below: Pool[T] is declared as sync.Pool (pool.go:6), so its
    field New can be set, and any value can be put in once p is converted to a
    *sync.Pool.  New may panic, and may use the pool itself (its goroutine takes
    other steps meanwhile).  Otherwise as Model_Pool.v. *)
From Verif Require Import Base.
From Verif Require Export Model_Pool.

(** What can be seen of a run. *)
Inductive revent :=
| RGet (g : nat) (r : ptr)     (* a Get of g returned r *)
| RPanic (g : nat)             (* the type assertion of a Get of g panicked *)
| RNew (i : iface)             (* the New function returned i *)
| RNewPanic (g : nat)          (* the New function, called by a Get of g, panicked, and so did the Get *)
| RPut (g : nat) (x : ptr)     (* g called Put(x) *)
| RRaw (g : nat) (i : iface)   (* g put i into the sync.Pool *)
| RDrop (i : iface)            (* sync.Pool dropped i *)
| RMake (g x : nat)            (* g made the object x itself *)
| RPass (g g' x : nat).        (* g gave the object x to g', past the pool *)

(** The New field: nil, or what the function may do, return a value (Some) or
    panic (None). *)
Definition rnew := option (option iface -> Prop).
(** pool.go:9-11 MakePool. *)
Definition raw_MakePool : rnew := Some (fun o => exists x, o = Some (IPtr (Some x))).
(** pool.go:14-19 MakePoolWithNew; new is what the user's function may do, if given. *)
Definition raw_MakePoolWithNew (new : option (option ptr -> Prop)) : rnew :=
  match new with
  | Some f => Some (fun o => exists r, f r /\ o = match r with Some p => Some (IPtr p) | None => None end)
  | None => None
  end.

(** pool.go:22-28, the end of Get: what to return for the value i from sync.Pool. *)
Definition raw_result (g : nat) (i : iface) : revent :=
  match i with INil => RGet g None | IPtr p => RGet g p | IOther => RPanic g end.
(** pool.go:31-35 Put: the value to hand to sync.Pool, if any. *)
Definition raw_Put (x : ptr) (l : list iface) : list iface := match Put_value x with Some i => i :: l | None => l end.
(** sync.Pool.Put: nil is ignored. *)
Definition sync_Put (i : iface) (l : list iface) : list iface := match i with INil => l | _ => i :: l end.

(** Steps, in any interleaving.  [new] is the New field. *)
Inductive rstep (new : rnew) : pool -> list revent -> pool -> Prop :=
| rs_take g i l1 l2 cs : rstep new (mkPool (l1 ++ i :: l2) cs) [] (mkPool (l1 ++ l2) ((g, Found i) :: cs))
| rs_miss g l cs : rstep new (mkPool l cs) [] (mkPool l ((g, Missed) :: cs))
| rs_nonew g l c1 c2 : new = None -> rstep new (mkPool l (c1 ++ (g, Missed) :: c2)) [] (mkPool l (c1 ++ (g, Found INil) :: c2))
| rs_new g ok i l c1 c2 : new = Some ok -> ok (Some i) -> rstep new (mkPool l (c1 ++ (g, Missed) :: c2)) [RNew i] (mkPool l (c1 ++ (g, Found i) :: c2))
| rs_newpanic g ok l c1 c2 : new = Some ok -> ok None -> rstep new (mkPool l (c1 ++ (g, Missed) :: c2)) [RNewPanic g] (mkPool l (c1 ++ c2))
| rs_return g i l c1 c2 : rstep new (mkPool l (c1 ++ (g, Found i) :: c2)) [raw_result g i] (mkPool l (c1 ++ c2))
| rs_put g x l cs : rstep new (mkPool l cs) [RPut g x] (mkPool (raw_Put x l) cs)
| rs_raw g i l cs : rstep new (mkPool l cs) [RRaw g i] (mkPool (sync_Put i l) cs)
| rs_drop i l1 l2 cs : rstep new (mkPool (l1 ++ i :: l2) cs) [RDrop i] (mkPool (l1 ++ l2) cs)
| rs_make g x l cs : rstep new (mkPool l cs) [RMake g x] (mkPool l cs)
| rs_pass g g' x l cs : rstep new (mkPool l cs) [RPass g g' x] (mkPool l cs).

(** The runs: events so far, oldest first, and the state they lead to. *)
Inductive rreach (new : rnew) : list revent -> pool -> Prop :=
| rr_start : rreach new [] pool0
| rr_step tr s evs s' : rreach new tr s -> rstep new s evs s' -> rreach new (tr ++ evs) s'.
