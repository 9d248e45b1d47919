(** Model of /repo/pool.go: goroutines sharing one Pool[T].

    sync.Pool is not modelled but assumed to be as documented: an atomic Get takes
    any item out or finds none (even if there are some), and in that case the New
    function is called if there is one; an atomic Put adds an item; items may
    disappear at any time.  Objects are numbers; two pointers are equal just if
    they point to the same object. *)
From Verif Require Import Base.

(** A *T: nil or an object. *)
Definition ptr := option nat.
(** A value of type any: nil, a *T (which may be a nil *T), or something else. *)
Inductive iface := INil | IPtr (p : ptr) | IOther.

(** What can be seen of a run.  Goroutines are numbers. *)
Inductive event :=
| EGet (g : nat) (r : ptr)   (* a Get of g returned r *)
| EPanic (g : nat)           (* a Get of g panicked *)
| EPut (g : nat) (x : ptr)   (* g called Put(x) *)
| ENew (x : ptr)             (* the New function returned x *)
| EPass (g g' x : nat).      (* g gave the object x to g', past the pool *)

(** The New field. *)
Inductive newfn := NoNew | NewT (* returns new(T) *) | NewUser (* the user's *).
(** pool.go:9-11 MakePool. *)
Definition MakePool : newfn := NewT.
(** pool.go:14-19 MakePoolWithNew; [given] is new != nil. *)
Definition MakePoolWithNew (given : bool) : newfn := if given then NewUser else NoNew.

(** pool.go:24-27, the end of Get: what to return for the value i from sync.Pool. *)
Definition Get_result (g : nat) (i : iface) : event :=
  match i with INil => EGet g None | IPtr p => EGet g p | IOther => EPanic g end.
(** pool.go:31-35 Put: the value to hand to sync.Pool, if any. *)
Definition Put_value (x : ptr) : option iface := match x with Some o => Some (IPtr (Some o)) | None => None end.

(** The items in the sync.Pool and the calls of Get under way: sync.Pool found
    nothing and New is still to be called, or a value was found or made and is
    still to be returned. *)
Inductive stage := Missed | Found (i : iface).
Record pool := mkPool { items : list iface; calls : list (nat * stage) }.
Definition pool0 : pool := mkPool [] [].

(** Steps, in any interleaving.  [new] is the New field. *)
Inductive pstep (new : newfn) : pool -> list event -> pool -> Prop :=
| st_take g i l1 l2 cs : pstep new (mkPool (l1 ++ i :: l2) cs) [] (mkPool (l1 ++ l2) ((g, Found i) :: cs))
| st_miss g l cs : pstep new (mkPool l cs) [] (mkPool l ((g, Missed) :: cs))
| st_nonew g l c1 c2 : new = NoNew -> pstep new (mkPool l (c1 ++ (g, Missed) :: c2)) [] (mkPool l (c1 ++ (g, Found INil) :: c2))
(* pool.go:10 *)
| st_newT g x l c1 c2 : new = NewT -> pstep new (mkPool l (c1 ++ (g, Missed) :: c2)) [ENew (Some x)] (mkPool l (c1 ++ (g, Found (IPtr (Some x))) :: c2))
(* pool.go:16 *)
| st_newUser g p l c1 c2 : new = NewUser -> pstep new (mkPool l (c1 ++ (g, Missed) :: c2)) [ENew p] (mkPool l (c1 ++ (g, Found (IPtr p)) :: c2))
| st_return g i l c1 c2 : pstep new (mkPool l (c1 ++ (g, Found i) :: c2)) [Get_result g i] (mkPool l (c1 ++ c2))
| st_put g x l cs : pstep new (mkPool l cs) [EPut g x] (mkPool (match Put_value x with Some i => i :: l | None => l end) cs)
| st_drop i l1 l2 cs : pstep new (mkPool (l1 ++ i :: l2) cs) [] (mkPool (l1 ++ l2) cs)
| st_pass g g' x l cs : pstep new (mkPool l cs) [EPass g g' x] (mkPool l cs).

(** The runs: events so far, oldest first, and the state they lead to. *)
Inductive reach (new : newfn) : list event -> pool -> Prop :=
| re_start : reach new [] pool0
| re_step tr s evs s' : reach new tr s -> pstep new s evs s' -> reach new (tr ++ evs) s'.
