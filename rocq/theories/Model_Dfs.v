(** A program on stack.go: the vertices that can be reached from one, in depth first
    order, without recursion.

      func DepthFirst(adj func(V) []V, v0 V) []V {
        out := []V{}
        seen := map[V]bool{}
        s := NewStack[V]()
        s.Push(v0)
        for !s.IsEmpty() {
          v := s.Pop()
          if seen[v] { continue }
          seen[v] = true
          out = append(out, v)
          ws := adj(v)
          for i := len(ws) - 1; i >= 0; i-- { s.Push(ws[i]) }
        }
        return out
      }

    The map is a function here, adj a pure one, and out a plain list. *)
From Verif Require Import Base Trace Model_Stack.

Section Dfs.
Context {V : Type}.
Variable zero : V.
Variable grow : Z -> Z -> Z.
Variable eqb : V -> V -> bool.
Variable adj : V -> list V.
(** Over stack.go:40-42. *)
Fixpoint push_all (ws : list V) : M (cell V) unit :=
  match ws with [] => ret tt | w :: r => Stack_Push zero grow w ;; push_all r end.
(** Over stack.go:20-22 and 58-62. *)
Fixpoint dfs_loop (fuel : nat) (seen : V -> bool) (out : list V) : M (cell V) (list V) :=
  e <- Stack_IsEmpty ;;
  if e : bool then ret out else
  match fuel with
  | O => nofuel
  | S fuel' =>
    v <- Stack_Pop ;;
    if seen v then dfs_loop fuel' seen out else
    push_all (rev (adj v)) ;;
    dfs_loop fuel' (fun x => eqb x v || seen x) (out ++ [v])
  end.
(** stack.go:10-12 *)
Definition depth_first (fuel : nat) (v0 : V) : M (mem V) (list V) := fun m =>
  let '(o, m1) := NewStack m in
  match o with
  | Ok s => let '(r, c) := (Stack_Push zero grow v0 ;; dfs_loop fuel (fun _ => false) []) (m1, s) in (r, fst c)
  | Panic => (Panic, m1)
  | NoFuel => (NoFuel, m1)
  end.
End Dfs.
