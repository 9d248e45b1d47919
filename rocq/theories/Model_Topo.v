(** A program on dlist_queue.go: putting the vertices of a graph in an order in which all
    edges lead forward.

      func Order(us []V, adj func(V) []V) []V {
        in := map[V]int{}
        for _, v := range us { for _, w := range adj(v) { in[w]++ } }
        q := NewDListQueue[V]()
        for _, v := range us { if in[v] == 0 { q.PushBack(v) } }
        var out []V
        for !q.IsEmpty() {
          v := q.PopFront()
          out = append(out, v)
          for _, w := range adj(v) {
            in[w]--
            if in[w] == 0 { q.PushBack(w) }
          }
        }
        return out
      }

    The map is a function here, adj a pure one, and us and out are plain lists. *)
From Verif Require Import Base Nodes Model_DList Model_DListQueue.

Section Topo.
Context {V : Type}.
Variable zero : V.
Variable eqb : V -> V -> bool.
Variable adj : V -> list V.
Notation Q A := (P (dnode V) dqueue A).
Definition in_add (k : Z) (f : V -> Z) (w : V) : V -> Z := fun x => if eqb x w then f x + k else f x.
Fixpoint count_in (us : list V) (f : V -> Z) : V -> Z :=
  match us with [] => f | v :: r => count_in r (fold_left (in_add 1) (adj v) f) end.
(** Over dlist_queue.go:54-56. *)
Fixpoint push_sources (us : list V) (f : V -> Z) : Q unit :=
  match us with
  | [] => ret tt
  | v :: r => (if f v =? 0 then q_PushBack zero v else ret tt) ;; push_sources r f
  end.
Fixpoint release (ws : list V) (f : V -> Z) : Q (V -> Z) :=
  match ws with
  | [] => ret f
  | w :: r =>
    let f' := in_add (-1) f w in
    (if f' w =? 0 then q_PushBack zero w else ret tt) ;; release r f'
  end.
(** Over dlist_queue.go:24-26 and 59-61. *)
Fixpoint topo_loop (fuel : nat) (f : V -> Z) (out : list V) : Q (list V) :=
  e <- q_IsEmpty ;;
  if e : bool then ret out else
  match fuel with
  | O => nofuel
  | S fuel' => v <- q_PopFront zero ;; f' <- release (adj v) f ;; topo_loop fuel' f' (out ++ [v])
  end.
Definition topo (us : list V) : Q (list V) :=
  let f := count_in us (fun _ => 0) in
  push_sources us f ;; topo_loop (length us) f [].
End Topo.
