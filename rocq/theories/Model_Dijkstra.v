(** A program on priority_queue.go: the distances of all vertices from one, where edges
    have lengths.

      type entry struct { dist int; vertex V }
      func Distances(adj func(V) []edge, s V) map[V]int {
        dist := map[V]int{}
        q := NewPriorityQueueFunc(func(a, b entry) bool { return a.dist < b.dist })
        q.Push(entry{0, s})
        for !q.IsEmpty() {
          x := q.Pop()
          if _, ok := dist[x.vertex]; ok { continue }
          dist[x.vertex] = x.dist
          for _, e := range adj(x.vertex) { q.Push(entry{x.dist + e.length, e.to}) }
        }
        return dist
      }

    The map is a function here, adj a pure one, and the sums are unbounded integers. *)
From Verif Require Import Base Model_PriorityQueue Model_Bfs.

Section Dijkstra.
Context {V : Type}.
Variable zero : Z * V.
Variable grow : Z -> Z -> Z.
Variable eqb : V -> V -> bool.
Variable adj : V -> list (V * Z).
Definition entry_less (a b : Z * V) : bool := fst a <? fst b.
(** Over priority_queue.go:62-64. *)
Fixpoint push_edges (n : Z) (es : list (V * Z)) : M (PriorityQueue (Z * V)) unit :=
  match es with
  | [] => ret tt
  | (w, c) :: rest => PQ_Push zero grow (n + c, w) ;; push_edges n rest
  end.
(** Over priority_queue.go:47-49 and 67-69. *)
Fixpoint dijkstra_loop (fuel : nat) (d : dist_map) : M (PriorityQueue (Z * V)) dist_map :=
  e <- PQ_IsEmpty ;;
  if e : bool then ret d else
  match fuel with
  | O => nofuel
  | S fuel' =>
    x <- PQ_Pop ;;
    match d (snd x) with
    | Some _ => dijkstra_loop fuel' d
    | None =>
      push_edges (fst x) (adj (snd x)) ;;
      dijkstra_loop fuel' (dist_set eqb d (snd x) (fst x))
    end
  end.
Definition dijkstra (fuel : nat) (s : V) : M (PriorityQueue (Z * V)) dist_map :=
  PQ_Push zero grow (0, s) ;; dijkstra_loop fuel (fun _ => None).
End Dijkstra.
