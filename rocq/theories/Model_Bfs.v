(** A program on dlist_queue.go: the distances of all vertices from one.

      func Distances(adj func(V) []V, s V) map[V]int {
        dist := map[V]int{s: 0}
        q := NewDListQueue[V]()
        q.PushBack(s)
        for !q.IsEmpty() {
          v := q.PopFront()
          for _, w := range adj(v) {
            if _, ok := dist[w]; !ok {
              dist[w] = dist[v] + 1
              q.PushBack(w)
            }
          }
        }
        return dist
      }

    The map is a function here, and adj a pure one. *)
From Verif Require Import Base Nodes Model_DList Model_DListQueue.

Section Bfs.
Context {V : Type}.
Variable zero : V.
Variable eqb : V -> V -> bool.
Variable adj : V -> list V.
Notation Q A := (P (dnode V) dqueue A).
Definition dist_map := V -> option Z.
(** dist[v] gives 0 for a vertex that is not in the map. *)
Definition dist_get (d : dist_map) (v : V) : Z := match d v with Some n => n | None => 0 end.
Definition dist_set (d : dist_map) (v : V) (n : Z) : dist_map := fun x => if eqb x v then Some n else d x.
(** Over dlist_queue.go:54-56. *)
Fixpoint visit (v : V) (ws : list V) (d : dist_map) : Q dist_map :=
  match ws with
  | [] => ret d
  | w :: rest =>
    match d w with
    | Some _ => visit v rest d
    | None => q_PushBack zero w ;; visit v rest (dist_set d w (dist_get d v + 1))
    end
  end.
(** Over dlist_queue.go:24-26 and 59-61. *)
Fixpoint bfs_loop (fuel : nat) (d : dist_map) : Q dist_map :=
  e <- q_IsEmpty ;;
  if e : bool then ret d else
  match fuel with
  | O => nofuel
  | S fuel' => v <- q_PopFront zero ;; d' <- visit v (adj v) d ;; bfs_loop fuel' d'
  end.
Definition distances (fuel : nat) (s : V) : Q dist_map :=
  q_PushBack zero s ;; bfs_loop fuel (dist_set (fun _ => None) s 0).
End Bfs.
