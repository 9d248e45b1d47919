(** Programs with several variables of type DListQueue (/repo/dlist_queue.go:8-10, a
    struct with a DList), copied by assignment.  A call through variable i is the call
    of Model_DListQueue.v on the heap they all share and on its own struct. *)
From Verif Require Import Base Nodes Trace Spec_List Model_DList Model_DListQueue Spec_QueueCopy.

Section Copy.
Context {T : Type}.
Variable zero : T.
Definition qvars : Type := (list (dnode T) * list dqueue)%type.
Definition qvars_step (o : uop T) (w : qvars) : outcome (obs T) * qvars :=
  match o with
  | UNew => (Ok ONone, (fst w, snd w ++ [NewDListQueue]))
  | UCopy i => match nth_error (snd w) i with
               | Some q => (Ok ONone, (fst w, snd w ++ [q]))
               | None => (Panic, w)
               end
  | UAssign i j => match nth_error (snd w) i, nth_error (snd w) j with
                   | Some _, Some q => (Ok ONone, (fst w, upd i q (snd w)))
                   | _, _ => (Panic, w)
                   end
  | UCall i o => match nth_error (snd w) i with
                 | Some q => let '(r, (h, q')) := queue_step zero o (fst w, q) in (r, (h, upd i q' (snd w)))
                 | None => (Panic, w)
                 end
  end.
End Copy.
