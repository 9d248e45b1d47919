(** Model of /repo/dlist_queue.go. *)
From Verif Require Import Base Nodes Trace Spec_List Model_DList.

(** dlist_queue.go:8-10 DListQueue; 13-16 NewDListQueue. *)
Record dqueue := mkDQueue { q_list : dlist }.
Definition NewDListQueue : dqueue := mkDQueue empty_dlist.

Section Queue.
Context {T : Type}.
Variable zero : T.
(** q.list.Method(...). *)
Definition on_list {A} (p : P (dnode T) dlist A) : P (dnode T) dqueue A := fun s =>
  let '(r, (h, l)) := p (fst s, q_list (snd s)) in (r, (h, mkDQueue l)).
(** dlist_queue.go:19-21 Len, 24-26 IsEmpty, 29-31 Clear, 39-41 Front, 44-46
    Back, 49-51 PushFront, 54-56 PushBack, 59-61 PopFront, 64-66 PopBack, 69-71
    TryPopFront, 74-76 TryPopBack.  String (34-36) is in Model_String.v. *)
Definition q_Len := on_list Len.
Definition q_IsEmpty := on_list IsEmpty.
Definition q_Clear := on_list Clear.
Definition q_Front := on_list Front.
Definition q_Back := on_list Back.
Definition q_PushFront (v : T) := on_list (PushFront zero v).
Definition q_PushBack (v : T) := on_list (PushBack zero v).
Definition q_PopFront := on_list (PopFront zero).
Definition q_PopBack := on_list (PopBack zero).
Definition q_TryPopFront := on_list (TryPopFront zero).
Definition q_TryPopBack := on_list (TryPopBack zero).

Definition queue_step (o : qop T) : list (dnode T) * dqueue -> outcome (obs T) * (list (dnode T) * dqueue) :=
  match o with
  | QPushFront v => observe (fun _ => ONone) (q_PushFront v)
  | QPushBack v => observe (fun _ => ONone) (q_PushBack v)
  | QPopFront => observe OVal q_PopFront
  | QPopBack => observe OVal q_PopBack
  | QTryPopFront => observe (fun r => OTry (fst r) (snd r)) q_TryPopFront
  | QTryPopBack => observe (fun r => OTry (fst r) (snd r)) q_TryPopBack
  | QClear => observe (fun _ => ONone) q_Clear
  | QLen => observe OInt q_Len
  | QIsEmpty => observe OBool q_IsEmpty
  | QFront => observe OVal q_Front
  | QBack => observe OVal q_Back
  end.
End Queue.
