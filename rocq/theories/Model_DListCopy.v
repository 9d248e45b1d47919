(** Programs with several variables of type DList (/repo/dlist.go:6-9, a struct
    with a pointer and a length), copied by assignment.  A call through variable
    i is the call of Model_DList.v on the heap they all share and on its own
    header. *)
From Verif Require Import Base Nodes Trace Spec_List Model_DList Spec_DListCopy.

Section Copy.
Context {T St : Type}.
Variable zero : T.
Definition dvars : Type := (list (dnode T) * list dlist)%type.

Definition vars_step (o : vop T St) (w : dvars) : outcome (res T St) * dvars :=
  match o with
  | VNew => (Ok (RObs ONone), (fst w, snd w ++ [empty_dlist]))
  | VOf vs => let '(r, (h, hdr)) := DListOf zero vs (fst w, empty_dlist) in (omap (fun _ => RObs ONone) r, (h, snd w ++ [hdr]))
  | VCopy i => match nth_error (snd w) i with
               | Some hdr => (Ok (RObs ONone), (fst w, snd w ++ [hdr]))
               | None => (Panic, w)
               end
  | VAssign i j => match nth_error (snd w) i, nth_error (snd w) j with
                   | Some _, Some hdr => (Ok (RObs ONone), (fst w, upd i hdr (snd w)))
                   | _, _ => (Panic, w)
                   end
  | VCall i o => match nth_error (snd w) i with
                 | Some hdr => let '(r, (h, hdr')) := dlist_step zero o (fst w, hdr) in (r, (h, upd i hdr' (snd w)))
                 | None => (Panic, w)
                 end
  end.
End Copy.
