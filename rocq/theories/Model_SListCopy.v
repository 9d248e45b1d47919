(** Programs with several variables of type SList (/repo/slist.go:4-8, a struct
    with two pointers and a length), copied by assignment.  A call through
    variable i is the call of Model_SList.v on the heap they all share and on its
    own header. *)
From Verif Require Import Base Nodes Trace Spec_List Model_SList Spec_SListCopy.

Section Copy.
Context {T St : Type}.
Variable zero : T.
Definition svars : Type := (list (snode T) * list slist)%type.

Definition svars_step (o : wop T St) (w : svars) : outcome (res T St) * svars :=
  match o with
  | WNew => (Ok (RObs ONone), (fst w, snd w ++ [empty_slist]))
  | WOf vs => let '(r, (h, hdr)) := SListOf vs (fst w, empty_slist) in (omap (fun _ => RObs ONone) r, (h, snd w ++ [hdr]))
  | WCopy i => match nth_error (snd w) i with
               | Some hdr => (Ok (RObs ONone), (fst w, snd w ++ [hdr]))
               | None => (Panic, w)
               end
  | WAssign i j => match nth_error (snd w) i, nth_error (snd w) j with
                   | Some _, Some hdr => (Ok (RObs ONone), (fst w, upd i hdr (snd w)))
                   | _, _ => (Panic, w)
                   end
  | WCall i o => match nth_error (snd w) i with
                 | Some hdr => let '(r, (h, hdr')) := slist_step zero o (fst w, hdr) in (r, (h, upd i hdr' (snd w)))
                 | None => (Panic, w)
                 end
  end.
End Copy.
