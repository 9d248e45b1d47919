(** Bookings of times.  Definitions only. *)
From Verif Require Import Base.

(** A booking (s, e) is of the times t with s <= t < e.  r is the random number the call
    draws if it needs one. *)
Inductive cop := CBook (s e r : Z) | CCancel (s e : Z) | CTaken (t : Z).
Definition overlap (p q : Z * Z) : bool := (fst p <? snd q) && (fst q <? snd p).
Definition same (p q : Z * Z) : bool := (fst p =? fst q) && (snd p =? snd q).
(** The bookings in any order. *)
Definition cal_spec (o : cop) (l : list (Z * Z)) : outcome bool * list (Z * Z) :=
  match o with
  | CBook s e _ => if (s <? e) && negb (existsb (overlap (s, e)) l) then (Ok true, (s, e) :: l) else (Ok false, l)
  | CCancel s e => (Ok (existsb (same (s, e)) l), filter (fun p => negb (same (s, e) p)) l)
  | CTaken t => (Ok (existsb (fun p => (fst p <=? t) && (t <? snd p)) l), l)
  end.
