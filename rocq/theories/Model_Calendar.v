(** A program on skiplist.go: bookings of times that do not overlap, in a SkipList from
    their ends to their starts.

      type Calendar struct { m *SkipList[int, int] }
      func (c Calendar) conflict(s, e int) bool {
        it := c.m.UpperBound(s)
        return it.IsNotEnd() && it.Value() < e
      }
      func (c Calendar) Book(s, e int) bool {
        if !(s < e) || c.conflict(s, e) { return false }
        c.m.Insert(e, s)
        return true
      }
      func (c Calendar) Cancel(s, e int) bool {
        p := c.m.Find(e)
        return p != nil && *p == s && c.m.Remove(e)
      }
      func (c Calendar) Taken(t int) bool {
        it := c.m.UpperBound(t)
        return it.IsNotEnd() && it.Value() <= t
      } *)
From Verif Require Import Base Nodes Model_SkipList Spec_Calendar.

Section Calendar.
Variable impl : @slimpl Z Z.
Notation CP A := (P (slnode Z Z) sklist A).
(** Over skiplist.go:145-147, 219-221 and 231-233. *)
Definition cal_conflict (s e : Z) : CP bool :=
  it <- UpperBound impl s ;; if IsNotEnd it then a <- Value it ;; ret (a <? e) else ret false.
(** Over skiplist.go:91-118. *)
Definition cal_book (s e r : Z) : CP bool :=
  if negb (s <? e) then ret false else
  c <- cal_conflict s e ;;
  if c : bool then ret false else Insert impl e s r ;; ret true.
(** Over skiplist.go:122-128 and 156-170. *)
Definition cal_cancel (s e : Z) : CP bool :=
  p <- find_get impl e ;;
  match p with
  | Some a => if a =? s then Remove impl e else ret false
  | None => ret false
  end.
Definition cal_taken (t : Z) : CP bool :=
  it <- UpperBound impl t ;; if IsNotEnd it then a <- Value it ;; ret (a <=? t) else ret false.
Definition cal_step (o : cop) : CP bool :=
  match o with
  | CBook s e r => cal_book s e r
  | CCancel s e => cal_cancel s e
  | CTaken t => cal_taken t
  end.
End Calendar.
