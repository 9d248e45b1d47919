(** What a resizable sequence should do (vector.go), with no reference to
    slices or capacity. *)
From Verif Require Import Base Spec Trace Model_Vector.

(** Removing positions i..j-1.  When the range is not valid the call panics;
    the sequence is then unchanged unless 0 <= j < i and j <= len, when the
    code has already replaced it by its first i elements (padded with whatever
    the spare capacity holds) followed by the elements from j on. *)
Definition remove_spec {T} (l : list T) (i j : Z) (r : outcome (obs T)) (l' : list T) : Prop :=
  if (0 <=? i) && (i <=? j) && (j <=? zlen l)
  then r = Ok ONone /\ l' = zsub l 0 i ++ zsub l j (zlen l)
  else r = Panic /\
       (l' = l \/
        (0 <= j < i /\ j <= zlen l /\
         exists pre, zlen pre = i /\ (forall k, k < zlen l -> k < i -> zget pre k = zget l k) /\
                     l' = pre ++ zsub l j (zlen l))).

Definition vec_spec {T} (zero : T) (l : list T) (o : vec_op T) (r : outcome (obs T)) (l' : list T) : Prop :=
  match o with
  | VPushBack x => r = Ok ONone /\ l' = l ++ [x]
  | VAppend xs => r = Ok ONone /\ l' = l ++ xs
  | VInsert i xs =>
    if (0 <=? i) && (i <=? zlen l)
    then r = Ok ONone /\ l' = zsub l 0 i ++ xs ++ zsub l i (zlen l)
    else r = Panic /\ l' = l
  | VPopBack => (l = [] /\ r = Panic /\ l' = []) \/ (exists x, l = l' ++ [x] /\ r = Ok (OVal x))
  | VTryPopBack => (l = [] /\ r = Ok (OTry zero false) /\ l' = []) \/
                   (exists x, l = l' ++ [x] /\ r = Ok (OTry x true))
  | VBack => l' = l /\ ((l = [] /\ r = Panic) \/ exists x p, l = p ++ [x] /\ r = Ok (OVal x))
  | VAt i => l' = l /\ r = match zget l i with Some x => Ok (OVal x) | None => Panic end
  | VSet i x => match zget l i with Some _ => r = Ok ONone /\ l' = zupd l i x | None => r = Panic /\ l' = l end
  | VRemove i => remove_spec l i (i + 1) r l'
  | VRemoveRange i j => remove_spec l i j r l'
  | VRemoveLength i n => remove_spec l i (i + n) r l'
  | VRemoveIf p => r = Ok ONone /\ l' = filter (fun x => negb (p x)) l
  | VLen => r = Ok (OInt (zlen l)) /\ l' = l
  | VIsEmpty => r = Ok (OBool (zlen l =? 0)) /\ l' = l
  | VClear => r = Ok ONone /\ l' = []
  | VReserve _ | VShrink => r = Ok ONone /\ l' = l
  end.

(** Arguments are Go ints. *)
Definition is_int (z : Z) : Prop := - 2^63 <= z <= max_int.
Definition vec_args {T} (o : vec_op T) : Prop :=
  match o with
  | VInsert i _ | VAt i | VSet i _ | VRemove i | VReserve i => is_int i
  | VRemoveRange i j | VRemoveLength i j => is_int i /\ is_int j
  | _ => True
  end.
(** How many elements a call can add at most. *)
Definition vec_growth {T} (o : vec_op T) : Z :=
  match o with
  | VPushBack _ => 1
  | VAppend xs | VInsert _ xs => zlen xs
  | VRemoveRange i j => Z.max 0 (i - j)
  | VRemoveLength _ n => Z.max 0 (- n)
  | _ => 0
  end.
Fixpoint total_growth {T} (ops : list (vec_op T)) : Z :=
  match ops with [] => 0 | o :: r => vec_growth o + total_growth r end.

(** An operation that leaves the vector (slice [s] before, [s'] after) with the
    elements [l'] in the same storage, all slots between the new and the old
    length holding the zero value, and nothing written outside the old
    vector. *)
Definition shrunk {T} (zero : T) (m m' : mem T) (s s' : slice) (l' : list T) : Prop :=
  wf_slice m' s' /\ contents m' s' = l' /\
  s_arr s' = s_arr s /\ s_off s' = s_off s /\ s_cap s' = s_cap s /\
  contents m' s = l' ++ repeat zero (Z.to_nat (s_len s - s_len s')) /\
  same_except m m' (s_arr s) (s_off s) (s_off s + s_len s).

(** The calls whose range, if any, is not reversed (i <= j). *)
Definition vec_not_reversed {T} (o : vec_op T) : Prop :=
  match o with
  | VRemoveRange i j => i <= j
  | VRemoveLength _ n => 0 <= n
  | _ => True
  end.
