(** What clients of a Vector that keep iterators and pointers over any calls
    should see.  Iterators stand on places of a storage; the vector moves to a
    new storage when it needs more room, and the old ones stay as they are. *)
From Verif Require Import Base Spec Trace Model_Vector Spec_Vector Spec_Client.

(** Calls of a client: those of Model_Vector.v and Cap. *)
Inductive vcall (T : Type) := VCall (o : vec_op T) | VCap.
Arguments VCall {T}. Arguments VCap {T}.
Definition int_b (z : Z) : bool := (- 2^63 <=? z) && (z <=? max_int).
(** Calls of the clients considered: arguments are ints, the vector does not get
    longer than any int, and no range is reversed (C30 says what happens then);
    the client skips a call that is not of this kind. *)
Definition in_scope {T} (len cap : Z) (o : vec_op T) : bool :=
  match o with
  | VPushBack _ => len + 1 <=? max_int
  | VAppend xs => len + zlen xs <=? max_int
  | VInsert i xs => int_b i && (len + zlen xs <=? max_int)
  | VAt i | VSet i _ | VRemove i | VReserve i => int_b i
  | VRemoveRange i j => int_b i && int_b j && (i <=? j)
  | VRemoveLength i n => int_b i && int_b n && (0 <=? n)
  | _ => true
  end.

(** The slots of the present storage, as many as its capacity, the first [vw_len]
    being the vector; the earlier storages, oldest first. *)
Record vworld (T : Type) := mkVW { vw_now : list T; vw_len : Z; vw_old : list (list T) }.
Arguments mkVW {T}. Arguments vw_now {T}. Arguments vw_len {T}. Arguments vw_old {T}.
(** An iterator: the storage and the length at the time it was taken, and an index. *)
Record vpos := mkVP { vp_gen : nat; vp_len : Z; vp_i : Z }.

Section World.
Context {T : Type}.
Variable zero : T.
Variable grow : Z -> Z -> Z.
Implicit Types w : vworld T.
Definition elems w : list T := zsub (vw_now w) 0 (vw_len w).
Definition room w : Z := zlen (vw_now w).
(** The elements become l, in the same storage: vacated slots become zero, the
    slots behind stay. *)
Definition keep w (l : list T) : vworld T :=
  mkVW (l ++ repeat zero (Z.to_nat (vw_len w - zlen l)) ++ zsub (vw_now w) (Z.max (vw_len w) (zlen l)) (room w)) (zlen l) (vw_old w).
(** The elements become l, in a new storage of capacity c. *)
Definition move w (l : list T) (c : Z) : vworld T := mkVW (l ++ repeat zero (Z.to_nat (c - zlen l))) (zlen l) (vw_old w ++ [vw_now w]).
Definition put w (l : list T) (c : Z) : vworld T := if zlen l <=? room w then keep w l else move w l c.
(** The capacity append chooses. *)
Definition grown (cap need : Z) : Z := Z.max need (grow cap need).
Definition removed w (i j : Z) : outcome (obs T) * vworld T :=
  if (0 <=? i) && (i <=? j) && (j <=? vw_len w) then (Ok ONone, keep w (zsub (elems w) 0 i ++ zsub (elems w) j (vw_len w))) else (Panic, w).

Definition vw_step (o : vec_op T) : M (vworld T) (obs T) := fun w =>
  let l := elems w in let n := vw_len w in
  match o with
  | VPushBack x => (Ok ONone, put w (l ++ [x]) (grown (room w) (n + 1)))
  | VAppend xs => (Ok ONone, put w (l ++ xs) (grown (room w) (n + zlen xs)))
  | VInsert i xs => if (0 <=? i) && (i <=? n) then (Ok ONone, put w (zsub l 0 i ++ xs ++ zsub l i n) (n + zlen xs)) else (Panic, w)
  | VPopBack => match zget l (n - 1) with Some x => (Ok (OVal x), keep w (zsub l 0 (n - 1))) | None => (Panic, w) end
  | VTryPopBack => match zget l (n - 1) with Some x => (Ok (OTry x true), keep w (zsub l 0 (n - 1))) | None => (Ok (OTry zero false), w) end
  | VBack => match zget l (n - 1) with Some x => (Ok (OVal x), w) | None => (Panic, w) end
  | VAt i => match zget l i with Some x => (Ok (OVal x), w) | None => (Panic, w) end
  | VSet i x => match zget l i with Some _ => (Ok ONone, keep w (zupd l i x)) | None => (Panic, w) end
  | VRemove i => removed w i (i + 1)
  | VRemoveRange i j => removed w i j
  | VRemoveLength i k => removed w i (i + k)
  | VRemoveIf p => (Ok ONone, keep w (filter (fun x => negb (p x)) l))
  | VLen => (Ok (OInt n), w)
  | VIsEmpty => (Ok (OBool (n =? 0)), w)
  | VClear => (Ok ONone, keep w [])
  | VReserve c => (Ok ONone, if room w <? c then move w l c else w)
  | VShrink => (Ok ONone, if n <? room w then move w l (if n =? 0 then 0 else grown 0 n) else w)
  end.

(** The slots of a storage, the present one being the last. *)
Definition storages w : list (list T) := vw_old w ++ [vw_now w].
Definition vw_slot w (p : vpos) : option T :=
  if (0 <=? vp_i p) && (vp_i p <? vp_len p) then zget (nth (vp_gen p) (storages w) []) (vp_i p) else None.
Definition vw_write w (p : vpos) (v : T) : vworld T :=
  let l := zupd (nth (vp_gen p) (storages w) []) (vp_i p) v in
  if (vp_gen p =? length (vw_old w))%nat then mkVW l (vw_len w) (vw_old w) else mkVW (vw_now w) (vw_len w) (upd (vp_gen p) l (vw_old w)).
Definition vw_spec : listing (vcall T) (obs T) T (vworld T) vpos := {|
  l_call c := fun w => match c with VCall o => if in_scope (vw_len w) (room w) o then vw_step o w else (Ok ONone, w) | VCap => (Ok (OInt (room w)), w) end;
  l_iterate := fun w => (Ok (mkVP (length (vw_old w)) (vw_len w) 0), w);
  l_pointer p := fun w => match vw_slot w p with Some _ => (Ok tt, w) | None => (Panic, w) end;
  l_more p := ret (vp_i p <? vp_len p);
  l_next p := ret (mkVP (vp_gen p) (vp_len p) (wrap64 (vp_i p + 1)));
  l_value p := fun w => match vw_slot w p with Some v => (Ok v, w) | None => (Panic, w) end;
  l_store p v := fun w => match vw_slot w p with Some _ => (Ok tt, vw_write w p v) | None => (Panic, w) end |}.
End World.

(** How often the statements move the iterator in variable x. *)
Fixpoint moves {C T} (x : nat) (ops : list (iop C T)) : Z :=
  match ops with
  | [] => 0
  | IMoveToNext y :: r => (if Nat.eqb y x then 1 else 0) + moves x r
  | _ :: r => moves x r
  end.
(** The calls that move a vector of len elements to a new storage. *)
Definition moving {T} (len cap : Z) (o : vec_op T) : bool :=
  match o with
  | VPushBack _ => cap <? len + 1
  | VAppend xs => cap <? len + zlen xs
  | VInsert i xs => (0 <=? i) && (i <=? len) && (cap <? len + zlen xs)
  | VReserve c => cap <? c
  | VShrink => len <? cap
  | _ => false
  end.
(** The places of the elements of a vector of length n in storage g. *)
Definition places (g : nat) (n : Z) : list vpos := map (fun i => mkVP g n (Z.of_nat i)) (seq 0 (Z.to_nat n)).
(** Statements that write to no element: reading, adding at the end, changing the capacity. *)
Definition adds_only {T} (o : iop (vcall T) T) : Prop :=
  match o with
  | ICall (VCall c) => match c with VPushBack _ | VAppend _ | VBack | VAt _ | VLen | VIsEmpty | VReserve _ | VShrink => True | _ => False end
  | IStore _ _ => False
  | _ => True
  end.
Definition no_store {C T} (o : iop C T) : Prop := match o with IStore _ _ => False | _ => True end.
