(** Model of /repo/vector.go.  A Vector variable is a [cell]: memory plus the
    slice header. *)
From Verif Require Import Base Trace Model_Transform.

Section Vector.
Context {T : Type}.
(** zero value of T; append's growth policy (oracle). *)
Variable zero : T.
Variable grow : Z -> Z -> Z.

(** vector.go:10-12 MakeVector. *)
Definition MakeVector : M (mem T) slice := lit_slice [].
(** vector.go:15-18 MakeVectorCap. *)
Definition MakeVectorCap (c : Z) : M (mem T) slice := make_slice zero 0 c.
(** vector.go:21-23 VectorOf; the variadic argument is a slice. *)
Definition VectorOf (v : slice) : M (mem T) slice := ret v.
(** vector.go:26-28 AsVector. *)
Definition AsVector (s : slice) : M (mem T) slice := ret s.
(** vector.go:31-33 IsEmpty. *)
Definition Vector_IsEmpty : M (cell T) bool := v <- get_hdr ;; ret (s_len v =? 0).
(** vector.go:36-38 Len. *)
Definition Vector_Len : M (cell T) Z := v <- get_hdr ;; ret (s_len v).
(** vector.go:41-43 Cap. *)
Definition Vector_Cap : M (cell T) Z := v <- get_hdr ;; ret (s_cap v).
(** vector.go:47-50 Clear. *)
Definition Vector_Clear : M (cell T) unit :=
  v <- get_hdr ;;
  lift_mem (on_slice v (FillZero zero)) ;;
  v' <- lift_o (reslice v 0 0) ;;
  set_hdr v'.
(** vector.go:58-64 Reserve. *)
Definition Vector_Reserve (l : Z) : M (cell T) unit :=
  v <- get_hdr ;;
  if s_cap v <? l then
    t <- lift_mem (make_slice zero (s_len v) l) ;;
    lift_mem (copy_slice t v) ;;
    set_hdr t
  else ret tt.
(** vector.go:67-71 Shrink. *)
Definition Vector_Shrink : M (cell T) unit :=
  v <- get_hdr ;;
  if s_cap v >? s_len v then
    e <- lift_mem (lit_slice []) ;;
    v' <- lift_mem (append_slice zero grow e v) ;;
    set_hdr v'
  else ret tt.
(** vector.go:75-77 At. *)
Definition Vector_At (i : Z) : M (cell T) T := v <- get_hdr ;; lift_mem (sload v i).
(** vector.go:81-83 Set. *)
Definition Vector_Set (i : Z) (x : T) : M (cell T) unit := v <- get_hdr ;; lift_mem (sstore v i x).
(** vector.go:88-90 PushBack. *)
Definition Vector_PushBack (x : T) : M (cell T) unit :=
  v <- get_hdr ;; v' <- lift_mem (append_list zero grow v [x]) ;; set_hdr v'.
(** vector.go:95-101 PopBack. *)
Definition Vector_PopBack : M (cell T) T :=
  v <- get_hdr ;;
  e <- lift_mem (sload v (s_len v - 1)) ;;
  lift_mem (sstore v (s_len v - 1) zero) ;;
  v' <- lift_o (reslice v 0 (s_len v - 1)) ;;
  set_hdr v' ;; ret e.
(** vector.go:104-110 TryPopBack. *)
Definition Vector_TryPopBack : M (cell T) (T * bool) :=
  b <- Vector_IsEmpty ;;
  if b : bool then ret (zero, false) else
  e <- Vector_PopBack ;; ret (e, true).
(** vector.go:115-117 Back. *)
Definition Vector_Back : M (cell T) T := v <- get_hdr ;; lift_mem (sload v (s_len v - 1)).
(** vector.go:120-122 Append. *)
Definition Vector_Append (x : slice) : M (cell T) unit :=
  v <- get_hdr ;; v' <- lift_mem (append_slice zero grow v x) ;; set_hdr v'.
(** vector.go:129-144 Insert.  Sums are 64-bit. *)
Definition Vector_Insert (i : Z) (x : slice) : M (cell T) unit :=
  s <- get_hdr ;;
  let total := wrap64 (s_len s + s_len x) in
  if total <=? s_cap s then
    s2 <- lift_o (reslice_to s total) ;;
    d1 <- lift_o (reslice_from s2 (wrap64 (i + s_len x))) ;;
    r1 <- lift_o (reslice_from s i) ;;
    lift_mem (copy_slice d1 r1) ;;
    d2 <- lift_o (reslice_from s2 i) ;;
    lift_mem (copy_slice d2 x) ;;
    set_hdr s2
  else
    s2 <- lift_mem (make_slice zero total total) ;;
    r1 <- lift_o (reslice_to s i) ;;
    lift_mem (copy_slice s2 r1) ;;
    d2 <- lift_o (reslice_from s2 i) ;;
    lift_mem (copy_slice d2 x) ;;
    d3 <- lift_o (reslice_from s2 (wrap64 (i + s_len x))) ;;
    r3 <- lift_o (reslice_from s i) ;;
    lift_mem (copy_slice d3 r3) ;;
    set_hdr s2.
(** vector.go:154-158 RemoveRange. *)
Definition Vector_RemoveRange (i j : Z) : M (cell T) unit :=
  oldV <- get_hdr ;;
  p <- lift_o (reslice_to oldV i) ;;
  q <- lift_o (reslice_from oldV j) ;;
  v' <- lift_mem (append_slice zero grow p q) ;;
  set_hdr v' ;;
  t <- lift_o (reslice_from oldV (s_len v')) ;;
  lift_mem (on_slice t (FillZero zero)).
(** vector.go:149-151 Remove. *)
Definition Vector_Remove (i : Z) : M (cell T) unit := Vector_RemoveRange i (wrap64 (i + 1)).
(** vector.go:161-163 RemoveLength. *)
Definition Vector_RemoveLength (i len : Z) : M (cell T) unit := Vector_RemoveRange i (wrap64 (i + len)).
(** vector.go:166-170 RemoveIf. *)
Definition Vector_RemoveIf {St} (cond : St -> T -> bool * St) (st : St) : M (cell T) St :=
  oldV <- get_hdr ;;
  r <- lift_mem (RemoveIf oldV cond st) ;;
  set_hdr (fst r) ;;
  t <- lift_o (reslice_from oldV (s_len (fst r))) ;;
  lift_mem (on_slice t (FillZero zero)) ;;
  ret (snd r).

(** vector.go:173-177 ForEach.  The callback has a private state. *)
Fixpoint VForEach_loop {St} (v : slice) (cb : St -> T -> St) (n : nat) (i : Z) (st : St) : M (mem T) St :=
  match n with
  | O => ret st
  | S n' => e <- sload v i ;; VForEach_loop v cb n' (i + 1) (cb st e)
  end.
Definition Vector_ForEach {St} (v : slice) (cb : St -> T -> St) (st : St) : M (mem T) St :=
  VForEach_loop v cb (Z.to_nat (s_len v)) 0 st.
(** vector.go:181-187 ForEachIf. *)
Fixpoint VForEachIf_loop {St} (v : slice) (cb : St -> T -> bool * St) (n : nat) (i : Z) (st : St) : M (mem T) St :=
  match n with
  | O => ret st
  | S n' => e <- sload v i ;;
            let '(go, st') := cb st e in
            if negb go then ret st' else VForEachIf_loop v cb n' (i + 1) st'
  end.
Definition Vector_ForEachIf {St} (v : slice) (cb : St -> T -> bool * St) (st : St) : M (mem T) St :=
  VForEachIf_loop v cb (Z.to_nat (s_len v)) 0 st.
(** vector.go:190-194 ForEachMutable: the callback receives &v[i]; it maps the
    old value of the element to the new one. *)
Fixpoint VForEachMutable_loop {St} (v : slice) (cb : St -> T -> T * St) (n : nat) (i : Z) (st : St) : M (mem T) St :=
  match n with
  | O => ret st
  | S n' => e <- sload v i ;;
            let '(e', st') := cb st e in
            sstore v i e' ;; VForEachMutable_loop v cb n' (i + 1) st'
  end.
Definition Vector_ForEachMutable {St} (v : slice) (cb : St -> T -> T * St) (st : St) : M (mem T) St :=
  VForEachMutable_loop v cb (Z.to_nat (s_len v)) 0 st.
(** vector.go:198-204 ForEachMutableIf. *)
Fixpoint VForEachMutableIf_loop {St} (v : slice) (cb : St -> T -> T * bool * St) (n : nat) (i : Z) (st : St) : M (mem T) St :=
  match n with
  | O => ret st
  | S n' => e <- sload v i ;;
            let '(e', go, st') := cb st e in
            sstore v i e' ;;
            if negb go then ret st' else VForEachMutableIf_loop v cb n' (i + 1) st'
  end.
Definition Vector_ForEachMutableIf {St} (v : slice) (cb : St -> T -> T * bool * St) (st : St) : M (mem T) St :=
  VForEachMutableIf_loop v cb (Z.to_nat (s_len v)) 0 st.

(** vector.go:216-219 vectorIterator. *)
Record vectorIterator : Type := mkVIt { vi_v : slice; vi_i : Z }.
(** vector.go:207-209 Iterate. *)
Definition Vector_Iterate (v : slice) : vectorIterator := mkVIt v 0.
(** vector.go:212-214 IterateRange. *)
Definition Vector_IterateRange (v : slice) (i j : Z) : outcome vectorIterator :=
  omap (fun s => mkVIt s 0) (reslice v i j).
(** vector.go:221-223 Value. *)
Definition vi_Value (it : vectorIterator) : M (mem T) T := sload (vi_v it) (vi_i it).
(** vector.go:225-227 Pointer, used to write: *it.Pointer() = x. *)
Definition vi_write (it : vectorIterator) (x : T) : M (mem T) unit := sstore (vi_v it) (vi_i it) x.
(** vector.go:229-231 IsNotEnd. *)
Definition vi_IsNotEnd (it : vectorIterator) : bool := vi_i it <? s_len (vi_v it).
(** vector.go:233-235 MoveToNext. *)
Definition vi_MoveToNext (it : vectorIterator) : vectorIterator := mkVIt (vi_v it) (wrap64 (vi_i it + 1)).

(** The usual loop over an iterator (client code, not in /repo):
    for ; it.IsNotEnd(); it.MoveToNext() { collect it.Value() }. *)
Fixpoint vi_collect (fuel : nat) (it : vectorIterator) : M (mem T) (list T) :=
  if vi_IsNotEnd it then
    match fuel with
    | O => nofuel
    | S fuel' => x <- vi_Value it ;; r <- vi_collect fuel' (vi_MoveToNext it) ;; ret (x :: r)
    end
  else ret [].

(** Calls on a vector.  Variadic arguments are given as values: the caller
    builds a slice for them. *)
Inductive vec_op : Type :=
| VPushBack (x : T) | VAppend (xs : list T) | VInsert (i : Z) (xs : list T)
| VPopBack | VTryPopBack | VBack | VAt (i : Z) | VSet (i : Z) (x : T)
| VRemove (i : Z) | VRemoveRange (i j : Z) | VRemoveLength (i n : Z) | VRemoveIf (p : T -> bool)
| VLen | VIsEmpty | VClear | VReserve (l : Z) | VShrink.

Definition vec_step (o : vec_op) (c : cell T) : outcome (obs T) * cell T :=
  match o with
  | VPushBack x => observe (fun _ => ONone) (Vector_PushBack x) c
  | VAppend xs => observe (fun _ => ONone) (x <- lift_mem (lit_slice xs) ;; Vector_Append x) c
  | VInsert i xs => observe (fun _ => ONone) (x <- lift_mem (lit_slice xs) ;; Vector_Insert i x) c
  | VPopBack => observe OVal Vector_PopBack c
  | VTryPopBack => observe (fun p => OTry (fst p) (snd p)) Vector_TryPopBack c
  | VBack => observe OVal Vector_Back c
  | VAt i => observe OVal (Vector_At i) c
  | VSet i x => observe (fun _ => ONone) (Vector_Set i x) c
  | VRemove i => observe (fun _ => ONone) (Vector_Remove i) c
  | VRemoveRange i j => observe (fun _ => ONone) (Vector_RemoveRange i j) c
  | VRemoveLength i n => observe (fun _ => ONone) (Vector_RemoveLength i n) c
  | VRemoveIf p => observe (fun _ => ONone) (Vector_RemoveIf (fun (s : unit) x => (p x, s)) tt) c
  | VLen => observe OInt Vector_Len c
  | VIsEmpty => observe OBool Vector_IsEmpty c
  | VClear => observe (fun _ => ONone) Vector_Clear c
  | VReserve l => observe (fun _ => ONone) (Vector_Reserve l) c
  | VShrink => observe (fun _ => ONone) Vector_Shrink c
  end.
End Vector.
Arguments vec_op : clear implicits.
