(** Mathematical sets, for the hash sets of builtin_set.go. *)
From Verif Require Import Base Spec.

(** == on keys: an equivalence except that some keys (NaN) are equal to nothing,
    themselves included. *)
Record key_eq {K} (eqb : K -> K -> bool) : Prop := mkKeyEq {
  ke_sym : forall a b, eqb a b = true -> eqb b a = true;
  ke_trans : forall a b c, eqb a b = true -> eqb b c = true -> eqb a c = true }.
Definition key_refl {K} (eqb : K -> K -> bool) : Prop := forall a, eqb a a = true.

(** Sets are variables holding references; None is nil. *)
Definition sref := option nat.
(** Calls; the lists of numbers stand for the order in which range loops run
    through a map (see Model_BuiltinSet.v). *)
Inductive bop (K St : Type) :=
| BSetOf (ks : list K) | BInsert (s : sref) (k : K) | BInsertN (s : sref) (ks : list K)
| BRemove (s : sref) (k : K) | BRemoveN (s : sref) (ks : list K) | BDelete (s : sref) (k : K) | BClear (s : sref) (o : list nat)
| BUpdate (s t : sref) (o : list nat)
| BHas (s : sref) (k : K) | BLen (s : sref) | BIsEmpty (s : sref) | BKeys (s : sref) (o : list nat)
| BForEach (s : sref) (o : list nat) (cb : St -> K -> St) (st : St) | BForEachIf (s : sref) (o : list nat) (cb : St -> K -> bool * St) (st : St)
| BUnion (s t : sref) (o o' : list nat) | BIntersection (s t : sref) (o : list nat) | BDifference (s t : sref) (o : list nat)
| BDisjoint (s t : sref) (o : list nat) | BSubset (s t : sref) (o : list nat) | BSuperset (s t : sref) (o : list nat).
Inductive bres (K St : Type) := BNone | BBool (b : bool) | BInt (n : Z) | BSeq (l : list K) | BSt (st : St) | BRef (s : sref).
Arguments BSetOf {K St}. Arguments BInsert {K St}. Arguments BInsertN {K St}. Arguments BRemove {K St}. Arguments BRemoveN {K St}. Arguments BDelete {K St}. Arguments BClear {K St}.
Arguments BUpdate {K St}. Arguments BHas {K St}. Arguments BLen {K St}. Arguments BIsEmpty {K St}. Arguments BKeys {K St}. Arguments BForEach {K St}. Arguments BForEachIf {K St}.
Arguments BUnion {K St}. Arguments BIntersection {K St}. Arguments BDifference {K St}. Arguments BDisjoint {K St}. Arguments BSubset {K St}. Arguments BSuperset {K St}.
Arguments BNone {K St}. Arguments BBool {K St}. Arguments BInt {K St}. Arguments BSeq {K St}. Arguments BSt {K St}. Arguments BRef {K St}.

(** The sets a call is given, and whether it makes one. *)
Definition op_refs {K St} (o : bop K St) : list sref :=
  match o with
  | BSetOf _ => []
  | BInsert s _ | BInsertN s _ | BRemove s _ | BRemoveN s _ | BDelete s _ | BClear s _ | BHas s _ | BLen s | BIsEmpty s | BKeys s _
  | BForEach s _ _ _ | BForEachIf s _ _ _ => [s]
  | BUpdate s t _ | BUnion s t _ _ | BIntersection s t _ | BDifference s t _ | BDisjoint s t _ | BSubset s t _ | BSuperset s t _ => [s; t]
  end.
Definition makes {K St} (o : bop K St) : bool :=
  match o with BSetOf _ | BUnion _ _ _ _ | BIntersection _ _ _ | BDifference _ _ _ => true | _ => false end.
(** Calls are only given nil or sets made before; n are there at the start. *)
Definition ref_ok (n : nat) (s : sref) : bool := match s with Some i => Nat.ltb i n | None => true end.
Fixpoint refs_ok {K St} (n : nat) (ops : list (bop K St)) : bool :=
  match ops with [] => true | o :: r => forallb (ref_ok n) (op_refs o) && refs_ok (if makes o then S n else n) r end.

Section Spec.
Context {K St : Type}.
Variable eqb : K -> K -> bool.
(** All sets in use, as predicates; reference [Some i] is the i-th. *)
Definition world := list (K -> bool).
Definition none : K -> bool := fun _ => false.
Definition sem (w : world) (s : sref) : K -> bool := match s with Some i => nth i w none | None => none end.
Definition is_nil_set (w : world) (s : sref) : bool := match s with Some i => negb (Nat.ltb i (length w)) | None => true end.
Definition change (s : sref) (p : K -> bool) (w : world) : world := match s with Some i => upd i p w | None => w end.
(** Predicates with the same elements. *)
Definition same (p q : K -> bool) : Prop := forall x, p x = q x.
Definition oneof (ks : list K) : K -> bool := fun x => existsb (eqb x) ks.
(** l has every element of p once, and nothing else. *)
Definition has_all (l : list K) (p : K -> bool) : Prop :=
  (forall i j a b, i <> j -> nth_error l i = Some a -> nth_error l j = Some b -> eqb a b = false) /\
  forall x, p x = true <-> exists y, In y l /\ eqb y x = true.
(** p has n elements. *)
Definition size (p : K -> bool) (n : Z) : Prop := exists l, has_all l p /\ n = zlen l.

(** What a call may return, and the sets afterwards. *)
Inductive bset_spec (w : world) : bop K St -> outcome (bres K St) -> world -> Prop :=
| sp_SetOf ks : bset_spec w (BSetOf ks) (Ok (BRef (Some (length w)))) (w ++ [oneof ks])
| sp_Insert s k : is_nil_set w s = false -> bset_spec w (BInsert s k) (Ok (BBool (negb (sem w s k)))) (change s (fun x => sem w s x || eqb x k) w)
| sp_Insert_nil s k : is_nil_set w s = true -> bset_spec w (BInsert s k) Panic w
| sp_InsertN s ks n : is_nil_set w s && negb (match ks with [] => true | _ => false end) = false -> size (fun x => oneof ks x && negb (sem w s x)) n ->
    bset_spec w (BInsertN s ks) (Ok (BInt n)) (change s (fun x => sem w s x || oneof ks x) w)
| sp_InsertN_nil s ks : is_nil_set w s = true -> ks <> [] -> bset_spec w (BInsertN s ks) Panic w
| sp_Remove s k : bset_spec w (BRemove s k) (Ok (BBool (sem w s k))) (change s (fun x => sem w s x && negb (eqb x k)) w)
| sp_RemoveN s ks n : size (fun x => oneof ks x && sem w s x) n -> bset_spec w (BRemoveN s ks) (Ok (BInt n)) (change s (fun x => sem w s x && negb (oneof ks x)) w)
| sp_Delete s k : bset_spec w (BDelete s k) (Ok BNone) (change s (fun x => sem w s x && negb (eqb x k)) w)
| sp_Clear s o : bset_spec w (BClear s o) (Ok BNone) (change s none w)
| sp_Update s t o : is_nil_set w s = false \/ same (sem w t) none -> bset_spec w (BUpdate s t o) (Ok BNone) (change s (fun x => sem w s x || sem w t x) w)
| sp_Update_nil s t o : is_nil_set w s = true -> ~ same (sem w t) none -> bset_spec w (BUpdate s t o) Panic w
| sp_Has s k : bset_spec w (BHas s k) (Ok (BBool (sem w s k))) w
| sp_Len s n : size (sem w s) n -> bset_spec w (BLen s) (Ok (BInt n)) w
| sp_IsEmpty s b : (b = true <-> same (sem w s) none) -> bset_spec w (BIsEmpty s) (Ok (BBool b)) w
| sp_Keys s o l : has_all l (sem w s) -> bset_spec w (BKeys s o) (Ok (BSeq l)) w
| sp_ForEach s o cb st l : has_all l (sem w s) -> bset_spec w (BForEach s o cb st) (Ok (BSt (fold_left cb l st))) w
| sp_ForEachIf s o cb st l : has_all l (sem w s) -> bset_spec w (BForEachIf s o cb st) (Ok (BSt (fold_while cb st l))) w
| sp_Union s t o o' : bset_spec w (BUnion s t o o') (Ok (BRef (Some (length w)))) (w ++ [fun x => sem w s x || sem w t x])
| sp_Intersection s t o : bset_spec w (BIntersection s t o) (Ok (BRef (Some (length w)))) (w ++ [fun x => sem w s x && sem w t x])
| sp_Difference s t o : bset_spec w (BDifference s t o) (Ok (BRef (Some (length w)))) (w ++ [fun x => sem w s x && negb (sem w t x)])
| sp_Disjoint s t o b : (b = true <-> same (fun x => sem w s x && sem w t x) none) -> bset_spec w (BDisjoint s t o) (Ok (BBool b)) w
| sp_Subset s t o b : (b = true <-> forall x, sem w s x = true -> sem w t x = true) -> bset_spec w (BSubset s t o) (Ok (BBool b)) w
| sp_Superset s t o b : (b = true <-> forall x, sem w t x = true -> sem w s x = true) -> bset_spec w (BSuperset s t o) (Ok (BBool b)) w.
End Spec.
