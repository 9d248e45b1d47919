(** Model of /repo/builtin_set.go (String, 103-106, is in Model_String.v). *)
From Verif Require Import Base Spec Trace Spec_List Spec_BSet.

(** ** Go maps with empty values.  An entry has an identity, so that a key equal
    to nothing (NaN) may occur several times. *)
Record gomap (K : Type) := mkMap { g_next : nat; g_ents : list (nat * K) }.
Arguments mkMap {K}. Arguments g_next {K}. Arguments g_ents {K}.
Definition g_empty {K} : gomap K := mkMap 0 [].
(** The key kept when a key equal to a stored one (as -0 and +0) is assigned: Go
    does not say which. *)
Definition picks_one {K} (pick : K -> K -> K) : Prop := forall a b, pick a b = a \/ pick a b = b.
Section Map.
Context {K : Type}.
Variable eqb : K -> K -> bool.
Variable pick : K -> K -> K.
Definition g_has (k : K) (m : gomap K) : bool := existsb (fun e => eqb (snd e) k) (g_ents m).
Definition g_set (k : K) (m : gomap K) : gomap K :=
  if g_has k m then mkMap (g_next m) (map (fun e => if eqb (snd e) k then (fst e, pick (snd e) k) else e) (g_ents m))
  else mkMap (S (g_next m)) (g_ents m ++ [(g_next m, k)]).
Definition g_del (k : K) (m : gomap K) : gomap K := mkMap (g_next m) (filter (fun e => negb (eqb (snd e) k)) (g_ents m)).
Definition g_find (i : nat) (m : gomap K) : option (nat * K) := find (fun e => Nat.eqb (fst e) i) (g_ents m).
Definition ids (m : gomap K) : list nat := map fst (g_ents m).

(** The maps in existence; None and numbers not in the list are nil maps. *)
Notation heap := (list (gomap K)).
Definition look (h : heap) (s : sref) : gomap K := match s with Some a => nth a h g_empty | None => g_empty end.
Definition allocated (h : heap) (s : sref) : bool := match s with Some a => Nat.ltb a (length h) | None => false end.
Definition put (s : sref) (m : gomap K) (h : heap) : heap := match s with Some a => upd a m h | None => h end.
(** make(map), len(s), _, ok := s[k], s[k] = struct{}{}, delete(s, k). *)
Definition make_map : M heap sref := fun h => (Ok (Some (length h)), h ++ [g_empty]).
Definition len_map (s : sref) : M heap Z := fun h => (Ok (zlen (g_ents (look h s))), h).
Definition has_key (s : sref) (k : K) : M heap bool := fun h => (Ok (g_has k (look h s)), h).
Definition set_key (s : sref) (k : K) : M heap unit := fun h =>
  if allocated h s then (Ok tt, put s (g_set k (look h s)) h) else (Panic, h).
Definition del_key (s : sref) (k : K) : M heap unit := fun h => (Ok tt, put s (g_del k (look h s)) h).

(** for k := range s { body }.  Go: the order is not specified; each entry
    present at the start is produced once unless removed before its turn; an
    entry added by the body may be produced or not.  [o] is any list of entry
    identities (present, future, or neither); the loop goes through o without
    repetitions and then through the entries it does not list, skipping what is
    not in the map when its turn comes.  The body returns false to leave. *)
Definition rounds (o : list nat) (m : gomap K) : list nat := rev (nodup Nat.eq_dec (rev (o ++ ids m))).
Fixpoint range_loop {A} (s : sref) (body : A -> K -> M heap (bool * A)) (o : list nat) (a : A) : M heap A :=
  match o with
  | [] => ret a
  | i :: o' => fun h =>
    match g_find i (look h s) with
    | None => range_loop s body o' a h
    | Some (_, k) => (r <- body a k ;; if fst r then range_loop s body o' (snd r) else ret (snd r)) h
    end
  end.
Definition range {A} (s : sref) (o : list nat) (body : A -> K -> M heap (bool * A)) (a : A) : M heap A := fun h =>
  range_loop s body (rounds o (look h s)) a h.
(** A loop body with an effect and no value. *)
Definition do_each (f : K -> M heap unit) (_ : unit) (k : K) : M heap (bool * unit) := f k ;; ret (true, tt).

(** ** BuiltinSet *)
(** builtin_set.go:18-25 IsEmpty, Len. *)
Definition b_IsEmpty (s : sref) : M heap bool := n <- len_map s ;; ret (n =? 0).
Definition b_Len (s : sref) : M heap Z := len_map s.
(** builtin_set.go:28-32 Clear. *)
Definition b_Clear (s : sref) (o : list nat) : M heap unit := range s o (do_each (fun k => del_key s k)) tt.
(** builtin_set.go:35-38 Has. *)
Definition b_Has (s : sref) (k : K) : M heap bool := has_key s k.
(** builtin_set.go:41-45 Insert. *)
Definition b_Insert (s : sref) (k : K) : M heap bool := oldLen <- len_map s ;; set_key s k ;; n <- len_map s ;; ret (oldLen <? n).
(** builtin_set.go:48-54 InsertN. *)
Fixpoint set_keys (s : sref) (ks : list K) : M heap unit := match ks with [] => ret tt | k :: r => set_key s k ;; set_keys s r end.
Definition b_InsertN (s : sref) (ks : list K) : M heap Z := oldLen <- len_map s ;; set_keys s ks ;; n <- len_map s ;; ret (n - oldLen).
(** builtin_set.go:11-15 SetOf. *)
Definition SetOf (ks : list K) : M heap sref := s <- make_map ;; n <- b_InsertN s ks ;; ret s.
(** builtin_set.go:57-61 Remove, 65-67 Delete. *)
Definition b_Remove (s : sref) (k : K) : M heap bool := ok <- has_key s k ;; del_key s k ;; ret ok.
Definition b_Delete (s : sref) (k : K) : M heap unit := del_key s k.
(** builtin_set.go:70-76 RemoveN. *)
Fixpoint del_keys (s : sref) (ks : list K) : M heap unit := match ks with [] => ret tt | k :: r => del_key s k ;; del_keys s r end.
Definition b_RemoveN (s : sref) (ks : list K) : M heap Z := oldLen <- len_map s ;; del_keys s ks ;; n <- len_map s ;; ret (oldLen - n).
(** builtin_set.go:79-85 Keys. *)
Definition b_Keys (s : sref) (o : list nat) : M heap (list K) := range s o (fun keys k => ret (true, keys ++ [k])) [].
(** builtin_set.go:88-92 ForEach, 95-101 ForEachIf; the callback does not touch
    any set. *)
Definition b_ForEach {St} (s : sref) (o : list nat) (cb : St -> K -> St) (st : St) : M heap St := range s o (fun st k => ret (true, cb st k)) st.
Definition b_ForEachIf {St} (s : sref) (o : list nat) (cb : St -> K -> bool * St) (st : St) : M heap St :=
  range s o (fun st k => let '(go, st') := cb st k in if negb go then ret (false, st') else ret (true, st')) st.
(** builtin_set.go:109-113 Update. *)
Definition b_Update (s other : sref) (o : list nat) : M heap unit := range other o (do_each (fun k => set_key s k)) tt.
(** builtin_set.go:116-121 Union. *)
Definition b_Union (s other : sref) (o o' : list nat) : M heap sref :=
  result <- make_map ;; b_Update result s o ;; b_Update result other o' ;; ret result.
(** builtin_set.go:123-128 orderSet. *)
Definition orderSet (a b : sref) : M heap (sref * sref) := la <- b_Len a ;; lb <- b_Len b ;; if la <? lb then ret (a, b) else ret (b, a).
(** builtin_set.go:131-140 Intersection. *)
Definition b_Intersection (s other : sref) (o : list nat) : M heap sref :=
  result <- make_map ;;
  sl <- orderSet s other ;;
  range (fst sl) o (do_each (fun k => ok <- b_Has (snd sl) k ;; if ok then b <- b_Insert result k ;; ret tt else ret tt)) tt ;;
  ret result.
(** builtin_set.go:143-151 Difference. *)
Definition b_Difference (s other : sref) (o : list nat) : M heap sref :=
  result <- make_map ;;
  range s o (do_each (fun k => ok <- b_Has other k ;; if negb ok then b <- b_Insert result k ;; ret tt else ret tt)) tt ;;
  ret result.
(** builtin_set.go:155-163 IsDisjointOf; the value is true until return false. *)
Definition b_IsDisjointOf (s other : sref) (o : list nat) : M heap bool :=
  sl <- orderSet s other ;;
  range (fst sl) o (fun _ k => ok <- b_Has (snd sl) k ;; if ok then ret (false, false) else ret (true, true)) true.
(** builtin_set.go:166-176 IsSubsetOf. *)
Definition b_IsSubsetOf (s other : sref) (o : list nat) : M heap bool :=
  ls <- b_Len s ;; lo <- b_Len other ;;
  if lo <? ls then ret false else
  range s o (fun _ k => ok <- b_Has other k ;; if negb ok then ret (false, false) else ret (true, true)) true.
(** builtin_set.go:179-181 IsSupersetOf. *)
Definition b_IsSupersetOf (s other : sref) (o : list nat) : M heap bool := b_IsSubsetOf other s o.

Definition bset_step {St} (o : bop K St) : heap -> outcome (bres K St) * heap :=
  match o with
  | BSetOf ks => show BRef (SetOf ks)
  | BInsert s k => show BBool (b_Insert s k)
  | BInsertN s ks => show BInt (b_InsertN s ks)
  | BRemove s k => show BBool (b_Remove s k)
  | BRemoveN s ks => show BInt (b_RemoveN s ks)
  | BDelete s k => show (fun _ => BNone) (b_Delete s k)
  | BClear s o => show (fun _ => BNone) (b_Clear s o)
  | BUpdate s t o => show (fun _ => BNone) (b_Update s t o)
  | BHas s k => show BBool (b_Has s k)
  | BLen s => show BInt (b_Len s)
  | BIsEmpty s => show BBool (b_IsEmpty s)
  | BKeys s o => show BSeq (b_Keys s o)
  | BForEach s o cb st => show BSt (b_ForEach s o cb st)
  | BForEachIf s o cb st => show BSt (b_ForEachIf s o cb st)
  | BUnion s t o o' => show BRef (b_Union s t o o')
  | BIntersection s t o => show BRef (b_Intersection s t o)
  | BDifference s t o => show BRef (b_Difference s t o)
  | BDisjoint s t o => show BBool (b_IsDisjointOf s t o)
  | BSubset s t o => show BBool (b_IsSubsetOf s t o)
  | BSuperset s t o => show BBool (b_IsSupersetOf s t o)
  end.
End Map.
