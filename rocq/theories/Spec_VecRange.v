(** What clients of a Vector that also keep iterators over a part of it should see. *)
From Verif Require Import Base Spec Trace Model_Vector Spec_Vector Spec_Client Spec_VecClient.

(** The statements of Spec_Client.v, and it := v.IterateRange(i, j). *)
Inductive rop (C T : Type) := RStmt (o : iop C T) | RRange (i j : Z).
Arguments RStmt {C T}. Arguments RRange {C T}.
(** Clients of a list whose IterateRange(i, j) gives a position. *)
Definition rclient {C R T S P} (L : listing C R T S P) (range : Z -> Z -> M S P) (o : rop C T) : M (S * list P) (ires R T) :=
  match o with
  | RStmt o => client L o
  | RRange i j => p <- on_list (range i j) ;; declare p ;; ret IDone
  end.
(** How often the statements move the iterator in variable x. *)
Fixpoint rmoves {C T} (x : nat) (ops : list (rop C T)) : Z :=
  match ops with
  | [] => 0
  | RStmt o :: r => moves x [o] + rmoves x r
  | RRange _ _ :: r => rmoves x r
  end.

(** An iterator: the storage, the slots from lo on it runs over, and an index. *)
Record rpos := mkRP { rp_gen : nat; rp_lo : Z; rp_len : Z; rp_i : Z }.
Section World.
Context {T : Type}.
Variable zero : T.
Variable grow : Z -> Z -> Z.
Implicit Types w : vworld T.
Definition rw_slot w (p : rpos) : option T :=
  if (0 <=? rp_i p) && (rp_i p <? rp_len p) then zget (nth (rp_gen p) (storages w) []) (rp_lo p + rp_i p) else None.
Definition rw_write w (p : rpos) (v : T) : vworld T := vw_write w (mkVP (rp_gen p) (rp_lo p + rp_len p) (rp_lo p + rp_i p)) v.
Definition rw_spec : listing (vcall T) (obs T) T (vworld T) rpos := {|
  l_call := l_call (vw_spec zero grow);
  l_iterate := fun w => (Ok (mkRP (length (vw_old w)) 0 (vw_len w) 0), w);
  l_pointer p := fun w => match rw_slot w p with Some _ => (Ok tt, w) | None => (Panic, w) end;
  l_more p := ret (rp_i p <? rp_len p);
  l_next p := ret (mkRP (rp_gen p) (rp_lo p) (rp_len p) (wrap64 (rp_i p + 1)));
  l_value p := fun w => match rw_slot w p with Some v => (Ok v, w) | None => (Panic, w) end;
  l_store p v := fun w => match rw_slot w p with Some _ => (Ok tt, rw_write w p v) | None => (Panic, w) end |}.
(** Any part of the storage can be iterated over, also behind the vector's end. *)
Definition rw_range (i j : Z) : M (vworld T) rpos := fun w =>
  if (0 <=? i) && (i <=? j) && (j <=? room w) then (Ok (mkRP (length (vw_old w)) i (j - i) 0), w) else (Panic, w).
End World.
