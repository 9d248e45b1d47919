(** Words with brackets of several kinds.  Definitions only. *)
From Verif Require Import Base.

Inductive symbol (B : Type) := Open (k : B) | Close (k : B) | Other.
Arguments Open {B}. Arguments Close {B}. Arguments Other {B}.

Section Brackets.
Context {B : Type}.
(** Every bracket is closed by one of its kind, and pairs do not cross. *)
Inductive balanced : list (symbol B) -> Prop :=
| balanced_nil : balanced []
| balanced_other w : balanced w -> balanced (Other :: w)
| balanced_pair k u w : balanced u -> balanced w -> balanced (Open k :: u ++ Close k :: w).
(** Something that begins like this is balanced. *)
Definition viable (w : list (symbol B)) : Prop := exists t, balanced (w ++ t).
End Brackets.
