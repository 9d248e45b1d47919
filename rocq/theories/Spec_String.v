(** Texts of elements. *)
From Coq Require Import String Ascii.
From Coq Require DecimalString.
From Verif Require Import Base.

(** The reflect contract: the name of *T is a star and the name of T. *)
Definition names_type (tname name : string) : Prop := tname = ("*" ++ name)%string.
Definition has_space (s : string) : Prop := In " "%char (list_ascii_of_string s).
(** Texts that are never empty, have no space and tell different elements apart. *)
Definition telling {K} (eqb : K -> K -> bool) (show : K -> string) : Prop :=
  (forall k, show k <> ""%string /\ ~ has_space (show k)) /\ forall a b, show a = show b -> eqb a b = true.
(** Equal elements have equal texts. *)
Definition respects {K} (eqb : K -> K -> bool) (show : K -> string) : Prop := forall a b, eqb a b = true -> show a = show b.
(** The decimal text of an integer, as fmt prints it. *)
Definition decimal (z : Z) : string := DecimalString.NilZero.string_of_int (Z.to_int z).
