(** The comparison operators of the types allowed by Ordered in /repo/types.go
    (lines 25-36): integers, floats and strings.  Defined types (~) compare as
    their underlying types. *)
From Coq Require Import Floats.SpecFloat Strings.Byte.
From Verif Require Import Base Model_Compute.

(** types.go:5-23 Integer: the values of the type n, compared by [Z.ltb], [Z.eqb]. *)
Definition in_type (n : tname) (z : Z) : bool := wrap (kind_of n) z =? z.
Definition go_int (n : tname) : Type := { z : Z | in_type n z = true }.
Definition int_ltb {n} (a b : go_int n) : bool := proj1_sig a <? proj1_sig b.
Definition int_eqb {n} (a b : go_int n) : bool := proj1_sig a =? proj1_sig b.

(** types.go:25-30 Float: the floats of a format, with infinities and one NaN,
    compared as IEEE 754 says. *)
Definition go_float (prec emax : Z) : Type := { f : spec_float | valid_binary prec emax f = true }.
Definition float_ltb {p e} (a b : go_float p e) : bool := SFltb (proj1_sig a) (proj1_sig b).
Definition float_eqb {p e} (a b : go_float p e) : bool := SFeqb (proj1_sig a) (proj1_sig b).
Definition is_nan {p e} (a : go_float p e) : bool := match proj1_sig a with S754_nan => true | _ => false end.

(** types.go:36 string: a sequence of bytes, compared bytewise from the left. *)
Definition go_string : Type := list byte.
Definition byte_ltb (a b : byte) : bool := N.ltb (to_N a) (to_N b).
Definition byte_eqb (a b : byte) : bool := N.eqb (to_N a) (to_N b).
Fixpoint string_ltb (a b : go_string) : bool :=
  match a, b with
  | _, [] => false
  | [], _ :: _ => true
  | x :: a', y :: b' => if byte_ltb x y then true else if byte_ltb y x then false else string_ltb a' b'
  end.
Fixpoint string_eqb (a b : go_string) : bool :=
  match a, b with
  | [], [] => true
  | x :: a', y :: b' => byte_eqb x y && string_eqb a' b'
  | _, _ => false
  end.
