(** Specification vocabulary for numeric functions: ranges of the integer
    types and the mathematical value of a float, by tables and by definition
    rather than through the model's wrap functions. *)
From Coq Require Import Floats.SpecFloat.
From Verif Require Import Base Model_Compute.

(** Smallest and largest value of an integer type. *)
Definition int_range (n : tname) : option (Z * Z) :=
  match n with
  | int8 => Some (-128, 127) | uint8 => Some (0, 255)
  | int16 => Some (-32768, 32767) | uint16 => Some (0, 65535)
  | int32 => Some (-2147483648, 2147483647) | uint32 => Some (0, 4294967295)
  | int | int64 => Some (-9223372036854775808, 9223372036854775807)
  | uint | uint64 | uintptr => Some (0, 18446744073709551615)
  | float32 | float64 => None
  end.
Definition is_int (n : tname) : Prop := int_range n <> None.
Definition fits (n : tname) (z : Z) : Prop :=
  match int_range n with Some (lo, hi) => lo <= z <= hi | None => False end.
(** 2^width: the number of values of the type. *)
Definition modulus (n : tname) : Z :=
  match int_range n with Some (lo, hi) => hi - lo + 1 | None => 0 end.

Definition zsum (l : list Z) : Z := fold_right Z.add 0 l.
(** Every prefix of l sums to something of magnitude at most b, as does every
    element. *)
Definition sums_within (b : Z) (l : list Z) : Prop :=
  (forall x, In x l -> Z.abs x <= b) /\ (forall pre post, l = pre ++ post -> Z.abs (zsum pre) <= b).

(** f is a finite number of the format. *)
Definition finite_float (prec emax : Z) (f : spec_float) : Prop :=
  match f with S754_zero _ => True | S754_finite _ m e => valid_binary prec emax f = true | _ => False end.
(** The value of f is the integer z: (-1)^s * m * 2^e = z. *)
Definition value_is (f : spec_float) (z : Z) : Prop :=
  match f with
  | S754_zero _ => z = 0
  | S754_finite s m e =>
      let sm := if s then Zneg m else Zpos m in
      if 0 <=? e then z = sm * 2 ^ e else sm = z * 2 ^ (- e)
  | _ => False
  end.
(** |f| <= z and |f| >= z. *)
Definition abs_le (f : spec_float) (z : Z) : Prop :=
  match f with
  | S754_zero _ => 0 <= z
  | S754_finite _ m e => if 0 <=? e then Zpos m * 2 ^ e <= z else Zpos m <= z * 2 ^ (- e)
  | _ => False
  end.
Definition ge_int (f : spec_float) (z : Z) : Prop :=
  match f with
  | S754_zero _ => z <= 0
  | S754_finite false m e => if 0 <=? e then z <= Zpos m * 2 ^ e else z * 2 ^ (- e) <= Zpos m
  | S754_finite true m e => False
  | _ => False
  end.
(** Precision and largest exponent of the float types; integers up to
    2^precision are exact. *)
Definition float_format (n : tname) : option (Z * Z) :=
  match n with float32 => Some (24, 128) | float64 => Some (53, 1024) | _ => None end.

(** l is first, first+1, ..., last-1. *)
Definition int_sequence (first last : Z) (l : list Z) : Prop :=
  zlen l = Z.max 0 (last - first) /\ forall i, 0 <= i < zlen l -> zget l i = Some (first + i).
