(** Model of /repo/compute.go (SumAs, Sum, AverageAs, Average) and of Range in
    /repo/generate.go over Go's numeric types.

    Integers are mathematical integers reduced to the type's width after every
    operation.  float32 and float64 are IEEE 754 numbers of the standard
    library's [SpecFloat] (round to nearest, ties to even).  int, uint and
    uintptr are 64 bits wide.  Converting a float outside the range of an
    integer type is implementation-defined in Go: here an arbitrary function
    [ftoi], whose result is reduced to the target type. *)
From Coq Require Import Floats.SpecFloat.
From Verif Require Import Base.

(** The predeclared types allowed by Numeric (types.go:5-43). *)
Inductive tname :=
  | int | int8 | int16 | int32 | int64
  | uint | uint8 | uint16 | uint32 | uint64 | uintptr
  | float32 | float64.
(** A type is a predeclared one, or a defined type (type X int64) with that
    underlying type: the constraints use ~. *)
Record gotype := { under : tname; is_defined : bool }.
Definition plain (n : tname) : gotype := {| under := n; is_defined := false |}.
Definition defined (n : tname) : gotype := {| under := n; is_defined := true |}.

Inductive kind := Signed (bits : Z) | Unsigned (bits : Z) | Float (prec emax : Z).
Definition kind_of (n : tname) : kind :=
  match n with
  | int | int64 => Signed 64 | int8 => Signed 8 | int16 => Signed 16 | int32 => Signed 32
  | uint | uint64 | uintptr => Unsigned 64 | uint8 => Unsigned 8 | uint16 => Unsigned 16 | uint32 => Unsigned 32
  | float32 => Float 24 128 | float64 => Float 53 1024
  end.

(** Values. *)
Inductive num := I (z : Z) | F (f : spec_float).

Definition wrap (k : kind) (z : Z) : Z :=
  match k with
  | Signed b => (z + 2 ^ (b - 1)) mod 2 ^ b - 2 ^ (b - 1)
  | Unsigned b => z mod 2 ^ b
  | Float _ _ => z
  end.

(** The integer part of a finite float. *)
Definition trunc (f : spec_float) : option Z :=
  match f with
  | S754_zero _ => Some 0
  | S754_finite s m e =>
      let a := if 0 <=? e then Zpos m * 2 ^ e else Zpos m / 2 ^ (- e) in
      Some (if s then - a else a)
  | _ => None
  end.

(** Rounding to a format. *)
Definition round_float (prec emax : Z) (f : spec_float) : spec_float :=
  match f with S754_finite s m e => binary_round prec emax s m e | _ => f end.

Section Conversions.
Variable ftoi : spec_float -> Z.

(** Conversion T(v). *)
Definition conv (n : tname) (v : num) : num :=
  match kind_of n, v with
  | Float p e, I z => F (binary_normalize p e z 0 false)
  | Float p e, F f => F (round_float p e f)
  | k, I z => I (wrap k z)
  | k, F f => I (match trunc f with
                 | Some z => if wrap k z =? z then z else wrap k (ftoi f)
                 | None => wrap k (ftoi f)
                 end)
  end.

(** a + b, a - b, a < b, a / b in type n. *)
Definition add (n : tname) (a b : num) : num :=
  match kind_of n, a, b with
  | Float p e, F x, F y => F (SFadd p e x y)
  | k, I x, I y => I (wrap k (x + y))
  | _, _, _ => a
  end.
Definition sub (n : tname) (a b : num) : num :=
  match kind_of n, a, b with
  | Float p e, F x, F y => F (SFsub p e x y)
  | k, I x, I y => I (wrap k (x - y))
  | _, _, _ => a
  end.
Definition lt (a b : num) : bool :=
  match a, b with I x, I y => x <? y | F x, F y => SFltb x y | _, _ => false end.
(** Integer division truncates toward zero and panics on a zero divisor. *)
Definition div (n : tname) (a b : num) : outcome num :=
  match kind_of n, a, b with
  | Float p e, F x, F y => Ok (F (SFdiv p e x y))
  | k, I x, I y => if y =? 0 then Panic else Ok (I (wrap k (Z.quot x y)))
  | _, _, _ => Panic
  end.

(** compute.go:9-13, 15-19, 21-25: var total acc; for _, v := range a { total += acc(v) }. *)
Definition zero_of (n : tname) : num := conv n (I 0).
Definition sum_loop (acc : tname) (a : list num) : num :=
  fold_left (fun total v => add acc total (conv acc v)) a (zero_of acc).

(** compute.go:7: the type switch sees a defined type as none of the cases. *)
Definition sum_type (T : gotype) : tname :=
  if is_defined T then float64 else
  match under T with
  | int8 | int16 | int32 | int | int64 => int64
  | uint8 | uint16 | uint32 | uint | uint64 | uintptr => uint64
  | float32 | float64 => float64
  end.
(** compute.go:6-27 SumAs. *)
Definition SumAs (R T : gotype) (a : list num) : num := conv (under R) (sum_loop (sum_type T) a).
(** compute.go:32-34 Sum. *)
Definition Sum (T : gotype) (a : list num) : num := SumAs T T a.

(** compute.go:37-39 AverageAs. *)
Definition AverageAs (R T : gotype) (a : list num) : outcome num :=
  div (under R) (SumAs R T a) (conv (under R) (I (zlen a))).

(** compute.go:42-54 Average. *)
Definition Average (T : gotype) (a : list num) : outcome num :=
  if is_defined T then AverageAs T T a else
  match under T with
  | int | int8 | uint8 | int16 | uint16 | int32 | uint32 =>
      omap (conv (under T)) (AverageAs (plain int64) T a)
  | uint64 => omap (conv (under T)) (AverageAs (plain uint64) T a)
  | float32 | float64 => omap (conv (under T)) (AverageAs (plain float64) T a)
  | _ => AverageAs T T a
  end.

(** generate.go:9-11: for v := first; v < last; v++ { a = append(a, v) }.  The
    slice was just made, nobody else sees it: it is the list of its contents.
    The loop may run forever for floats, so fuel is an argument. *)
Fixpoint Range_loop (fuel : nat) (n : tname) (v last : num) (a : list num) : outcome (list num) :=
  if lt v last then
    match fuel with
    | O => NoFuel
    | S fuel' => Range_loop fuel' n (add n v (conv n (I 1))) last (a ++ [v])
    end
  else Ok a.
(** generate.go:7-13 Range.  make panics on a negative capacity; an allocation
    too large for the machine is not modelled. *)
Definition Range (fuel : nat) (T : gotype) (first last : num) : outcome (list num) :=
  match conv int (sub (under T) last first) with
  | I c => if c <? 0 then Panic else Range_loop fuel (under T) first last []
  | F _ => Panic
  end.
End Conversions.
