(** * Model of Python's numbers as used by the algorithm "float-fractions"

    A number is an [int], a [Fraction] or a [float]; the operations follow CPython's rules for mixed operands: [int] and [Fraction] are
    exact, [int / int] is a correctly rounded float, and an operation with a float converts the other operand to a float and rounds the
    result.  A float is represented by its value, a rational number; rounding is a parameter ([rnd]).
    Simplification: floats do not overflow, underflow or become NaN (all magnitudes in these algorithms are moderate). *)
From Coq Require Import List Arith Bool ZArith QArith Qabs Qround Qpower.
From Verif Require Import Prelude Misc Preferences.
Import ListNotations.
Open Scope nat_scope.

Inductive kind := KInt | KFrac | KFloat.
Record num := mkNum { kind_of : kind; val : Q }.
Definition num_of_nat (n : nat) : num := mkNum KInt (Qnat n).
(** [voter.weight]: an [int] or a [Fraction] (preferences.py 246-278) *)
Definition weight_num (v : voter) : num := mkNum (if weight_is_int v then KInt else KFrac) (weight v).

(** [rnd]: the float nearest to a number; [nsum]: the builtin [sum] of a list of numbers (since Python 3.12 it compensates rounding errors,
    before it adds one by one) *)
Record arith := mkArith { rnd : Q -> Q; nsum : list num -> num }.

Section Arith.
  Variable A : arith.

  (** [float(x)] *)
  Definition to_float (x : num) : Q := match kind_of x with KFloat => val x | _ => rnd A (val x) end.
  Definition join_kind (a b : kind) : kind :=
    match a, b with KFloat, _ | _, KFloat => KFloat | KInt, KInt => KInt | _, _ => KFrac end.
  Definition arith_op (op : Q -> Q -> Q) (x y : num) : num :=
    match join_kind (kind_of x) (kind_of y) with
    | KFloat => mkNum KFloat (rnd A (op (to_float x) (to_float y)))
    | k => mkNum k (op (val x) (val y))
    end.
  Definition nadd : num -> num -> num := arith_op Qplus.
  Definition nsub : num -> num -> num := arith_op Qminus.
  Definition nmul : num -> num -> num := arith_op Qmult.
  (** [x / y]; in the algorithms below the divisor is guarded or an exact sum of positive weights, so that no
      ZeroDivisionError is raised (Coq: x / 0 = 0) *)
  Definition ndiv (x y : num) : num :=
    match kind_of x, kind_of y with
    | KInt, KInt => mkNum KFloat (rnd A (val x / val y)%Q)
    | _, _ => arith_op Qdiv x y
    end.
  Definition nneg (x : num) : num := mkNum (kind_of x) (- val x)%Q.

  (** comparisons are exact, also between different types *)
  Definition nlt (x y : num) : bool := Qltb (val x) (val y).
  Definition nle (x y : num) : bool := Qle_bool (val x) (val y).
  (** [min(x, y)], [min(l)], [max(l)]: the first extremal entry *)
  Definition nmin2 (x y : num) : num := if nlt y x then y else x.
  Fixpoint nminl (x : num) (l : list num) : num :=
    match l with [] => x | y :: r => nminl (if nlt y x then y else x) r end.
  Fixpoint nmaxl (x : num) (l : list num) : num :=
    match l with [] => x | y :: r => nmaxl (if nlt x y then y else x) r end.
  Definition nmin (l : list num) : result num := match l with [] => Err ValueError | x :: r => Ok (nminl x r) end.
  Definition nmax (l : list num) : result num := match l with [] => Err ValueError | x :: r => Ok (nmaxl x r) end.

  (** misc.py 11, 18: 1e-12 *)
  Definition TOLERANCE : Q := rnd A (1 # 1000000000000).
  (** misc.py 426-439, [isclose]; [math.isclose] converts its arguments to floats and computes with floats
      (CPython, mathmodule.c: [diff <= fabs(rel_tol * b) || diff <= fabs(rel_tol * a) || diff <= abs_tol]) *)
  Definition isclose (x y : num) : bool :=
    let a := to_float x in
    let b := to_float y in
    if Qeq_bool a b then true
    else let diff := Qabs (rnd A (b - a)%Q) in
         Qle_bool diff (Qabs (rnd A (TOLERANCE * b)%Q)) || Qle_bool diff (Qabs (rnd A (TOLERANCE * a)%Q)) || Qle_bool diff TOLERANCE.
End Arith.

(** [x] as an entry of a Python list *)
Definition nth_num (l : list num) (i : nat) : num := nth i l (mkNum KInt 0%Q).

(** ** A concrete instance: binary64 (53 bits, round half to even) without bounds on the exponent; [sum] adds one by one *)
Definition half_even (x : Q) : Z :=
  let f := Qround.Qfloor x in
  let r := (x - inject_Z f)%Q in
  if Qltb r (1 # 2) then f else if Qltb (1 # 2) r then (f + 1)%Z else if Z.even f then f else (f + 1)%Z.
Definition two_power (e : Z) : Q := Qpower 2 e.
(** the exponent of the last bit of a positive number: [2^52 <= x / 2^e < 2^53] *)
Definition last_bit (x : Q) : Z :=
  let l := (Z.log2 (Qnum x) - Z.log2 (Zpos (Qden x)))%Z in
  if Qle_bool (two_power l) x then (l - 52)%Z else (l - 53)%Z.
Definition round_positive (x : Q) : Q :=
  let e := last_bit x in (inject_Z (half_even (x / two_power e)) * two_power e)%Q.
Definition round64 (x : Q) : Q :=
  Qred (if Qltb 0 x then round_positive x else if Qltb x 0 then - round_positive (- x) else 0)%Q.
Definition sum64 (l : list num) : num := fold_left (nadd (mkArith round64 (fun _ => mkNum KInt 0%Q))) l (mkNum KInt 0%Q).
Definition binary64 : arith := mkArith round64 sum64.
