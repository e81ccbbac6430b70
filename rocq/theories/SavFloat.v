(** * SAV scores as CPython computes them for [int] weights: IEEE binary64

    Coq's [SpecFloat] is a bit-exact specification of binary64 arithmetic,
    written with ordinary integers (no axioms). *)
From Coq Require Import List Arith Bool ZArith QArith SpecFloat.
From Verif Require Import Prelude Misc Preferences.
Import ListNotations.
Open Scope nat_scope.

(** binary64 *)
Definition prec64 : Z := 53.
Definition emax64 : Z := 1024.
Definition f64_of_Z (z : Z) : spec_float := binary_normalize prec64 emax64 z 0 false.
Definition f64_div (a b : spec_float) : spec_float := SFdiv prec64 emax64 a b.
Definition f64_add (a b : spec_float) : spec_float := SFadd prec64 emax64 a b.

(** the rational number a finite float stands for (comparison of finite floats is
    comparison of these numbers) *)
Definition Q_of_f64 (x : spec_float) : Q :=
  match x with
  | S754_finite s m e =>
      let z := if s then Zneg m else Zpos m in
      match e with
      | Z0 => inject_Z z
      | Zpos q => inject_Z (z * Z.pow 2 (Zpos q))
      | Zneg q => z # (Pos.pow 2 q)
      end
  | _ => 0%Q
  end.

(** abcrules.py 1915-1921: [score = [0] * num_cand], then
    [score[cand] += voter.weight / len(voter.approved)] with [int] weights.
    [int / int] is correctly rounded; for operands below 2^53, as here, this is
    the binary64 quotient of the operands.  [0 + x] is [x]. *)
Definition sav_f64 (p : profile) : list spec_float :=
  fold_left
    (fun a v =>
       let q := f64_div (f64_of_Z (Qnum (weight v))) (f64_of_Z (Z.of_nat (length (approved v)))) in
       fold_left (fun a c => upd (fun x => f64_add x q) c a) (approved v) a)
    (voters p) (repeat (S754_zero false) (num_cand p)).

Definition sav_f64_scores (p : profile) : list Q := map Q_of_f64 (sav_f64 p).
