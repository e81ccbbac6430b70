(** * Model of abcvoting/scores.py *)
From Coq Require Import List Arith Bool ZArith QArith Lia.
From Verif Require Import Prelude Misc Preferences.
Import ListNotations.
Open Scope nat_scope.

(** Identifiers accepted by [get_marginal_scorefct] (scores.py 27-61).
    Simplification: the parameter of "geomX" / "atleastN" is given as a number,
    not as the string that Python parses. *)
Inductive scorefct := Pav | Slav | Cc | Av | Geom (base : Q) | AtLeast (ell : Z).

(** Rational power with natural exponent, Python [base ** n]. *)
Fixpoint Qpow (b : Q) (n : nat) : Q := match n with 0 => 1%Q | S n' => (b * Qpow b n')%Q end.

(** scores.py 101-260: the marginal score functions; [marginal f i] is the score
    for the [i]-th approved member.  Simplification: [Fraction(1, 0)] (geom with
    base 0) is a ZeroDivisionError in Python and 0 here; every theorem about geom
    assumes a positive base. *)
Definition marginal (f : scorefct) (i : nat) : Q :=
  match f with
  | Pav => if i =? 0 then 0 else 1 / Qnat i
  | Slav => if i =? 0 then 0 else 1 / (2 * Qnat i - 1)
  | Cc => if i =? 1 then 1 else 0
  | Av => if 1 <=? i then 1 else 0
  | Geom base => if i =? 0 then 0 else 1 / Qpow base (i - 1)
  | AtLeast ell => if Z.eqb (Z.of_nat i) ell then 1 else 0
  end%Q.

(** scores.py 64-93, [thiele_score]: the accumulation loop. *)
Definition thiele_score (f : nat -> Q) (p : profile) (committee : list nat) : Q :=
  fold_left
    (fun score v =>
       snd (fold_left (fun st _ => let '(cnt, s) := st in
                                   (S cnt, (s + weight v * f (S cnt))%Q))
                      (inter (dedup committee) (approved v)) (0, score)))
    (voters p) 0%Q.

(** scores.py 268-289, [cumulative_score] *)
Definition cumulative_score (f : nat -> Q) (n : nat) : Q :=
  fold_left (fun s i => (s + f (i + 1)%nat)%Q) (seq 0 n) 0%Q.

(** scores.py 292-323, [marginal_thiele_scores_add] *)
Definition marginal_thiele_scores_add (f : nat -> Q) (p : profile) (committee : list nat)
  : list Q :=
  let marg :=
    fold_left (fun marg v =>
       let isz := length (inter (approved v) committee) in
       fold_left (fun marg cand => upd (fun x => x + weight v * f (isz + 1)%nat)%Q cand marg)
                 (approved v) marg)
      (voters p) (repeat 0%Q (num_cand p)) in
  fold_left (fun marg cand => upd (fun _ => (-1)%Q) cand marg) committee marg.

(** scores.py 326-360, [marginal_thiele_scores_remove] *)
Definition marginal_thiele_scores_remove (f : nat -> Q) (p : profile) (committee : list nat)
  : list Q :=
  let marg :=
    fold_left (fun marg v =>
       let sat := length (inter (approved v) committee) in
       fold_left (fun marg cand => upd (fun x => x + weight v * f sat)%Q cand marg)
                 (approved v) marg)
      (voters p) (repeat 0%Q (num_cand p)) in
  fold_left (fun marg cand =>
               if mem cand committee then marg
               else match py_max marg with
                    | Ok mx => upd (fun _ => mx + 1)%Q cand marg
                    | Err _ => marg (* unreachable: cand < num_cand = length marg *)
                    end)
            (candidates p) marg.

(** scores.py 478-500, [minimaxav_score] *)
Definition minimaxav_score (p : profile) (committee : list nat) : nat :=
  fold_left (fun score v => let h := hamming (approved v) committee in
                            if score <? h then h else score)
            (voters p) 0.

(** scores.py 503-523, [num_voters_with_upper_bounded_hamming_distance] *)
Definition num_voters_within (upperbound : nat) (p : profile) (committee : list nat) : nat :=
  length (filter (fun v => hamming (approved v) committee <=? upperbound) (voters p)).
