(** * Specification of the rounding used by the algorithm "float-fractions", and of elections that are decided up to a small margin *)
From Coq Require Import String.
From Coq Require Import List Arith Bool ZArith QArith Qabs.
From Verif Require Import Prelude Misc Preferences Spec SpecSeq SpecAll Floats.
Import ListNotations.
Local Open Scope string_scope.
Open Scope nat_scope.
Local Open Scope list_scope.

(** unit roundoff of binary64: 2^-53 *)
Definition unit_roundoff : Q := 1 # 9007199254740992.
(** [grow n] = [(1 / (1 - unit_roundoff)) ^ n], the factor by which [n] roundings can change a positive number *)
Fixpoint grow (n : nat) : Q := match n with 0 => 1%Q | S n => (grow n * (/ (1 - unit_roundoff)))%Q end.
(** [a] is obtained from [x >= 0] by at most [n] roundings *)
Definition within (n : nat) (a x : Q) : Prop := (0 <= x /\ x <= a * grow n /\ a <= x * grow n)%Q.

(** What is assumed of the machine's arithmetic.  IEEE 754 binary64 (without overflow and underflow) and CPython's [sum] satisfy this. *)
Record float_ok (A : arith) : Prop := {
  (** rounding has a relative error of at most 2^-53, *)
  rounding_error : forall x, (Qabs (rnd A x - x) <= unit_roundoff * Qabs x)%Q;
  (** is monotone *)
  rounding_monotone : forall x y, (x <= y)%Q -> (rnd A x <= rnd A y)%Q;
  (** and leaves floats alone; *)
  rounding_idempotent : forall x, (rnd A (rnd A x) == rnd A x)%Q;
  (** integers up to a million are floats; *)
  rounding_integers : forall n, (Z.of_nat n <= 1000000)%Z -> (rnd A (Qnat n) == Qnat n)%Q;
  (** sums of integers and fractions are exact, *)
  sum_exact : forall l, Forall (fun x => kind_of x <> KFloat) l -> (val (nsum A l) == Qsum (map val l))%Q;
  (** a sum of nonnegative numbers has a small relative error, *)
  sum_within : forall l, Forall (fun x => 0 <= val x)%Q l -> within (S (length l)) (val (nsum A l)) (Qsum (map val l));
  (** and every sum has an error that is small relative to the sum of the absolute values *)
  sum_error : forall l, (Qabs (val (nsum A l) - Qsum (map val l)) <= (grow (S (length l)) - 1) * Qsum (map (fun x => Qabs (val x)) l))%Q;
  (** a sum is a float if one of the numbers is *)
  sum_kind : forall l, Forall (fun x => kind_of x = KFloat -> (rnd A (val x) == val x)%Q) l ->
     kind_of (nsum A l) = KFloat -> (rnd A (val (nsum A l)) == val (nsum A l))%Q
}.

(** ** Sequential Phragmén, up to a margin [delta]: the new load of the chosen candidate exceeds the smallest possible one by at most
    a factor [1 + delta] and an additional [delta] *)
Definition close_phragmen_choice (p : profile) (delta : Q) (W : list nat) (load : nat -> Q) (c : nat) : Prop :=
  fresh p W c /\
  if (0 <? length (fans p c)) then
    forall d, fresh p W d -> fans p d <> [] -> (new_load p load c <= (1 + delta) * new_load p load d + delta)%Q
  else forall d, fresh p W d -> fans p d = [].
Definition close_phragmen_winner (p : profile) (delta : Q) : nat -> list nat -> Prop :=
  run_winner p (close_phragmen_choice p delta) (phragmen_update p) [] (fun _ => 0%Q).

(** the margin: twice the absolute tolerance of [misc.isclose] *)
Definition phragmen_margin : Q := 2 # 1000000000000.
(** Elections in which rounding errors stay below that tolerance: all weights are at least 1, and there are not too many voters and seats. *)
Definition small_election (p : profile) (k : nat) : Prop :=
  (forall v, In v (voters p) -> (1 <= weight v)%Q) /\ (Z.of_nat (k * (length (voters p) + 9)) <= 4400)%Z.

(** [default_rule A p k id Q]: the rule [id], whose default algorithm is "float-fractions", in the elections for which
    it is specified with the arithmetic [A]; every winning committee has [Q]. *)
Inductive default_rule (A : arith) (p : profile) (k : nat) : string -> (list nat -> Prop) -> Prop :=
| d_seqphragmen : float_ok A -> small_election p k -> default_rule A p k "seqphragmen" (is_committee p k)
| d_mes_phragmen : forall id, float_ok A -> small_election p k ->
    In id ["rule-x"; "equal-shares"; "equal-shares-with-seqphragmen-completion"] -> default_rule A p k id (is_committee p k)
| d_mes_av : default_rule A p k "equal-shares-with-av-completion" (is_committee p k)
| d_mes_none : forall id,
    In id ["rule-x-without-phragmen-phase"; "equal-shares-without-phragmen-phase"; "equal-shares-without-completion"] ->
    default_rule A p k id (is_small_committee p k)
| d_enestroem : default_rule A p k "phragmen-enestroem" (is_committee p k)
| d_consensus : default_rule A p k "consensus-rule" (is_committee p k)
| d_eph : 2 <= num_cand p -> default_rule A p k "eph" (is_committee p k).

(** No near ties: whenever a candidate is within the margin of the best one, it ties with it exactly. *)
Definition no_near_ties (p : profile) (k : nat) : Prop := forall L x c,
  runs_from p (phragmen_choice p) (phragmen_update p) [] (fun _ => 0%Q) L x -> length L < k ->
  close_phragmen_choice p phragmen_margin L x c -> phragmen_choice p L x c.
(** positive integer weights *)
Definition integer_weights (p : profile) : Prop :=
  forall v, In v (voters p) -> exists n : nat, 1 <= n /\ (weight v == Qnat n)%Q.
