(** * Specification vocabulary, independent of the algorithms

    Everything here is defined directly from the mathematical definitions used
    in the library's documentation (Lackner & Skowron, "Multi-Winner Voting with
    Approval Preferences").  The only model types used are [profile] and [voter]. *)
From Coq Require Import String.
From Coq Require Import List Arith Bool ZArith QArith Lia Permutation Sorted.
From Verif Require Import Prelude Misc Preferences.
Import ListNotations.
Open Scope nat_scope.

(** A profile that the [Profile] class can hold: at least one candidate, approval
    sets without repetition and in range, positive weights. *)
Definition wf_voter (m : nat) (v : voter) : Prop :=
  NoDup (approved v) /\ Forall (fun c => c < m) (approved v) /\ (0 < weight v)%Q.
Definition wf (p : profile) : Prop :=
  0 < num_cand p /\ Forall (wf_voter (num_cand p)) (voters p).
Definition unit_weights (p : profile) : Prop :=
  Forall (fun v => weight v == 1)%Q (voters p).

(** All weights are Python [Fraction]s (exact arithmetic throughout). *)
Definition fraction_weights (p : profile) : Prop :=
  Forall (fun v => weight_is_int v = false) (voters p).

(** A committee of [k] candidates, as the ascending list of its members. *)
Definition is_committee (p : profile) (k : nat) (W : list nat) : Prop :=
  ascending W /\ length W = k /\ Forall (fun c => c < num_cand p) W.

(** Number of approved members. *)
Definition util (v : voter) (W : list nat) : nat := length (inter (approved v) W).

Definition approves (v : voter) (c : nat) : bool := mem c (approved v).
Definition supporters (p : profile) (c : nat) : list voter :=
  filter (fun v => approves v c) (voters p).
Definition wsum (vs : list voter) : Q := Qsum (map weight vs).
(** Total weight of the voters approving [c]. *)
Definition support (p : profile) (c : nat) : Q := wsum (supporters p c).

(** SAV score of [c]: every voter splits its weight over its approved candidates. *)
Definition sav_support (p : profile) (c : nat) : Q :=
  Qsum (map (fun v => weight v / Qnat (length (approved v)))%Q (supporters p c)).

(** Thiele score with marginals [f 1, f 2, ...]. *)
Definition Thiele (f : nat -> Q) (p : profile) (W : list nat) : Q :=
  Qsum (map (fun v => weight v * Qsum (map f (seq 1 (util v W))))%Q (voters p)).

(** Committees with the largest [score] among all committees of size [k]. *)
Definition maximises (score : list nat -> Q) (p : profile) (k : nat) (W : list nat) : Prop :=
  is_committee p k W /\ forall W', is_committee p k W' -> (score W' <= score W)%Q.

(** Lists of committees are printed-order sorted. *)
Definition in_printed_order : list (list nat) -> Prop :=
  StronglySorted (fun a b => str_leb (str_set_of_candidates a) (str_set_of_candidates b) = true).

(** The contract of a [compute_*] function whose winning committees are [P]:
    no exception, no repetition, sorted, only winners; one committee if
    [resolute]; otherwise all winners, cut off at [max_num_of_committees]. *)
Definition answers (P : list nat -> Prop) (resolute : bool) (maxn : option nat)
           (r : result (list (list nat))) : Prop :=
  exists l, r = Ok l /\ NoDup l /\ in_printed_order l /\ (forall W, In W l -> P W) /\
    if resolute then length l = 1
    else match maxn with
         | None => forall W, P W -> In W l
         | Some n => length l <= n /\ (length l < n -> forall W, P W -> In W l)
         end.

(** [set_same a b]: the same set of candidates. *)
Definition set_same (a b : list nat) : Prop := forall x, In x a <-> In x b.

(** A call of a [compute_*] function with legal parameters: a profile with at
    least one voter, a feasible committee size, and [max_num_of_committees]
    either absent or a positive integer (and absent if [resolute]). *)
Definition valid_call (p : profile) (k : nat) (resolute : bool) (maxn : option pyobj) : Prop :=
  wf p /\ voters p <> [] /\ 1 <= k <= num_cand p /\
  match maxn with
  | None => True
  | Some (PyInt z) => (1 <= z)%Z /\ resolute = false
  | Some (PyOther _) => False
  end.

(** the bound that [max_num_of_committees] imposes *)
Definition limit (maxn : option pyobj) : option nat :=
  match maxn with Some (PyInt z) => Some (Z.to_nat z) | _ => None end.

(** The marginal score functions of the Thiele methods, for i = 1, 2, ... *)
Definition pav_w (i : nat) : Q := (1 / Qnat i)%Q.
Definition slav_w (i : nat) : Q := (1 / (2 * Qnat i - 1))%Q.
Definition cc_w (i : nat) : Q := (if i =? 1 then 1 else 0)%Q.
Definition av_w (i : nat) : Q := 1%Q.
Definition geom_w (b : Q) (i : nat) : Q := (1 / Qpower b (Z.of_nat i - 1))%Q.
(** 1 for the [ell]-th approved member only; Thiele score = weight of voters with
    at least [ell] approved members (for [ell >= 1]) *)
Definition atleast_w (ell : Z) (i : nat) : Q := (if Z.eqb (Z.of_nat i) ell then 1 else 0)%Q.
