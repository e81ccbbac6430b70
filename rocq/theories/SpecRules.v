(** * Specifications of the sequential rules, independent of the algorithms *)
From Coq Require Import List Arith Bool ZArith QArith Lia Permutation Sorted.
From Verif Require Import Prelude Misc Preferences Spec.
Import ListNotations.
Open Scope nat_scope.

(** ** Greedy (sequential) Thiele methods *)

(** [c] is a best candidate to add to [W]. *)
Definition best_addition (f : nat -> Q) (p : profile) (W : list nat) (c : nat) : Prop :=
  c < num_cand p /\ ~ In c W /\
  forall d, d < num_cand p -> ~ In d W -> (Thiele f p (d :: W) <= Thiele f p (c :: W))%Q.

(** [greedy_run f p L]: [L] lists candidates, last chosen first, each a best
    addition to the candidates chosen before it. *)
Inductive greedy_run (f : nat -> Q) (p : profile) : list nat -> Prop :=
| greedy_nil : greedy_run f p []
| greedy_cons : forall W c, greedy_run f p W -> best_addition f p W c -> greedy_run f p (c :: W).

(** committees that some way of breaking ties selects *)
Definition seq_thiele_winner (f : nat -> Q) (p : profile) (k : nat) (W : list nat) : Prop :=
  exists L, greedy_run f p L /\ length L = k /\ W = isort L.

(** ... and with ties broken towards the lowest-numbered candidate *)
Inductive greedy_run_lex (f : nat -> Q) (p : profile) : list nat -> Prop :=
| greedy_lex_nil : greedy_run_lex f p []
| greedy_lex_cons : forall W c, greedy_run_lex f p W -> best_addition f p W c ->
    (forall d, best_addition f p W d -> c <= d) -> greedy_run_lex f p (c :: W).

(** ** Reverse sequential Thiele methods *)

Definition without (c : nat) (W : list nat) : list nat := filter (fun d => negb (d =? c)) W.

(** [c] is a member of [W] whose removal decreases the score least. *)
Definition best_removal (f : nat -> Q) (p : profile) (W : list nat) (c : nat) : Prop :=
  In c W /\ forall d, In d W -> (Thiele f p (without d W) <= Thiele f p (without c W))%Q.

Inductive removal_run (f : nat -> Q) (p : profile) : list nat -> Prop :=
| removal_start : removal_run f p (seq 0 (num_cand p))
| removal_step : forall W c, removal_run f p W -> best_removal f p W c ->
    removal_run f p (without c W).

Definition revseq_winner (f : nat -> Q) (p : profile) (k : nat) (W : list nat) : Prop :=
  removal_run f p W /\ length W = k.

(** ties broken towards removing the highest-numbered candidate *)
Inductive removal_run_last (f : nat -> Q) (p : profile) : list nat -> Prop :=
| removal_last_start : removal_run_last f p (seq 0 (num_cand p))
| removal_last_step : forall W c, removal_run_last f p W -> best_removal f p W c ->
    (forall d, best_removal f p W d -> d <= c) -> removal_run_last f p (without c W).

(** ** lexcc: the vector whose entry [i] is the total weight of voters with at
    least [i] approved members, compared lexicographically *)
Definition at_least_weight (p : profile) (W : list nat) (i : nat) : Q :=
  wsum (filter (fun v => i <=? util v W) (voters p)).

(** [lex_ge k x y]: vectors x, y (positions 1..k): x is lexicographically at least y *)
Definition lex_ge (k : nat) (x y : nat -> Q) : Prop :=
  (forall i, 1 <= i <= k -> (x i == y i)%Q) \/
  exists i, 1 <= i <= k /\ (y i < x i)%Q /\ forall j, 1 <= j < i -> (x j == y j)%Q.

Definition lexcc_winner (p : profile) (k : nat) (W : list nat) : Prop :=
  is_committee p k W /\ forall W', is_committee p k W' ->
    lex_ge k (at_least_weight p W) (at_least_weight p W').

(** ** minimax AV *)
(** size of the symmetric difference *)
Definition distance (A W : list nat) : nat := length (diff A W) + length (diff W A).
Definition max_distance (p : profile) (W : list nat) (d : nat) : Prop :=
  (forall v, In v (voters p) -> distance (approved v) W <= d) /\
  (voters p <> [] -> exists v, In v (voters p) /\ distance (approved v) W = d) /\
  (voters p = [] -> d = 0).
Definition minimaxav_winner (p : profile) (k : nat) (W : list nat) : Prop :=
  is_committee p k W /\ forall W' d d', is_committee p k W' ->
    max_distance p W d -> max_distance p W' d' -> d <= d'.

(** ** lexicographic minimax AV: compare the number of voters at distance
    [>= d], for the largest distance first *)
Definition voters_at_least (p : profile) (W : list nat) (d : nat) : nat :=
  length (filter (fun v => d <=? distance (approved v) W) (voters p)).
(** W is lexicographically at most as bad as W' *)
Definition lexmin_le (p : profile) (W W' : list nat) : Prop :=
  (forall d, voters_at_least p W d = voters_at_least p W' d) \/
  exists d, voters_at_least p W d < voters_at_least p W' d /\
            forall e, d < e -> voters_at_least p W e = voters_at_least p W' e.
Definition lexminimaxav_winner (p : profile) (k : nat) (W : list nat) : Prop :=
  is_committee p k W /\ forall W', is_committee p k W' -> lexmin_le p W W'.
