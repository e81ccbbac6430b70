(** * What Random Serial Dictator and E Pluribus Hugo compute *)
From Coq Require Import List Arith Bool ZArith QArith Lia Permutation.
From Verif Require Import Prelude Misc Preferences Spec RulesMore.
Import ListNotations.
Open Scope nat_scope.

(** ** Random Serial Dictator *)

(** the first occurrences of the elements of a list *)
Fixpoint firsts (l : list nat) : list nat :=
  match l with [] => [] | x :: r => x :: remove Nat.eq_dec x (firsts r) end.
(** the candidates in the order in which the dictators [order] name them: each
    dictator its approved candidates, smaller index first *)
Definition wish_list (order : list voter) : list nat := firsts (flat_map (fun v => isort (approved v)) order).
(** the outcome for one order of dictators: the first [k] candidates named; if fewer
    than [k] are named, all of them and some others *)
Definition serial_outcome (p : profile) (k : nat) (order : list voter) (W : list nat) : Prop :=
  is_committee p k W /\
  if k <=? length (wish_list order) then W = isort (firstn k (wish_list order)) else incl (wish_list order) W.
Definition rsd_outcome (p : profile) (k : nat) (W : list nat) : Prop :=
  exists order, Permutation order (voters p) /\ serial_outcome p k order W.

(** [random.shuffle] permutes the list; [random.sample] takes [n] different
    positions of a list of at least [n] elements *)
Definition random_ok (rnd : random) : Prop :=
  (forall l, Permutation (shuffle rnd l) l) /\
  (forall l n, n <= length l -> length (sample rnd l n) = n /\ exists rest, Permutation (sample rnd l n ++ rest) l).

(** ** E Pluribus Hugo *)

(** every voter divides its weight among the remaining candidates it approves *)
Definition points (p : profile) (R : list nat) (c : nat) : Q :=
  Qsum (map (fun v => weight v / Qnat (length (inter R (approved v))))%Q (supporters p c)).
(** fewer than two candidates have fewer points *)
Definition weak (p : profile) (R : list nat) (c : nat) : Prop :=
  In c R /\ forall d d', In d R -> In d' R -> (points p R d < points p R c)%Q -> (points p R d' < points p R c)%Q -> d = d'.
(** the least approved ones among the weak candidates *)
Definition eliminated (p : profile) (R : list nat) (c : nat) : Prop :=
  weak p R c /\ forall d, weak p R d -> (support p c <= support p d)%Q.

(** [eph_reaches p k R]: [R] remains after some rounds, in each of which all
    candidates to be eliminated were eliminated and more than [k] were left *)
Inductive eph_reaches (p : profile) (k : nat) : list nat -> Prop :=
| eph_start : eph_reaches p k (seq 0 (num_cand p))
| eph_round : forall R R', eph_reaches p k R -> ascending R' ->
    (forall c, In c R' <-> In c R /\ ~ eliminated p R c) -> k < length R' -> eph_reaches p k R'.
(** in the last round [k] candidates or fewer would be left; as many of those to be
    eliminated are kept as are needed *)
Definition eph_winner (p : profile) (k : nat) (W : list nat) : Prop :=
  exists R, eph_reaches p k R /\ is_committee p k W /\ incl W R /\
    (forall c, In c R -> ~ In c W -> eliminated p R c) /\
    (forall S, ascending S -> (forall c, In c S <-> In c R /\ ~ eliminated p R c) -> length S <= k).
