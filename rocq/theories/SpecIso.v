(** * The same election with other names, another order of the voters, or other units of weight *)
From Coq Require Import String.
From Coq Require Import List Arith Bool ZArith QArith Permutation.
From Verif Require Import Prelude Misc Preferences Spec.
Import ListNotations.
Local Open Scope string_scope.
Open Scope nat_scope.
Local Open Scope list_scope.

(** [s] renames the candidates [0, ..., m-1] *)
Definition renaming (m : nat) (s : nat -> nat) : Prop :=
  (forall c, c < m -> s c < m) /\ (forall c d, c < m -> d < m -> s c = s d -> c = d).

(** [u] approves the renamed candidates that [v] approves and has [x] times its weight;
    the weight is of the same type *)
Definition renamed_voter (x : Q) (s : nat -> nat) (v u : voter) : Prop :=
  Permutation (map s (approved v)) (approved u) /\ (weight u == x * weight v)%Q /\ weight_is_int u = weight_is_int v.

(** [q] is [p] with renamed candidates, weights multiplied by [x], and the voters in any order *)
Definition renamed (x : Q) (s : nat -> nat) (p q : profile) : Prop :=
  num_cand q = num_cand p /\ renaming (num_cand p) s /\
  exists vs, Permutation vs (voters q) /\ Forall2 (renamed_voter x s) (voters p) vs.

(** the members of [W], renamed (as an ascending list) *)
Definition rename (s : nat -> nat) (W : list nat) : list nat := isort (map s W).

(** [q] is [p] with all weights multiplied by [x] *)
Definition scaled (x : Q) (p q : profile) : Prop :=
  num_cand q = num_cand p /\
  Forall2 (fun v u => approved u = approved v /\ (weight u == x * weight v)%Q /\ weight_is_int u = weight_is_int v) (voters p) (voters q).

(** the rules whose definition contains a fixed number (a tolerance) or for which all weights must be 1 *)
Definition scale_dependent : list string := ["minimaxphragmen"; "leximaxphragmen"; "maximin-support"; "monroe"; "lexminimaxav"].
