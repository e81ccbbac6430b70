(** * The satisfaction of a group of voters (C92) *)
From Coq Require Import List Arith Bool ZArith QArith.
From Verif Require Import Prelude Misc Preferences Spec SpecAxioms.
Import ListNotations.
Open Scope nat_scope.

(** the total (weighted) number of approved members of [W] in the group [S]; divided by [gweight p S] it is the average *)
Definition satisfaction (p : profile) (S W : list nat) : Q :=
  Qsum (map (fun i => voter_weight p i * Qnat (approves_in p i W))%Q S).
(** every group that deserves [l] seats and agrees on [l] candidates has on average at least (more than) [d l] approved members *)
Definition average_at_least (d : nat -> Q) (p : profile) (q : Q) (W : list nat) : Prop :=
  forall S l, cohesive p q S l -> (d l * gweight p S <= satisfaction p S W)%Q.
Definition average_above (d : nat -> Q) (p : profile) (q : Q) (W : list nat) : Prop :=
  forall S l, cohesive p q S l -> (d l * gweight p S < satisfaction p S W)%Q.
(** the same for groups that agree on one candidate outside the committee *)
Definition average_at_least_plus (d : nat -> Q) (p : profile) (q : Q) (W : list nat) : Prop :=
  forall S l c, is_group p S -> 1 <= l -> deserves p q S l -> c < num_cand p -> ~ In c W -> all_approve p S [c] ->
    (d l * gweight p S <= satisfaction p S W)%Q.
Definition average_above_plus (d : nat -> Q) (p : profile) (q : Q) (W : list nat) : Prop :=
  forall S l c, is_group p S -> 1 <= l -> deserves p q S l -> c < num_cand p -> ~ In c W -> all_approve p S [c] ->
    (d l * gweight p S < satisfaction p S W)%Q.
