(** * Strategic voting (C94) *)
From Coq Require Import List Arith Bool ZArith QArith.
From Verif Require Import Prelude Misc Preferences Spec.
Import ListNotations.
Open Scope nat_scope.

(** in [q] the voter [v] of [p] submits another ballot (with the same weight); all other voters vote as before *)
Definition misreports (v : voter) (p q : profile) : Prop :=
  num_cand q = num_cand p /\
  exists before_v u after_v, voters p = before_v ++ v :: after_v /\ voters q = before_v ++ u :: after_v /\ weight u = weight v.
