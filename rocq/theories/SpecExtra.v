(** * Specification for C88: candidates approved by nobody *)
From Coq Require Import List Arith.
From Verif Require Import Prelude Misc Preferences Spec.
Import ListNotations.
Open Scope nat_scope.

(** [q] is [p] with some more candidates, whom nobody approves ([p] being well-formed) *)
Definition extra_candidates (p q : profile) : Prop := num_cand p <= num_cand q /\ voters q = voters p.
(** the members of [W] are candidates of [p] *)
Definition candidates_of (p : profile) (W : list nat) : Prop := forall c, In c W -> c < num_cand p.
