(** * Approximate core stability (C93) *)
From Coq Require Import List Arith Bool ZArith QArith.
From Verif Require Import Prelude Misc Preferences Spec SpecAxioms.
Import ListNotations.
Open Scope nat_scope.

(** No group that deserves as many seats as [T] has can make all its members more than [a] times as happy with [T]: *)
Definition approximate_core (a : nat) (p : profile) (q : Q) (W : list nat) : Prop :=
  forall S T, is_group p S -> cand_set p T -> deserves p q S (length T) ->
    exists i, In i S /\ approves_in p i T <= a * approves_in p i W.
(** no such group can agree on candidates outside the committee of which each of its members approves more than of the committee *)
Definition disjoint_core (p : profile) (q : Q) (W : list nat) : Prop :=
  forall S T, is_group p S -> cand_set p T -> (forall c, In c T -> ~ In c W) -> deserves p q S (length T) ->
    exists i, In i S /\ approves_in p i T <= approves_in p i W.
