(** * The axioms of properties.py, stated directly (definitions as in the papers
    cited in the docstrings), for a quota [q] (the group size deserving one seat) *)
From Coq Require Import List Arith Bool ZArith QArith Lia Lqa.
From Verif Require Import Prelude Misc Preferences Spec.
Import ListNotations.
Open Scope nat_scope.

(** A group of voters is a non-empty set of voter indices. *)
Definition ballot (p : profile) (i : nat) : list nat := approved (nth i (voters p) (mkVoter [] 1 true)).
Definition voter_weight (p : profile) (i : nat) : Q := weight (nth i (voters p) (mkVoter [] 1 true)).
Definition is_group (p : profile) (S : list nat) : Prop :=
  S <> [] /\ NoDup S /\ Forall (fun i => i < length (voters p)) S.
Definition gweight (p : profile) (S : list nat) : Q := Qsum (map (voter_weight p) S).

(** how many members of [W] voter [i] approves *)
Definition approves_in (p : profile) (i : nat) (W : list nat) : nat := length (inter (ballot p i) W).

(** [T] is a set of candidates of [p] *)
Definition cand_set (p : profile) (T : list nat) : Prop := NoDup T /\ Forall (fun c => c < num_cand p) T.

(** [S] is large enough to deserve [l] seats *)
Definition deserves (p : profile) (q : Q) (S : list nat) (l : nat) : Prop := (Qnat l * q <= gweight p S)%Q.
(** every voter of [S] approves every candidate of [T] *)
Definition all_approve (p : profile) (S T : list nat) : Prop :=
  forall i c, In i S -> In c T -> In c (ballot p i).

Definition JR_violation (p : profile) (q : Q) (W S : list nat) (c : nat) : Prop :=
  is_group p S /\ deserves p q S 1 /\ c < num_cand p /\ all_approve p S [c] /\
  forall i, In i S -> approves_in p i W = 0.
Definition JR (p : profile) (q : Q) (W : list nat) : Prop := forall S c, ~ JR_violation p q W S c.

(** [l]-cohesive groups *)
Definition cohesive (p : profile) (q : Q) (S : list nat) (l : nat) : Prop :=
  is_group p S /\ 1 <= l /\ deserves p q S l /\ exists T, cand_set p T /\ length T = l /\ all_approve p S T.
Definition EJR (p : profile) (q : Q) (W : list nat) : Prop :=
  forall S l, cohesive p q S l -> exists i, In i S /\ l <= approves_in p i W.
(** the committee members that somebody in [S] approves *)
Definition covered (p : profile) (S W : list nat) : list nat :=
  filter (fun c => existsb (fun i => mem c (ballot p i)) S) W.
Definition PJR (p : profile) (q : Q) (W : list nat) : Prop :=
  forall S l, cohesive p q S l -> l <= length (covered p S W).

Definition EJR_plus (p : profile) (q : Q) (W : list nat) : Prop :=
  forall S l c, is_group p S -> 1 <= l -> deserves p q S l ->
    c < num_cand p -> ~ In c W -> all_approve p S [c] ->
    exists i, In i S /\ l <= approves_in p i W.

(** stronger than PJR: one common candidate outside the committee suffices *)
Definition PJR_plus (p : profile) (q : Q) (W : list nat) : Prop :=
  forall S l c, is_group p S -> deserves p q S l -> c < num_cand p -> ~ In c W -> all_approve p S [c] ->
    l <= length (covered p S W).

(** weakly (beta, T)-cohesive groups *)
Definition FJR (p : profile) (q : Q) (W : list nat) : Prop :=
  forall S T beta, is_group p S -> cand_set p T -> 1 <= beta -> deserves p q S (length T) ->
    (forall i, In i S -> beta <= approves_in p i T) ->
    exists i, In i S /\ beta <= approves_in p i W.

Definition in_core (p : profile) (q : Q) (W : list nat) : Prop :=
  forall S T, is_group p S -> cand_set p T -> deserves p q S (length T) ->
    exists i, In i S /\ approves_in p i T <= approves_in p i W.

Definition pareto_optimal (p : profile) (W : list nat) : Prop :=
  forall W', is_committee p (length W) W' ->
    ~ ((forall v, In v (voters p) -> util v W <= util v W') /\
       exists v, In v (voters p) /\ util v W < util v W').

(** the default quota: total weight divided by the committee size *)
Definition default_quota (p : profile) (k : nat) : Q := (wsum (voters p) / Qnat k)%Q.
