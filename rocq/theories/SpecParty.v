(** * Apportionment: what proportional rules do on party-list profiles (C85)

    In a party-list profile the approval sets of any two voters are equal or
    disjoint: every voter votes for a party.  Committees then say how many seats
    each party gets, and classical apportionment methods apply. *)
From Coq Require Import String.
From Coq Require Import List Arith Bool ZArith QArith.
From Verif Require Import Prelude Misc Preferences Rule Compute Spec SpecRules SpecCompute SpecSeq SpecAll Milp RulesSolver SolverLex SolverCompute SpecLoads.
Import ListNotations.
Local Open Scope string_scope.
Open Scope nat_scope.
Local Open Scope list_scope.

Definition party_lists (p : profile) : Prop :=
  forall v u, In v (voters p) -> In u (voters p) ->
    (forall c, In c (approved v) <-> In c (approved u)) \/
    (forall c, In c (approved v) -> ~ In c (approved u)).

(** the candidates of one party: they are approved by the same voters *)
Definition same_party (p : profile) (c d : nat) : bool :=
  forallb (fun v => Bool.eqb (approves v c) (approves v d)) (voters p).
(** the seats that the party of [c] has in [W] *)
Definition seats (p : profile) (W : list nat) (c : nat) : nat := length (filter (same_party p c) W).

(** Highest averages (divisor) methods with divisors [1 / f 1, 1 / f 2, ...]: no party
    that still has an unelected candidate [d] has a better claim to one more seat than the party
    of an elected candidate [c] has to its last seat; [support] is the party's vote. *)
Definition highest_averages (f : nat -> Q) (p : profile) (k : nat) (W : list nat) : Prop :=
  is_committee p k W /\
  forall c d, In c W -> d < num_cand p -> ~ In d W ->
    (support p d * f (S (seats p W d)) <= support p c * f (seats p W c))%Q.

(** D'Hondt: votes / s for the s-th seat *)
Definition dhondt : profile -> nat -> list nat -> Prop := highest_averages (fun s => 1 / Qnat s)%Q.
(** Sainte-Lague: votes / (2s - 1) for the s-th seat *)
Definition sainte_lague : profile -> nat -> list nat -> Prop := highest_averages (fun s => 1 / (2 * Qnat s - 1))%Q.

(** Largest remainders (Hamilton): the claim of a party to its [s]-th seat is the part of its vote not used up
    by its first [s - 1] seats, each of which uses up one [quota] = all votes / [k]. *)
Definition unused (p : profile) (k : nat) (c s : nat) : Q :=
  let rest := (support p c - Qnat (s - 1) * (wsum (voters p) / Qnat k))%Q in
  if Qle_bool rest 0 then 0%Q else rest.
Definition largest_remainders (p : profile) (k : nat) (W : list nat) : Prop :=
  is_committee p k W /\
  forall c d, In c W -> d < num_cand p -> ~ In d W ->
    (unused p k d (S (seats p W d)) <= unused p k c (seats p W c))%Q.

(** every party [c] with [s] seats has its lower quota: [s] is at least [k * votes / all votes], rounded down,
    or the party has no more candidates *)
Definition lower_quota (p : profile) (k : nat) (W : list nat) : Prop :=
  forall c, c < num_cand p -> ~ In c W ->
    (support p c * Qnat k < Qnat (S (seats p W c)) * wsum (voters p))%Q.

(** every party gets its vote share of [k], rounded down, or all its candidates if it has fewer *)
Definition whole_quotas (p : profile) (k : nat) (W : list nat) : Prop :=
  ascending W /\ Forall (fun c => c < num_cand p) W /\
  (forall c, In c W -> (Qnat (seats p W c) * wsum (voters p) <= support p c * Qnat k)%Q) /\ lower_quota p k W.

(** [apportions e p k id alg f]: the rule [id] with algorithm [alg] extends the highest averages method with [f]. *)
Inductive apportions (e : env) (p : profile) (k : nat) : string -> string -> (nat -> Q) -> Prop :=
| ap_thiele : forall id f, denotes e id f -> non_increasing f -> apportions e p k id "brute-force" f
| ap_thiele_bb : forall id f, denotes e id f -> non_increasing f -> apportions e p k id "branch-and-bound" f
| ap_thiele_mip : forall id f alg, denotes e id f -> decreasing_to_zero f -> non_increasing f ->
    In alg ["gurobi"; "mip-gurobi"; "mip-cbc"] -> apportions e p k id alg f
| ap_cc_cp : Forall (fun v => weight_is_int v = true) (voters p) -> apportions e p k "cc" "ortools-cp" cc_w
| ap_seq : forall id f, denotes e id f -> non_increasing f -> apportions e p k ("seq" ++ id)%string "standard" f
| ap_revseq : forall id f, denotes e id f -> non_increasing f -> apportions e p k ("revseq" ++ id)%string "standard" f
| ap_seqphragmen : forall alg, exact_arithmetic e alg -> enough_support p k -> apportions e p k "seqphragmen" alg pav_w
| ap_mes : forall id alg, exact_arithmetic e alg -> enough_support p k ->
    In id ["rule-x"; "equal-shares"; "equal-shares-with-seqphragmen-completion"] -> apportions e p k id alg pav_w.
