(** * Specification for C87: voters without a preference

    [joined p a q] (SpecVary.v): [q] has the voters of [p] and, after them, those of [a]. *)
From Coq Require Import String.
From Coq Require Import List Arith Bool ZArith QArith.
From Verif Require Import Prelude Misc Preferences Scores Rule Spec SpecRules Compute SpecCompute SpecSeq SolverLex SolverPhragmen SolverCompute RulesSolver SpecAll SpecVary.
Import ListNotations.
Local Open Scope string_scope.
Open Scope nat_scope.
Local Open Scope list_scope.

(** all voters of [a] approve no candidate *)
Definition abstain (a : profile) : Prop := forall u, In u (voters a) -> approved u = [].
(** all voters of [a] approve no candidate, or all of them *)
Definition indifferent (a : profile) : Prop :=
  forall u, In u (voters a) -> approved u = [] \/ forall c, c < num_cand a -> In c (approved u).

(** the rules for which the ballots of indifferent voters make no difference; [p] is the election with them *)
Inductive ignores_indifferent (e : env) (p : profile) : string -> string -> Prop :=
| ii_additive : forall id alg, additive_rule e p id alg -> ignores_indifferent e p id alg
| ii_seq : forall id f, denotes e id f -> ignores_indifferent e p ("seq" ++ id)%string "standard"
| ii_revseq : forall id f, denotes e id f -> ignores_indifferent e p ("revseq" ++ id)%string "standard"
| ii_eph : forall alg, exact_arithmetic e alg -> 2 <= num_cand p -> ignores_indifferent e p "eph" alg.

(** the rules for which abstentions make no difference *)
Inductive ignores_abstentions (e : env) (p : profile) (k : nat) : string -> string -> Prop :=
| ia_indifferent : forall id alg, ignores_indifferent e p id alg -> ignores_abstentions e p k id alg
| ia_seqphragmen : forall alg, exact_arithmetic e alg -> enough_support p k -> ignores_abstentions e p k "seqphragmen" alg
| ia_minimaxphragmen : forall alg, weights_at_least_one p -> k <= length (approved_candidates p) ->
    In alg ["gurobi"; "mip-gurobi"; "mip-cbc"] -> ignores_abstentions e p k "minimaxphragmen" alg
| ia_maximin : forall alg, In alg ["gurobi"; "mip-gurobi"; "mip-cbc"] -> ignores_abstentions e p k "maximin-support" alg.
