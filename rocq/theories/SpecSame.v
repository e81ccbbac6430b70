(** * Equal results for equal elections, the other rules *)
From Coq Require Import String.
From Coq Require Import List Arith Bool ZArith QArith.
From Verif Require Import Prelude Misc Preferences Spec Rule Compute ComputeSeq RulesMore.
Import ListNotations.
Local Open Scope string_scope.

(** [same_results] (SpecCompute.v) for the rules that keep loads or budgets and for E Pluribus Hugo, with every algorithm that
    does not calculate with floats. *)
Definition same_results_sequential (e : env) (p q : profile) : Prop :=
  forall k alg resolute maxn, alg <> "fastest" -> alg <> "float-fractions" ->
    compute_eph e p k alg resolute maxn = compute_eph e q k alg resolute maxn /\
    compute_seqphragmen e p k alg resolute maxn = compute_seqphragmen e q k alg resolute maxn /\
    compute_phragmen_enestroem e p k alg resolute maxn = compute_phragmen_enestroem e q k alg resolute maxn /\
    compute_consensus_rule e p k alg resolute maxn = compute_consensus_rule e q k alg resolute maxn /\
    (forall completion, compute_equal_shares e p k alg resolute maxn completion =
                        compute_equal_shares e q k alg resolute maxn completion) /\
    (forall skip, compute_rule_x e p k alg resolute maxn skip = compute_rule_x e q k alg resolute maxn skip).

