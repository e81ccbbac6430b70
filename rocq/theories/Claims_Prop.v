(** * Claims C41, C42: proportionality of Equal Shares and sequential Phragmén *)
From Coq Require Import String.
From Coq Require Import List Arith Bool ZArith QArith Lia Lqa Permutation Sorted.
From Verif Require Import Prelude Misc Preferences Scores Search Rule RulesThiele Spec SpecRules Compute SpecCompute
  SpecSeq RulesMes MesFinal ComputeSeq ComputeSeqProofs Checks SpecAxioms Proportional ExampleData.
Import ListNotations.
Local Open Scope string_scope.
Open Scope nat_scope.

(** ** C41 *)
Theorem C41_equal_shares : forall e gurobi p k alg resolute maxn s l W, exact_arithmetic e alg ->
  valid_call p k resolute maxn -> s = "av" \/ (s = "seqphragmen" /\ enough_support p k) ->
  compute_equal_shares e p (Z.of_nat k) alg resolute maxn (Some s) = Ok l -> In W l ->
  check_EJR_plus p W None = Ok true /\ check_JR p W None = Ok true /\
  (unit_weights p -> check_EJR gurobi p W None "brute-force" = Ok true /\
                     check_PJR gurobi p W None "brute-force" = Ok true).
Proof. exact mes_passes. Qed.
Print Assumptions C41_equal_shares.

(** without completion, even with respect to the desired committee size *)
Theorem C41_without_completion : forall e gurobi p k alg resolute maxn l W, exact_arithmetic e alg ->
  valid_call p k resolute maxn ->
  compute_equal_shares e p (Z.of_nat k) alg resolute maxn None = Ok l -> In W l ->
  EJR_plus p (default_quota p k) W /\
  (W <> [] -> check_EJR_plus p W None = Ok true /\ check_JR p W None = Ok true /\
   (unit_weights p -> check_EJR gurobi p W None "brute-force" = Ok true /\
                      check_PJR gurobi p W None "brute-force" = Ok true)).
Proof. exact mes_alone_passes. Qed.
Print Assumptions C41_without_completion.

(** every way of filling up the committee keeps the guarantee *)
Theorem C41_axiom : forall p k L b W, wf p -> voters p <> [] -> 1 <= k -> mes_ends p k (equal_share p k) L b ->
  NoDup W -> incl L W -> EJR_plus p (default_quota p k) W.
Proof. intros p k L b W Hw Hv. apply mes_EJR_plus; auto. Qed.
Print Assumptions C41_axiom.

(** The increment completion may violate even JR: it stops at [k] candidates while
    voters still have enough money for another one.  Here the fourth of four voters
    deserves a seat for its candidate 4. *)
Theorem C41_increment_refuted : exists e p k W, exact_arithmetic e "standard-fractions" /\ valid_call p k true None /\
  unit_weights p /\
  compute_equal_shares e p (Z.of_nat k) "standard-fractions" true None (Some "increment") = Ok [W] /\
  check_JR p W None = Ok false /\ check_EJR_plus p W None = Ok false.
Proof.
  exists ex_env, (mkp 5 [mkv [0;1] 1; mkv [0;2] 1; mkv [0;3] 1; mkv [4] 1]), 4, [0;1;2;3].
  split; [left; reflexivity|]. split.
  { split; [wf_tac|]. cbn. split; [discriminate|]. split; [lia|auto]. }
  split; [repeat constructor|]. split; [vm_compute; reflexivity|]. split; vm_compute; reflexivity.
Qed.
Print Assumptions C41_increment_refuted.

Example C41_example : valid_call ex_unit 3 false None /\ enough_support ex_unit 3 /\
  exists l, compute_equal_shares ex_env ex_unit 3 "standard-fractions" false None (Some "seqphragmen") = Ok l /\ In [1;2;4] l.
Proof.
  split; [apply ex_unit_valid|]. split.
  - apply heavy_enough; [apply ex_unit_wf|lia|]. cbn. intros v H. repeat (destruct H as [<-|H]; [cbn; lra|]). destruct H.
  - eexists. split; [vm_compute; reflexivity|]. cbn. tauto.
Qed.

(** ** C42 *)
Theorem C42_seqphragmen : forall e gurobi p k alg resolute maxn l W, exact_arithmetic e alg ->
  valid_call p k resolute maxn -> enough_support p k ->
  compute_seqphragmen e p (Z.of_nat k) alg resolute maxn = Ok l -> In W l ->
  PJR_plus p (default_quota p k) W /\ check_JR p W None = Ok true /\
  (unit_weights p -> check_PJR gurobi p W None "brute-force" = Ok true).
Proof. exact phragmen_passes. Qed.
Print Assumptions C42_seqphragmen.

Theorem C42_PJR_plus_stronger : forall p q W, PJR_plus p q W -> PJR p q W.
Proof. exact PJR_plus_PJR. Qed.
Print Assumptions C42_PJR_plus_stronger.

Example C42_example : valid_call ex_unit 3 false None /\ enough_support ex_unit 3 /\
  compute_seqphragmen ex_env ex_unit 3 "standard-fractions" true None = Ok [[0; 2; 3]].
Proof.
  split; [apply ex_unit_valid|]. split; [|vm_compute; reflexivity].
  apply heavy_enough; [apply ex_unit_wf|lia|]. cbn. intros v H. repeat (destruct H as [<-|H]; [cbn; lra|]). destruct H.
Qed.
