(** * Claims C65: proportionality of the other rules of Phragmén type *)
From Coq Require Import String.
From Coq Require Import List Arith Bool ZArith QArith Lia Lqa Permutation Sorted.
From Verif Require Import Prelude Misc Preferences Scores Search Rule RulesThiele Spec SpecRules Compute SpecCompute
  SpecSeq RulesSeq RulesMes MesFinal ComputeSeq ComputeSeqProofs Checks SpecAxioms ChecksProofs Guarantees Proportional
  Milp RulesSolver SpecLoads SolverCompute RefSolver EnestroemPJR MaximinPJR ConsensusRun TieBreak ExampleData.
Import ListNotations.
Local Open Scope string_scope.
Open Scope nat_scope.
Local Open Scope list_scope.

(** ** C65 *)
(** [PJR_plus]: every group of [l] seats' weight that agrees on a candidate outside the committee approves at
    least [l] members; it implies PJR ([C42_PJR_plus_stronger]) *)
Theorem C65_enestroem : forall e gurobi p k alg resolute maxn l W, exact_arithmetic e alg ->
  valid_call p k resolute maxn ->
  compute_phragmen_enestroem e p (Z.of_nat k) alg resolute maxn = Ok l -> In W l ->
  PJR_plus p (default_quota p k) W /\ check_JR p W None = Ok true /\
  (unit_weights p -> check_PJR gurobi p W None "brute-force" = Ok true).
Proof. exact enestroem_passes. Qed.
Print Assumptions C65_enestroem.

(** The maximin support rule compares with a tolerance of [CMP_ACCURACY] = 1e-7 in each of [k] rounds; the total
    weight must be large compared to that.  (For one voter of weight 1 this allows [k] up to 215.) *)
Theorem C65_maximin_support : forall nx sv e gurobi p k alg resolute maxn l W, exact_solvers p sv ->
  valid_call p k resolute maxn -> In alg ["gurobi"; "mip-gurobi"; "mip-cbc"] ->
  (Qnat (k * k * (k + 1)) * CMP_ACCURACY < wsum (voters p))%Q ->
  compute_maximin_support (with_solvers nx sv e) p (Z.of_nat k) alg resolute maxn = Ok l -> In W l ->
  PJR_plus p (default_quota p k) W /\ check_JR p W None = Ok true /\
  (unit_weights p -> check_PJR gurobi p W None "brute-force" = Ok true).
Proof. exact maximin_passes. Qed.
Print Assumptions C65_maximin_support.

(** with exact comparisons there is no condition *)
Theorem C65_maximin_exact : forall p k W, wf p -> voters p <> [] -> 1 <= k -> maximin_winner 0 p k W ->
  PJR_plus p (default_quota p k) W.
Proof.
  intros p k W Hw Hv Hk. apply maximin_PJR_plus; auto; [lra|]. pose proof (wsum_pos p Hw Hv). lra.
Qed.
Print Assumptions C65_maximin_exact.

(** The consensus rule may violate PJR even for disjoint parties: with 4, 1, 30 and 30 voters and 26 seats
    the last party deserves 12 seats and gets 11. *)
Theorem C65_consensus_refuted : exists p k W, valid_call p k false None /\ unit_weights p /\
  forall e gurobi, exact_arithmetic e "standard-fractions" ->
    exists l, compute_consensus_rule e p (Z.of_nat k) "standard-fractions" false None = Ok l /\ In W l /\
      check_PJR gurobi p W None "brute-force" = Ok false.
Proof.
  exists four_parties, 26, (isort four_parties_order).
  assert (V : valid_call four_parties 26 false None).
  { split; [apply four_parties_wf|]. split; [discriminate|]. split; [change (num_cand four_parties) with 29; lia|auto]. }
  split; [exact V|]. split; [apply four_parties_unit|]. intros e g He.
  destruct (compute_consensus_correct e four_parties 26 "standard-fractions" false None He V) as [A _].
  destruct A as (l & El & _ & _ & _ & Hl). exists l. split; [exact El|].
  split; [apply Hl, four_parties_winner|].
  destruct (PJR_check_exact g four_parties (isort four_parties_order) None) as (b & Eb & Hb).
  - apply four_parties_wf.
  - apply four_parties_unit.
  - split; [apply nodupb_NoDup; vm_compute; reflexivity|]. apply Forall_forall. intros c Hc.
    assert (F : forallb (fun c => c <? 29) (isort four_parties_order) = true) by (vm_compute; reflexivity).
    rewrite forallb_forall in F. apply Nat.ltb_lt. auto.
  - discriminate.
  - apply Qlt_alt. vm_compute. reflexivity.
  - rewrite Eb. destruct b; [|reflexivity]. exfalso. exact (four_parties_not_PJR (proj1 Hb eq_refl)).
Qed.
Print Assumptions C65_consensus_refuted.

Example C65_example : valid_call ex_unit 3 false None /\ unit_weights ex_unit /\
  compute_phragmen_enestroem ex_env ex_unit 3 "standard-fractions" true None = Ok [[0; 2; 3]] /\
  exact_solvers ex_unit (ref_solvers ex_unit) /\ (Qnat (3 * 3 * (3 + 1)) * CMP_ACCURACY < wsum (voters ex_unit))%Q.
Proof.
  split; [apply ex_unit_valid|]. split; [apply ex_unit_unit|]. split; [vm_compute; reflexivity|].
  split; [apply ref_solvers_exact|]. apply Qlt_alt. vm_compute. reflexivity.
Qed.
