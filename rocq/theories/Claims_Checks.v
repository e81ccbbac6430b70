(** * Claims C32-C40: the checks of properties.py and guarantees of the rules

    The axioms (JR, EJR, PJR, EJR_plus, FJR, in_core, pareto_optimal) are the
    definitions of SpecAxioms.v.  [the_quota] is the quota argument, or total
    weight / committee size when it is None.  [gurobi] stands for the solver-based
    variant, which is not reached with algorithm "brute-force". *)
From Coq Require Import String.
From Coq Require Import List Arith Bool ZArith QArith Lia Lqa Permutation Sorted.
From Verif Require Import Prelude Misc Preferences Scores Rule Spec SpecRules Compute SpecCompute Checks SpecAxioms ChecksProofs
  ComputeProofs Guarantees ExampleData.
Import ListNotations.
Open Scope nat_scope.
Local Open Scope string_scope.

(** ** C32 *)
Theorem C32_pareto_exact : forall gurobi p W, cand_set p W ->
  exists b, check_pareto_optimality gurobi p W "brute-force" = Ok b /\ (b = true <-> pareto_optimal p W).
Proof. exact pareto_check_exact. Qed.
Print Assumptions C32_pareto_exact.

(** every public check refuses a committee that is not a set of candidates *)
Theorem C32_invalid_committee : forall p W quota alg g g' , ~ cand_set p W ->
  exists err, check_JR p W quota = Err err /\ check_EJR_plus p W quota = Err err /\
    check_EJR g p W quota alg = Err err /\ check_PJR g p W quota alg = Err err /\
    check_FJR g p W quota alg = Err err /\ check_core g p W quota alg = Err err /\
    exists err', check_pareto_optimality g' p W alg = Err err'.
Proof. exact invalid_committee. Qed.
Print Assumptions C32_invalid_committee.

Definition ex_none (p : profile) (W : list nat) : result bool := Err NotImplementedError.
Definition ex_noneq (p : profile) (W : list nat) (q : Q) : result bool := Err NotImplementedError.

Example C32_example : cand_set ex_unit [0;2;3] /\ ~ cand_set ex_unit [7] /\
  check_pareto_optimality ex_none ex_unit [0;2;3] "brute-force" = Ok true /\
  check_pareto_optimality ex_none ex_profile [0;3] "brute-force" = Ok false.
Proof.
  repeat split; try (vm_compute; reflexivity).
  - repeat constructor; simpl; lia.
  - repeat constructor; simpl; lia.
  - intros [_ H]. inversion H; subst. simpl in *. lia.
Qed.

(** ** C33 *)
Theorem C33_JR_exact : forall p W quota, wf p -> cand_set p W -> (quota = None -> W <> []) ->
  (0 < the_quota p W quota)%Q ->
  exists b, check_JR p W quota = Ok b /\ (b = true <-> JR p (the_quota p W quota) W).
Proof. exact check_JR_exact. Qed.
Print Assumptions C33_JR_exact.

(** the default quota is positive as soon as there is a voter *)
Theorem C33_default_quota : forall p W, wf p -> voters p <> [] -> W <> [] ->
  (0 < the_quota p W None)%Q /\ (the_quota p W None * Qnat (length W) == Qsum (map weight (voters p)))%Q.
Proof. exact default_quota_facts. Qed.
Print Assumptions C33_default_quota.

(** Without a quota, no check decides about the empty committee. *)
Theorem C33_empty_committee : forall p algorithm gurobi,
  check_JR p [] None = Err ZeroDivisionError /\ check_EJR_plus p [] None = Err ZeroDivisionError /\
  check_PJR gurobi p [] None algorithm = Err ZeroDivisionError /\ check_EJR gurobi p [] None algorithm = Err ZeroDivisionError /\
  check_FJR gurobi p [] None algorithm = Err ZeroDivisionError /\ check_core gurobi p [] None algorithm = Err ZeroDivisionError.
Proof. intros. repeat split; reflexivity. Qed.
Print Assumptions C33_empty_committee.

Example C33_example : wf ex_profile /\ cand_set ex_profile [2;3] /\ Qlt 0 (the_quota ex_profile [2;3] (Some (3#2)%Q)) /\
  check_JR ex_profile [2;3] None = Ok true /\ check_JR ex_profile [2;3] (Some (3#2)%Q) = Ok false /\
  check_JR ex_profile [] None = Err ZeroDivisionError.
Proof.
  split; [apply ex_wf|]. split; [split; repeat constructor; simpl; lia|]. split; [simpl; lra|].
  repeat split; vm_compute; reflexivity.
Qed.

(** ** C34 *)
Theorem C34_EJR_exact : forall gurobi p W quota, wf p -> unit_weights p -> cand_set p W ->
  (quota = None -> W <> []) -> (0 < the_quota p W quota)%Q ->
  exists b, check_EJR gurobi p W quota "brute-force" = Ok b /\ (b = true <-> EJR p (the_quota p W quota) W).
Proof. exact EJR_check_exact. Qed.
Print Assumptions C34_EJR_exact.

Theorem C34_PJR_exact : forall gurobi p W quota, wf p -> unit_weights p -> cand_set p W ->
  (quota = None -> W <> []) -> (0 < the_quota p W quota)%Q ->
  exists b, check_PJR gurobi p W quota "brute-force" = Ok b /\ (b = true <-> PJR p (the_quota p W quota) W).
Proof. exact PJR_check_exact. Qed.
Print Assumptions C34_PJR_exact.

(** With weights the brute-force checks count voters instead of adding weights:
    they accept a committee that violates even JR. *)
Theorem C34_weighted_refuted : exists p W, wf p /\ cand_set p W /\ W <> [] /\
  check_EJR ex_noneq p W None "brute-force" = Ok true /\ check_PJR ex_noneq p W None "brute-force" = Ok true /\
  check_JR p W None = Ok false /\
  ~ EJR p (the_quota p W None) W /\ ~ PJR p (the_quota p W None) W.
Proof.
  exists (mkp 2 [mkv [0] 2]), [1].
  assert (Hw : wf (mkp 2 [mkv [0] 2])) by wf_tac.
  assert (Hc : cand_set (mkp 2 [mkv [0] 2]) [1]) by (split; repeat constructor; simpl; intuition lia).
  assert (J : check_JR (mkp 2 [mkv [0] 2]) [1] None = Ok false) by (vm_compute; reflexivity).
  assert (NP : ~ PJR (mkp 2 [mkv [0] 2]) (the_quota (mkp 2 [mkv [0] 2]) [1] None) [1]).
  { intro P. apply PJR_JR in P; auto.
    destruct (check_JR_exact (mkp 2 [mkv [0] 2]) [1] None Hw Hc ltac:(discriminate)) as (b & E & H); [vm_compute; reflexivity|].
    rewrite J in E. inversion E; subst b. apply H in P. discriminate. }
  split; auto. split; auto. split; [discriminate|]. split; [vm_compute; reflexivity|]. split; [vm_compute; reflexivity|].
  split; auto. split; auto. intro H. apply NP. apply EJR_PJR; auto. apply Hc.
Qed.
Print Assumptions C34_weighted_refuted.

Example C34_example : wf ex_unit /\ unit_weights ex_unit /\ cand_set ex_unit [0;2;3] /\
  check_EJR ex_noneq ex_unit [0;2;3] None "brute-force" = Ok true /\
  check_EJR ex_noneq (mkp 3 [mkv [0;1] 1; mkv [0;1] 1; mkv [2] 1]) [0;2;1] None "brute-force" = Ok true /\
  check_EJR ex_noneq (mkp 4 [mkv [0;1] 1; mkv [0;1] 1; mkv [0;1] 1; mkv [2;3] 1]) [0;2;3] None "brute-force" = Ok false /\
  check_PJR ex_noneq (mkp 4 [mkv [0;1] 1; mkv [0;1] 1; mkv [0;1] 1; mkv [2;3] 1]) [0;2;3] None "brute-force" = Ok false.
Proof.
  split; [apply ex_unit_wf|]. split; [apply ex_unit_unit|].
  split; [split; repeat constructor; simpl; intuition lia|]. repeat split; vm_compute; reflexivity.
Qed.

(** ** C35 *)
Theorem C35_EJR_plus_exact : forall p W, wf p -> cand_set p W -> W <> [] -> voters p <> [] ->
  exists b, check_EJR_plus p W None = Ok b /\ (b = true <-> EJR_plus p (default_quota p (length W)) W).
Proof. exact check_EJR_plus_default. Qed.
Print Assumptions C35_EJR_plus_exact.

(** a quota given by the caller works when nobody has more approved members than seats deserved by everybody *)
Theorem C35_EJR_plus_quota : forall p W quota, wf p -> cand_set p W -> (quota = None -> W <> []) ->
  (0 < the_quota p W quota)%Q ->
  (forall i, i < length (voters p) -> (Qnat (approves_in p i W) * the_quota p W quota <= wsum (voters p))%Q) ->
  exists b, check_EJR_plus p W quota = Ok b /\ (b = true <-> EJR_plus p (the_quota p W quota) W).
Proof. exact check_EJR_plus_exact. Qed.
Print Assumptions C35_EJR_plus_quota.

(** ... otherwise the function may crash (KeyError) although EJR+ holds. *)
Theorem C35_large_quota_refuted : exists p W q, wf p /\ cand_set p W /\ W <> [] /\ (0 < q)%Q /\
  check_EJR_plus p W (Some q) = Err KeyError.
Proof.
  exists (mkp 3 [mkv [0;1;2] 1]), [0;1], 1%Q. split; [wf_tac|].
  split; [split; repeat constructor; simpl; intuition lia|]. split; [discriminate|]. split; [lra|]. vm_compute. reflexivity.
Qed.
Print Assumptions C35_large_quota_refuted.

Example C35_example : wf ex_profile /\ cand_set ex_profile [1;3] /\ voters ex_profile <> [] /\
  check_EJR_plus ex_profile [1;3] None = Ok true /\
  check_EJR_plus (mkp 4 [mkv [0;1] 3; mkv [2;3] 1]) [0;2;3] None = Ok false.
Proof.
  split; [apply ex_wf|]. split; [split; repeat constructor; simpl; intuition lia|]. split; [discriminate|].
  split; vm_compute; reflexivity.
Qed.

(** ** C36 *)
Theorem C36_FJR_exact : forall gurobi p W quota, wf p -> cand_set p W -> (quota = None -> W <> []) ->
  (0 < the_quota p W quota)%Q ->
  exists b, check_FJR gurobi p W quota "brute-force" = Ok b /\ (b = true <-> FJR p (the_quota p W quota) W).
Proof. exact FJR_check_exact. Qed.
Print Assumptions C36_FJR_exact.

Theorem C36_core_exact : forall gurobi p W quota, wf p -> cand_set p W -> (quota = None -> W <> []) ->
  (0 < the_quota p W quota)%Q ->
  exists b, check_core gurobi p W quota "brute-force" = Ok b /\ (b = true <-> in_core p (the_quota p W quota) W).
Proof. exact core_check_exact. Qed.
Print Assumptions C36_core_exact.

Example C36_example : wf ex_profile /\ cand_set ex_profile [1;3] /\
  check_FJR ex_noneq ex_profile [1;3] None "brute-force" = Ok true /\
  check_core ex_noneq ex_profile [1;3] None "brute-force" = Ok true /\
  check_FJR ex_noneq (mkp 4 [mkv [0;1] 3; mkv [2;3] 1]) [0;2;3] None "brute-force" = Ok false /\
  check_core ex_noneq (mkp 4 [mkv [0;1] 3; mkv [2;3] 1]) [0;2;3] (Some 2%Q) "brute-force" = Ok true.
Proof.
  split; [apply ex_wf|]. split; [split; repeat constructor; simpl; intuition lia|].
  repeat split; vm_compute; reflexivity.
Qed.

(** ** C37: implications between the answers of the checks *)
Theorem C37_implications : forall gurobi p W, wf p -> voters p <> [] -> cand_set p W -> W <> [] ->
  (check_core gurobi p W None "brute-force" = Ok true -> check_FJR gurobi p W None "brute-force" = Ok true) /\
  (unit_weights p -> check_FJR gurobi p W None "brute-force" = Ok true -> check_EJR gurobi p W None "brute-force" = Ok true) /\
  (unit_weights p -> check_EJR_plus p W None = Ok true -> check_EJR gurobi p W None "brute-force" = Ok true) /\
  (unit_weights p -> check_EJR gurobi p W None "brute-force" = Ok true -> check_PJR gurobi p W None "brute-force" = Ok true) /\
  (unit_weights p -> check_PJR gurobi p W None "brute-force" = Ok true -> check_JR p W None = Ok true).
Proof. exact check_implications. Qed.
Print Assumptions C37_implications.

(** the implications between the axioms themselves, for every quota and weighting *)
Theorem C37_axioms : forall p q W, wf p -> NoDup W -> (0 < q)%Q ->
  (in_core p q W -> FJR p q W) /\ (FJR p q W -> EJR p q W) /\ (EJR_plus p q W -> EJR p q W) /\
  (EJR p q W -> PJR p q W) /\ (PJR p q W -> JR p q W).
Proof. exact axiom_implications. Qed.
Print Assumptions C37_axioms.

(** none of the checks is trivially equivalent to the next *)
Example C37_example : wf ex_unit /\ unit_weights ex_unit /\
  check_core ex_noneq ex_unit [0;2;3] None "brute-force" = Ok true /\
  check_JR (mkp 4 [mkv [0;1] 1; mkv [0;1] 1; mkv [0;1] 1; mkv [2;3] 1]) [0;2;3] None = Ok true /\
  check_PJR ex_noneq (mkp 4 [mkv [0;1] 1; mkv [0;1] 1; mkv [0;1] 1; mkv [2;3] 1]) [0;2;3] None "brute-force" = Ok false.
Proof. split; [apply ex_unit_wf|]. split; [apply ex_unit_unit|]. repeat split; vm_compute; reflexivity. Qed.

(** ** C38 *)
Theorem C38_pav : forall e gurobi p k alg resolute maxn l W, valid_call p k resolute maxn ->
  In alg ["brute-force"; "branch-and-bound"] ->
  compute_pav e p (Z.of_nat k) alg resolute maxn = Ok l -> In W l ->
  check_EJR_plus p W None = Ok true /\ check_JR p W None = Ok true /\
  (unit_weights p -> check_EJR gurobi p W None "brute-force" = Ok true /\
                     check_PJR gurobi p W None "brute-force" = Ok true).
Proof. exact pav_passes. Qed.
Print Assumptions C38_pav.

(** the axiom itself, for every quota above total weight / (k+1) *)
Theorem C38_pav_axiom : forall p k W q, wf p -> voters p <> [] -> maximises (Thiele pav_w p) p k W ->
  (wsum (voters p) < Qnat (k + 1) * q)%Q -> EJR_plus p q W.
Proof. exact pav_EJR_plus. Qed.
Print Assumptions C38_pav_axiom.

Example C38_example : valid_call ex_profile 2 false None /\
  compute_pav ex_env ex_profile 2 "branch-and-bound" false None = Ok [[1; 2]; [1; 3]] /\
  check_EJR_plus ex_profile [1;3] None = Ok true.
Proof. split; [apply ex_valid|]. split; vm_compute; reflexivity. Qed.

(** ** C39 *)
Theorem C39_thiele_pareto : forall e gurobi id f p k resolute maxn l W, denotes e id f -> id <> "cc" ->
  valid_call p k resolute maxn ->
  compute_thiele_method e id p (Z.of_nat k) "brute-force" resolute maxn = Ok l -> In W l ->
  check_pareto_optimality gurobi p W "brute-force" = Ok true.
Proof. exact thiele_passes_pareto. Qed.
Print Assumptions C39_thiele_pareto.

Theorem C39_branchandbound_pareto : forall e gurobi id f p k resolute maxn l W, denotes e id f -> id <> "cc" ->
  (forall i j, 1 <= i -> i <= j -> (f j <= f i)%Q) ->
  valid_call p k resolute maxn ->
  compute_thiele_method e id p (Z.of_nat k) "branch-and-bound" resolute maxn = Ok l -> In W l ->
  check_pareto_optimality gurobi p W "brute-force" = Ok true.
Proof. exact bb_passes_pareto. Qed.
Print Assumptions C39_branchandbound_pareto.

Theorem C39_av_pareto : forall e gurobi p k resolute maxn l W, valid_call p k resolute maxn ->
  compute_av e p (Z.of_nat k) "standard" resolute maxn = Ok l -> In W l ->
  check_pareto_optimality gurobi p W "brute-force" = Ok true.
Proof. exact av_passes_pareto. Qed.
Print Assumptions C39_av_pareto.

Theorem C39_lexcc_pareto : forall e gurobi p k resolute maxn l W, valid_call p k resolute maxn ->
  compute_lexcc e p (Z.of_nat k) "brute-force" resolute maxn = Ok l -> In W l ->
  check_pareto_optimality gurobi p W "brute-force" = Ok true.
Proof. exact lexcc_passes_pareto. Qed.
Print Assumptions C39_lexcc_pareto.

(** CC is not Pareto optimal (its marginals are not positive), which is why it is excluded *)
Theorem C39_cc_refuted : exists e p k l W, valid_call p k false None /\
  compute_cc e p (Z.of_nat k) "brute-force" false None = Ok l /\ In W l /\
  check_pareto_optimality ex_none p W "brute-force" = Ok false.
Proof.
  exists ex_env, (mkp 3 [mkv [0;1] 1]), 2. eexists. exists [0;2].
  split; [split; [wf_tac|]; cbn; split; [discriminate|]; split; [lia|auto]|].
  split; [vm_compute; reflexivity|]. split; [simpl; auto|]. vm_compute. reflexivity.
Qed.
Print Assumptions C39_cc_refuted.

Example C39_example : valid_call ex_profile 2 false None /\ denotes ex_env ("geom" ++ "2") (geom_w 2) /\
  compute_thiele_method ex_env "geom2" ex_profile 2 "brute-force" false None = Ok [[1; 2]; [1; 3]].
Proof. split; [apply ex_valid|]. split; [repeat constructor|]. vm_compute; reflexivity. Qed.

(** ** C40 (greedy Monroe: Claims_Monroe.v) *)
Theorem C40_cc_JR : forall e p k alg resolute maxn l W, valid_call p k resolute maxn ->
  In alg ["brute-force"; "branch-and-bound"] ->
  compute_cc e p (Z.of_nat k) alg resolute maxn = Ok l -> In W l -> check_JR p W None = Ok true.
Proof. exact cc_passes. Qed.
Print Assumptions C40_cc_JR.

Theorem C40_seqcc_JR : forall e p k resolute maxn l W, valid_call p k resolute maxn ->
  compute_seqcc e p (Z.of_nat k) "standard" resolute maxn = Ok l -> In W l -> check_JR p W None = Ok true.
Proof. exact seqcc_passes. Qed.
Print Assumptions C40_seqcc_JR.

Theorem C40_lexcc_JR : forall e p k resolute maxn l W, valid_call p k resolute maxn ->
  compute_lexcc e p (Z.of_nat k) "brute-force" resolute maxn = Ok l -> In W l -> check_JR p W None = Ok true.
Proof. exact lexcc_passes. Qed.
Print Assumptions C40_lexcc_JR.

Example C40_example : valid_call ex_unit 3 false None /\
  compute_seqcc ex_env ex_unit 3 "standard" false None = compute_cc ex_env ex_unit 3 "brute-force" false None /\
  check_JR ex_unit [0;2;3] None = Ok true /\ check_JR ex_unit [0;1;4] (Some 1%Q) = Ok false.
Proof. split; [apply ex_unit_valid|]. repeat split; vm_compute; reflexivity. Qed.
