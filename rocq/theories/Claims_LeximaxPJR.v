(** * Claims C89: leximax Phragmén is proportional, minimax Phragmén is not *)
From Coq Require Import String.
From Coq Require Import List Arith Bool ZArith QArith Lia Lqa Permutation Sorted.
From Verif Require Import Prelude Misc Preferences Scores Search Rule RulesThiele Spec SpecRules Compute SpecCompute
  SpecSeq RulesSeq Checks SpecAxioms Milp RulesSolver SpecLoads SolverCompute SolverPhragmen RefSolver MonroeExample LeximaxPJR ExampleData.
Import ListNotations.
Local Open Scope string_scope.
Open Scope nat_scope.
Local Open Scope list_scope.

(** ** C89 *)
(** [PJR_plus]: every group of [l] seats' weight that agrees on a candidate outside the committee approves at
    least [l] members; it implies PJR and JR.  The program compares loads with the tolerances [ACCURACY] = 1e-8
    (for each voter) and [CMP_ACCURACY] = 1e-7, which must be small compared with the smallest possible difference
    of loads, one over the total weight.  (This allows up to 9995 voters of weight 1.) *)
Theorem C89_leximax : forall nx sv e gurobi p k resolute maxn lexi l W, exact_solvers p sv ->
  valid_call p k resolute maxn -> weights_at_least_one p ->
  ((Qnat (length (voters p)) * ACCURACY + CMP_ACCURACY) * wsum (voters p) < 1)%Q ->
  compute_leximaxphragmen (with_solvers nx sv e) p (Z.of_nat k) "gurobi" resolute maxn lexi = Ok l -> In W l ->
  PJR_plus p (default_quota p k) W /\ check_JR p W None = Ok true /\
  (unit_weights p -> check_PJR gurobi p W None "brute-force" = Ok true).
Proof. exact leximax_passes. Qed.
Print Assumptions C89_leximax.

(** the same for the definition of the rule *)
Theorem C89_leximax_spec : forall p k bounds W, wf p -> voters p <> [] -> 1 <= k ->
  ((Qnat (length (voters p)) * ACCURACY + CMP_ACCURACY) * wsum (voters p) < 1)%Q ->
  enough_bounds p k bounds -> leximax_winner p k bounds W -> PJR_plus p (default_quota p k) W.
Proof. exact leximax_PJR_plus. Qed.
Print Assumptions C89_leximax_spec.

(** Minimax Phragmén looks at the largest load only and may violate even JR: here every committee has a voter
    with load 2, so that the third voter's only candidate can be left out. *)
Definition two_pairs : profile := mkp 5 [mkv [0; 1] 1; mkv [2; 3] 1; mkv [4] 1].
Lemma two_pairs_valid : valid_call two_pairs 4 false None.
Proof. split; [wf_tac|]. split; [discriminate|]. split; [cbn; lia|auto]. Qed.
Lemma two_pairs_winner : minimaxphragmen_winner CMP_ACCURACY two_pairs 4 [0; 1; 2; 3].
Proof.
  assert (HC : is_committee two_pairs 4 [0; 1; 2; 3]).
  { split; [repeat constructor|]. split; [reflexivity|]. repeat constructor. }
  split; [exact HC|]. exists 2%Q. split.
  - exists (fun _ _ => 1%Q). split; [split; [intros; discriminate|]|].
    + intros c [<-|[<-|[<-|[<-|[]]]]]; vm_compute; reflexivity.
    + intros i v [E|[E|[E|[]]]]; injection E as <- <-; vm_compute; discriminate.
  - intros V b HV (l & (H0 & H1) & H2). assert (HV' : In V (combinations (seq 0 5) 4)) by (apply combinations_seq; exact HV).
    pose proof (H2 0 (mkv [0; 1] 1) (or_introl eq_refl)) as A. pose proof (H2 1 (mkv [2; 3] 1) (or_intror (or_introl eq_refl))) as B.
    pose proof (H1 0) as L0. pose proof (H1 1) as L1. pose proof (H1 2) as L2. pose proof (H1 3) as L3.
    unfold CMP_ACCURACY. cbn in HV'.
    destruct HV' as [<-|[<-|[<-|[<-|[<-|[]]]]]]; cbn in A, B, L0, L1, L2, L3;
      repeat match goal with H : _ \/ _ -> _ |- _ => first [specialize (H ltac:(auto 6)) | clear H] end; lra.
Qed.
Theorem C89_minimax_refuted : exists p k W, valid_call p k false None /\ unit_weights p /\ weights_at_least_one p /\
  check_JR p W None = Ok false /\
  forall nx sv e alg, exact_solvers p sv -> In alg MIP_ALGORITHMS ->
    exists l, compute_minimaxphragmen (with_solvers nx sv e) p (Z.of_nat k) alg false None = Ok l /\ In W l.
Proof.
  exists two_pairs, 4, [0; 1; 2; 3]. split; [exact two_pairs_valid|]. split; [repeat constructor|]. split; [repeat constructor; vm_compute; discriminate|].
  split; [vm_compute; reflexivity|]. intros nx sv e alg Hs Ha.
  destruct (compute_minimaxphragmen_correct nx sv e two_pairs 4 alg false None Hs two_pairs_valid) as (l & E & _ & _ & _ & Hl); auto.
  - repeat constructor; vm_compute; discriminate.
  - cbn. lia.
  - exists l. split; [exact E|]. apply Hl, two_pairs_winner.
Qed.
Print Assumptions C89_minimax_refuted.

Example C89_example : valid_call ex_unit 3 true None /\ unit_weights ex_unit /\ weights_at_least_one ex_unit /\
  exact_solvers ex_unit (ref_solvers ex_unit) /\ 3 <= length (approved_candidates ex_unit) /\
  ((Qnat (length (voters ex_unit)) * ACCURACY + CMP_ACCURACY) * wsum (voters ex_unit) < 1)%Q /\
  exists bounds W, enough_bounds ex_unit 3 bounds /\ leximax_winner ex_unit 3 bounds W.
Proof.
  assert (HO : weights_at_least_one ex_unit) by (repeat constructor; vm_compute; discriminate).
  assert (HL : 3 <= length (approved_candidates ex_unit)) by (cbn; lia).
  split; [apply ex_unit_valid|]. split; [apply ex_unit_unit|]. split; [exact HO|].
  split; [apply ref_solvers_exact|]. split; [exact HL|]. split; [apply Qlt_alt; vm_compute; reflexivity|].
  destruct (SolverMore.compute_leximaxphragmen_correct ref_nx (ref_solvers ex_unit) ex_env ex_unit 3 true None (ref_solvers_exact _) (ex_unit_valid true) HO HL) as (B & HB & (W & HW) & _).
  exists B, W. auto.
Qed.
