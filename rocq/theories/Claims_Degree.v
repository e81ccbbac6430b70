(** * Claims C92: how satisfied large groups are on average *)
From Coq Require Import String.
From Coq Require Import List Arith Bool ZArith QArith Lia Lqa Permutation.
From Verif Require Import Milp RulesSolver SpecLoads SolverCompute SolverLex RefSolver RulesMonroe RulesMore SolverMore.
From Verif Require Import Prelude Misc Preferences Scores Rule Spec SpecRules RulesMes Compute SpecCompute SpecSeq ComputeSeq SpecAxioms
  Checks ChecksProofs ComputeProofs Guarantees MonroeExample ExampleData ComputeAll SpecAll SpecJR ThieleRules SpecDegree Degree Claims_All Claims_Checks ComputeSeqProofs Claims_Prop.
Import ListNotations.
Local Open Scope string_scope.
Open Scope nat_scope.
Local Open Scope list_scope.

(** ** C92 *)
(** [half_degree l] is (l-1)/2 and [pav_degree l] is l-1.  A committee that passes the EJR+ check gives every group
    that deserves [l] seats and agrees on [l] candidates (or on one outside the committee) an average of at least
    (l-1)/2 approved members, for all weights of the voters; *)
Theorem C92_EJR_plus_checked : forall p W, wf p -> cand_set p W -> W <> [] -> voters p <> [] ->
  check_EJR_plus p W None = Ok true ->
  average_at_least (fun l => (Qnat l - 1) / 2)%Q p (default_quota p (length W)) W /\
  average_at_least_plus (fun l => (Qnat l - 1) / 2)%Q p (default_quota p (length W)) W.
Proof.
  intros p W Hw Hc HW Hv E. destruct (check_EJR_plus_default p W Hw Hc HW Hv) as (b & Eb & Hb). rewrite E in Eb. injection Eb as <-.
  pose proof (proj1 Hb eq_refl) as R. assert (Q0 : (0 <= default_quota p (length W))%Q) by (apply Qlt_le_weak, default_pos; auto).
  split; [apply EJR_average|apply EJR_plus_average]; auto. apply EJR_plus_EJR; auto. apply Hc.
Qed.
Print Assumptions C92_EJR_plus_checked.
(** one with EJR does so for groups that agree on [l] candidates. *)
Theorem C92_EJR_spec : forall p q W, wf p -> (0 <= q)%Q -> EJR p q W -> average_at_least (fun l => (Qnat l - 1) / 2)%Q p q W.
Proof. exact EJR_average. Qed.
Print Assumptions C92_EJR_spec.

(** In particular the committees that pass properties.check_EJR. *)
Theorem C92_EJR_checked : forall gurobi p W, wf p -> unit_weights p -> cand_set p W -> W <> [] -> voters p <> [] ->
  check_EJR gurobi p W None "brute-force" = Ok true ->
  average_at_least (fun l => (Qnat l - 1) / 2)%Q p (default_quota p (length W)) W.
Proof.
  intros g p W Hw Hu Hc HW Hv E. assert (Q0 : (0 < default_quota p (length W))%Q) by (apply default_pos; auto).
  destruct (C34_EJR_exact g p W None Hw Hu Hc (fun _ => HW) Q0) as (b & Eb & Hb). rewrite E in Eb. injection Eb as <-.
  apply EJR_average; auto. apply Qlt_le_weak. exact Q0. apply Hb. reflexivity.
Qed.
Print Assumptions C92_EJR_checked.

(** So do the committees of the Method of Equal Shares (exact arithmetic, the completions by AV and sequential Phragmén); *)
Theorem C92_equal_shares : forall e p k alg resolute maxn s l W, exact_arithmetic e alg ->
  valid_call p k resolute maxn -> s = "av" \/ (s = "seqphragmen" /\ enough_support p k) ->
  compute_equal_shares e p (Z.of_nat k) alg resolute maxn (Some s) = Ok l -> In W l ->
  average_at_least (fun l => (Qnat l - 1) / 2)%Q p (default_quota p k) W /\
  average_at_least_plus (fun l => (Qnat l - 1) / 2)%Q p (default_quota p k) W.
Proof.
  intros e p k alg resolute maxn s l W He Hc Hs E Hin.
  destruct (C41_equal_shares e ex_noneq p k alg resolute maxn s l W He Hc Hs E Hin) as (A & _).
  assert (Hcom : is_committee p k W).
  { destruct Hs as [->|[-> Hs]].
    - apply (mes_winner_full p k (equal_share p k) AvCompletion W); [auto|]. eapply answers_In; [|exact E|exact Hin].
      apply (compute_mes_correct e p k alg resolute maxn (Some "av") AvCompletion); auto; [eexists; reflexivity|discriminate|exact I].
    - apply (mes_winner_full p k (equal_share p k) PhragmenCompletion W); [auto|]. eapply answers_In; [|exact E|exact Hin].
      apply (compute_mes_correct e p k alg resolute maxn (Some "seqphragmen") PhragmenCompletion); auto; [eexists; reflexivity|discriminate]. }
  destruct Hc as (Hw & Hv & Hk & _). destruct (committee_cand_set p k W (proj1 Hk) Hcom) as [Hcs Hne].
  assert (El : length W = k) by apply Hcom. rewrite <- El. apply C92_EJR_plus_checked; auto.
Qed.
Print Assumptions C92_equal_shares.

(** and PAV twice as much, more than l-1 (all algorithms that optimise the PAV score). *)
Theorem C92_pav : forall rnd nx sv e p k id alg resolute maxn l W, optimises e p id alg pav_w ->
  libraries_ok p rnd nx sv e -> valid_call p k resolute maxn ->
  compute rnd nx (with_solvers nx sv e) id p (Z.of_nat k) None (args alg resolute maxn) = Ok l -> In W l ->
  average_above (fun l => Qnat l - 1)%Q p (default_quota p k) W /\
  average_above_plus (fun l => Qnat l - 1)%Q p (default_quota p k) W.
Proof.
  intros rnd nx sv e p k id alg resolute maxn l W Ho HL Hc E Hin.
  pose proof (optimises_maximises rnd nx sv e p k id alg pav_w resolute maxn l W Ho HL Hc E Hin) as M.
  destruct Hc as (Hw & Hv & Hk & _).
  split; [apply (pav_average p k)|apply (pav_average_plus p k)]; auto; apply quota_droop; auto; apply Hk.
Qed.
Print Assumptions C92_pav.
(** For the PAV score any quota above n/(k+1) will do. *)
Theorem C92_pav_spec : forall p k W q, wf p -> voters p <> [] -> maximises (Thiele pav_w p) p k W ->
  (wsum (voters p) < Qnat (k + 1) * q)%Q ->
  average_above (fun l => Qnat l - 1)%Q p q W /\ average_above_plus (fun l => Qnat l - 1)%Q p q W.
Proof. intros. split; [eapply pav_average|eapply pav_average_plus]; eauto. Qed.
Print Assumptions C92_pav_spec.

(** A committee that passes the EJR+ check need not reach the average of PAV: all six voters agree on candidates 0 and 1,
    deserve two seats, and approve 5 members of [2;3] in total instead of (2-1)*6. *)
Definition six_voters : profile := mkp 4 [mkv [0;1;2;3] 1; mkv [0;1;2] 1; mkv [0;1;2] 1; mkv [0;1;3] 1; mkv [0;1] 1; mkv [0;1] 1].
Definition all_six : list nat := [0; 1; 2; 3; 4; 5].
Definition last_two : list nat := [2; 3].
Definition first_two : list nat := [0; 1].
Theorem C92_EJR_pav_degree_refuted : wf six_voters /\ cand_set six_voters last_two /\
  check_EJR_plus six_voters last_two None = Ok true /\ check_EJR ex_noneq six_voters last_two None "brute-force" = Ok true /\
  cohesive six_voters (default_quota six_voters 2) all_six 2 /\
  (gweight six_voters all_six == 6)%Q /\ (satisfaction six_voters all_six last_two == 5)%Q /\
  ~ average_at_least (fun l => Qnat l - 1)%Q six_voters (default_quota six_voters 2) last_two.
Proof.
  assert (C : cohesive six_voters (default_quota six_voters 2) all_six 2).
  { split; [split; [discriminate|split; [repeat constructor; cbn; intuition lia|repeat constructor]]|].
    split; [lia|]. split; [vm_compute; discriminate|]. exists [0; 1]. split; [split; [repeat constructor; cbn; intuition lia|repeat constructor]|]. split; [reflexivity|].
    intros i c Hi Hc. cbn in Hi, Hc. decompose [or] Hi; subst; try tauto; decompose [or] Hc; subst; try tauto; cbn; tauto. }
  split; [wf_tac|]. split; [split; [repeat constructor; cbn; intuition lia|repeat constructor]|].
  split; [vm_compute; reflexivity|]. split; [vm_compute; reflexivity|]. split; [exact C|].
  split; [vm_compute; reflexivity|]. split; [vm_compute; reflexivity|].
  intros H. specialize (H _ _ C). vm_compute in H. apply H. reflexivity.
Qed.
Print Assumptions C92_EJR_pav_degree_refuted.

Example C92_example :
  let call id alg := compute id_random ref_nx (with_solvers ref_nx (ref_solvers six_voters) ex_env) id six_voters 2 None (args alg false None) in
  libraries_ok six_voters id_random ref_nx (ref_solvers six_voters) ex_env /\ valid_call six_voters 2 false None /\
  optimises ex_env six_voters "pav" "brute-force" pav_w /\
  call "pav" "brute-force" = Ok [[0; 1]] /\
  cohesive six_voters (default_quota six_voters 2) all_six 2 /\
  (satisfaction six_voters all_six first_two == 12)%Q /\
  compute_equal_shares ex_env six_voters 2 "standard-fractions" false None (Some "av") = Ok [[0; 1]].
Proof.
  cbv zeta. split; [apply example_libraries|]. split; [split; [wf_tac|split; [discriminate|split; [cbn; lia|auto]]]|].
  split; [apply op_bf; constructor|]. split; [vm_compute; reflexivity|]. split; [apply C92_EJR_pav_degree_refuted|].
  split; vm_compute; reflexivity.
Qed.
