(** * Claims C93: PAV is close to the core *)
From Coq Require Import String.
From Coq Require Import List Arith Bool ZArith QArith Lia Lqa Permutation.
From Verif Require Import Milp RulesSolver SpecLoads SolverCompute SolverLex RefSolver RulesMonroe RulesMore SolverMore.
From Verif Require Import Prelude Misc Preferences Scores Rule Spec SpecRules RulesMes Compute SpecCompute SpecSeq ComputeSeq SpecAxioms
  Checks ChecksProofs ComputeProofs Guarantees MonroeExample ExampleData ComputeAll SpecAll SpecJR ThieleRules SpecCore Core Claims_All Claims_Checks.
Import ListNotations.
Local Open Scope string_scope.
Open Scope nat_scope.
Local Open Scope list_scope.

(** ** C93 *)
(** Committees of PAV (all algorithms that optimise the PAV score): if a group deserves as many seats as [T] has, some
    voter of the group approves at most twice as many candidates of [T] as of the committee; if [T] consists of candidates
    outside the committee, at most as many. *)
Theorem C93_pav : forall rnd nx sv e p k id alg resolute maxn l W, optimises e p id alg pav_w ->
  libraries_ok p rnd nx sv e -> valid_call p k resolute maxn ->
  compute rnd nx (with_solvers nx sv e) id p (Z.of_nat k) None (args alg resolute maxn) = Ok l -> In W l ->
  approximate_core 2 p (default_quota p k) W /\ disjoint_core p (default_quota p k) W.
Proof.
  intros rnd nx sv e p k id alg resolute maxn l W Ho HL Hc E Hin.
  pose proof (optimises_maximises rnd nx sv e p k id alg pav_w resolute maxn l W Ho HL Hc E Hin) as M.
  destruct Hc as (Hw & Hv & Hk & _). assert (El : length W = k) by apply M.
  assert (D : disjoint_core p (default_quota p k) W) by (apply (pav_disjoint_core p k); auto; apply quota_droop; auto; apply Hk).
  destruct (committee_cand_set p k W (proj1 Hk) (proj1 M)) as [Hcs Hne].
  split; [|exact D]. apply disjoint_approximate; auto; [|apply Hcs]. rewrite <- El. apply Qlt_le_weak, default_pos; auto.
Qed.
Print Assumptions C93_pav.
(** for every quota above n/(k+1) *)
Theorem C93_pav_spec : forall p k W q, wf p -> (0 <= q)%Q -> maximises (Thiele pav_w p) p k W -> (wsum (voters p) < Qnat (k + 1) * q)%Q ->
  approximate_core 2 p q W /\ disjoint_core p q W.
Proof.
  intros p k W q Hw H0 M Hq. pose proof (pav_disjoint_core p k W q Hw M Hq) as D. split; [|exact D].
  apply disjoint_approximate; auto. destruct M as ((A & _) & _). apply ascending_NoDup. exact A.
Qed.
Print Assumptions C93_pav_spec.
(** properties.check_core answers the question for the factor 1. *)
Theorem C93_check : forall gurobi p W quota, wf p -> cand_set p W -> (quota = None -> W <> []) -> (0 < the_quota p W quota)%Q ->
  exists b, check_core gurobi p W quota "brute-force" = Ok b /\ (b = true <-> approximate_core 1 p (the_quota p W quota) W).
Proof.
  intros g p W quota Hw Hc Hq Hp. destruct (C36_core_exact g p W quota Hw Hc Hq Hp) as (b & E & H). exists b. split; auto.
  rewrite H. unfold in_core, approximate_core. split; intros K S T A B C; destruct (K S T A B C) as (i & Hi & L); exists i; split; auto; lia.
Qed.
Print Assumptions C93_check.

(** PAV itself may leave the core: three voters agree on 0, 1, 2 and have one more candidate each; they deserve 6 of the
    12 seats and could have 4 approved members each, but get 3. *)
Definition fifteen : profile := mkp 15 [mkv [0;1;2;3] 1; mkv [0;1;2;4] 1; mkv [0;1;2;5] 1; mkv [6;7;8] 1; mkv [9;10;11] 1; mkv [12;13;14] 1].
Definition pav_committee : list nat := [0;1;2;6;7;8;9;10;11;12;13;14].
Definition the_three : list nat := [0;1;2].
Definition their_six : list nat := [0;1;2;3;4;5].
Theorem C93_core_refuted : valid_call fifteen 12 false None /\
  (forall rnd nx sv e, compute rnd nx (with_solvers nx sv e) "pav" fifteen 12 None (args "brute-force" false None) = Ok [pav_committee]) /\
  is_group fifteen the_three /\ cand_set fifteen their_six /\ deserves fifteen (default_quota fifteen 12) the_three (length their_six) /\
  Forall (fun i => approves_in fifteen i pav_committee = 3 /\ approves_in fifteen i their_six = 4) the_three /\
  ~ in_core fifteen (default_quota fifteen 12) pav_committee.
Proof.
  assert (G : is_group fifteen the_three) by (split; [discriminate|split; [repeat constructor; cbn; intuition lia|repeat constructor]]).
  assert (C : cand_set fifteen their_six) by (split; [repeat constructor; cbn; intuition lia|repeat constructor]).
  assert (D : deserves fifteen (default_quota fifteen 12) the_three (length their_six)) by (vm_compute; discriminate).
  assert (F : Forall (fun i => approves_in fifteen i pav_committee = 3 /\ approves_in fifteen i their_six = 4) the_three) by (repeat constructor).
  split; [split; [wf_tac|split; [discriminate|split; [cbn; lia|auto]]]|]. split; [intros; vm_compute; reflexivity|].
  split; [exact G|]. split; [exact C|]. split; [exact D|]. split; [exact F|].
  intros H. destruct (H _ _ G C D) as (i & Hi & L). rewrite Forall_forall in F. destruct (F i Hi) as [A B]. lia.
Qed.
Print Assumptions C93_core_refuted.

(** AV misses every factor: the minority (weight 2 of 5) deserves one of the four seats and gets none. *)
Definition minority_of_three : profile := mkp 8 [mkv [0;1;2;3] 3; mkv [4;5;6;7] 2].
Definition the_second : list nat := [1].
Definition one_for_two : list nat := [4].
Theorem C93_av_refuted : valid_call minority_of_three 4 false None /\
  (forall rnd nx sv e, compute rnd nx (with_solvers nx sv e) "av" minority_of_three 4 None (args "standard" false None) = Ok [[0;1;2;3]]) /\
  forall a, ~ approximate_core a minority_of_three (default_quota minority_of_three 4) [0;1;2;3].
Proof.
  split; [split; [wf_tac|split; [discriminate|split; [cbn; lia|auto]]]|]. split; [intros; vm_compute; reflexivity|].
  intros a H. destruct (H the_second one_for_two) as (i & Hi & L).
  - split; [discriminate|split; [repeat constructor; cbn; intuition lia|repeat constructor]].
  - split; [repeat constructor; cbn; intuition lia|repeat constructor].
  - vm_compute. discriminate.
  - destruct Hi as [<-|[]]. vm_compute in L. rewrite Nat.mul_0_r in L. lia.
Qed.
Print Assumptions C93_av_refuted.

(** CC misses the factor 2: a party with weight 9 of 12 deserves three of the four seats and gets one. *)
Definition party_of_nine : profile := mkp 6 [mkv [0;1;2] 9; mkv [3] 1; mkv [4] 1; mkv [5] 1].
Definition cc_committee : list nat := [0;3;4;5].
Definition the_first : list nat := [0].
Theorem C93_cc_refuted : valid_call party_of_nine 4 false None /\
  (forall rnd nx sv e, exists l, compute rnd nx (with_solvers nx sv e) "cc" party_of_nine 4 None (args "brute-force" false None) = Ok l /\ In cc_committee l) /\
  ~ approximate_core 2 party_of_nine (default_quota party_of_nine 4) cc_committee.
Proof.
  split; [split; [wf_tac|split; [discriminate|split; [cbn; lia|auto]]]|].
  split; [intros; eexists; split; [vm_compute; reflexivity|vm_compute; auto]|].
  intros H. destruct (H the_first the_three) as (i & Hi & L).
  - split; [discriminate|split; [repeat constructor; cbn; intuition lia|repeat constructor]].
  - split; [repeat constructor; cbn; intuition lia|repeat constructor].
  - vm_compute. discriminate.
  - destruct Hi as [<-|[]]. vm_compute in L. lia.
Qed.
Print Assumptions C93_cc_refuted.

Example C93_example :
  libraries_ok fifteen id_random ref_nx (ref_solvers fifteen) ex_env /\ valid_call fifteen 12 false None /\
  optimises ex_env fifteen "pav" "brute-force" pav_w /\ optimises ex_env fifteen "pav" "branch-and-bound" pav_w /\
  compute id_random ref_nx (with_solvers ref_nx (ref_solvers fifteen) ex_env) "pav" fifteen 12 None (args "brute-force" false None) = Ok [pav_committee] /\
  is_group fifteen the_three /\ cand_set fifteen their_six /\ deserves fifteen (default_quota fifteen 12) the_three (length their_six) /\
  approves_in fifteen 0 their_six <= 2 * approves_in fifteen 0 pav_committee.
Proof.
  split; [apply example_libraries|]. split; [apply C93_core_refuted|]. split; [apply op_bf; constructor|]. split; [apply op_bb; [constructor|intros i j; apply pav_antitone]|].
  split; [vm_compute; reflexivity|]. split; [apply C93_core_refuted|]. split; [apply C93_core_refuted|]. split; [apply C93_core_refuted|]. vm_compute. lia.
Qed.
