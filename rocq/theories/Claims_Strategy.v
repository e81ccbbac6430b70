(** * Claims C94: strategic voting *)
From Coq Require Import String.
From Coq Require Import List Arith Bool ZArith QArith Lia Lqa Permutation.
From Verif Require Import Milp RulesSolver SpecLoads SolverCompute SolverLex RefSolver RulesMonroe RulesMore SolverMore.
From Verif Require Import Prelude Misc Preferences Scores Rule Spec SpecRules RulesMes Compute SpecCompute SpecSeq ComputeSeq SpecAxioms
  ComputeProofs MonroeExample ExampleData ComputeAll SpecAll TieBreak SpecStrategy Strategy Claims_All AllProofs Claims_Vary.
Import ListNotations.
Local Open Scope string_scope.
Open Scope nat_scope.
Local Open Scope list_scope.

(** ** C94 *)
(** The voter [v] approves [util v W] members of [W].  Approval voting: whatever [v] submits instead of its ballot, the
    committee returned (resolute) does not contain more candidates that [v] approves; *)
Theorem C94_av : forall rnd nx sv e v p q k, misreports v p q -> valid_call p k true None -> valid_call q k true None ->
  exists W V, compute rnd nx (with_solvers nx sv e) "av" p (Z.of_nat k) None (args "standard" true None) = Ok [W] /\
    compute rnd nx (with_solvers nx sv e) "av" q (Z.of_nat k) None (args "standard" true None) = Ok [V] /\
    util v V <= util v W.
Proof. exact av_resolute_strategyproof. Qed.
Print Assumptions C94_av.
(** among all tied committees, neither the best nor the worst ones for [v] improve. *)
Theorem C94_av_irresolute : forall rnd nx sv e v p q k, misreports v p q -> libraries_ok p rnd nx sv e -> libraries_ok q rnd nx sv e ->
  valid_call p k false None -> valid_call q k false None ->
  exists l l', compute rnd nx (with_solvers nx sv e) "av" p (Z.of_nat k) None (args "standard" false None) = Ok l /\
    compute rnd nx (with_solvers nx sv e) "av" q (Z.of_nat k) None (args "standard" false None) = Ok l' /\
    (forall V, In V l' -> exists W, In W l /\ util v V <= util v W) /\
    (forall W, In W l -> exists V, In V l' /\ util v V <= util v W).
Proof. exact av_irresolute_strategyproof. Qed.
Print Assumptions C94_av_irresolute.

(** The other rules reward voters who withhold an approval of a candidate that wins anyway: the first voter approves
    0 and 2 and gets both if it approves 2 only.  No ties are involved here, *)
Definition free_rider : voter := mkv [0; 2] 2.
Definition honest : profile := mkp 3 [free_rider; mkv [0; 1] 3; mkv [0] 1].
Definition dishonest : profile := mkp 3 [mkv [2] 2; mkv [0; 1] 3; mkv [0] 1].
Theorem C94_free_riding_refuted : misreports free_rider honest dishonest /\ valid_call honest 2 false None /\ valid_call dishonest 2 false None /\
  util free_rider [0; 1] = 1 /\ util free_rider [0; 2] = 2 /\
  forall rnd nx sv e, Forall (fun r =>
      compute rnd nx (with_solvers nx sv e) (fst r) honest 2 None (args (snd r) false None) = Ok [[0; 1]] /\
      compute rnd nx (with_solvers nx sv e) (fst r) dishonest 2 None (args (snd r) false None) = Ok [[0; 2]])
    [("pav", "brute-force"); ("pav", "branch-and-bound"); ("slav", "brute-force"); ("lexcc", "brute-force"); ("seqpav", "standard");
     ("seqslav", "standard"); ("seqphragmen", "standard-fractions"); ("equal-shares", "standard-fractions");
     ("phragmen-enestroem", "standard-fractions"); ("consensus-rule", "standard-fractions")].
Proof.
  split. { split; [reflexivity|]. exists [], (mkv [2] 2), [mkv [0; 1] 3; mkv [0] 1]. repeat split. }
  split; [split; [wf_tac|split; [discriminate|split; [cbn; lia|exact I]]]|]. split; [split; [wf_tac|split; [discriminate|split; [cbn; lia|exact I]]]|].
  split; [reflexivity|]. split; [reflexivity|]. intros rnd nx sv e. repeat (apply Forall_cons; [split; vm_compute; reflexivity|]). apply Forall_nil.
Qed.
Print Assumptions C94_free_riding_refuted.
Theorem C94_revseqpav_refuted : misreports free_rider honest dishonest /\
  forall rnd nx sv e, libraries_ok honest rnd nx sv e -> libraries_ok dishonest rnd nx sv e -> exists l l',
    compute rnd nx (with_solvers nx sv e) "revseqpav" honest 2 None (args "standard" false None) = Ok l /\ (forall W, In W l <-> W = [0; 1]) /\
    compute rnd nx (with_solvers nx sv e) "revseqpav" dishonest 2 None (args "standard" false None) = Ok l' /\ (forall W, In W l' <-> W = [0; 2]).
Proof.
  split; [apply C94_free_riding_refuted|]. intros rnd nx sv e Lp Lq.
  pose proof C94_free_riding_refuted as (_ & Vp & Vq & _).
  destruct (same_members rnd nx sv e id_random ref_nx (ref_solvers honest) ex_env honest 2 "revseqpav" "standard" _ [[0; 1]] Lp (example_libraries honest)
    (b_revseq e honest 2 "pav" pav_w (den_pav e)) (b_revseq ex_env honest 2 "pav" pav_w (den_pav ex_env)) Vp ltac:(vm_compute; reflexivity)) as (l & El & Ml).
  destruct (same_members rnd nx sv e id_random ref_nx (ref_solvers dishonest) ex_env dishonest 2 "revseqpav" "standard" _ [[0; 2]] Lq (example_libraries dishonest)
    (b_revseq e dishonest 2 "pav" pav_w (den_pav e)) (b_revseq ex_env dishonest 2 "pav" pav_w (den_pav ex_env)) Vq ltac:(vm_compute; reflexivity)) as (l' & El' & Ml').
  exists l, l'. split; [exact El|]. split; [intros W; rewrite Ml; cbn; intuition congruence|]. split; [exact El'|]. intros W; rewrite Ml'; cbn; intuition congruence.
Qed.
Print Assumptions C94_revseqpav_refuted.
(** with ties broken by [resolute=True] the same happens for the other rules. *)
Definition tied_rider : voter := mkv [0; 2] 1.
Definition tied_honest : profile := mkp 3 [tied_rider; mkv [0; 1] 1].
Definition tied_dishonest : profile := mkp 3 [mkv [2] 1; mkv [0; 1] 1].
Theorem C94_resolute_refuted : misreports tied_rider tied_honest tied_dishonest /\ valid_call tied_honest 2 true None /\ valid_call tied_dishonest 2 true None /\
  util tied_rider [0; 1] = 1 /\ util tied_rider [0; 2] = 2 /\
  forall rnd sv e, Forall (fun r =>
      compute rnd ref_nx (with_solvers ref_nx sv e) (fst r) tied_honest 2 None (args (snd r) true None) = Ok [[0; 1]] /\
      compute rnd ref_nx (with_solvers ref_nx sv e) (fst r) tied_dishonest 2 None (args (snd r) true None) = Ok [[0; 2]])
    [("cc", "brute-force"); ("seqcc", "standard"); ("minimaxav", "brute-force"); ("lexminimaxav", "brute-force"); ("monroe", "brute-force");
     ("greedy-monroe", "standard"); ("eph", "standard-fractions")].
Proof.
  split. { split; [reflexivity|]. exists [], (mkv [2] 1), [mkv [0; 1] 1]. repeat split. }
  split; [split; [wf_tac|split; [discriminate|split; [cbn; lia|exact I]]]|]. split; [split; [wf_tac|split; [discriminate|split; [cbn; lia|exact I]]]|].
  split; [reflexivity|]. split; [reflexivity|]. intros rnd sv e. repeat (apply Forall_cons; [split; vm_compute; reflexivity|]). apply Forall_nil.
Qed.
Print Assumptions C94_resolute_refuted.
(** SAV with Fraction weights *)
Definition sav_rider : voter := mkVoter [0; 2] 1 false.
Definition sav_honest : profile := mkp 3 [sav_rider; mkVoter [0; 1] 1 false].
Definition sav_dishonest : profile := mkp 3 [mkVoter [2] 1 false; mkVoter [0; 1] 1 false].
Theorem C94_sav_refuted : misreports sav_rider sav_honest sav_dishonest /\ valid_call sav_honest 2 true None /\ valid_call sav_dishonest 2 true None /\
  util sav_rider [0; 1] = 1 /\ util sav_rider [0; 2] = 2 /\
  forall rnd nx sv e,
    compute rnd nx (with_solvers nx sv e) "sav" sav_honest 2 None (args "standard" true None) = Ok [[0; 1]] /\
    compute rnd nx (with_solvers nx sv e) "sav" sav_dishonest 2 None (args "standard" true None) = Ok [[0; 2]].
Proof.
  split. { split; [reflexivity|]. exists [], (mkVoter [2] 1 false), [mkVoter [0; 1] 1 false]. repeat split. }
  split; [split; [wf_tac|split; [discriminate|split; [cbn; lia|exact I]]]|]. split; [split; [wf_tac|split; [discriminate|split; [cbn; lia|exact I]]]|].
  split; [reflexivity|]. split; [reflexivity|]. intros rnd nx sv e. split; vm_compute; reflexivity.
Qed.
Print Assumptions C94_sav_refuted.

Example C94_example :
  let call p resolute := compute id_random ref_nx (with_solvers ref_nx (ref_solvers p) ex_env) "av" p 2 None (args "standard" resolute None) in
  libraries_ok tied_honest id_random ref_nx (ref_solvers tied_honest) ex_env /\ misreports tied_rider tied_honest tied_dishonest /\
  valid_call tied_honest 2 false None /\ valid_call tied_dishonest 2 false None /\
  call tied_honest false = Ok [[0; 1]; [0; 2]] /\ call tied_dishonest false = Ok [[0; 1]; [0; 2]; [1; 2]] /\
  call tied_honest true = Ok [[0; 1]] /\ util tied_rider [1; 2] = 1.
Proof.
  cbv zeta. split; [apply example_libraries|]. split; [apply C94_resolute_refuted|].
  split; [split; [wf_tac|split; [discriminate|split; [cbn; lia|exact I]]]|]. split; [split; [wf_tac|split; [discriminate|split; [cbn; lia|exact I]]]|].
  repeat (split; [vm_compute; reflexivity|]). vm_compute. reflexivity.
Qed.
