(** * Claim C88: candidates approved by nobody

    Specification: SpecExtra.v ([extra_candidates]); [keeps_first] is defined in SpecMono.v; [libraries_ok], [args],
    [listed], [listed_short] in SpecAll.v. *)
From Coq Require Import String.
From Coq Require Import List Arith Bool ZArith QArith Lia Lqa Permutation Sorted.
From Verif Require Import Milp RulesSolver SpecLoads SolverLex SolverPhragmen SolverCompute RefSolver RulesMonroe RulesMore SolverMore.
From Verif Require Import Prelude Misc MiscProofs Preferences Scores Spec SpecRules Rule Compute SpecCompute SpecSeq SpecMonroe
  MonroeExample ExampleData ComputeAll SpecAll AllProofs SpecMono TieBreak SpecVary Claims_All Claims_Vary SpecExtra ExtraAll ExtraFirst.
Import ListNotations.
Local Open Scope string_scope.
Open Scope nat_scope.
Local Open Scope list_scope.

(** ** Strike out the committees with an extra candidate, and what is left is the result without the extra candidates *)
Theorem C88_extra_candidates : forall rnd nx sv rnd' nx' sv' e p q k id alg, extra_candidates p q ->
  libraries_ok p rnd nx sv e -> libraries_ok q rnd' nx' sv' e -> valid_call p k false None ->
  listed e p k id alg \/ listed_short e id alg -> (id = "sav" -> fraction_weights p) ->
  exists l, compute rnd' nx' (with_solvers nx' sv' e) id q (Z.of_nat k) None (args alg false None) = Ok l /\
    compute rnd nx (with_solvers nx sv e) id p (Z.of_nat k) None (args alg false None) = Ok (filter (forallb (fun c => c <? num_cand p)) l).
Proof. exact extra_ok. Qed.
Print Assumptions C88_extra_candidates.

(** ** With [resolute=True] the result of these rules does not change at all *)
Theorem C88_resolute : forall rnd nx sv rnd' nx' sv' e p q k id alg, extra_candidates p q ->
  libraries_ok p rnd nx sv e -> libraries_ok q rnd' nx' sv' e -> valid_call p k true None ->
  keeps_first e p id alg -> (id = "sav" -> fraction_weights p) ->
  compute rnd' nx' (with_solvers nx' sv' e) id q (Z.of_nat k) None (args alg true None) =
  compute rnd nx (with_solvers nx sv e) id p (Z.of_nat k) None (args alg true None).
Proof. exact extra_resolute. Qed.
Print Assumptions C88_resolute.
Theorem C88_greedy_monroe : forall nx nx' e p q k, extra_candidates p q -> networkx_correct nx -> networkx_correct nx' ->
  valid_call p k true None -> unit_weights p ->
  compute_greedy_monroe nx' e q (Z.of_nat k) "standard" true None = compute_greedy_monroe nx e p (Z.of_nat k) "standard" true None.
Proof. exact extra_greedy_monroe. Qed.
Print Assumptions C88_greedy_monroe.

(** three seats, three candidates of whom two are approved; one more candidate *)
Definition ex_two_liked : profile := mkp 3 [mkv [0] 1; mkv [1] 1; mkv [1] 1].
Definition ex_two_liked_more : profile := mkp 4 (voters ex_two_liked).
Example C88_example :
  let call p id alg r := compute id_random ref_nx (with_solvers ref_nx (ref_solvers ex_two_liked_more) ex_env) id p 3 None (args alg r None) in
  extra_candidates ex_two_liked ex_two_liked_more /\ valid_call ex_two_liked 3 false None /\
  libraries_ok ex_two_liked id_random ref_nx (ref_solvers ex_two_liked_more) ex_env /\
  libraries_ok ex_two_liked_more id_random ref_nx (ref_solvers ex_two_liked_more) ex_env /\
  listed ex_env ex_two_liked 3 "eph" "standard-fractions" /\ listed ex_env ex_two_liked 3 "monroe" "brute-force" /\ keeps_first ex_env ex_two_liked "pav" "brute-force" /\
  unit_weights ex_two_liked /\ networkx_correct ref_nx /\
  call ex_two_liked "eph" "standard-fractions" false = Ok [[0; 1; 2]] /\ call ex_two_liked_more "eph" "standard-fractions" false = Ok [[0; 1; 2]; [0; 1; 3]] /\
  call ex_two_liked "monroe" "brute-force" false = Ok [[0; 1; 2]] /\ call ex_two_liked_more "monroe" "brute-force" false = Ok [[0; 1; 2]; [0; 1; 3]] /\
  call ex_two_liked_more "pav" "brute-force" true = Ok [[0; 1; 2]].
Proof.
  cbv zeta. split; [split; [cbn; lia|reflexivity]|]. split; [valid_tac|]. split; [apply smaller_libraries; cbn; lia|]. split; [apply smaller_libraries; lia|].
  split; [apply l_eph; [left; reflexivity|cbn; lia]|]. split; [apply l_monroe; [repeat constructor|cbn; tauto]|]. split; [apply (kf_thiele ex_env ex_two_liked "pav" pav_w); constructor|].
  split; [repeat constructor|]. split; [exact (proj1 (proj2 (example_libraries ex_two_liked)))|]. repeat split; vm_compute; reflexivity.
Qed.

(** ** The other algorithms may elect an extra candidate with [resolute=True]: the text "{0, 10}" comes before "{0, 1}" *)
Theorem C88_resolute_refuted : exists p q, extra_candidates p q /\ valid_call p 2 true None /\ (forall v, In v (voters q) -> ~ In 10 (approved v)) /\ forall rnd nx sv e,
  compute rnd nx (with_solvers nx sv e) "cc" p 2 None (args "branch-and-bound" true None) = Ok [[0; 1]] /\
  compute rnd nx (with_solvers nx sv e) "cc" q 2 None (args "branch-and-bound" true None) = Ok [[0; 10]].
Proof.
  exists (mkp 10 [mkv [0] 1]), (mkp 11 [mkv [0] 1]). split; [split; [cbn; lia|reflexivity]|]. split; [valid_tac|]. split; [intros v [<-|[]] [E|[]]; discriminate E|].
  intros. split; vm_compute; reflexivity.
Qed.
Print Assumptions C88_resolute_refuted.
