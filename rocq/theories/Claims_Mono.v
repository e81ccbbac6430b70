(** * Claims C63 (committee monotonicity) and C64 (which committee [resolute=True] returns)

    [house_monotone], [number_first], [keeps_first] and [keeps_first_printed] are
    defined in SpecMono.v; [libraries_ok] and [args] in SpecAll.v. *)
From Coq Require Import String.
From Coq Require Import List Arith Bool ZArith QArith Lia Lqa Permutation.
From Verif Require Import Prelude Misc MiscProofs Preferences Scores Spec SpecRules Rule Compute SpecCompute SpecSeq SpecLoads
  MonroeExample ExampleData Milp RulesMonroe RulesMore RulesSolver SolverCompute ComputeAll SpecAll AllProofs SpecMono TieBreak Claims_All.
Import ListNotations.
Local Open Scope string_scope.
Open Scope nat_scope.
Local Open Scope list_scope.

(** ** C63: with one more seat every winning committee can be extended, and every new one extends an old one *)
Theorem C63_committee_monotone : forall rnd nx sv e p k id alg,
  libraries_ok p rnd nx sv e -> house_monotone e p k id alg -> 1 <= k -> valid_call p (S k) false None ->
  exists l l', compute rnd nx (with_solvers nx sv e) id p (Z.of_nat k) None (args alg false None) = Ok l /\
    compute rnd nx (with_solvers nx sv e) id p (Z.of_nat (S k)) None (args alg false None) = Ok l' /\
    (forall W, In W l -> exists V, In V l' /\ incl W V) /\ (forall V, In V l' -> exists W, In W l /\ incl W V).
Proof. exact house_monotone_ok. Qed.
Print Assumptions C63_committee_monotone.

(** and the committee returned with [resolute=True] is extended *)
Theorem C63_resolute : forall rnd nx sv e p k id alg,
  libraries_ok p rnd nx sv e -> house_monotone e p k id alg -> 1 <= k -> valid_call p (S k) true None ->
  exists W V, compute rnd nx (with_solvers nx sv e) id p (Z.of_nat k) None (args alg true None) = Ok [W] /\
    compute rnd nx (with_solvers nx sv e) id p (Z.of_nat (S k)) None (args alg true None) = Ok [V] /\ incl W V.
Proof. exact house_monotone_resolute_ok. Qed.
Print Assumptions C63_resolute.

Example C63_example :
  let call k resolute id alg := compute id_random ref_nx (with_solvers ref_nx (ref_solvers ex_unit) ex_env) id ex_unit k None (args alg resolute None) in
  libraries_ok ex_unit id_random ref_nx (ref_solvers ex_unit) ex_env /\ valid_call ex_unit 3 false None /\ valid_call ex_unit 3 true None /\
  house_monotone ex_env ex_unit 2 "revseqpav" "standard" /\ house_monotone ex_env ex_unit 2 "maximin-support" "mip-cbc" /\
  house_monotone ex_env ex_unit 2 "seqphragmen" "standard-fractions" /\
  call 2%Z false "seqphragmen" "standard-fractions" = Ok [[0; 2]; [1; 2]] /\
  call 3%Z false "seqphragmen" "standard-fractions" = Ok [[0; 2; 3]; [0; 2; 4]; [1; 2; 3]; [1; 2; 4]] /\
  call 2%Z true "av" "standard" = Ok [[0; 1]] /\ call 3%Z true "av" "standard" = Ok [[0; 1; 2]].
Proof.
  cbv zeta. split; [apply example_libraries|]. split; [apply ex_unit_valid|].
  split; [apply ex_unit_valid|].
  split; [apply (h_revseq ex_env ex_unit 2 "pav" pav_w); constructor|]. split; [apply h_maximin; cbn; tauto|].
  assert (ES : forall k, 2 <= k -> k <= 3 -> enough_support ex_unit k).
  { intros k H2 H3 c Hc. right. cbn in Hc. assert (S : (1 <= support ex_unit c)%Q) by (do 5 (destruct c as [|c]; [vm_compute; discriminate|]); lia).
    assert (k = 2 \/ k = 3) as [->|E] by lia; [change (Qnat 2) with 2%Q; change (Qnat (2 + 1)) with 3%Q; lra|subst k; change (Qnat 3) with 3%Q; change (Qnat (3 + 1)) with 4%Q; lra]. }
  split; [apply h_seqphragmen; [left; reflexivity|apply ES; lia|apply ES; lia]|].
  repeat split; vm_compute; reflexivity.
Qed.

(** The rules that optimise over whole committees are not of this kind: PAV. *)
Theorem C63_optimal_pav_refuted : exists p, valid_call p 2 false None /\ forall rnd nx sv e, libraries_ok p rnd nx sv e ->
  compute rnd nx (with_solvers nx sv e) "pav" p 1 None (args "brute-force" false None) = Ok [[0]] /\
  compute rnd nx (with_solvers nx sv e) "pav" p 2 None (args "brute-force" false None) = Ok [[1; 2]].
Proof.
  exists (mkp 3 [mkv [0;1] 3; mkv [0;2] 3; mkv [1] 2; mkv [2] 2]). split.
  - split; [wf_tac|]. cbn. split; [discriminate|split; [lia|auto]].
  - intros rnd nx sv e _. split; vm_compute; reflexivity.
Qed.
Print Assumptions C63_optimal_pav_refuted.

(** ** C64: the winning committee returned with [resolute=True] *)
(** AV, SAV, the Thiele methods with "brute-force" and the trivial rule: the first one in the order of the candidates' numbers *)
Theorem C64_first_by_number : forall rnd nx sv e p k id alg,
  libraries_ok p rnd nx sv e -> keeps_first e p id alg -> valid_call p k true None ->
  exists W l, compute rnd nx (with_solvers nx sv e) id p (Z.of_nat k) None (args alg true None) = Ok [W] /\
    compute rnd nx (with_solvers nx sv e) id p (Z.of_nat k) None (args alg false None) = Ok l /\
    In W l /\ forall V, In V l -> V = W \/ number_first W V.
Proof. exact keeps_first_ok. Qed.
Print Assumptions C64_first_by_number.

(** "branch-and-bound" and the other brute-force algorithms: the first one of the list returned with [resolute=False] *)
Theorem C64_first_printed : forall rnd nx sv e p k id alg,
  libraries_ok p rnd nx sv e -> keeps_first_printed e p id alg -> valid_call p k true None ->
  exists W l, compute rnd nx (with_solvers nx sv e) id p (Z.of_nat k) None (args alg true None) = Ok [W] /\
    compute rnd nx (with_solvers nx sv e) id p (Z.of_nat k) None (args alg false None) = Ok (W :: l).
Proof. exact keeps_first_printed_ok. Qed.
Print Assumptions C64_first_printed.

(** These are not the same: with eleven candidates the list starts with candidate 10 (the order is that of the
    printed text), and two algorithms for the same rule return different committees. *)
Theorem C64_algorithms_agree_refuted : exists p, valid_call p 1 true None /\ forall rnd nx sv e, libraries_ok p rnd nx sv e ->
  compute rnd nx (with_solvers nx sv e) "pav" p 1 None (args "brute-force" true None) = Ok [[2]] /\
  compute rnd nx (with_solvers nx sv e) "pav" p 1 None (args "branch-and-bound" true None) = Ok [[10]] /\
  compute rnd nx (with_solvers nx sv e) "pav" p 1 None (args "brute-force" false None) = Ok [[10]; [2]].
Proof.
  exists (mkp 11 [mkv [2;10] 1]). split.
  - split; [wf_tac|]. cbn. split; [discriminate|split; [lia|auto]].
  - intros rnd nx sv e _. repeat split; vm_compute; reflexivity.
Qed.
Print Assumptions C64_algorithms_agree_refuted.

Example C64_example :
  let call resolute id alg := compute id_random ref_nx (with_solvers ref_nx (ref_solvers ex_unit) ex_env) id ex_unit 3 None (args alg resolute None) in
  libraries_ok ex_unit id_random ref_nx (ref_solvers ex_unit) ex_env /\
  keeps_first ex_env ex_unit "av" "standard" /\ keeps_first ex_env ex_unit "slav" "brute-force" /\
  keeps_first_printed ex_env ex_unit "monroe" "brute-force" /\ keeps_first_printed ex_env ex_unit "pav" "branch-and-bound" /\
  call true "slav" "brute-force" = Ok [[0; 2; 3]] /\ call false "slav" "brute-force" = Ok [[0; 2; 3]; [0; 2; 4]; [1; 2; 3]; [1; 2; 4]] /\
  number_first [0; 2; 3] [0; 2; 4] /\ number_first [0; 2; 3] [1; 2; 3].
Proof.
  cbv zeta. split; [apply example_libraries|]. split; [constructor|]. split; [apply (kf_thiele ex_env ex_unit "slav" slav_w); constructor|].
  split; [constructor; apply ex_unit_unit|].
  split; [apply (kp_thiele_bb ex_env ex_unit "pav" pav_w); [constructor|]|].
  { intros i j Hi Hij. unfold pav_w. destruct i as [|i]; [lia|]. destruct j as [|j]; [lia|]. unfold Qle; cbn. lia. }
  split; [vm_compute; reflexivity|]. split; [vm_compute; reflexivity|].
  split; repeat (first [apply nf_here; lia|apply nf_later]).
Qed.
