(** * Claims C91: how much of the optimum the rules reach *)
From Coq Require Import String.
From Coq Require Import List Arith Bool ZArith QArith Lia Lqa Permutation.
From Verif Require Import Milp RulesSolver SpecLoads SolverCompute SolverLex RefSolver RulesMonroe RulesMore SolverMore.
From Verif Require Import Prelude Misc Preferences Scores Rule Spec SpecRules Compute SpecCompute SpecSeq SpecAxioms
  Checks ComputeProofs MonroeExample ExampleData ComputeAll SpecAll SpecJR ThieleRules ApproxRules Claims_All.
Import ListNotations.
Local Open Scope string_scope.
Open Scope nat_scope.
Local Open Scope list_scope.

(** ** C91 *)
(** [Qpow x k] is [x * ... * x]. *)
(** A committee of a sequential Thiele rule has at least the share 1 - (1 - 1/k)^k, hence at least 63%, of the
    Thiele score of every committee of the same size ([thiele_score] is [score_of_id]). *)
Theorem C91_sequential : forall rnd nx sv e p k id f resolute maxn l W V, denotes e id f -> non_increasing f ->
  libraries_ok p rnd nx sv e -> valid_call p k resolute maxn ->
  compute rnd nx (with_solvers nx sv e) ("seq" ++ id)%string p (Z.of_nat k) None (args "standard" resolute maxn) = Ok l -> In W l -> is_committee p k V ->
  exists best s, score_of_id e id p V = Ok best /\ score_of_id e id p W = Ok s /\
    ((1 - Qpow (1 - 1 / Qnat k) k) * best <= s)%Q /\ ((63 # 100) * best <= s)%Q.
Proof. exact seq_score. Qed.

(** A committee of an optimising Thiele rule with [f j <= f 1 / j] represents (gives an approved member to) at least
    k/(2k-1), hence more than half, of the voters' weight that any committee of the same size represents
    (the represented weight is [thiele_score] for "cc"). *)
Theorem C91_represents : forall rnd nx sv e p k id alg f resolute maxn l W V, optimises e p id alg f ->
  (forall j, 1 <= j -> (Qnat j * f j <= f 1%nat)%Q) ->
  libraries_ok p rnd nx sv e -> valid_call p k resolute maxn ->
  compute rnd nx (with_solvers nx sv e) id p (Z.of_nat k) None (args alg resolute maxn) = Ok l -> In W l -> is_committee p k V ->
  exists best s, score_of_id e "cc" p V = Ok best /\ score_of_id e "cc" p W = Ok s /\
    (Qnat k * best <= (2 * Qnat k - 1) * s)%Q.
Proof. exact optimises_represents. Qed.
(** these are PAV, SLAV, CC and the geometric rules with a base of at least 2 *)
Corollary C91_represents_rules : forall rnd nx sv e p k id alg f resolute maxn l W V, optimises e p id alg f ->
  f = pav_w \/ f = slav_w \/ f = cc_w \/ (exists b, f = geom_w b /\ (2 <= b)%Q) ->
  libraries_ok p rnd nx sv e -> valid_call p k resolute maxn ->
  compute rnd nx (with_solvers nx sv e) id p (Z.of_nat k) None (args alg resolute maxn) = Ok l -> In W l -> is_committee p k V ->
  exists best s, score_of_id e "cc" p V = Ok best /\ score_of_id e "cc" p W = Ok s /\
    (Qnat k * best <= (2 * Qnat k - 1) * s)%Q.
Proof.
  intros rnd nx sv e p k id alg f resolute maxn l W V Ho Hf. apply (optimises_represents rnd nx sv e p k id alg f resolute maxn l W V Ho).
  destruct Hf as [->|[->|[->|(b & -> & Hb)]]].
  - intros j Hj. rewrite (share_pav j Hj). apply Qle_refl.
  - apply share_slav.
  - apply share_cc.
  - apply share_geom. exact Hb.
Qed.
Print Assumptions C91_sequential.
Print Assumptions C91_represents.
Print Assumptions C91_represents_rules.

(** the same for the definitions of the rules *)
Theorem C91_represents_spec : forall f p k W V, wf p -> (forall i, 1 <= i -> (0 <= f i)%Q) -> (0 < f 1%nat)%Q ->
  (forall j, 1 <= j -> (Qnat j * f j <= f 1%nat)%Q) -> 1 <= k -> maximises (Thiele f p) p k W -> is_committee p k V ->
  (Qnat k * at_least_weight p V 1 <= (2 * Qnat k - 1) * at_least_weight p W 1)%Q.
Proof. exact optimal_represents. Qed.
Print Assumptions C91_represents_spec.
Theorem C91_sequential_spec : forall f p k W V, wf p -> (forall i, 1 <= i -> (0 <= f i)%Q) -> non_increasing f -> 1 <= k ->
  seq_thiele_winner f p k W -> is_committee p k V ->
  ((1 - Qpow (1 - 1 / Qnat k) k) * Thiele f p V <= Thiele f p W)%Q /\ ((63 # 100) * Thiele f p V <= Thiele f p W)%Q.
Proof. exact Approx.seq_guarantee. Qed.
Print Assumptions C91_sequential_spec.

(** The share 1 - (1 - 1/k)^k is attained: with two seats sequential CC can represent 3 of the 4 voters. *)
Definition greedy_trap : profile := mkp 3 [mkv [0; 2] 1; mkv [0] 1; mkv [1; 2] 1; mkv [1] 1].
Theorem C91_sequential_tight : valid_call greedy_trap 2 false None /\ is_committee greedy_trap 2 [0; 1] /\
  (1 - Qpow (1 - 1 / Qnat 2) 2 == 3 # 4)%Q /\
  forall rnd nx sv e, exists l, compute rnd nx (with_solvers nx sv e) "seqcc" greedy_trap 2 None (args "standard" false None) = Ok l /\
    In [0; 2] l /\ score_of_id e "cc" greedy_trap [0; 2] = Ok 3%Q /\ score_of_id e "cc" greedy_trap [0; 1] = Ok 4%Q.
Proof.
  split; [split; [wf_tac|split; [discriminate|split; [cbn; lia|auto]]]|]. split; [repeat split; repeat constructor|]. split; [vm_compute; reflexivity|].
  intros rnd nx sv e. eexists. split; [vm_compute; reflexivity|]. split; [vm_compute; auto|]. split; vm_compute; reflexivity.
Qed.
Print Assumptions C91_sequential_tight.

(** AV and reverse sequential CC lack these guarantees: AV represents a weight of 2 (5 is possible), *)
Definition two_against_four : profile := mkp 8 [mkv [0; 1; 2; 3] 2; mkv [4] 1; mkv [5] 1; mkv [6] 1; mkv [7] 1].
Theorem C91_av_refuted : valid_call two_against_four 4 false None /\ is_committee two_against_four 4 [0; 4; 5; 6] /\
  forall rnd nx sv e, compute rnd nx (with_solvers nx sv e) "av" two_against_four 4 None (args "standard" false None) = Ok [[0; 1; 2; 3]] /\
    score_of_id e "cc" two_against_four [0; 1; 2; 3] = Ok 2%Q /\ score_of_id e "cc" two_against_four [0; 4; 5; 6] = Ok 5%Q /\
    ~ (Qnat 4 * 5 <= (2 * Qnat 4 - 1) * 2)%Q.
Proof.
  split; [split; [wf_tac|split; [discriminate|split; [cbn; lia|auto]]]|]. split; [repeat split; repeat constructor|].
  intros rnd nx sv e. split; [vm_compute; reflexivity|]. split; [vm_compute; reflexivity|]. split; [vm_compute; reflexivity|]. vm_compute. intros H. apply H. reflexivity.
Qed.
Print Assumptions C91_av_refuted.

(** and reverse sequential CC represents 2 voters (5 are possible): candidate 0 is removed first. *)
Definition all_like_0 : profile := mkp 6 (flat_map (fun c => [mkv [0; c] 1; mkv [c] 1]) (seq 1 5)).
Theorem C91_revseq_refuted : valid_call all_like_0 1 false None /\
  forall rnd nx sv, compute rnd nx (with_solvers nx sv ex_env) "revseqcc" all_like_0 1 None (args "standard" false None) = Ok [[1]; [2]; [3]; [4]; [5]] /\
    Forall (fun W => score_of_id ex_env "cc" all_like_0 W = Ok 2%Q) [[1]; [2]; [3]; [4]; [5]] /\ score_of_id ex_env "cc" all_like_0 [0] = Ok 5%Q /\
    ~ ((63 # 100) * 5 <= 2)%Q.
Proof.
  split; [split; [wf_tac|split; [discriminate|split; [cbn; lia|auto]]]|].
  intros rnd nx sv. split; [vm_compute; reflexivity|]. split; [repeat constructor; vm_compute; reflexivity|]. split; [vm_compute; reflexivity|]. vm_compute. intros H. apply H. reflexivity.
Qed.
Print Assumptions C91_revseq_refuted.

Example C91_example :
  let call id alg := compute id_random ref_nx (with_solvers ref_nx (ref_solvers ex_unit) ex_env) id ex_unit 3 None (args alg false None) in
  libraries_ok ex_unit id_random ref_nx (ref_solvers ex_unit) ex_env /\ valid_call ex_unit 3 false None /\
  denotes ex_env "pav" pav_w /\ denotes ex_env "geom2" (geom_w 2) /\ non_increasing (geom_w 2) /\ optimises ex_env ex_unit "slav" "brute-force" slav_w /\
  optimises ex_env two_against_four "geom2" "mip-cbc" (geom_w 2) /\
  call "slav" "brute-force" = Ok [[0; 2; 3]; [0; 2; 4]; [1; 2; 3]; [1; 2; 4]] /\
  call ("seq" ++ "pav")%string "standard" = Ok [[0; 2; 3]; [0; 2; 4]; [1; 2; 3]; [1; 2; 4]] /\
  is_committee ex_unit 3 [0; 1; 2] /\
  compute id_random ref_nx (with_solvers ref_nx (ref_solvers two_against_four) ex_env) "slav" two_against_four 4 None (args "brute-force" true None) =
    Ok [[0; 4; 5; 6]].
Proof.
  cbv zeta. split; [apply example_libraries|]. split; [apply ex_unit_valid|]. split; [constructor|].
  assert (G : denotes ex_env "geom2" (geom_w 2)) by (apply (den_geom ex_env "2" 2%Q); [reflexivity|lra]).
  split; [exact G|]. split; [intros i j; apply geom_antitone; lra|]. split; [apply op_bf; constructor|].
  split; [apply op_mip; [exact G|apply geom_decreasing; lra|cbn; auto]|]. split; [vm_compute; reflexivity|]. split; [vm_compute; reflexivity|].
  split; [repeat split; repeat constructor|]. vm_compute. reflexivity.
Qed.
