(** * Claims C43, C44, C53, C54: the rules computed with gurobi, Python MIP and OR-Tools *)
From Coq Require Import String.
From Coq Require Import List Arith Bool ZArith QArith Lia Lqa Permutation.
From Verif Require Import Prelude Misc MiscProofs Preferences Scores Spec SpecRules Common Search Rule RulesThiele Compute SpecCompute ComputeProofs
  SpecSeq RulesMonroe SpecMonroe MonroeRule MonroeExample ExampleData
  Milp MilpProofs SpecLoads RulesSolver SolverProofs SolverLex SolverMonroe SolverPhragmen SolverLeximax SolverMaximin RefSolver SolverCompute SolverMore.
Import ListNotations.
Local Open Scope string_scope.
Open Scope nat_scope.
Local Open Scope list_scope.

(** two voters, two candidates: small enough for the reference solver *)
Definition ex_tiny : profile := mkp 2 [mkv [0] 1; mkv [0;1] 1].
Definition tiny_env : env := with_solvers ref_nx (ref_solvers ex_tiny) ex_env.
Lemma ex_tiny_valid : forall resolute, valid_call ex_tiny 1 resolute None.
Proof. intros. split; [wf_tac|]. cbn. split; [discriminate|]. split; [lia|auto]. Qed.

(** ** C43: the loop that enumerates optimal committees

    [m] is any program whose feasible solutions stand for committees of size [k]; [achieves p m W q]:
    some solution selects [W] with objective value [q]; [good p score m W]: [W] is optimal (up to
    1e-7 if objective values and not scores are compared).  The solver is right on [m] and on what
    results from excluding committees; which optimal solution it returns is arbitrary. *)
Theorem C43_loop : forall s th p k score resolute maxn m,
  (0 < th)%Q /\ (th <= 1)%Q ->
  (forall x, feasible m x -> binary_committee p x) ->
  (forall x, feasible m x -> is_committee p k (members p x)) ->
  (forall committees, Forall (is_committee p k) committees -> correct_on s (excluding k m committees)) ->
  (exists W q, achieves p m W q) ->
  (exists B, forall W q, achieves p m W q -> (q <= B)%Q) ->
  match score with
  | None => True
  | Some f => forall x, feasible m x -> exists q, f (members p x) = Ok q /\ achieves p m (members p x) q /\ (ev x (objective m) <= q)%Q
  end ->
  valid_max maxn ->
  exists cs q, optimize_rule s th p k score resolute maxn m = Ok (cs, Some q) /\
    answers (good p score m) resolute maxn (sorted_committees cs) /\
    (exists W r, cs = W :: r /\ achieves p m W q) /\ (forall W' q', achieves p m W' q' -> (q' <= q)%Q) /\
    (forall W, In W cs -> good p score m W).
Proof. exact optimize_rule_spec. Qed.
Print Assumptions C43_loop.

(** solvers with these properties exist: a program that meets the assumption *)
Theorem C43_exact_solvers_exist : forall p, exact_solvers p (ref_solvers p).
Proof. exact ref_solvers_exact. Qed.
Print Assumptions C43_exact_solvers_exist.

(** the same list of committees as brute force *)
Theorem C43_thiele_agrees : forall nx sv e id f p k alg, exact_solvers p sv ->
  denotes e id f -> decreasing_to_zero f -> valid_call p k false None -> In alg MIP_ALGORITHMS ->
  compute_thiele_method (with_solvers nx sv e) id p (Z.of_nat k) alg false None =
  compute_thiele_method e id p (Z.of_nat k) "brute-force" false None.
Proof. exact thiele_solver_agrees. Qed.
Print Assumptions C43_thiele_agrees.

Theorem C43_others_agree : forall nx sv e p k, networkx_correct nx -> exact_solvers p sv -> valid_call p k false None ->
  (Forall (fun v => weight_is_int v = true) (voters p) ->
     compute_cc (with_solvers nx sv e) p (Z.of_nat k) "ortools-cp" false None = compute_cc e p (Z.of_nat k) "brute-force" false None) /\
  (granular p ->
     compute_lexcc (with_solvers nx sv e) p (Z.of_nat k) "gurobi" false None = compute_lexcc e p (Z.of_nat k) "brute-force" false None) /\
  (forall alg, In alg WITH_CP ->
     compute_minimaxav (with_solvers nx sv e) p (Z.of_nat k) alg false None = compute_minimaxav e p (Z.of_nat k) "brute-force" false None) /\
  (unit_weights p ->
     compute_lexminimaxav (with_solvers nx sv e) p (Z.of_nat k) "gurobi" false None = compute_lexminimaxav e p (Z.of_nat k) "brute-force" false None) /\
  (unit_weights p -> forall alg, In alg WITH_CP ->
     compute_monroe nx (with_solvers nx sv e) p (Z.of_nat k) alg false None = compute_monroe nx e p (Z.of_nat k) "brute-force" false None).
Proof. exact others_solver_agree. Qed.
Print Assumptions C43_others_agree.

Example C43_example : exact_solvers ex_tiny (ref_solvers ex_tiny) /\ valid_call ex_tiny 1 false None /\
  decreasing_to_zero pav_w /\ denotes ex_env "pav" pav_w /\ unit_weights ex_tiny /\ granular ex_profile /\
  compute_pav tiny_env ex_tiny 1 "gurobi" false None = Ok [[0]] /\
  compute_cc tiny_env ex_tiny 1 "ortools-cp" false None = Ok [[0]] /\
  compute_minimaxav tiny_env ex_tiny 1 "mip-cbc" false None = Ok [[0]].
Proof.
  split; [apply ref_solvers_exact|]. split; [apply ex_tiny_valid|]. split; [apply pav_decreasing|]. split; [constructor|]. split; [repeat constructor|].
  split; [apply ex_granular|]. repeat split; vm_compute; reflexivity.
Qed.

(** ** C44: the programs *)

(** [encodes p k m S]: the solutions of [m] are the committees of size [k], the objective value of a
    solution is at most the score of its committee, and every committee has a solution with its score *)
Theorem C44_thiele_encoding : forall f p k, wf p -> (forall i j, 1 <= i -> i <= j -> j <= k -> (f j <= f i)%Q) ->
  encodes p k (thiele_program f p k) (Thiele f p).
Proof. exact thiele_encodes. Qed.
Print Assumptions C44_thiele_encoding.

Theorem C44_cc_encoding : forall p k, wf p -> encodes p k (cc_program p k) (Thiele cc_w p).
Proof. exact cc_encodes. Qed.
Print Assumptions C44_cc_encoding.

Theorem C44_minimaxav_encoding : forall p k, wf p -> encodes p k (minimaxav_program p k) (fun W => - Qnat (minimaxav_score p W))%Q.
Proof. exact minimaxav_encodes. Qed.
Print Assumptions C44_minimaxav_encoding.

Theorem C44_monroe_encodings : forall p k, 1 <= k <= num_cand p ->
  exists S, (forall W, is_committee p k W -> is_monroe_score p W (S W)) /\
    encodes p k (monroe_gurobi p k) (fun W => Qnat (S W)) /\ encodes p k (monroe_mip p k) (fun W => Qnat (S W)) /\
    encodes p k (monroe_ortools p k) (fun W => Qnat (S W)).
Proof. exact (fun p k Hk => monroe_programs_encode ref_nx p k ref_nx_ok Hk). Qed.
Print Assumptions C44_monroe_encodings.

(** ** the public functions with a solver compute the rules *)
Theorem C44_thiele : forall nx sv e id f p k alg resolute maxn, exact_solvers p sv ->
  denotes e id f -> decreasing_to_zero f -> valid_call p k resolute maxn -> In alg MIP_ALGORITHMS ->
  answers (maximises (Thiele f p) p k) resolute (limit maxn)
          (compute_thiele_method (with_solvers nx sv e) id p (Z.of_nat k) alg resolute maxn).
Proof. exact compute_thiele_solver_correct. Qed.
Print Assumptions C44_thiele.

Theorem C44_which_thiele : decreasing_to_zero pav_w /\ decreasing_to_zero slav_w /\ decreasing_to_zero cc_w /\
  forall b, (1 < b)%Q -> decreasing_to_zero (geom_w b).
Proof. exact (conj pav_decreasing (conj slav_decreasing (conj cc_decreasing geom_decreasing))). Qed.
Print Assumptions C44_which_thiele.

(** for a base of at most 1 the geometric rule is defined (brute force computes it), but rejected here *)
Theorem C44_geom_rejected : forall nx sv e t b p k alg resolute maxn, fraction_of_string e t = Some b -> (0 < b)%Q -> (b <= 1)%Q ->
  valid_call p k resolute maxn -> 2 <= k -> In alg MIP_ALGORITHMS ->
  compute_thiele_method (with_solvers nx sv e) ("geom" ++ t)%string p (Z.of_nat k) alg resolute maxn = Err ValueError.
Proof. exact compute_geom_solver_rejects. Qed.
Print Assumptions C44_geom_rejected.

Theorem C44_cc : forall nx sv e p k resolute maxn, exact_solvers p sv -> valid_call p k resolute maxn ->
  Forall (fun v => weight_is_int v = true) (voters p) ->
  answers (maximises (Thiele cc_w p) p k) resolute (limit maxn)
          (compute_cc (with_solvers nx sv e) p (Z.of_nat k) "ortools-cp" resolute maxn).
Proof. exact compute_cc_ortools_correct. Qed.
Print Assumptions C44_cc.

Theorem C44_cc_fractions_rejected : forall nx sv e p k resolute maxn, valid_call p k resolute maxn ->
  Exists (fun v => weight_is_int v = false) (voters p) ->
  compute_cc (with_solvers nx sv e) p (Z.of_nat k) "ortools-cp" resolute maxn = Err TypeError.
Proof. exact compute_cc_ortools_rejects. Qed.
Print Assumptions C44_cc_fractions_rejected.

(** [granular p]: all weights are multiples of some number larger than the tolerance 1e-8 *)
Theorem C44_lexcc : forall nx sv e p k resolute maxn, exact_solvers p sv -> valid_call p k resolute maxn -> granular p ->
  answers (lexcc_winner p k) resolute (limit maxn) (compute_lexcc (with_solvers nx sv e) p (Z.of_nat k) "gurobi" resolute maxn).
Proof. exact compute_lexcc_gurobi_correct. Qed.
Print Assumptions C44_lexcc.

Theorem C44_minimaxav : forall nx sv e p k alg resolute maxn, exact_solvers p sv -> valid_call p k resolute maxn -> In alg WITH_CP ->
  answers (minimaxav_winner p k) resolute (limit maxn) (compute_minimaxav (with_solvers nx sv e) p (Z.of_nat k) alg resolute maxn).
Proof. exact compute_minimaxav_solver_correct. Qed.
Print Assumptions C44_minimaxav.

Theorem C44_lexminimaxav : forall nx sv e p k resolute maxn, exact_solvers p sv -> valid_call p k resolute maxn -> unit_weights p ->
  answers (lexminimaxav_winner p k) resolute (limit maxn) (compute_lexminimaxav (with_solvers nx sv e) p (Z.of_nat k) "gurobi" resolute maxn).
Proof. exact compute_lexminimaxav_gurobi_correct. Qed.
Print Assumptions C44_lexminimaxav.

Theorem C44_monroe : forall nx sv e p k alg resolute maxn, networkx_correct nx -> exact_solvers p sv ->
  valid_call p k resolute maxn -> unit_weights p -> In alg WITH_CP ->
  answers (monroe_winner p k) resolute (limit maxn) (compute_monroe nx (with_solvers nx sv e) p (Z.of_nat k) alg resolute maxn).
Proof. exact compute_monroe_solver_correct. Qed.
Print Assumptions C44_monroe.

Example C44_example : wf ex_profile /\ valid_call ex_profile 2 false None /\ exact_solvers ex_profile (ref_solvers ex_profile) /\
  Exists (fun v => weight_is_int v = false) (voters ex_profile) /\ granular ex_profile /\
  networkx_correct ref_nx /\ unit_weights ex_unit /\ valid_call ex_unit 3 true None /\
  fraction_of_string ex_env "1/2" = Some (1#2)%Q /\
  compute_cc tiny_env ex_tiny 1 "gurobi" true None = Ok [[0]].
Proof.
  split; [apply ex_wf|]. split; [apply ex_valid|]. split; [apply ref_solvers_exact|]. split; [apply Exists_exists; exists (mkv [3] (1#2)); cbn; tauto|].
  split; [apply ex_granular|]. split; [apply ref_nx_ok|]. split; [apply ex_unit_unit|]. split; [apply ex_unit_valid|].
  repeat split; vm_compute; reflexivity.
Qed.

(** ** C53: minimax and leximax Phragmén *)

(** [minimaxphragmen_winner eps p k W]: the largest load of a voter can be made as small for [W] as
    for any committee, up to [eps]; [CMP_ACCURACY] is 1e-7 *)
Theorem C53_minimax : forall nx sv e p k alg resolute maxn, exact_solvers p sv -> valid_call p k resolute maxn ->
  weights_at_least_one p -> k <= length (approved_candidates p) -> In alg MIP_ALGORITHMS ->
  answers (minimaxphragmen_winner CMP_ACCURACY p k) resolute (limit maxn)
          (compute_minimaxphragmen (with_solvers nx sv e) p (Z.of_nat k) alg resolute maxn).
Proof. exact compute_minimaxphragmen_correct. Qed.
Print Assumptions C53_minimax.

Theorem C53_leximax : forall nx sv e p k resolute maxn, exact_solvers p sv -> valid_call p k resolute maxn ->
  weights_at_least_one p -> k <= length (approved_candidates p) ->
  exists bounds, enough_bounds p k bounds /\ (exists W, leximax_winner p k bounds W) /\
    answers (leximax_winner p k bounds) resolute (limit maxn)
            (compute_leximaxphragmen (with_solvers nx sv e) p (Z.of_nat k) "gurobi" resolute maxn false).
Proof. exact compute_leximaxphragmen_correct. Qed.
Print Assumptions C53_leximax.

Theorem C53_lexicographic_tiebreaking : forall nx sv e p k, exact_solvers p sv -> valid_call p k true None ->
  weights_at_least_one p -> k <= length (approved_candidates p) ->
  exists W l, compute_leximaxphragmen (with_solvers nx sv e) p (Z.of_nat k) "gurobi" true None true = Ok [W] /\
    compute_leximaxphragmen (with_solvers nx sv e) p (Z.of_nat k) "gurobi" false None false = Ok (W :: l) /\
    compute_leximaxphragmen (with_solvers nx sv e) p (Z.of_nat k) "gurobi" false None true = Err ValueError.
Proof. exact compute_leximaxphragmen_lexicographic. Qed.
Print Assumptions C53_lexicographic_tiebreaking.

(** fewer approved candidates than seats: the committees that contain all approved candidates *)
Theorem C53_few_approved : forall nx sv e p k maxn, valid_call p k false maxn -> length (approved_candidates p) < k ->
  exists l, (forall alg, In alg MIP_ALGORITHMS -> compute_minimaxphragmen (with_solvers nx sv e) p (Z.of_nat k) alg false maxn = Ok l) /\
    compute_leximaxphragmen (with_solvers nx sv e) p (Z.of_nat k) "gurobi" false maxn false = Ok l /\
    NoDup l /\ forall W, In W l <-> elects_approved p k W.
Proof. exact (fun nx sv e p k maxn Hc Hf => ex_intro _ (fill_with_unapproved p k false) (compute_fill_correct nx sv e p k maxn Hc Hf)). Qed.
Print Assumptions C53_few_approved.

Theorem C53_few_approved_resolute : forall nx sv e p k, valid_call p k true None -> length (approved_candidates p) < k ->
  exists W, elects_approved p k W /\
    (forall alg, In alg MIP_ALGORITHMS -> compute_minimaxphragmen (with_solvers nx sv e) p (Z.of_nat k) alg true None = Ok [W]) /\
    compute_leximaxphragmen (with_solvers nx sv e) p (Z.of_nat k) "gurobi" true None false = Ok [W].
Proof. exact compute_fill_resolute. Qed.
Print Assumptions C53_few_approved_resolute.

(** the limit on the number of committees does not hold in this case *)
Theorem C53_max_num_refuted : forall nx sv e,
  let p := mkp 3 [mkv [] 1] in
  valid_call p 1 false (Some (PyInt 1)) /\
  (forall alg, In alg MIP_ALGORITHMS -> compute_minimaxphragmen (with_solvers nx sv e) p 1 alg false (Some (PyInt 1)) = Ok [[0]; [1]; [2]]) /\
  compute_leximaxphragmen (with_solvers nx sv e) p 1 "gurobi" false (Some (PyInt 1)) false = Ok [[0]; [1]; [2]].
Proof. exact fill_ignores_max. Qed.
Print Assumptions C53_max_num_refuted.

(** weights below 1: a valid call fails with every exact solver *)
Theorem C53_light_voters_refuted : forall nx sv e alg resolute,
  let p := mkp 1 [mkv [0] (1#2)] in exact_solvers p sv -> In alg MIP_ALGORITHMS ->
  valid_call p 1 resolute None /\
  compute_minimaxphragmen (with_solvers nx sv e) p 1 alg resolute None = Err RuntimeError /\
  compute_leximaxphragmen (with_solvers nx sv e) p 1 "gurobi" resolute None false = Err RuntimeError.
Proof. exact light_voters_fail. Qed.
Print Assumptions C53_light_voters_refuted.

(** with large weights the tolerance admits a committee that is not optimal *)
Theorem C53_exact_optimum_refuted : forall nx sv e alg,
  let p := mkp 2 [mkv [0] 4000; mkv [1] 4001] in exact_solvers p sv -> In alg MIP_ALGORITHMS ->
  compute_minimaxphragmen (with_solvers nx sv e) p 1 alg false None = Ok [[0]; [1]] /\
  minimaxphragmen_winner 0 p 1 [1] /\ ~ minimaxphragmen_winner 0 p 1 [0].
Proof. exact tolerance_admits_nonoptimal. Qed.
Print Assumptions C53_exact_optimum_refuted.

Example C53_example : exact_solvers ex_tiny (ref_solvers ex_tiny) /\ valid_call ex_tiny 1 false None /\ weights_at_least_one ex_tiny /\
  1 <= length (approved_candidates ex_tiny) /\
  compute_minimaxphragmen tiny_env ex_tiny 1 "gurobi" false None = Ok [[0]] /\
  valid_call (mkp 3 [mkv [1] 1]) 2 false None /\ length (approved_candidates (mkp 3 [mkv [1] 1])) < 2 /\
  compute_leximaxphragmen tiny_env (mkp 3 [mkv [1] 1]) 2 "gurobi" false None false = Ok [[0;1];[1;2]].
Proof.
  split; [apply ref_solvers_exact|]. split; [apply ex_tiny_valid|]. split; [repeat (constructor; [apply Qle_refl|]); constructor|]. split; [cbn; lia|].
  split; [vm_compute; reflexivity|]. split; [split; [wf_tac|]; cbn; split; [discriminate|]; split; [lia|auto]|]. split; [cbn; lia|]. vm_compute. reflexivity.
Qed.

(** ** C54: maximin support *)

(** the winning committees are those that result from adding, one at a time, a candidate that maximises
    the maximin support of the committee; resolute: ties are broken in favour of the smaller candidate *)
Theorem C54_maximin_support : forall nx sv e p k alg resolute maxn, exact_solvers p sv -> valid_call p k resolute maxn ->
  In alg MIP_ALGORITHMS ->
  answers (maximin_winner CMP_ACCURACY p k) resolute (limit maxn)
          (compute_maximin_support (with_solvers nx sv e) p (Z.of_nat k) alg resolute maxn) /\
  (resolute = true -> exists W, compute_maximin_support (with_solvers nx sv e) p (Z.of_nat k) alg true maxn = Ok [W] /\
     maximin_lex_winner CMP_ACCURACY p k W).
Proof. exact compute_maximin_support_correct. Qed.
Print Assumptions C54_maximin_support.

Example C54_example : exact_solvers ex_profile (ref_solvers ex_profile) /\ valid_call ex_profile 2 false None /\ In "gurobi" MIP_ALGORITHMS /\
  compute_maximin_support tiny_env ex_tiny 1 "gurobi" false None = Ok [[0]] /\
  compute_maximin_support tiny_env ex_tiny 2 "mip-cbc" true None = Ok [[0;1]].
Proof. split; [apply ref_solvers_exact|]. split; [apply ex_valid|]. split; [cbn; auto|]. split; vm_compute; reflexivity. Qed.
