(** * Claims C01-C10, C18: Thiele methods, separable rules, minimax rules

    Each theorem is closed by a lemma proved elsewhere; the statement uses only
    the specification files Spec.v, SpecRules.v, SpecCompute.v and the public
    functions of Compute.v. *)
From Coq Require Import String.
From Coq Require Import List Arith Bool ZArith QArith Lia Lqa Permutation Sorted.
From Verif Require Import Prelude Misc Preferences Scores Search Rule RulesThiele Spec SpecRules Compute SpecCompute
  ThieleProofs BBProofs RevseqProofs OptProofs ComputeProofs ExampleData SavFloat.
Import ListNotations.
Open Scope nat_scope.
Local Open Scope string_scope.

(** ** C01 *)
Theorem C01_thiele_score : forall e id f p W, score_denotes e id f -> wf p ->
  exists q, score_of_id e id p W = Ok q /\
    (q == Qsum (map (fun v => weight v * Qsum (map f (seq 1 (length (inter (approved v) W))))) (voters p)))%Q.
Proof. exact score_of_id_correct. Qed.
Print Assumptions C01_thiele_score.

Example C01_example : score_denotes ex_env ("geom" ++ "2") (geom_w 2) /\ wf ex_profile /\
  exists q, score_of_id ex_env "geom2" ex_profile [0;1] = Ok q /\ (q == 4)%Q.
Proof.
  split; [repeat constructor|]. split; [apply ex_wf|].
  eexists. split; [reflexivity|]. vm_compute. reflexivity.
Qed.

(** ** C02 *)
Theorem C02_thiele_bruteforce : forall e id f p k resolute maxn,
  denotes e id f -> valid_call p k resolute maxn ->
  answers (maximises (Thiele f p) p k) resolute (limit maxn)
          (compute_thiele_method e id p (Z.of_nat k) "brute-force" resolute maxn).
Proof. exact compute_thiele_bruteforce_correct. Qed.
Print Assumptions C02_thiele_bruteforce.

Corollary C02_pav_bruteforce : forall e p k resolute maxn, valid_call p k resolute maxn ->
  answers (maximises (Thiele pav_w p) p k) resolute (limit maxn)
          (compute_pav e p (Z.of_nat k) "brute-force" resolute maxn).
Proof. intros. apply C02_thiele_bruteforce; auto. constructor. Qed.

Example C02_example : valid_call ex_profile 2 false None /\ denotes ex_env ("geom" ++ "2") (geom_w 2) /\
  compute_pav ex_env ex_profile 2 "brute-force" false None = Ok [[1; 2]; [1; 3]] /\
  compute_thiele_method ex_env "geom2" ex_profile 2 "brute-force" true None = Ok [[1; 2]].
Proof.
  split; [apply ex_valid|]. split; [constructor; [reflexivity|lra]|].
  split; vm_compute; reflexivity.
Qed.

(** ** C03 *)
Theorem C03_branchandbound : forall e id f p k resolute maxn,
  denotes e id f -> (forall i j, 1 <= i -> i <= j -> (f j <= f i)%Q) -> valid_call p k resolute maxn ->
  answers (maximises (Thiele f p) p k) resolute (limit maxn)
          (compute_thiele_method e id p (Z.of_nat k) "branch-and-bound" resolute maxn).
Proof. exact compute_thiele_branchandbound_correct. Qed.
Print Assumptions C03_branchandbound.

(** The same list as brute force when all winning committees are asked for. *)
Theorem C03_same_as_bruteforce : forall e id f p k,
  denotes e id f -> (forall i j, 1 <= i -> i <= j -> (f j <= f i)%Q) -> valid_call p k false None ->
  compute_thiele_method e id p (Z.of_nat k) "branch-and-bound" false None =
  compute_thiele_method e id p (Z.of_nat k) "brute-force" false None.
Proof. exact bb_equals_bruteforce. Qed.
Print Assumptions C03_same_as_bruteforce.

(** geom with base below 1: the bound is not an upper bound, every committee is
    pruned and the function crashes. *)
Theorem C03_geom_below_one_refuted : exists e p k, 
  denotes e ("geom" ++ "1/2") (geom_w (1#2)) /\ valid_call p k false None /\
  ~ answers (maximises (Thiele (geom_w (1#2)) p) p k) false None
      (compute_thiele_method e "geom1/2" p (Z.of_nat k) "branch-and-bound" false None) /\
  compute_thiele_method e "geom1/2" p (Z.of_nat k) "branch-and-bound" false None = Err IndexError.
Proof.
  exists ex_env, (mkp 4 [mkv [0;1;2] 1; mkv [3] 2]), 3. split; [constructor; [reflexivity|lra]|].
  split.
  { split; [wf_tac|]. cbn. split; [discriminate|]. split; [lia|auto]. }
  match goal with |- _ /\ ?x = _ => assert (E : x = Err IndexError) by (vm_compute; reflexivity) end.
  rewrite E. split; auto. intros (l & H & _). discriminate.
Qed.
Print Assumptions C03_geom_below_one_refuted.

(** The hypothesis on marginals holds for pav, slav, cc and geom with base at least 1. *)
Theorem C03_nonincreasing : 
  (forall i j, 1 <= i -> i <= j -> (pav_w j <= pav_w i)%Q) /\
  (forall i j, 1 <= i -> i <= j -> (slav_w j <= slav_w i)%Q) /\
  (forall i j, 1 <= i -> i <= j -> (cc_w j <= cc_w i)%Q) /\
  (forall b, (1 <= b)%Q -> forall i j, 1 <= i -> i <= j -> (geom_w b j <= geom_w b i)%Q).
Proof. exact (conj pav_antitone (conj slav_antitone (conj cc_antitone geom_antitone))). Qed.
Print Assumptions C03_nonincreasing.

Example C03_example :
  compute_pav ex_env ex_profile 2 "branch-and-bound" false None = Ok [[1; 2]; [1; 3]] /\
  compute_pav ex_env ex_profile 2 "branch-and-bound" true None = Ok [[1; 2]] /\
  compute_slav ex_env ex_profile 2 "branch-and-bound" false None = Ok [[1; 3]].
Proof. repeat split; vm_compute; reflexivity. Qed.

(** ** C04 *)
Theorem C04_av : forall e p k resolute maxn, valid_call p k resolute maxn ->
  answers (maximises (fun W => Qsum (map (support p) W)) p k) resolute (limit maxn)
          (compute_av e p (Z.of_nat k) "standard" resolute maxn).
Proof. exact compute_av_correct. Qed.
Print Assumptions C04_av.

Theorem C04_sav_exact : forall e p k resolute maxn, valid_call p k resolute maxn ->
  fraction_weights p ->
  answers (maximises (fun W => Qsum (map (sav_support p) W)) p k) resolute (limit maxn)
          (compute_sav e p (Z.of_nat k) "standard" resolute maxn).
Proof. exact compute_sav_correct. Qed.
Print Assumptions C04_sav_exact.

Definition ex_frac : profile :=
  mkProfile 4 ["a";"b";"c";"d"] [mkVoter [0;1] 2 false; mkVoter [1;2] (1#3) false; mkVoter [3] 1 false].
Example C04_example : valid_call ex_frac 2 false None /\ fraction_weights ex_frac /\
  compute_av ex_env ex_profile 2 "standard" false None = Ok [[0; 1]; [1; 2]] /\
  compute_av ex_env ex_profile 3 "standard" false (Some (PyInt 1)) = Ok [[0; 1; 2]] /\
  compute_sav ex_env ex_frac 2 "standard" false None = Ok [[0; 1]; [1; 3]].
Proof.
  split. { split; [wf_tac|]. cbn. split; [discriminate|]. split; [lia|auto]. }
  split; [repeat constructor|]. repeat split; vm_compute; reflexivity.
Qed.

(** ** C05: with [int] weights the SAV scores are binary64 numbers *)
Definition sav_env : env :=
  mkEnv (mkInstalled false false false) (fun _ => None) (fun _ => None) isort sav_f64_scores
        (fun _ _ _ _ _ _ => Err NotImplementedError).
(** six voters with six approved candidates each, and a seventh approving only 6:
    candidates 0 and 6 both have SAV score 1, but 1/6+1/6+1/6+1/6+1/6+1/6 is not 1
    in binary64. *)
Definition sav_profile : profile :=
  mkp 7 [mkv [0;1;2;3;4;5] 1; mkv [0;1;2;3;4;5] 1; mkv [0;1;2;3;4;5] 1; mkv [0;1;2;3;4;5] 1;
         mkv [0;1;2;3;4;5] 1; mkv [0;1;2;3;4;5] 1; mkv [6] 1].
Lemma singletons_tied : forall (s : nat -> Q) p c, c < num_cand p ->
  (forall d, d < num_cand p -> (s d == 1)%Q) -> maximises (fun W => Qsum (map s W)) p 1 [c].
Proof.
  intros s p c Hc H. split; [repeat split; repeat constructor; auto|].
  intros W' (_ & Hl & Hr). destruct W' as [|d [|]]; try discriminate.
  inversion Hr; subst. unfold Qsum; cbn [map fold_right]. pose proof (H c Hc). pose proof (H d ltac:(auto)). lra.
Qed.
Theorem C05_sav_int_weights_refuted :
  valid_call sav_profile 1 false None /\
  (forall c, c < 7 -> (sav_support sav_profile c == 1)%Q) /\
  compute_sav sav_env sav_profile 1 "standard" false None = Ok [[6]] /\
  ~ answers (maximises (fun W => Qsum (map (sav_support sav_profile) W)) sav_profile 1) false None
      (compute_sav sav_env sav_profile 1 "standard" false None).
Proof.
  split. { split; [wf_tac|]. cbn. split; [discriminate|]. split; [lia|auto]. }
  assert (S1 : forall c, c < 7 -> (sav_support sav_profile c == 1)%Q).
  { intros c Hc. do 7 (destruct c as [|c]; [vm_compute; reflexivity|]). lia. }
  assert (E : compute_sav sav_env sav_profile 1 "standard" false None = Ok [[6]]) by (vm_compute; reflexivity).
  split; auto. split; auto. rewrite E. intros (l & H & _ & _ & _ & C). inversion H; subst l.
  assert (Hin : In [0] [[6]]); [|destruct Hin as [Hin|[]]; discriminate].
  apply C. apply singletons_tied; auto; cbn; lia.
Qed.
Print Assumptions C05_sav_int_weights_refuted.

(** ** C06 *)
Theorem C06_seq_thiele : forall e id f p k resolute maxn,
  denotes e id f -> valid_call p k resolute maxn ->
  answers (seq_thiele_winner f p k) resolute (limit maxn)
          (compute_seq_thiele_method e id p (Z.of_nat k) "standard" resolute maxn).
Proof. exact compute_seq_thiele_correct. Qed.
Print Assumptions C06_seq_thiele.

Theorem C06_seq_thiele_resolute : forall e id f p k,
  denotes e id f -> valid_call p k true None ->
  exists L, greedy_run_lex f p L /\ length L = k /\
    compute_seq_thiele_method e id p (Z.of_nat k) "standard" true None = Ok [isort L].
Proof. exact compute_seq_thiele_resolute_lex. Qed.
Print Assumptions C06_seq_thiele_resolute.

Example C06_example : valid_call ex_unit 3 false None /\
  compute_seqpav ex_env ex_unit 3 "standard" false None = Ok [[0; 2; 3]; [0; 2; 4]; [1; 2; 3]; [1; 2; 4]] /\
  compute_seqpav ex_env ex_unit 3 "standard" true None = Ok [[0; 2; 3]].
Proof. split; [apply ex_unit_valid|]. split; vm_compute; reflexivity. Qed.

(** ** C07.  [set_order] is the order in which CPython iterates over a set; the
    second hypothesis says that it depends only on the set's elements. *)
Theorem C07_revseq : forall e id f p k resolute maxn,
  (forall l, Permutation (set_order e l) l) ->
  (forall l l', Permutation l l' -> set_order e l = set_order e l') ->
  denotes e id f -> valid_call p k resolute maxn ->
  answers (revseq_winner f p k) resolute (limit maxn)
          (compute_revseq_thiele_method e id p (Z.of_nat k) "standard" resolute maxn).
Proof. exact compute_revseq_thiele_correct. Qed.
Print Assumptions C07_revseq.

(** Without that hypothesis everything but "each once" (and hence the meaning of
    the limit) remains true. *)
Theorem C07_revseq_any_iteration_order : forall e id f p k maxn,
  (forall l, Permutation (set_order e l) l) ->
  denotes e id f -> valid_call p k false maxn ->
  exists l, compute_revseq_thiele_method e id p (Z.of_nat k) "standard" false maxn = Ok l /\
    in_printed_order l /\ (forall W, In W l -> revseq_winner f p k W) /\
    (maxn = None -> forall W, revseq_winner f p k W -> In W l).
Proof. exact compute_revseq_any_order. Qed.
Print Assumptions C07_revseq_any_iteration_order.

Theorem C07_revseq_resolute : forall e id f p k,
  denotes e id f -> valid_call p k true None ->
  exists W, compute_revseq_thiele_method e id p (Z.of_nat k) "standard" true None = Ok [W] /\
    removal_run_last f p W /\ length W = k.
Proof. exact compute_revseq_resolute_last. Qed.
Print Assumptions C07_revseq_resolute.

Example C07_example : (forall l, Permutation (set_order ex_env l) l) /\
  (forall l l', Permutation l l' -> set_order ex_env l = set_order ex_env l') /\
  compute_revseqpav ex_env ex_unit 3 "standard" false None = Ok [[0; 2; 3]; [0; 2; 4]; [1; 2; 3]; [1; 2; 4]] /\
  compute_revseqpav ex_env ex_unit 3 "standard" true None = Ok [[0; 2; 3]].
Proof.
  split; [intro; apply Permutation_sym, isort_perm|]. split; [apply isort_perm_eq|].
  split; vm_compute; reflexivity.
Qed.

(** ** C08 *)
Theorem C08_lexcc : forall e p k resolute maxn, valid_call p k resolute maxn ->
  answers (lexcc_winner p k) resolute (limit maxn)
          (compute_lexcc e p (Z.of_nat k) "brute-force" resolute maxn).
Proof. exact compute_lexcc_correct. Qed.
Print Assumptions C08_lexcc.

Example C08_example : compute_lexcc ex_env ex_unit 3 "brute-force" false None
  = Ok [[0; 2; 3]; [0; 2; 4]; [1; 2; 3]; [1; 2; 4]].
Proof. vm_compute. reflexivity. Qed.

(** ** C09 *)
Theorem C09_minimaxav : forall e p k resolute maxn, valid_call p k resolute maxn ->
  answers (minimaxav_winner p k) resolute (limit maxn)
          (compute_minimaxav e p (Z.of_nat k) "brute-force" resolute maxn).
Proof. exact compute_minimaxav_correct. Qed.
Print Assumptions C09_minimaxav.

Example C09_example : compute_minimaxav ex_env ex_unit 3 "brute-force" false None
  = Ok [[0; 2; 3]; [0; 2; 4]; [1; 2; 3]; [1; 2; 4]].
Proof. vm_compute. reflexivity. Qed.

(** ** C10 *)
Theorem C10_lexminimaxav : forall e p k resolute maxn, valid_call p k resolute maxn ->
  unit_weights p ->
  answers (lexminimaxav_winner p k) resolute (limit maxn)
          (compute_lexminimaxav e p (Z.of_nat k) "brute-force" resolute maxn).
Proof. exact compute_lexminimaxav_correct. Qed.
Print Assumptions C10_lexminimaxav.

Theorem C10_lexminimaxav_rejects_weights : forall e p k alg resolute maxn, valid_call p k resolute maxn ->
  ~ unit_weights p -> In alg ["gurobi"; "brute-force"] ->
  compute_lexminimaxav e p (Z.of_nat k) alg resolute maxn = Err ValueError.
Proof. exact compute_lexminimaxav_rejects. Qed.
Print Assumptions C10_lexminimaxav_rejects_weights.

Example C10_example : unit_weights ex_unit /\ ~ unit_weights ex_profile /\
  compute_lexminimaxav ex_env ex_unit 3 "brute-force" false None
  = Ok [[0; 2; 3]; [0; 2; 4]; [1; 2; 3]; [1; 2; 4]] /\
  compute_lexminimaxav ex_env ex_unit 2 "brute-force" false None
  = Ok [[0; 3]; [0; 4]; [1; 3]; [1; 4]].
Proof.
  split; [apply ex_unit_unit|]. split.
  - intro H. inversion H. cbn in H2. lra.
  - split; vm_compute; reflexivity.
Qed.

(** ** C18 *)
Theorem C18_trivial : forall e p k resolute maxn, valid_call p k resolute maxn ->
  answers (is_committee p k) resolute (limit maxn)
          (compute_trivial_rule e p (Z.of_nat k) "standard" resolute maxn).
Proof. exact compute_trivial_correct. Qed.
Print Assumptions C18_trivial.

Theorem C18_trivial_resolute : forall e p k, valid_call p k true None ->
  compute_trivial_rule e p (Z.of_nat k) "standard" true None = Ok [seq 0 k].
Proof. exact compute_trivial_resolute. Qed.
Print Assumptions C18_trivial_resolute.

Example C18_example : compute_trivial_rule ex_env ex_profile 3 "standard" false None
  = Ok [[0; 1; 2]; [0; 1; 3]; [0; 2; 3]; [1; 2; 3]].
Proof. vm_compute. reflexivity. Qed.
