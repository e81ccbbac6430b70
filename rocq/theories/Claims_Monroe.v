(** * Claims C11, C12, C40 (Greedy Monroe), C52: Monroe's rule and Greedy Monroe *)
From Coq Require Import String.
From Coq Require Import List Arith Bool ZArith QArith Lia Lqa Permutation Sorted.
From Verif Require Import Prelude Misc Preferences Scores Search Rule RulesThiele Spec SpecRules Compute SpecCompute
  RulesMonroe SpecMonroe MonroeProofs MonroeFlow MonroeRule GreedyMonroe Checks SpecAxioms MonroeProp MonroeExample ExampleData.
Import ListNotations.
Local Open Scope string_scope.
Open Scope nat_scope.
Local Open Scope list_scope.

(** four voters, three candidates, committees of size two: matching-based *)
Definition ex_four : profile := mkp 3 [mkv [0] 1; mkv [0;1] 1; mkv [1] 1; mkv [2] 1].
(** three voters, committees of size two: flow-based *)
Definition ex_three : profile := mkp 3 [mkv [0] 1; mkv [0;1] 1; mkv [2] 1].

(** ** C11 *)

(** networkx's two algorithms are replaced by anything that meets their contract *)
Theorem C11_score : forall nx p W, networkx_correct nx -> NoDup W -> W <> [] ->
  exists s, monroescore nx p W = Ok (Z.of_nat s) /\ is_monroe_score p W s.
Proof. exact monroescore_correct. Qed.
Print Assumptions C11_score.

Theorem C11_score_unique : forall p W s s', is_monroe_score p W s -> is_monroe_score p W s' -> s = s'.
Proof. exact monroe_score_unique. Qed.
Print Assumptions C11_score_unique.

Theorem C11_winners : forall nx e p k resolute maxn, networkx_correct nx -> valid_call p k resolute maxn -> unit_weights p ->
  answers (monroe_winner p k) resolute (limit maxn) (compute_monroe nx e p (Z.of_nat k) "brute-force" resolute maxn).
Proof. exact compute_monroe_correct. Qed.
Print Assumptions C11_winners.

Theorem C11_winner_exists : forall p k, 1 <= k <= num_cand p -> exists W, monroe_winner p k W.
Proof. exact monroe_winner_exists. Qed.
Print Assumptions C11_winner_exists.

Theorem C11_weights_rejected : forall nx e p k alg resolute maxn, valid_call p k resolute maxn -> ~ unit_weights p ->
  In alg ["gurobi"; "mip-gurobi"; "mip-cbc"; "ortools-cp"; "brute-force"] ->
  compute_monroe nx e p (Z.of_nat k) alg resolute maxn = Err ValueError.
Proof. exact compute_monroe_rejects. Qed.
Print Assumptions C11_weights_rejected.

Example C11_example : networkx_correct ref_nx /\ valid_call ex_three 2 false None /\ unit_weights ex_three /\
  compute_monroe ref_nx ex_env ex_three 2 "brute-force" false None = Ok [[0;2]] /\
  valid_call ex_four 2 false None /\ unit_weights ex_four /\
  compute_monroe ref_nx ex_env ex_four 2 "brute-force" false None = Ok [[0;1];[0;2];[1;2]] /\
  monroescore ref_nx ex_four [0;1] = Ok 3%Z /\ ~ unit_weights ex_profile.
Proof.
  split; [apply ref_nx_ok|]. split; [split; [wf_tac|]; cbn; split; [discriminate|split; [lia|auto]]|].
  split; [repeat constructor|]. split; [vm_compute; reflexivity|].
  split; [split; [wf_tac|]; cbn; split; [discriminate|split; [lia|auto]]|].
  split; [repeat constructor|]. split; [vm_compute; reflexivity|]. split; [vm_compute; reflexivity|].
  intros H. inversion H as [|? ? H1]; subst. vm_compute in H1. discriminate.
Qed.

(** ** C12 *)
Theorem C12_greedy : forall nx e p k, networkx_correct nx -> valid_call p k true None -> unit_weights p ->
  exists W, compute_greedy_monroe nx e p (Z.of_nat k) "standard" true None = Ok [W] /\ greedy_monroe_winner p k W /\ is_committee p k W.
Proof. exact compute_greedy_monroe_correct. Qed.
Print Assumptions C12_greedy.

Theorem C12_unique : forall p k W W', greedy_monroe_winner p k W -> greedy_monroe_winner p k W' -> W = W'.
Proof. exact greedy_winner_unique. Qed.
Print Assumptions C12_unique.

(** The printed assignment is a balanced partition of the voters into districts, and
    the satisfied voters are exactly those whom the greedy rounds gave a representative
    (so the reported score is the score of the reported assignment); in particular [remaining_voters.pop()] is never called on an empty list. *)
Theorem C12_assignment : forall nx p k, networkx_correct nx -> 1 <= k <= num_cand p ->
  exists L rem D, greedy_monroe_run p k L rem /\ length L = k /\
    greedy_monroe_with_assignment nx p k = Ok ([isort L], D) /\ is_committee p k (isort L) /\
    monroe_districts p (isort L) D /\ length (voters p) - length rem = districts_score p D.
Proof. exact greedy_monroe_spec. Qed.
Print Assumptions C12_assignment.

(** hence the assignment is a Monroe assignment, and bounds the Monroe score from below *)
Theorem C12_assignment_is_monroe : forall p W D, monroe_districts p W D ->
  exists phi, monroe_assignment p W phi /\ represented p phi = districts_score p D.
Proof. exact districts_assignment. Qed.
Print Assumptions C12_assignment_is_monroe.

Example C12_example : networkx_correct ref_nx /\ valid_call ex_three 2 true None /\ unit_weights ex_three /\
  compute_greedy_monroe ref_nx ex_env ex_three 2 "standard" true None = Ok [[0;2]] /\
  greedy_monroe_with_assignment ref_nx ex_four 2 = Ok ([[0;1]], [(0, [0;1]); (1, [2;3])]).
Proof.
  split; [apply ref_nx_ok|]. split; [split; [wf_tac|]; cbn; split; [discriminate|split; [lia|auto]]|].
  split; [repeat constructor|]. split; vm_compute; reflexivity.
Qed.

(** ** C40: Greedy Monroe satisfies JR, whether or not [k] divides the number of voters.
    C52: both rules satisfy PJR+ if it does. *)
Theorem C40_greedy_monroe_JR : forall nx e p k l W, networkx_correct nx -> valid_call p k true None -> unit_weights p ->
  compute_greedy_monroe nx e p (Z.of_nat k) "standard" true None = Ok l -> In W l -> check_JR p W None = Ok true.
Proof.
  intros nx e p k l W Hx Hc Hu E Hin. destruct (greedy_monroe_passes nx (fun _ _ _ => Err NotImplementedError) e p k Hx Hc Hu) as (W' & E' & H & _).
  rewrite E' in E. inversion E; subst. destruct Hin as [<-|[]]. auto.
Qed.
Print Assumptions C40_greedy_monroe_JR.

Example C40_greedy_monroe_example : networkx_correct ref_nx /\ valid_call ex_three 2 true None /\ unit_weights ex_three /\
  compute_greedy_monroe ref_nx ex_env ex_three 2 "standard" true None = Ok [[0;2]] /\ check_JR ex_three [0;2] None = Ok true.
Proof.
  split; [apply ref_nx_ok|]. split; [split; [wf_tac|]; cbn; split; [discriminate|split; [lia|auto]]|].
  split; [repeat constructor|]. split; vm_compute; reflexivity.
Qed.

Theorem C52_monroe : forall nx gurobi e p k resolute maxn l W, networkx_correct nx -> valid_call p k resolute maxn -> unit_weights p ->
  compute_monroe nx e p (Z.of_nat k) "brute-force" resolute maxn = Ok l -> In W l ->
  check_JR p W None = Ok true /\
  (length (voters p) mod k = 0 -> PJR_plus p (default_quota p k) W /\ check_PJR gurobi p W None "brute-force" = Ok true).
Proof. exact monroe_passes. Qed.
Print Assumptions C52_monroe.

Theorem C52_greedy_monroe : forall nx gurobi e p k l W, networkx_correct nx -> valid_call p k true None -> unit_weights p ->
  compute_greedy_monroe nx e p (Z.of_nat k) "standard" true None = Ok l -> In W l ->
  length (voters p) mod k = 0 -> PJR_plus p (default_quota p k) W /\ check_PJR gurobi p W None "brute-force" = Ok true.
Proof.
  intros nx g e p k l W Hx Hc Hu E Hin. destruct (greedy_monroe_passes nx g e p k Hx Hc Hu) as (W' & E' & _ & H).
  rewrite E' in E. inversion E; subst. destruct Hin as [<-|[]]. auto.
Qed.
Print Assumptions C52_greedy_monroe.

Example C52_example : networkx_correct ref_nx /\ valid_call ex_four 2 true None /\ unit_weights ex_four /\
  length (voters ex_four) mod 2 = 0 /\
  compute_monroe ref_nx ex_env ex_four 2 "brute-force" true None = Ok [[0;1]] /\
  compute_greedy_monroe ref_nx ex_env ex_four 2 "standard" true None = Ok [[0;1]].
Proof.
  split; [apply ref_nx_ok|]. split; [split; [wf_tac|]; cbn; split; [discriminate|split; [lia|auto]]|].
  split; [repeat constructor|]. split; [reflexivity|]. split; vm_compute; reflexivity.
Qed.

(** If [k] does not divide the number of voters, PJR may fail for both rules: four of
    eight voters approve the candidates 0, 1, 2 and deserve three of six seats. *)
Definition ex_eight : profile :=
  mkp 7 [mkv [0;1;2] 1; mkv [0;1;2] 1; mkv [0;1;2] 1; mkv [0;1;2] 1; mkv [3] 1; mkv [4] 1; mkv [5] 1; mkv [6] 1].
Lemma ex_eight_valid : forall resolute, valid_call ex_eight 6 resolute None.
Proof. intros r. split; [wf_tac|]. cbn. split; [discriminate|split; [lia|auto]]. Qed.
Lemma filter_length_le : forall (A : Type) (f : A -> bool) l, length (filter f l) <= length l.
Proof. intros A f l. induction l; cbn; [lia|]. destruct (f a); cbn; lia. Qed.
Lemma ex_eight_winner : monroe_winner ex_eight 6 [0;1;3;4;5;6].
Proof.
  split; [split; [repeat constructor|split; [reflexivity|repeat constructor]]|].
  exists [0;0;1;1;3;4;5;6]. split.
  - split; [reflexivity|]. split; [repeat constructor; cbn; tauto|].
    intros c H. cbn in H. repeat (destruct H as [<-|H]; [vm_compute; lia|]). destruct H.
  - intros W' phi' _ (Hl & _). change (represented ex_eight [0;0;1;1;3;4;5;6]) with 8. unfold represented.
    eapply Nat.le_trans; [apply filter_length_le|]. rewrite combine_length, Hl. cbn. lia.
Qed.

Theorem C52_indivisible_refuted : exists p k W, valid_call p k false None /\ unit_weights p /\
  (forall gurobi, check_PJR gurobi p W None "brute-force" = Ok false) /\
  forall nx e, networkx_correct nx ->
    (exists l, compute_monroe nx e p (Z.of_nat k) "brute-force" false None = Ok l /\ In W l) /\
    compute_greedy_monroe nx e p (Z.of_nat k) "standard" true None = Ok [W].
Proof.
  exists ex_eight, 6, [0;1;3;4;5;6]. split; [apply ex_eight_valid|].
  assert (Hu : unit_weights ex_eight) by repeat constructor. split; [exact Hu|].
  split; [intros g; vm_compute; reflexivity|]. intros nx e Hx. split.
  - pose proof (compute_monroe_correct nx e ex_eight 6 false None Hx (ex_eight_valid false) Hu) as (l & E & _ & _ & _ & H).
    exists l. split; auto. apply H, ex_eight_winner.
  - pose proof (compute_greedy_monroe_correct nx e ex_eight 6 Hx (ex_eight_valid true) Hu) as (W & E & HW & _). rewrite E.
    destruct (greedy_monroe_spec nx ex_eight 6 Hx) as (L & rem & D & H1 & H2 & H3 & _); [cbn; lia|].
    assert (isort L = W) by (apply (greedy_winner_unique ex_eight 6); auto; exists L, rem; auto). subst W.
    unfold greedy_monroe_with_assignment in H3.
    destruct (greedy_monroe_algorithm ex_eight 6) as [[cs [rv a]]|] eqn:Eg; vm_compute in Eg; [|discriminate]. inversion Eg; subst cs rv a.
    cbn [rbind] in H3. destruct (monroescore nx ex_eight _); [|discriminate]. cbn [rbind] in H3.
    destruct (complete_assignment _ _ _ _ _) in H3; [|discriminate]. cbn [rbind] in H3.
    destruct (sorted_committees _) as [cs|] eqn:Es in H3; vm_compute in Es; [|discriminate]. inversion Es; subst cs.
    cbn [rbind] in H3. inversion H3. reflexivity.
Qed.
Print Assumptions C52_indivisible_refuted.
