(** * Claims C28 and C29 for the other rules *)
From Coq Require Import String.
From Coq Require Import List Arith Bool ZArith QArith Lia Lqa Permutation Sorted.
From Verif Require Import Prelude Misc MiscProofs Preferences Scores Rule RulesThiele Spec SpecRules Compute ComputeSeq SpecCompute
  PrefProofs RulesSeq RulesMes RulesMore RulesMonroe SpecMonroe MonroeRule GreedyMonroe SpecSame SameSeq ExampleData.
Import ListNotations.
Open Scope nat_scope.
Local Open Scope string_scope.
Local Open Scope list_scope.

(** ** C28: sequential Phragmén, Eneström-Phragmén, consensus rule, Equal Shares with
    all completions, E Pluribus Hugo *)
Theorem C28_integer_weight_is_copies_sequential : forall e p v vs1 vs2 n, wf p -> voters p = (vs1 ++ v :: vs2) ->
  (weight v == Qnat n)%Q ->
  same_results_sequential e p (with_voters p (vs1 ++ repeat (mkVoter (approved v) 1 true) n ++ vs2)).
Proof. exact sequential_copies. Qed.
Print Assumptions C28_integer_weight_is_copies_sequential.

Theorem C28_conversions_keep_results_sequential : forall e p, wf p ->
  (forall ord, (forall l, Permutation (ord l) l) -> same_results_sequential e p (convert_to_weighted ord p)) /\
  (forall q, Forall (fun v => weight_is_int v = true -> exists z, (weight v == inject_Z z)%Q) (voters p) ->
     convert_to_unit_weights p = (Ok tt, q) -> same_results_sequential e p q).
Proof. exact sequential_conversion. Qed.
Print Assumptions C28_conversions_keep_results_sequential.

Example C28_sequential_example : exists v vs1 vs2, voters ex_profile = (vs1 ++ v :: vs2) /\ (weight v == Qnat 2)%Q /\ wf ex_profile /\
  let q := mkp 4 [mkv [0;1] 1; mkv [0;1] 1; mkv [1;2] 1; mkv [2;3] 1; mkv [3] (1#2)] in
  (forall completion, In completion [None; Some "seqphragmen"; Some "av"; Some "increment"] ->
   compute_equal_shares ex_env ex_profile 2 "standard-fractions" true None completion =
   compute_equal_shares ex_env q 2 "standard-fractions" true None completion) /\
  compute_equal_shares ex_env ex_profile 2 "standard-fractions" false None (Some "seqphragmen") = Ok [[1;2];[1;3]].
Proof.
  exists (mkv [0;1] 2), [], [mkv [1;2] 1; mkv [2;3] 1; mkv [3] (1#2)].
  split; [reflexivity|]. split; [reflexivity|]. split; [apply ex_wf|]. split; [|vm_compute; reflexivity].
  intros c [<-|[<-|[<-|[<-|[]]]]]; vm_compute; reflexivity.
Qed.

(** ** C29 *)
Theorem C29_anonymity_sequential : forall e p q, wf p -> reordered p q -> same_results_sequential e p q.
Proof. exact sequential_reordered. Qed.
Print Assumptions C29_anonymity_sequential.

Example C29_sequential_example :
  let q := mkp 4 [mkv [3] (1#2); mkv [2;1] 1; mkv [1;0] 2; mkv [2;3] 1] in
  reordered ex_profile q /\ "standard-fractions" <> "fastest" /\ "standard-fractions" <> "float-fractions" /\
  compute_seqphragmen ex_env ex_profile 2 "standard-fractions" false None = compute_seqphragmen ex_env q 2 "standard-fractions" false None.
Proof.
  cbv zeta. split; [|split; [discriminate|split; [discriminate|vm_compute; reflexivity]]].
  split; [reflexivity|]. exists [mkv [3] (1#2); mkv [1;2] 1; mkv [0;1] 2; mkv [2;3] 1]. split.
  - apply (Permutation_cons_app [mkv [3] (1#2); mkv [1;2] 1] [mkv [2;3] 1]).
    apply (Permutation_cons_app [mkv [3] (1#2)] [mkv [2;3] 1]). apply perm_swap.
  - repeat constructor.
Qed.

(** Greedy Monroe is not anonymous: the order in which voters were added decides which of
    the supporters of a selected candidate it represents, and with it the committee. *)
Theorem C29_greedy_monroe_refuted : exists p q, valid_call p 2 true None /\ valid_call q 2 true None /\
  unit_weights p /\ unit_weights q /\ reordered p q /\
  forall nx e, networkx_correct nx ->
    compute_greedy_monroe nx e p 2 "standard" true None = Ok [[0;2]] /\
    compute_greedy_monroe nx e q 2 "standard" true None = Ok [[0;1]].
Proof.
  set (vs1 := [mkv [0;1] 1; mkv [0] 1; mkv [0;2] 1; mkv [1;2] 1]).
  set (vs2 := [mkv [0;2] 1; mkv [0] 1; mkv [0;1] 1; mkv [1;2] 1]).
  exists (mkp 3 vs1), (mkp 3 vs2).
  assert (V : forall vs, wf (mkp 3 vs) -> length vs = 4 -> valid_call (mkp 3 vs) 2 true None).
  { intros vs W L. split; auto. destruct vs; [discriminate|]. cbn. split; [discriminate|split; [lia|auto]]. }
  assert (V1 : valid_call (mkp 3 vs1) 2 true None) by (apply V; [wf_tac|reflexivity]).
  assert (V2 : valid_call (mkp 3 vs2) 2 true None) by (apply V; [wf_tac|reflexivity]).
  assert (U1 : unit_weights (mkp 3 vs1)) by (repeat constructor).
  assert (U2 : unit_weights (mkp 3 vs2)) by (repeat constructor).
  split; auto. split; auto. split; auto. split; auto. split.
  { split; [reflexivity|]. exists vs2. split; [|repeat constructor].
    unfold vs1, vs2. apply perm_trans with [mkv [0;1] 1; mkv [0;2] 1; mkv [0] 1; mkv [1;2] 1].
    { apply perm_skip. apply perm_swap. }
    apply perm_trans with [mkv [0;2] 1; mkv [0;1] 1; mkv [0] 1; mkv [1;2] 1]; [apply perm_swap|]. apply perm_skip. apply perm_swap. }
  assert (G : forall nx e p W, networkx_correct nx -> valid_call p 2 true None -> unit_weights p ->
    num_cand p = 3 -> rmap fst (greedy_monroe_algorithm p 2) = Ok [W] -> sorted_committees [W] = Ok [W] -> compute_greedy_monroe nx e p 2 "standard" true None = Ok [W]).
  { intros nx e p W Hx Hc Hu Hn E Es.
    pose proof (compute_greedy_monroe_correct nx e p 2 Hx Hc Hu) as (W' & E' & HW & _). change (Z.of_nat 2) with 2%Z in E'. rewrite E'.
    destruct (greedy_monroe_spec nx p 2 Hx) as (L & rem & D & H1 & H2 & H3 & _); [lia|].
    assert (isort L = W') by (apply (greedy_winner_unique p 2); auto; exists L, rem; auto). subst W'.
    unfold greedy_monroe_with_assignment in H3. destruct (greedy_monroe_algorithm p 2) as [[cs [rv a]]|]; [|discriminate].
    cbn in E. inversion E; subst cs. cbn [rbind] in H3. destruct (monroescore nx p W); [|discriminate]. cbn [rbind] in H3.
    destruct (complete_assignment _ _ _ _ _) in H3; [|discriminate]. cbn [rbind] in H3. rewrite Es in H3. cbn [rbind] in H3. inversion H3. reflexivity. }
  intros nx e Hx. split; apply G; auto; vm_compute; reflexivity.
Qed.
Print Assumptions C29_greedy_monroe_refuted.
