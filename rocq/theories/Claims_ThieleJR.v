(** * Claims C90: which Thiele methods are proportional *)
From Coq Require Import String.
From Coq Require Import List Arith Bool ZArith QArith Lia Lqa Permutation.
From Verif Require Import Milp RulesSolver SpecLoads SolverCompute SolverLex RefSolver RulesMonroe RulesMore SolverMore.
From Verif Require Import Prelude Misc Preferences Scores Rule Spec SpecRules Compute SpecCompute SpecSeq SpecAxioms
  Checks ChecksProofs ComputeProofs Guarantees MonroeExample ExampleData ComputeAll SpecAll SpecParty AllProofs SpecJR ThieleJR ThieleRules Claims_All.
Import ListNotations.
Local Open Scope string_scope.
Open Scope nat_scope.
Local Open Scope list_scope.

(** ** C90 *)
(** The definition of the rules: the [j]-th approved member of a committee is worth [f j], and the committees with
    the largest total are elected.  All of them satisfy JR, for all profiles and sizes, exactly when
    [f j <= f 1 / j]; *)
Theorem C90_JR : forall f, (forall i, 1 <= i -> (0 <= f i)%Q) -> non_increasing f -> (0 < f 1%nat)%Q ->
  ((forall p k W, wf p -> voters p <> [] -> 1 <= k -> maximises (Thiele f p) p k W -> JR p (default_quota p k) W) <->
   (forall j, 1 <= j -> (Qnat j * f j <= f 1%nat)%Q)).
Proof. exact JR_iff. Qed.
Print Assumptions C90_JR.

(** and all of them satisfy PJR, EJR or EJR+ exactly when [f j = f 1 / j]: only PAV does. *)
Theorem C90_PJR : forall f, (forall i, 1 <= i -> (0 <= f i)%Q) -> non_increasing f -> (0 < f 1%nat)%Q ->
  ((forall p k W, wf p -> voters p <> [] -> 1 <= k -> maximises (Thiele f p) p k W -> PJR p (default_quota p k) W) <->
   (forall j, 1 <= j -> (Qnat j * f j == f 1%nat)%Q)).
Proof. intros f H0 HD H1. apply (PJR_iff f H0 HD H1 PJR); auto. intros. apply EJR_PJR; auto. apply EJR_plus_EJR; auto. Qed.
Print Assumptions C90_PJR.
Theorem C90_EJR : forall f, (forall i, 1 <= i -> (0 <= f i)%Q) -> non_increasing f -> (0 < f 1%nat)%Q ->
  ((forall p k W, wf p -> voters p <> [] -> 1 <= k -> maximises (Thiele f p) p k W -> EJR p (default_quota p k) W) <->
   (forall j, 1 <= j -> (Qnat j * f j == f 1%nat)%Q)).
Proof. intros f H0 HD H1. apply (PJR_iff f H0 HD H1 EJR); auto; intros; [apply EJR_PJR; auto|apply EJR_plus_EJR; auto]. Qed.
Print Assumptions C90_EJR.
Theorem C90_EJR_plus : forall f, (forall i, 1 <= i -> (0 <= f i)%Q) -> non_increasing f -> (0 < f 1%nat)%Q ->
  ((forall p k W, wf p -> voters p <> [] -> 1 <= k -> maximises (Thiele f p) p k W -> EJR_plus p (default_quota p k) W) <->
   (forall j, 1 <= j -> (Qnat j * f j == f 1%nat)%Q)).
Proof. intros f H0 HD H1. apply (PJR_iff f H0 HD H1 EJR_plus); auto; intros. apply EJR_PJR; auto. apply EJR_plus_EJR; auto. Qed.
Print Assumptions C90_EJR_plus.

(** ** The rules of the library *)
(** all algorithms of the rules with [f j <= f 1 / j] ... *)
Theorem C90_checked : forall rnd nx sv e p k id alg f resolute maxn l W, optimises e p id alg f ->
  (forall j, 1 <= j -> (Qnat j * f j <= f 1%nat)%Q) -> libraries_ok p rnd nx sv e -> valid_call p k resolute maxn ->
  compute rnd nx (with_solvers nx sv e) id p (Z.of_nat k) None (args alg resolute maxn) = Ok l -> In W l -> check_JR p W None = Ok true.
Proof. exact optimises_JR. Qed.
(** ... which are PAV, SLAV, CC and the geometric rules with a base of at least 2 *)
Corollary C90_rules : forall rnd nx sv e p k id alg f resolute maxn l W, optimises e p id alg f ->
  f = pav_w \/ f = slav_w \/ f = cc_w \/ (exists b, f = geom_w b /\ (2 <= b)%Q) ->
  libraries_ok p rnd nx sv e -> valid_call p k resolute maxn ->
  compute rnd nx (with_solvers nx sv e) id p (Z.of_nat k) None (args alg resolute maxn) = Ok l -> In W l -> check_JR p W None = Ok true.
Proof.
  intros rnd nx sv e p k id alg f resolute maxn l W Ho Hf. apply (optimises_JR rnd nx sv e p k id alg f resolute maxn l W Ho).
  destruct Hf as [->|[->|[->|(b & -> & Hb)]]].
  - intros j Hj. rewrite (share_pav j Hj). apply Qle_refl.
  - apply share_slav.
  - apply share_cc.
  - apply share_geom. exact Hb.
Qed.
Print Assumptions C90_checked.
Print Assumptions C90_rules.

(** AV and the geometric rules with a base below 2 may violate JR, SLAV, CC and the geometric rules with a larger
    base may violate PJR: there are elections, even with disjoint parties, where all committees elected violate it,
    for the optimising rules and for those that agree with them for disjoint parties
    (the sequential and reverse sequential ones). *)
Theorem C90_JR_refuted : forall f, f = av_w \/ (exists b, f = geom_w b /\ (1 <= b)%Q /\ (b < 2)%Q) ->
  exists p k, valid_call p k false None /\ is_party_list p = true /\
    forall rnd nx sv e id alg resolute maxn l W, optimises e p id alg f \/ apportions e p k id alg f ->
      libraries_ok p rnd nx sv e -> valid_call p k resolute maxn ->
      compute rnd nx (with_solvers nx sv e) id p (Z.of_nat k) None (args alg resolute maxn) = Ok l -> In W l ->
      check_JR p W None = Ok false.
Proof.
  intros f [->|(b & -> & H1 & H2)]; apply (call_violates_JR _ 2); auto.
  - discriminate.
  - intros i i' _ _. apply Qle_refl.
  - reflexivity.
  - intros i Hi. apply Qlt_le_weak, geom_pos; [lra|exact Hi].
  - intros i j. apply geom_antitone. exact H1.
  - pose proof (geom_next b 1 ltac:(lra) ltac:(lia)) as E. pose proof (geom_pos b 2 ltac:(lra) ltac:(lia)). rewrite <- E. change (Qnat 2) with 2%Q. nra.
Qed.
Print Assumptions C90_JR_refuted.

Theorem C90_PJR_refuted : forall f, f = slav_w \/ f = cc_w \/ (exists b, f = geom_w b /\ (2 < b)%Q) ->
  exists p k, valid_call p k false None /\ is_party_list p = true /\
    forall rnd nx sv e id alg resolute maxn l W, optimises e p id alg f \/ apportions e p k id alg f ->
      libraries_ok p rnd nx sv e -> valid_call p k resolute maxn ->
      compute rnd nx (with_solvers nx sv e) id p (Z.of_nat k) None (args alg resolute maxn) = Ok l -> In W l ->
      ~ PJR p (default_quota p k) W /\ check_EJR_plus p W None = Ok false.
Proof.
  intros f [->|[->|(b & -> & H2)]]; apply (call_violates_PJR _ 2); auto.
  - intros i Hi. apply Qlt_le_weak, slav_pos. exact Hi.
  - intros i j. apply slav_antitone.
  - reflexivity.
  - intros i _. apply cc_w_nonneg.
  - intros i j. apply cc_antitone.
  - reflexivity.
  - intros i Hi. apply Qlt_le_weak, geom_pos; [lra|exact Hi].
  - intros i j. apply geom_antitone. lra.
  - pose proof (geom_next b 1 ltac:(lra) ltac:(lia)) as E. pose proof (geom_pos b 2 ltac:(lra) ltac:(lia)). rewrite <- E. change (Qnat 2) with 2%Q. nra.
Qed.
Print Assumptions C90_PJR_refuted.

(** ** Rules without a guarantee *)
(** The sequential versions of PAV and of the 2-geometric rule may violate JR (candidate 6 is approved by 17 of 102
    voters, none of whom gets anybody in a committee of 6; candidate 7 by 7 of 49 in a committee of 7). *)
Definition seqpav_profile : profile := mkp 7 [mkv [3] 6; mkv [1;3] 3; mkv [2;3] 1; mkv [1;2;3] 3; mkv [4] 9; mkv [1;4] 3; mkv [1;2;4] 6;
  mkv [0;2;3;4] 18; mkv [5] 5; mkv [0;1;5] 18; mkv [2;5] 8; mkv [3;5] 2; mkv [1;3;5] 3; mkv [6] 17].
Theorem C90_seqpav_refuted : valid_call seqpav_profile 6 false None /\ check_JR seqpav_profile [0;1;2;3;4;5] None = Ok false /\
  forall rnd nx sv e, exists l, compute rnd nx (with_solvers nx sv e) "seqpav" seqpav_profile 6 None (args "standard" false None) = Ok l /\
    In [0;1;2;3;4;5] l.
Proof.
  split; [split; [wf_tac|split; [discriminate|split; [cbn; lia|auto]]]|]. split; [vm_compute; reflexivity|].
  intros rnd nx sv e. eexists. split; [vm_compute; reflexivity|]. vm_compute. auto.
Qed.
Print Assumptions C90_seqpav_refuted.

Definition seqgeom_profile : profile := mkp 8 [mkv [0;1] 2; mkv [3] 4; mkv [0;3] 2; mkv [1;3] 2; mkv [2;3] 2; mkv [4] 4; mkv [0;4] 2;
  mkv [1;4] 2; mkv [2;4] 2; mkv [5] 4; mkv [0;5] 2; mkv [1;5] 2; mkv [2;5] 2; mkv [6] 4; mkv [0;6] 2; mkv [1;6] 2; mkv [2;6] 2; mkv [7] 7].
Theorem C90_seqgeom_refuted : valid_call seqgeom_profile 7 false None /\ check_JR seqgeom_profile [0;1;2;3;4;5;6] None = Ok false /\
  forall rnd nx sv, exists l, compute rnd nx (with_solvers nx sv ex_env) "seqgeom2" seqgeom_profile 7 None (args "standard" false None) = Ok l /\
    In [0;1;2;3;4;5;6] l.
Proof.
  split; [split; [wf_tac|split; [discriminate|split; [cbn; lia|auto]]]|]. split; [vm_compute; reflexivity|].
  intros rnd nx sv. eexists. split; [vm_compute; reflexivity|]. vm_compute. auto.
Qed.
Print Assumptions C90_seqgeom_refuted.

(** Reverse sequential PAV removes candidate 8 first and then 9 and 10, and leaves the 40 of 318 voters who approve 8 with nobody
    in a committee of 8. *)
Definition revseqpav_profile : profile := mkp 11 ([mkv [8;9] 20; mkv [8;10] 20; mkv [9] 11; mkv [10] 11] ++ map (fun c => mkv [c] 32) (seq 0 8)).
Theorem C90_revseqpav_refuted : valid_call revseqpav_profile 8 false None /\
  check_JR revseqpav_profile [0;1;2;3;4;5;6;7] None = Ok false /\
  forall rnd nx sv, compute rnd nx (with_solvers nx sv ex_env) "revseqpav" revseqpav_profile 8 None (args "standard" false None) = Ok [[0;1;2;3;4;5;6;7]].
Proof.
  split; [split; [wf_tac|split; [discriminate|split; [cbn; lia|auto]]]|]. split; [vm_compute; reflexivity|].
  intros rnd nx sv. vm_compute. reflexivity.
Qed.
Print Assumptions C90_revseqpav_refuted.

(** Minimax approval voting, its lexicographic version, SAV and E Pluribus Hugo may violate JR in every committee they elect
    (for SAV and E Pluribus Hugo the weights are Fractions, so that no rounding is involved). *)
Definition liked_and_lonely : profile := mkp 5 [mkv [0;1;2;3] 1; mkv [4] 1].
Theorem C90_minimaxav_refuted : valid_call liked_and_lonely 2 false None /\ unit_weights liked_and_lonely /\
  forall rnd nx sv e id, In id ["minimaxav"; "lexminimaxav"] ->
    exists l, compute rnd nx (with_solvers nx sv e) id liked_and_lonely 2 None (args "brute-force" false None) = Ok l /\ l <> [] /\
      Forall (fun W => check_JR liked_and_lonely W None = Ok false) l.
Proof.
  split; [split; [wf_tac|split; [discriminate|split; [cbn; lia|auto]]]|]. split; [repeat constructor|].
  intros rnd nx sv e id [<-|[<-|[]]]; eexists; (split; [vm_compute; reflexivity|split; [discriminate|]]); repeat constructor; vm_compute; reflexivity.
Qed.
Print Assumptions C90_minimaxav_refuted.
Definition two_and_three : profile := mkProfile 5 (map str_nat (seq 0 5)) [mkVoter [0;1] 1 false; mkVoter [2;3;4] 1 false].
Theorem C90_sav_refuted : valid_call two_and_three 2 false None /\ unit_weights two_and_three /\
  forall rnd nx sv e id alg, In (id, alg) [("sav", "standard"); ("eph", "standard-fractions")] -> exact_arithmetic e "standard-fractions" ->
    exists l, compute rnd nx (with_solvers nx sv e) id two_and_three 2 None (args alg false None) = Ok l /\ l <> [] /\
      Forall (fun W => check_JR two_and_three W None = Ok false) l.
Proof.
  split; [split; [wf_tac|split; [discriminate|split; [cbn; lia|auto]]]|]. split; [repeat constructor|].
  intros rnd nx sv e id alg [E|[E|[]]] He; injection E as <- <-; eexists; (split; [vm_compute; reflexivity|split; [discriminate|]]); repeat constructor; vm_compute; reflexivity.
Qed.
Print Assumptions C90_sav_refuted.

(** the hypotheses of [C90_rules] and of the refutations are met: AV elects committees without JR, SLAV does not *)
Example C90_example :
  let call id := compute id_random ref_nx (with_solvers ref_nx (ref_solvers liked_and_lonely) ex_env) id liked_and_lonely 2 None in
  libraries_ok liked_and_lonely id_random ref_nx (ref_solvers liked_and_lonely) ex_env /\ valid_call liked_and_lonely 2 false None /\
  optimises ex_env liked_and_lonely "slav" "brute-force" slav_w /\ optimises ex_env liked_and_lonely "geom2" "mip-cbc" (geom_w 2) /\
  optimises ex_env liked_and_lonely "av" "standard" av_w /\
  call "slav" (args "brute-force" false None) = Ok [[0; 4]; [1; 4]; [2; 4]; [3; 4]] /\
  call "geom2" (args "brute-force" false None) = Ok [[0; 4]; [1; 4]; [2; 4]; [3; 4]] /\
  check_JR liked_and_lonely [0; 4] None = Ok true /\ check_JR liked_and_lonely [0; 1] None = Ok false /\
  (exists l, compute id_random ref_nx (with_solvers ref_nx (ref_solvers (blocks 2 2)) ex_env) "av" (blocks 2 2) 4 None (args "standard" false None) = Ok l /\
    l <> [] /\ Forall (fun W => check_JR (blocks 2 2) W None = Ok false) l) /\
  (exists l, compute id_random ref_nx (with_solvers ref_nx (ref_solvers (party_and_singles 2 3)) ex_env) "slav" (party_and_singles 2 3) 5 None (args "brute-force" false None) = Ok l /\
    l <> [] /\ Forall (fun W => check_EJR_plus (party_and_singles 2 3) W None = Ok false) l).
Proof.
  cbv zeta. split; [apply example_libraries|]. split; [apply C90_minimaxav_refuted|].
  split; [apply op_bf; constructor|]. split; [apply op_mip; [apply (den_geom ex_env "2" 2%Q); [reflexivity|lra]|apply geom_decreasing; lra|cbn; auto]|].
  split; [apply op_av|]. do 4 (split; [vm_compute; reflexivity|]).
  split; eexists; (split; [vm_compute; reflexivity|split; [discriminate|]]); repeat constructor; vm_compute; reflexivity.
Qed.
