(** * Claims C66–C71: comparing elections and rules

    C66 more approvals, C67 joining elections, C68 refinements, C69 Pareto efficiency, C70 a single seat,
    C71 as many seats as candidates.  The specification is SpecVary.v; [libraries_ok], [args], [listed] are
    defined in SpecAll.v. *)
From Coq Require Import String.
From Coq Require Import List Arith Bool ZArith QArith Lia Lqa Permutation Sorted.
From Verif Require Import Milp RulesSolver SpecLoads SolverLex SolverPhragmen SolverCompute RefSolver RulesMonroe RulesMore SolverMore.
From Verif Require Import Prelude Misc MiscProofs Preferences Scores Spec SpecRules Rule Compute SpecCompute SpecSeq
  MonroeExample ExampleData ComputeAll SpecAll AllProofs TieBreak SpecVary VaryAll JoinAll Pareto SingleSeat Claims_All.
Import ListNotations.
Local Open Scope string_scope.
Open Scope nat_scope.
Local Open Scope list_scope.

(** a library that is exact for an election is exact for a smaller one *)
Lemma smaller_libraries : forall p q, election_size p <= election_size q -> libraries_ok p id_random ref_nx (ref_solvers q) ex_env.
Proof.
  intros p q H. destruct (example_libraries q) as (A & B & (C1 & C2 & C3) & D). split; [exact A|]. split; [exact B|]. split; [|exact D].
  assert (E : forall s, exact_solver q s -> exact_solver p s).
  { intros s Hs m Hg Hb. apply Hs; auto. intros x v Hx Hv. destruct (Hb x v Hx Hv) as [L U].
    assert (I : (inject_Z (Z.of_nat (election_size p)) <= inject_Z (Z.of_nat (election_size q)))%Q) by (rewrite <- Zle_Qle; lia). lra. }
  split; [|split]; intros; apply E; auto.
Qed.
Ltac valid_tac := split; [wf_tac|]; cbn; split; [discriminate|split; [lia|auto]].

(** ** C66: additional approvals of [c] do not hurt [c] *)
Theorem C66_more_approvals : forall rnd nx sv e c p q k id alg, approval_monotone e p q k id alg -> gains c p q ->
  libraries_ok p rnd nx sv e -> libraries_ok q rnd nx sv e -> valid_call p k false None -> valid_call q k false None ->
  exists l l', compute rnd nx (with_solvers nx sv e) id p (Z.of_nat k) None (args alg false None) = Ok l /\
    compute rnd nx (with_solvers nx sv e) id q (Z.of_nat k) None (args alg false None) = Ok l' /\
    ((exists W, In W l /\ In c W) -> exists V, In V l' /\ In c V).
Proof. exact approval_monotone_ok. Qed.
Print Assumptions C66_more_approvals.

(** candidate 3 gains the approvals of the second and the third voter of [ex_unit] *)
Definition ex_gained : profile := mkp 5 [mkv [0;1] 1; mkv [0;1;2;3] 1; mkv [2;3] 1; mkv [3;4] 1; mkv [] 1].
Example C66_example :
  let call p id alg := compute id_random ref_nx (with_solvers ref_nx (ref_solvers ex_unit) ex_env) id p 2 None (args alg false None) in
  gains 3 ex_unit ex_gained /\ valid_call ex_unit 2 false None /\ valid_call ex_gained 2 false None /\
  libraries_ok ex_unit id_random ref_nx (ref_solvers ex_unit) ex_env /\ libraries_ok ex_gained id_random ref_nx (ref_solvers ex_unit) ex_env /\
  approval_monotone ex_env ex_unit ex_gained 2 "monroe" "mip-cbc" /\ approval_monotone ex_env ex_unit ex_gained 2 "maximin-support" "gurobi" /\
  approval_monotone ex_env ex_unit ex_gained 2 "seqphragmen" "standard-fractions" /\
  call ex_unit "cc" "brute-force" = Ok [[0; 2]; [0; 3]; [0; 4]; [1; 2]; [1; 3]; [1; 4]; [2; 3]; [2; 4]] /\ call ex_gained "cc" "brute-force" = Ok [[0; 3]; [1; 3]].
Proof.
  cbv zeta. split.
  { split; [reflexivity|]. repeat (apply Forall2_cons; [split; [reflexivity|split; [reflexivity|split; [intros d Hd; cbn; intuition congruence|cbn; tauto]]]|]). apply Forall2_nil. }
  split; [valid_tac|]. split; [valid_tac|]. split; [apply example_libraries|]. split; [apply smaller_libraries; cbn; lia|].
  split; [apply am_monroe; [apply ex_unit_unit|cbn; tauto]|]. split; [apply am_maximin; cbn; tauto|].
  assert (ES : forall p, num_cand p = 5 -> (forall c, c < 5 -> (1 <= support p c)%Q) -> enough_support p 2).
  { intros p Hp HS c Hc. right. rewrite Hp in Hc. specialize (HS c Hc). change (Qnat 2) with 2%Q. change (Qnat (2 + 1)) with 3%Q. lra. }
  split; [apply am_seqphragmen; [left; reflexivity| |]; (apply ES; [reflexivity|intros c Hc; do 5 (destruct c as [|c]; [vm_compute; discriminate|]); lia])|].
  split; vm_compute; reflexivity.
Qed.

(** E Pluribus Hugo and reverse-sequential PAV are not monotone in this sense. *)
Theorem C66_eph_refuted : exists p q c, gains c p q /\ valid_call p 2 false None /\ valid_call q 2 false None /\
  forall rnd nx sv e, libraries_ok p rnd nx sv e ->
    compute rnd nx (with_solvers nx sv e) "eph" p 2 None (args "standard-fractions" false None) = Ok [[0; 3]] /\ c = 3 /\
    compute rnd nx (with_solvers nx sv e) "eph" q 2 None (args "standard-fractions" false None) = Ok [[1; 2]].
Proof.
  exists (mkp 5 [mkv [1] 2; mkv [0;2;3] 3; mkv [0;1;3] 3; mkv [2] 2; mkv [0] 1]), (mkp 5 [mkv [1] 2; mkv [0;2;3] 3; mkv [0;1;3] 3; mkv [2] 2; mkv [0;3] 1]), 3.
  split. { split; [reflexivity|]. repeat (apply Forall2_cons; [split; [reflexivity|split; [reflexivity|split; [intros d Hd; cbn; intuition congruence|cbn; tauto]]]|]). apply Forall2_nil. }
  split; [valid_tac|]. split; [valid_tac|]. intros rnd nx sv e _. split; [vm_compute; reflexivity|]. split; [reflexivity|vm_compute; reflexivity].
Qed.
Print Assumptions C66_eph_refuted.
Lemma same_members : forall rnd nx sv e rnd' nx' sv' e' p k id alg P l, libraries_ok p rnd nx sv e -> libraries_ok p rnd' nx' sv' e' ->
  listed_by e p k id alg P -> listed_by e' p k id alg P -> valid_call p k false None ->
  compute rnd' nx' (with_solvers nx' sv' e') id p (Z.of_nat k) None (args alg false None) = Ok l ->
  exists l', compute rnd nx (with_solvers nx sv e) id p (Z.of_nat k) None (args alg false None) = Ok l' /\ forall W, In W l' <-> In W l.
Proof.
  intros rnd nx sv e rnd' nx' sv' e' p k id alg P l H1 H2 B1 B2 Hv E. destruct (irresolute_list rnd nx sv e p k id alg P H1 B1 Hv) as (l1 & E1 & M1).
  destruct (irresolute_list rnd' nx' sv' e' p k id alg P H2 B2 Hv) as (l2 & E2 & M2). assert (l2 = l) as -> by (rewrite E2 in E; injection E as E; exact E).
  exists l1. split; [exact E1|]. intros W. rewrite M1, M2. reflexivity.
Qed.
Theorem C66_revseqpav_refuted : exists p q, gains 3 p q /\ valid_call p 2 false None /\ valid_call q 2 false None /\
  forall rnd nx sv e, libraries_ok p rnd nx sv e -> libraries_ok q rnd nx sv e ->
    exists l l', compute rnd nx (with_solvers nx sv e) "revseqpav" p 2 None (args "standard" false None) = Ok l /\ In [0; 3] l /\
      compute rnd nx (with_solvers nx sv e) "revseqpav" q 2 None (args "standard" false None) = Ok l' /\ forall V, In V l' -> ~ In 3 V.
Proof.
  pose (p := mkp 4 [mkv [0;1;3] 5; mkv [0;2] 1; mkv [3] 3; mkv [0;2] 3; mkv [0;1] 6; mkv [2] 5; mkv [1;3] 4; mkv [2] 2]).
  pose (q := mkp 4 [mkv [0;1;3] 5; mkv [0;2;3] 1; mkv [3] 3; mkv [0;2] 3; mkv [0;1] 6; mkv [2] 5; mkv [1;3] 4; mkv [2] 2]).
  assert (Vp : valid_call p 2 false None) by (unfold p; valid_tac). assert (Vq : valid_call q 2 false None) by (unfold q; valid_tac).
  exists p, q. split. { split; [reflexivity|]. unfold p, q. repeat (apply Forall2_cons; [split; [reflexivity|split; [reflexivity|split; [intros d Hd; cbn; intuition congruence|cbn; tauto]]]|]). apply Forall2_nil. }
  split; [exact Vp|]. split; [exact Vq|]. intros rnd nx sv e Lp Lq.
  destruct (same_members rnd nx sv e id_random ref_nx (ref_solvers p) ex_env p 2 "revseqpav" "standard" _ [[0; 3]; [1; 2]] Lp (example_libraries p)
    (b_revseq e p 2 "pav" pav_w (den_pav e)) (b_revseq ex_env p 2 "pav" pav_w (den_pav ex_env)) Vp ltac:(vm_compute; reflexivity)) as (l & El & Ml).
  destruct (same_members rnd nx sv e id_random ref_nx (ref_solvers q) ex_env q 2 "revseqpav" "standard" _ [[1; 2]] Lq (example_libraries q)
    (b_revseq e q 2 "pav" pav_w (den_pav e)) (b_revseq ex_env q 2 "pav" pav_w (den_pav ex_env)) Vq ltac:(vm_compute; reflexivity)) as (l' & El' & Ml').
  exists l, l'. split; [exact El|]. split; [apply Ml; left; reflexivity|]. split; [exact El'|]. intros V HV HV3. apply Ml' in HV. destruct HV as [<-|[]]. cbn in HV3. intuition congruence.
Qed.
Print Assumptions C66_revseqpav_refuted.

(** ** C67: if two disjoint groups of voters agree on some winning committees, these win in the joint election *)
Theorem C67_joining : forall rnd nx sv e p q r k id alg, joined p q r -> additive_rule e r id alg ->
  libraries_ok p rnd nx sv e -> libraries_ok q rnd nx sv e -> libraries_ok r rnd nx sv e -> valid_call p k false None -> valid_call q k false None ->
  exists l l' l'', compute rnd nx (with_solvers nx sv e) id p (Z.of_nat k) None (args alg false None) = Ok l /\
    compute rnd nx (with_solvers nx sv e) id q (Z.of_nat k) None (args alg false None) = Ok l' /\
    compute rnd nx (with_solvers nx sv e) id r (Z.of_nat k) None (args alg false None) = Ok l'' /\
    ((exists W, In W l /\ In W l') -> forall W, In W l'' <-> In W l /\ In W l').
Proof. exact joined_ok. Qed.
Print Assumptions C67_joining.
Theorem C67_minimaxav : forall rnd nx sv e p q r k alg, joined p q r -> In alg ["gurobi"; "mip-gurobi"; "mip-cbc"; "ortools-cp"; "brute-force"] ->
  libraries_ok p rnd nx sv e -> libraries_ok q rnd nx sv e -> libraries_ok r rnd nx sv e -> valid_call p k false None -> valid_call q k false None ->
  exists l l' l'', compute rnd nx (with_solvers nx sv e) "minimaxav" p (Z.of_nat k) None (args alg false None) = Ok l /\
    compute rnd nx (with_solvers nx sv e) "minimaxav" q (Z.of_nat k) None (args alg false None) = Ok l' /\
    compute rnd nx (with_solvers nx sv e) "minimaxav" r (Z.of_nat k) None (args alg false None) = Ok l'' /\
    forall W, In W l -> In W l' -> In W l''.
Proof. exact joined_minimaxav_ok. Qed.
Print Assumptions C67_minimaxav.

Definition ex_joint : profile := mkp 5 (voters ex_unit ++ voters ex_gained).
Example C67_example :
  let call p id alg := compute id_random ref_nx (with_solvers ref_nx (ref_solvers ex_joint) ex_env) id p 2 None (args alg false None) in
  joined ex_unit ex_gained ex_joint /\ additive_rule ex_env ex_joint "lexcc" "brute-force" /\ additive_rule ex_env ex_joint "cc" "brute-force" /\
  libraries_ok ex_unit id_random ref_nx (ref_solvers ex_joint) ex_env /\ libraries_ok ex_gained id_random ref_nx (ref_solvers ex_joint) ex_env /\
  libraries_ok ex_joint id_random ref_nx (ref_solvers ex_joint) ex_env /\ valid_call ex_unit 2 false None /\ valid_call ex_gained 2 false None /\
  call ex_unit "cc" "brute-force" = Ok [[0; 2]; [0; 3]; [0; 4]; [1; 2]; [1; 3]; [1; 4]; [2; 3]; [2; 4]] /\ call ex_gained "cc" "brute-force" = Ok [[0; 3]; [1; 3]] /\
  call ex_joint "cc" "brute-force" = Ok [[0; 3]; [1; 3]].
Proof.
  cbv zeta. split; [repeat split|]. split; [constructor|]. split; [apply (ad_thiele ex_env ex_joint "cc" cc_w); constructor|].
  split; [apply smaller_libraries; cbn; lia|]. split; [apply smaller_libraries; cbn; lia|]. split; [apply smaller_libraries; lia|].
  split; [valid_tac|]. split; [valid_tac|]. repeat split; vm_compute; reflexivity.
Qed.
(** Sequential PAV: two groups have the same single winning committee, which loses in the joint election. *)
Theorem C67_seqpav_refuted : exists p q r, joined p q r /\ valid_call p 2 false None /\ valid_call q 2 false None /\
  forall rnd nx sv e,
    compute rnd nx (with_solvers nx sv e) "seqpav" p 2 None (args "standard" false None) = Ok [[0; 2]] /\
    compute rnd nx (with_solvers nx sv e) "seqpav" q 2 None (args "standard" false None) = Ok [[0; 2]] /\
    compute rnd nx (with_solvers nx sv e) "seqpav" r 2 None (args "standard" false None) = Ok [[0; 1]].
Proof.
  exists (mkp 3 [mkv [1;2] 7; mkv [0] 3; mkv [2] 1; mkv [0] 1]), (mkp 3 [mkv [0;1] 5; mkv [1] 1; mkv [2] 7; mkv [0] 3; mkv [0;1] 6]),
    (mkp 3 [mkv [1;2] 7; mkv [0] 3; mkv [2] 1; mkv [0] 1; mkv [0;1] 5; mkv [1] 1; mkv [2] 7; mkv [0] 3; mkv [0;1] 6]).
  split; [repeat split|]. split; [valid_tac|]. split; [valid_tac|]. intros. repeat split; vm_compute; reflexivity.
Qed.
Print Assumptions C67_seqpav_refuted.

(** ** C68: the lexicographic rules break ties of CC and minimax AV *)
Theorem C68_refinements : forall rnd nx sv e p k id alg id' alg', refines e p id alg id' alg' -> libraries_ok p rnd nx sv e -> valid_call p k false None ->
  exists l l', compute rnd nx (with_solvers nx sv e) id p (Z.of_nat k) None (args alg false None) = Ok l /\
    compute rnd nx (with_solvers nx sv e) id' p (Z.of_nat k) None (args alg' false None) = Ok l' /\ incl l l'.
Proof. exact refines_ok. Qed.
Print Assumptions C68_refinements.
Example C68_example :
  let call id alg := compute id_random ref_nx (with_solvers ref_nx (ref_solvers ex_unit) ex_env) id ex_unit 2 None (args alg false None) in
  libraries_ok ex_unit id_random ref_nx (ref_solvers ex_unit) ex_env /\ valid_call ex_unit 2 false None /\
  refines ex_env ex_unit "lexcc" "gurobi" "cc" "ortools-cp" /\ refines ex_env ex_unit "lexminimaxav" "brute-force" "minimaxav" "mip-cbc" /\
  call "lexcc" "brute-force" = Ok [[0; 2]; [1; 2]] /\
  call "cc" "brute-force" = Ok [[0; 2]; [0; 3]; [0; 4]; [1; 2]; [1; 3]; [1; 4]; [2; 3]; [2; 4]].
Proof.
  cbv zeta. split; [apply example_libraries|]. split; [valid_tac|]. split.
  { apply rf_lexcc; [right; split; [reflexivity|]|right; right; right; split; [reflexivity|repeat constructor]].
    exists 1%Q. split; [vm_compute; reflexivity|]. intros v Hv. exists 1. cbn in Hv. repeat (destruct Hv as [<-|Hv]; [reflexivity|]). destruct Hv. }
  split; [apply rf_lexminimaxav; [apply ex_unit_unit|cbn; tauto|cbn; tauto]|]. split; vm_compute; reflexivity.
Qed.

(** ** C69: Pareto efficiency *)
Theorem C69_efficient : forall rnd nx sv e p k id alg, efficient e p id alg -> libraries_ok p rnd nx sv e -> valid_call p k false None ->
  exists l, compute rnd nx (with_solvers nx sv e) id p (Z.of_nat k) None (args alg false None) = Ok l /\
    forall W V, In W l -> is_committee p k V -> ~ dominates p V W.
Proof. exact efficient_ok. Qed.
Print Assumptions C69_efficient.
(** CC and minimax AV may elect a dominated committee, but then the dominating ones are elected, too *)
Theorem C69_weakly_efficient : forall rnd nx sv e p k id alg, weakly_efficient e p id alg -> libraries_ok p rnd nx sv e -> valid_call p k false None ->
  exists l, compute rnd nx (with_solvers nx sv e) id p (Z.of_nat k) None (args alg false None) = Ok l /\
    forall W V, In W l -> is_committee p k V -> dominates p V W -> In V l.
Proof. exact weakly_efficient_ok. Qed.
Print Assumptions C69_weakly_efficient.
(** Sequential PAV elects the dominated committee {0, 1} only. *)
Theorem C69_seqpav_refuted : exists p, valid_call p 2 false None /\ is_committee p 2 [2; 3] /\ dominates p [2; 3] [0; 1] /\
  forall rnd nx sv e, compute rnd nx (with_solvers nx sv e) "seqpav" p 2 None (args "standard" false None) = Ok [[0; 1]].
Proof.
  exists (mkp 4 [mkv [1;3] 6; mkv [0;2] 4; mkv [0;2;3] 1; mkv [1;2] 6; mkv [0;3] 4]). split; [valid_tac|]. split.
  { split; [repeat constructor; lia|]. split; [reflexivity|repeat constructor]. }
  split; [|intros; vm_compute; reflexivity]. split.
  - intros v Hv. cbn in Hv. repeat (destruct Hv as [<-|Hv]; [vm_compute; lia|]). destruct Hv.
  - exists (mkv [0;2;3] 1). split; [cbn; tauto|vm_compute; lia].
Qed.
Print Assumptions C69_seqpav_refuted.
Example C69_example :
  let p := mkp 4 [mkv [0;1;2] 1] in
  let call id alg := compute id_random ref_nx (with_solvers ref_nx (ref_solvers p) ex_env) id p 2 None (args alg false None) in
  libraries_ok p id_random ref_nx (ref_solvers p) ex_env /\ valid_call p 2 false None /\
  efficient ex_env p "lexcc" "brute-force" /\ weakly_efficient ex_env p "cc" "brute-force" /\
  call "lexcc" "brute-force" = Ok [[0; 1]; [0; 2]; [1; 2]] /\ call "cc" "brute-force" = Ok [[0; 1]; [0; 2]; [0; 3]; [1; 2]; [1; 3]; [2; 3]] /\
  is_committee p 2 [0; 1] /\ dominates p [0; 1] [0; 3].
Proof.
  cbv zeta. split; [apply example_libraries|]. split; [valid_tac|]. split; [constructor|]. split; [apply we_cc; tauto|]. split; [vm_compute; reflexivity|]. split; [vm_compute; reflexivity|].
  split; [split; [repeat constructor; lia|]; split; [reflexivity|repeat constructor]|]. split.
  - intros v Hv. cbn in Hv. repeat (destruct Hv as [<-|Hv]; [vm_compute; lia|]). destruct Hv.
  - exists (mkv [0;1;2] 1). split; [cbn; tauto|vm_compute; lia].
Qed.

(** ** C70: with a single seat most rules elect the most approved candidates *)
Theorem C70_single_seat : forall rnd nx sv e p id alg, single_seat_av e p id alg -> libraries_ok p rnd nx sv e -> valid_call p 1 false None ->
  compute rnd nx (with_solvers nx sv e) id p 1 None (args alg false None) = compute rnd nx (with_solvers nx sv e) "av" p 1 None (args "standard" false None).
Proof. exact single_seat_ok. Qed.
Print Assumptions C70_single_seat.
Example C70_example :
  let call id alg := compute id_random ref_nx (with_solvers ref_nx (ref_solvers ex_unit) ex_env) id ex_unit 1 None (args alg false None) in
  libraries_ok ex_unit id_random ref_nx (ref_solvers ex_unit) ex_env /\ valid_call ex_unit 1 false None /\
  single_seat_av ex_env ex_unit "seqgeom2" "standard" /\ single_seat_av ex_env ex_unit "monroe" "brute-force" /\
  single_seat_av ex_env ex_unit "consensus-rule" "standard-fractions" /\
  call "av" "standard" = Ok [[0]; [1]; [2]] /\ call "consensus-rule" "standard-fractions" = Ok [[0]; [1]; [2]].
Proof.
  cbv zeta. split; [apply example_libraries|]. split; [valid_tac|]. split; [apply (ss_seq ex_env ex_unit "geom2" (geom_w 2)); constructor; reflexivity|].
  split; [apply ss_monroe; [apply ex_unit_unit|cbn; tauto]|]. split; [apply ss_consensus; left; reflexivity|]. split; vm_compute; reflexivity.
Qed.
(** SAV, minimax AV and E Pluribus Hugo differ from AV for one seat. *)
Theorem C70_other_rules_refuted : (exists p, valid_call p 1 false None /\ forall rnd nx sv e,
    compute rnd nx (with_solvers nx sv e) "av" p 1 None (args "standard" false None) = Ok [[0]; [1]] /\
    compute rnd nx (with_solvers nx sv e) "sav" p 1 None (args "standard" false None) = Ok [[2]]) /\
  (exists p, valid_call p 1 false None /\ forall rnd nx sv e,
    compute rnd nx (with_solvers nx sv e) "av" p 1 None (args "standard" false None) = Ok [[0]] /\
    compute rnd nx (with_solvers nx sv e) "minimaxav" p 1 None (args "brute-force" false None) = Ok [[1]; [2]; [3]]) /\
  (exists p, valid_call p 1 false None /\ forall rnd nx sv e,
    compute rnd nx (with_solvers nx sv e) "av" p 1 None (args "standard" false None) = Ok [[0]; [1]; [2]] /\
    compute rnd nx (with_solvers nx sv e) "eph" p 1 None (args "standard-fractions" false None) = Ok [[2]]).
Proof.
  split; [|split].
  - exists (mkp 3 [mkv [0;1] (3#2); mkv [2] (5#4)]). split; [valid_tac|intros; split; vm_compute; reflexivity].
  - exists (mkp 4 [mkv [0] 2; mkv [1;2;3] 1]). split; [valid_tac|intros; split; vm_compute; reflexivity].
  - exists ex_unit. split; [valid_tac|intros; split; vm_compute; reflexivity].
Qed.
Print Assumptions C70_other_rules_refuted.

(** ** C71: as many seats as candidates *)
Theorem C71_all_seats : forall rnd nx sv e p id alg resolute maxn, listed e p (num_cand p) id alg -> libraries_ok p rnd nx sv e ->
  valid_call p (num_cand p) resolute maxn ->
  compute rnd nx (with_solvers nx sv e) id p (Z.of_nat (num_cand p)) None (args alg resolute maxn) = Ok [seq 0 (num_cand p)].
Proof.
  intros rnd nx sv e p id alg resolute maxn Hl HL Hc. destruct (C21_every_rule rnd nx sv e p (num_cand p) id alg resolute maxn HL Hl Hc) as (l & El & Hne & Hnd & H).
  rewrite El. f_equal. assert (E : forall W, In W l -> W = seq 0 (num_cand p)).
  { intros W HW. destruct (H W HW) as (A & L & R). apply ascending_ext; [exact A|apply ascending_seq|].
    intros c. rewrite in_seq. split; [intros Hin; rewrite Forall_forall in R; specialize (R c Hin); lia|]. intros Hin.
    assert (I : incl (seq 0 (num_cand p)) W). { apply NoDup_length_incl; [apply ascending_NoDup; auto|rewrite seq_length; lia|]. intros a Ha. rewrite Forall_forall in R. apply in_seq. specialize (R a Ha). lia. }
    apply I, in_seq. lia. }
  destruct l as [|W [|V l]]; [exfalso; apply Hne; reflexivity|f_equal; apply E; left; reflexivity|]. exfalso. inversion Hnd as [|? ? Hni _]; subst. apply Hni.
  left. rewrite (E W), (E V); [reflexivity|right; left; reflexivity|left; reflexivity].
Qed.
Print Assumptions C71_all_seats.
Example C71_example : listed ex_env ex_unit 5 "leximaxphragmen" "gurobi" /\ listed ex_env ex_unit 5 "monroe" "ortools-cp" /\
  libraries_ok ex_unit id_random ref_nx (ref_solvers ex_unit) ex_env /\ valid_call ex_unit 5 false None.
Proof.
  split; [apply l_leximaxphragmen; [repeat constructor; discriminate|vm_compute; lia]|]. split; [apply l_monroe; [apply ex_unit_unit|cbn; tauto]|]. split; [apply example_libraries|]. valid_tac.
Qed.
