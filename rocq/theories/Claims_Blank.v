(** * Claim C87: voters without a preference

    Specification: SpecBlank.v ([abstain], [indifferent], the lists of rules) and [joined] of SpecVary.v. *)
From Coq Require Import String.
From Coq Require Import List Arith Bool ZArith QArith Lia Lqa Permutation Sorted.
From Verif Require Import Milp RulesSolver SpecLoads SolverLex SolverPhragmen SolverCompute RefSolver RulesMonroe RulesMore SolverMore.
From Verif Require Import Prelude Misc MiscProofs Preferences Scores Spec SpecRules Rule Compute SpecCompute SpecSeq
  MonroeExample ExampleData ComputeAll SpecAll AllProofs TieBreak SpecVary Claims_All Claims_Vary SpecBlank BlankAll.
Import ListNotations.
Local Open Scope string_scope.
Open Scope nat_scope.
Local Open Scope list_scope.

(** ** Voters who approve nobody, or everybody, do not influence these rules *)
Theorem C87_indifferent : forall rnd nx sv e p a q k id alg, joined p a q -> indifferent a -> ignores_indifferent e q id alg ->
  libraries_ok p rnd nx sv e -> libraries_ok q rnd nx sv e -> valid_call p k false None -> valid_call q k false None ->
  compute rnd nx (with_solvers nx sv e) id q (Z.of_nat k) None (args alg false None) =
  compute rnd nx (with_solvers nx sv e) id p (Z.of_nat k) None (args alg false None).
Proof. exact indifferent_ok. Qed.
Print Assumptions C87_indifferent.

(** ** Voters who approve nobody do not influence these and the following rules *)
Theorem C87_abstentions : forall rnd nx sv e p a q k id alg, joined p a q -> abstain a -> ignores_abstentions e q k id alg ->
  libraries_ok p rnd nx sv e -> libraries_ok q rnd nx sv e -> valid_call p k false None -> valid_call q k false None ->
  compute rnd nx (with_solvers nx sv e) id q (Z.of_nat k) None (args alg false None) =
  compute rnd nx (with_solvers nx sv e) id p (Z.of_nat k) None (args alg false None).
Proof. exact abstain_ok. Qed.
Print Assumptions C87_abstentions.

(** ** Minimax AV: the winners stay winners *)
Theorem C87_minimaxav : forall rnd nx sv e p a q k alg, joined p a q -> indifferent a -> In alg ["gurobi"; "mip-gurobi"; "mip-cbc"; "ortools-cp"; "brute-force"] ->
  libraries_ok p rnd nx sv e -> libraries_ok q rnd nx sv e -> valid_call p k false None -> valid_call q k false None ->
  exists l l', compute rnd nx (with_solvers nx sv e) "minimaxav" p (Z.of_nat k) None (args alg false None) = Ok l /\
    compute rnd nx (with_solvers nx sv e) "minimaxav" q (Z.of_nat k) None (args alg false None) = Ok l' /\ incl l l'.
Proof. exact indifferent_minimaxav_ok. Qed.
Print Assumptions C87_minimaxav.

(** four voters, without and with two more who approve nobody or everybody *)
Definition ex_few : profile := mkp 5 [mkv [0;1] 1; mkv [0;1;2] 1; mkv [2;3] 1; mkv [3;4] 1].
Definition ex_none : profile := mkp 5 [mkv [] 1; mkv [] 2].
Definition ex_blank : profile := mkp 5 [mkv [] 1; mkv [0;1;2;3;4] 3].
Definition ex_few_none : profile := mkp 5 (voters ex_few ++ voters ex_none).
Definition ex_few_blank : profile := mkp 5 (voters ex_few ++ voters ex_blank).
Example C87_example :
  let call p id alg := compute id_random ref_nx (with_solvers ref_nx (ref_solvers ex_few_blank) ex_env) id p 2 None (args alg false None) in
  joined ex_few ex_blank ex_few_blank /\ indifferent ex_blank /\ joined ex_few ex_none ex_few_none /\ abstain ex_none /\
  valid_call ex_few 2 false None /\ valid_call ex_few_blank 2 false None /\ valid_call ex_few_none 2 false None /\
  libraries_ok ex_few id_random ref_nx (ref_solvers ex_few_blank) ex_env /\ libraries_ok ex_few_none id_random ref_nx (ref_solvers ex_few_blank) ex_env /\
  libraries_ok ex_few_blank id_random ref_nx (ref_solvers ex_few_blank) ex_env /\
  ignores_indifferent ex_env ex_few_blank "revseqpav" "standard" /\ ignores_indifferent ex_env ex_few_blank "eph" "standard-fractions" /\
  ignores_indifferent ex_env ex_few_blank "lexcc" "brute-force" /\
  ignores_abstentions ex_env ex_few_none 2 "seqphragmen" "standard-fractions" /\ ignores_abstentions ex_env ex_few_none 2 "minimaxphragmen" "mip-cbc" /\
  call ex_few "eph" "standard-fractions" = Ok [[0; 3]; [1; 3]; [2; 3]] /\ call ex_few_blank "eph" "standard-fractions" = Ok [[0; 3]; [1; 3]; [2; 3]].
Proof.
  cbv zeta. split; [repeat split|]. split.
  { intros u [<-|[<-|[]]]; [left; reflexivity|right]. intros c Hc. cbn in Hc. do 5 (destruct c as [|c]; [cbn; tauto|]). lia. }
  split; [repeat split|]. split. { intros u [<-|[<-|[]]]; reflexivity. }
  split; [valid_tac|]. split; [valid_tac|]. split; [valid_tac|]. split; [apply smaller_libraries; cbn; lia|]. split; [apply smaller_libraries; cbn; lia|]. split; [apply smaller_libraries; lia|].
  split; [apply (ii_revseq ex_env ex_few_blank "pav" pav_w); constructor|]. split; [apply ii_eph; [left; reflexivity|cbn; lia]|]. split; [apply ii_additive; constructor|].
  split. { apply ia_seqphragmen; [left; reflexivity|]. intros c Hc. cbn in Hc. right. do 5 (destruct c as [|c]; [vm_compute; reflexivity|]). lia. }
  split. { apply ia_minimaxphragmen; [repeat constructor; discriminate|vm_compute; lia|cbn; tauto]. }
  split; vm_compute; reflexivity.
Qed.

(** ** Other rules count the voters, so that abstentions do matter *)
Theorem C87_other_rules_refuted :
  (exists p a q, joined p a q /\ abstain a /\ valid_call p 2 false None /\ valid_call q 2 false None /\ forall rnd nx sv e,
     compute rnd nx (with_solvers nx sv e) "phragmen-enestroem" p 2 None (args "standard-fractions" false None) = Ok [[0; 1]] /\
     compute rnd nx (with_solvers nx sv e) "phragmen-enestroem" q 2 None (args "standard-fractions" false None) = Ok [[0; 2]; [1; 2]] /\
     compute rnd nx (with_solvers nx sv e) "consensus-rule" p 2 None (args "standard-fractions" false None) = Ok [[0; 1]] /\
     compute rnd nx (with_solvers nx sv e) "consensus-rule" q 2 None (args "standard-fractions" false None) = Ok [[0; 2]; [1; 2]]) /\
  (exists p a q, joined p a q /\ abstain a /\ valid_call p 3 false None /\ valid_call q 3 false None /\ forall rnd nx sv e,
     compute rnd nx (with_solvers nx sv e) "equal-shares" p 3 None (args "standard-fractions" false None) = Ok [[0; 1; 3]] /\
     compute rnd nx (with_solvers nx sv e) "equal-shares" q 3 None (args "standard-fractions" false None) = Ok [[0; 2; 3]]) /\
  (exists p a q, joined p a q /\ abstain a /\ valid_call p 3 false None /\ valid_call q 3 false None /\ forall rnd nx sv e,
     compute rnd nx (with_solvers nx sv e) "equal-shares-with-av-completion" p 3 None (args "standard-fractions" false None) = Ok [[0; 1; 3]; [0; 2; 3]; [1; 2; 3]] /\
     compute rnd nx (with_solvers nx sv e) "equal-shares-with-av-completion" q 3 None (args "standard-fractions" false None) = Ok [[0; 1; 2]] /\
     compute rnd nx (with_solvers nx sv e) "equal-shares-without-completion" p 3 None (args "standard-fractions" false None) = Ok [[0; 1; 3]; [0; 2; 3]; [1; 2; 3]] /\
     compute rnd nx (with_solvers nx sv e) "equal-shares-without-completion" q 3 None (args "standard-fractions" false None) = Ok [[0]; [1]; [2]]) /\
  (exists p a q, joined p a q /\ abstain a /\ valid_call p 2 false None /\ valid_call q 2 false None /\ forall rnd nx sv e,
     compute rnd nx (with_solvers nx sv e) "minimaxav" p 2 None (args "brute-force" false None) = Ok [[0; 1]] /\
     compute rnd nx (with_solvers nx sv e) "minimaxav" q 2 None (args "brute-force" false None) = Ok [[0; 1]; [0; 2]; [1; 2]]).
Proof.
  Ltac abstain_tac := intros u Hu; cbn in Hu; repeat (destruct Hu as [<-|Hu]; [reflexivity|]); destruct Hu.
  split; [|split; [|split]].
  - exists (mkp 3 [mkv [0;1] 10; mkv [2] 3]), (mkp 3 [mkv [] 2]), (mkp 3 [mkv [0;1] 10; mkv [2] 3; mkv [] 2]). split; [repeat split|]. split; [abstain_tac|]. split; [valid_tac|]. split; [valid_tac|]. intros. repeat split; vm_compute; reflexivity.
  - exists (mkp 4 [mkv [1;3] 2; mkv [0;1] 1; mkv [0;2;3] 5]), (mkp 4 [mkv [] 5]), (mkp 4 [mkv [1;3] 2; mkv [0;1] 1; mkv [0;2;3] 5; mkv [] 5]). split; [repeat split|]. split; [abstain_tac|]. split; [valid_tac|]. split; [valid_tac|]. intros. repeat split; vm_compute; reflexivity.
  - exists (mkp 4 [mkv [0;1;2] 6; mkv [3] 3]), (mkp 4 [mkv [] 9]), (mkp 4 [mkv [0;1;2] 6; mkv [3] 3; mkv [] 9]). split; [repeat split|]. split; [abstain_tac|]. split; [valid_tac|]. split; [valid_tac|]. intros. repeat split; vm_compute; reflexivity.
  - exists (mkp 3 [mkv [0;1] 1]), (mkp 3 [mkv [] 1]), (mkp 3 [mkv [0;1] 1; mkv [] 1]). split; [repeat split|]. split; [abstain_tac|]. split; [valid_tac|]. split; [valid_tac|]. intros. repeat split; vm_compute; reflexivity.
Qed.
Print Assumptions C87_other_rules_refuted.
Theorem C87_monroe_refuted : exists p a q, joined p a q /\ abstain a /\ valid_call p 2 false None /\ valid_call q 2 false None /\
  forall rnd nx sv e, libraries_ok p rnd nx sv e -> libraries_ok q rnd nx sv e ->
    exists l l', compute rnd nx (with_solvers nx sv e) "monroe" p 2 None (args "brute-force" false None) = Ok l /\ In [0; 1] l /\
      compute rnd nx (with_solvers nx sv e) "monroe" q 2 None (args "brute-force" false None) = Ok l' /\ ~ In [0; 1] l'.
Proof.
  pose (p := mkp 3 [mkv [0;1] 1; mkv [0;1] 1; mkv [0;1] 1; mkv [2] 1]). pose (q := mkp 3 [mkv [0;1] 1; mkv [0;1] 1; mkv [0;1] 1; mkv [2] 1; mkv [] 1; mkv [] 1]).
  assert (Vp : valid_call p 2 false None) by (unfold p; valid_tac). assert (Vq : valid_call q 2 false None) by (unfold q; valid_tac).
  exists p, (mkp 3 [mkv [] 1; mkv [] 1]), q. split; [repeat split|]. split; [abstain_tac|]. split; [exact Vp|]. split; [exact Vq|]. intros rnd nx sv e Lp Lq.
  assert (Up : unit_weights p) by (repeat constructor). assert (Uq : unit_weights q) by (repeat constructor).
  assert (I : In "brute-force" ["gurobi"; "mip-gurobi"; "mip-cbc"; "ortools-cp"; "brute-force"]) by (cbn; tauto).
  destruct (same_members rnd nx sv e id_random ref_nx (ref_solvers p) ex_env p 2 "monroe" "brute-force" _ [[0; 1]; [0; 2]; [1; 2]] Lp (example_libraries p)
    (b_monroe e p 2 _ Up I) (b_monroe ex_env p 2 _ Up I) Vp ltac:(vm_compute; reflexivity)) as (l & El & Ml).
  destruct (same_members rnd nx sv e id_random ref_nx (ref_solvers q) ex_env q 2 "monroe" "brute-force" _ [[0; 2]; [1; 2]] Lq (example_libraries q)
    (b_monroe e q 2 _ Uq I) (b_monroe ex_env q 2 _ Uq I) Vq ltac:(vm_compute; reflexivity)) as (l' & El' & Ml').
  exists l, l'. split; [exact El|]. split; [apply Ml; left; reflexivity|]. split; [exact El'|]. intros HV. apply Ml' in HV. cbn in HV. destruct HV as [E|[E|[]]]; discriminate E.
Qed.
Print Assumptions C87_monroe_refuted.
(** Voters who approve everybody do influence sequential Phragmén. *)
Theorem C87_full_ballots_seqphragmen_refuted : exists p a q, joined p a q /\ indifferent a /\ valid_call p 2 false None /\ valid_call q 2 false None /\ forall rnd nx sv e,
  compute rnd nx (with_solvers nx sv e) "seqphragmen" p 2 None (args "standard-fractions" false None) = Ok [[1; 2]] /\
  compute rnd nx (with_solvers nx sv e) "seqphragmen" q 2 None (args "standard-fractions" false None) = Ok [[0; 1]].
Proof.
  exists (mkp 3 [mkv [1;2] 3; mkv [1] 4; mkv [0] 2]), (mkp 3 [mkv [0;1;2] 5]), (mkp 3 [mkv [1;2] 3; mkv [1] 4; mkv [0] 2; mkv [0;1;2] 5]). split; [repeat split|]. split.
  { intros u [<-|[]]. right. intros c Hc. cbn in Hc. do 3 (destruct c as [|c]; [cbn; tauto|]). lia. }
  split; [valid_tac|]. split; [valid_tac|]. intros. split; vm_compute; reflexivity.
Qed.
Print Assumptions C87_full_ballots_seqphragmen_refuted.
