(** * Claims C85–C86: apportionment on party-list profiles

    C85 highest averages (D'Hondt, Sainte-Lague), C86 largest remainders and whole quotas.
    The specification is SpecParty.v; [libraries_ok], [args], [listed_short] are defined in SpecAll.v. *)
From Coq Require Import String.
From Coq Require Import List Arith Bool ZArith QArith Lia Lqa Permutation Sorted.
From Verif Require Import Milp RulesSolver SpecLoads SolverLex SolverPhragmen SolverCompute RefSolver RulesMonroe RulesMore SolverMore.
From Verif Require Import Prelude Misc MiscProofs Preferences PrefProofs Scores Spec SpecRules Rule Compute ComputeProofs SpecCompute SpecSeq
  MonroeExample ExampleData ComputeAll SpecAll AllProofs SpecParty PartyLists PartyRules PartySeq PartyRest Claims_All Claims_Vary.
Import ListNotations.
Local Open Scope string_scope.
Open Scope nat_scope.
Local Open Scope list_scope.

(** the profiles in question are those for which [is_party_list] answers True *)
Theorem C85_party_list : forall p, wf p -> is_party_list p = true <-> party_lists p.
Proof. exact is_party_list_iff. Qed.
Print Assumptions C85_party_list.

(** ** C85: Thiele methods, their sequential and reverse sequential versions, sequential Phragmén and the Method of
    Equal Shares return exactly the committees of a highest averages method *)
Theorem C85_highest_averages : forall rnd nx sv e p k id alg f resolute maxn, apportions e p k id alg f -> party_lists p ->
  libraries_ok p rnd nx sv e -> valid_call p k resolute maxn ->
  answers (highest_averages f p k) resolute (limit maxn) (compute rnd nx (with_solvers nx sv e) id p (Z.of_nat k) None (args alg resolute maxn)).
Proof. exact apportions_ok. Qed.
Print Assumptions C85_highest_averages.

(** D'Hondt *)
Theorem C85_dhondt : forall rnd nx sv e p k id alg resolute maxn,
  In (id, alg) [("pav", "brute-force"); ("pav", "branch-and-bound"); ("pav", "gurobi"); ("pav", "mip-gurobi"); ("pav", "mip-cbc");
                ("seqpav", "standard"); ("revseqpav", "standard")] \/
  exact_arithmetic e alg /\ enough_support p k /\ In id ["seqphragmen"; "rule-x"; "equal-shares"; "equal-shares-with-seqphragmen-completion"] ->
  party_lists p -> libraries_ok p rnd nx sv e -> valid_call p k resolute maxn ->
  answers (dhondt p k) resolute (limit maxn) (compute rnd nx (with_solvers nx sv e) id p (Z.of_nat k) None (args alg resolute maxn)).
Proof.
  intros rnd nx sv e p k id alg resolute maxn Ha. apply (C85_highest_averages rnd nx sv e p k id alg pav_w).
  pose proof (den_pav e) as D. pose proof pav_decreasing as Z.
  destruct Ha as [Ha|(A & B & C)].
  - cbn in Ha. destruct Ha as [E|[E|[E|[E|[E|[E|[E|[]]]]]]]]; injection E as <- <-.
    + apply ap_thiele; auto. exact pav_antitone.
    + apply ap_thiele_bb; auto. exact pav_antitone.
    + apply ap_thiele_mip; auto; [exact pav_antitone|cbn; auto].
    + apply ap_thiele_mip; auto; [exact pav_antitone|cbn; auto].
    + apply ap_thiele_mip; auto; [exact pav_antitone|cbn; auto].
    + apply (ap_seq e p k "pav"); auto. exact pav_antitone.
    + apply (ap_revseq e p k "pav"); auto. exact pav_antitone.
  - destruct C as [<-|C]; [apply ap_seqphragmen; auto|apply ap_mes; auto].
Qed.
Print Assumptions C85_dhondt.

(** Sainte-Lague *)
Theorem C85_sainte_lague : forall rnd nx sv e p k id alg resolute maxn,
  In (id, alg) [("slav", "brute-force"); ("slav", "branch-and-bound"); ("slav", "gurobi"); ("slav", "mip-gurobi"); ("slav", "mip-cbc");
                ("seqslav", "standard"); ("revseqslav", "standard")] ->
  party_lists p -> libraries_ok p rnd nx sv e -> valid_call p k resolute maxn ->
  answers (sainte_lague p k) resolute (limit maxn) (compute rnd nx (with_solvers nx sv e) id p (Z.of_nat k) None (args alg resolute maxn)).
Proof.
  intros rnd nx sv e p k id alg resolute maxn Ha. apply (C85_highest_averages rnd nx sv e p k id alg slav_w). pose proof (den_slav e) as D.
  pose proof slav_decreasing as Z. cbn in Ha. destruct Ha as [E|[E|[E|[E|[E|[E|[E|[]]]]]]]]; injection E as <- <-.
  - apply ap_thiele; auto. exact slav_antitone.
  - apply ap_thiele_bb; auto. exact slav_antitone.
  - apply ap_thiele_mip; auto; [exact slav_antitone|cbn; auto].
  - apply ap_thiele_mip; auto; [exact slav_antitone|cbn; auto].
  - apply ap_thiele_mip; auto; [exact slav_antitone|cbn; auto].
  - apply (ap_seq e p k "slav"); auto. exact slav_antitone.
  - apply (ap_revseq e p k "slav"); auto. exact slav_antitone.
Qed.
Print Assumptions C85_sainte_lague.

(** hence rules that extend the same method return the same list *)
Theorem C85_rules_agree : forall rnd nx sv e p k id alg id' alg' f, apportions e p k id alg f -> apportions e p k id' alg' f -> party_lists p ->
  libraries_ok p rnd nx sv e -> valid_call p k false None ->
  compute rnd nx (with_solvers nx sv e) id p (Z.of_nat k) None (args alg false None) =
  compute rnd nx (with_solvers nx sv e) id' p (Z.of_nat k) None (args alg' false None).
Proof. exact apportions_agree. Qed.
Print Assumptions C85_rules_agree.

(** every party gets its vote share of the seats, rounded down *)
Theorem C85_dhondt_lower_quota : forall p k W, wf p -> party_lists p -> voters p <> [] -> 1 <= k -> dhondt p k W -> lower_quota p k W.
Proof. intros p k W Hw Hp Hv Hk. exact (dhondt_lower_quota p Hw Hp Hv k Hk W). Qed.
Print Assumptions C85_dhondt_lower_quota.

(** ** C86: Enestroem's version of Phragmén's method returns the committees of the largest remainder method *)
Theorem C86_largest_remainders : forall rnd nx sv e p k alg resolute maxn, exact_arithmetic e alg -> party_lists p ->
  libraries_ok p rnd nx sv e -> valid_call p k resolute maxn ->
  answers (largest_remainders p k) resolute (limit maxn) (compute rnd nx (with_solvers nx sv e) "phragmen-enestroem" p (Z.of_nat k) None (args alg resolute maxn)).
Proof. exact remainders_ok. Qed.
Print Assumptions C86_largest_remainders.
Theorem C86_remainders_lower_quota : forall p k W, wf p -> party_lists p -> voters p <> [] -> 1 <= k -> largest_remainders p k W -> lower_quota p k W.
Proof. intros p k W Hw Hp Hv Hk. exact (remainders_lower_quota p Hw Hp Hv k Hk W). Qed.
Print Assumptions C86_remainders_lower_quota.
(** Equal Shares without completion gives every party its vote share of the seats, rounded down, and nothing else *)
Theorem C86_whole_quotas : forall rnd nx sv e p k id alg resolute maxn, listed_short e id alg -> party_lists p ->
  libraries_ok p rnd nx sv e -> valid_call p k resolute maxn ->
  answers (whole_quotas p k) resolute (limit maxn) (compute rnd nx (with_solvers nx sv e) id p (Z.of_nat k) None (args alg resolute maxn)).
Proof. exact whole_quotas_ok. Qed.
Print Assumptions C86_whole_quotas.

(** parties {0,1,2} with 5 votes, {3,4} with 3 votes and {5} with 1 vote, 4 seats: D'Hondt gives 3, 1, 0 seats, the largest
    remainder method 2, 1, 1, the whole quotas are 2, 1, 0 *)
Definition ex_parties : profile := mkp 6 [mkv [0;1;2] 2; mkv [3;4] 3; mkv [2;1;0] 3; mkv [5] 1].
Example C85_example :
  let call id alg := compute id_random ref_nx (with_solvers ref_nx (ref_solvers ex_parties) ex_env) id ex_parties 4 None (args alg false None) in
  party_lists ex_parties /\ libraries_ok ex_parties id_random ref_nx (ref_solvers ex_parties) ex_env /\ valid_call ex_parties 4 false None /\ enough_support ex_parties 4 /\
  map (seats ex_parties [0;1;2;4]) [2;3;5] = [3;1;0] /\
  call "pav" "branch-and-bound" = Ok [[0;1;2;3]; [0;1;2;4]] /\ call "revseqpav" "standard" = Ok [[0;1;2;3]; [0;1;2;4]] /\
  call "seqphragmen" "standard-fractions" = Ok [[0;1;2;3]; [0;1;2;4]] /\ call "equal-shares" "standard-fractions" = Ok [[0;1;2;3]; [0;1;2;4]].
Proof.
  cbv zeta. split; [apply C85_party_list; [wf_tac|reflexivity]|]. split; [apply example_libraries|]. split; [valid_tac|].
  split; [intros c Hc; cbn in Hc; do 6 (destruct c as [|c]; [right; reflexivity|]); lia|]. split; [reflexivity|].
  split; [vm_compute; reflexivity|]. split; [vm_compute; reflexivity|]. split; vm_compute; reflexivity.
Qed.
Example C86_example :
  let call id alg := compute id_random ref_nx (with_solvers ref_nx (ref_solvers ex_parties) ex_env) id ex_parties 4 None (args alg false None) in
  exact_arithmetic ex_env "standard-fractions" /\
  call "phragmen-enestroem" "standard-fractions" = Ok [[0;1;3;5]; [0;1;4;5]; [0;2;3;5]; [0;2;4;5]; [1;2;3;5]; [1;2;4;5]] /\
  call "equal-shares-without-completion" "standard-fractions" = Ok [[0;1;3]; [0;1;4]; [0;2;3]; [0;2;4]; [1;2;3]; [1;2;4]].
Proof. cbv zeta. split; [left; reflexivity|]. split; vm_compute; reflexivity. Qed.
(** approval voting does not apportion: all seats go to the largest party with enough candidates *)
Theorem C85_av_refuted : exists p, valid_call p 3 false None /\ party_lists p /\ forall rnd nx sv e,
  compute rnd nx (with_solvers nx sv e) "av" p 3 None (args "standard" false None) = Ok [[0;1;2]] /\ ~ lower_quota p 3 [0;1;2].
Proof.
  exists (mkp 4 [mkv [0;1;2] 3; mkv [3] 3; mkv [2;1;0] 1]). split; [valid_tac|]. split; [apply C85_party_list; [wf_tac|reflexivity]|]. intros rnd nx sv e. split; [vm_compute; reflexivity|].
  intros H. assert (Hn : ~ In 3 [0;1;2]) by (cbn; lia). specialize (H 3 ltac:(cbn; lia) Hn). vm_compute in H. discriminate.
Qed.
Print Assumptions C85_av_refuted.
