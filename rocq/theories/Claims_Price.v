(** * Claims C51, C56, C57: solver-based checks and priceability

    [exact_solver p s]: [s] answers every mixed-integer program whose integer variables are bounded by the size of the
    election correctly.  [uses_gurobi alg]: alg is "gurobi" or "fastest". *)
From Coq Require Import String.
From Coq Require Import List Arith Bool ZArith QArith Lia Lqa Permutation.
From Verif Require Import Prelude Misc Preferences Scores Rule Spec SpecRules Compute SpecCompute Checks SpecAxioms ChecksProofs
  Guarantees Milp RefSolver CheckSolver CheckSolverProofs SpecPrice PriceProofs SpecSeq RulesMes MesFinal ComputeSeq ComputeSeqProofs SeqProofs PhragmenProofs Proportional PriceRules ExampleData.
Import ListNotations.
Local Open Scope string_scope.
Open Scope nat_scope.
Local Open Scope list_scope.

(** ** C56 *)
Theorem C56_pareto : forall s p W alg, wf p -> cand_set p W -> exact_solver p s -> uses_gurobi alg ->
  exists b, check_pareto_optimality (pareto_gurobi s) p W alg = Ok b /\ (b = true <-> pareto_optimal p W).
Proof. exact check_pareto_gurobi. Qed.
Print Assumptions C56_pareto.

Theorem C56_exact : forall s p W quota alg, wf p -> cand_set p W -> (quota = None -> W <> []) -> (0 < the_quota p W quota)%Q ->
  exact_solver p s -> uses_gurobi alg ->
  (exists b, check_EJR (EJR_gurobi s) p W quota alg = Ok b /\ (b = true <-> EJR p (the_quota p W quota) W)) /\
  (exists b, check_PJR (PJR_gurobi s) p W quota alg = Ok b /\ (b = true <-> PJR p (the_quota p W quota) W)) /\
  (exists b, check_FJR (FJR_gurobi s) p W quota alg = Ok b /\ (b = true <-> FJR p (the_quota p W quota) W)) /\
  (exists b, check_core (core_gurobi s) p W quota alg = Ok b /\ (b = true <-> in_core p (the_quota p W quota) W)).
Proof. exact check_gurobi_exact. Qed.
Print Assumptions C56_exact.

Theorem C56_agreement : forall s p W quota alg, wf p -> cand_set p W -> (quota = None -> W <> []) -> (0 < the_quota p W quota)%Q ->
  exact_solver p s -> uses_gurobi alg ->
  check_pareto_optimality (pareto_gurobi s) p W alg = check_pareto_optimality (pareto_gurobi s) p W "brute-force" /\
  check_FJR (FJR_gurobi s) p W quota alg = check_FJR (FJR_gurobi s) p W quota "brute-force" /\
  check_core (core_gurobi s) p W quota alg = check_core (core_gurobi s) p W quota "brute-force" /\
  (unit_weights p -> check_EJR (EJR_gurobi s) p W quota alg = check_EJR (EJR_gurobi s) p W quota "brute-force" /\
                     check_PJR (PJR_gurobi s) p W quota alg = check_PJR (PJR_gurobi s) p W quota "brute-force").
Proof. exact algorithms_agree. Qed.
Print Assumptions C56_agreement.

(** on weighted profiles the two algorithms of check_EJR and of check_PJR contradict each other *)
Theorem C56_weighted_refuted : exists p W, wf p /\ cand_set p W /\ W <> [] /\ forall s, exact_solver p s ->
  check_EJR (EJR_gurobi s) p W None "gurobi" = Ok false /\ check_EJR (EJR_gurobi s) p W None "brute-force" = Ok true /\
  check_PJR (PJR_gurobi s) p W None "gurobi" = Ok false /\ check_PJR (PJR_gurobi s) p W None "brute-force" = Ok true.
Proof.
  exists (mkp 2 [mkv [0] 2]), [1].
  assert (Hw : wf (mkp 2 [mkv [0] 2])) by wf_tac.
  assert (Hc : cand_set (mkp 2 [mkv [0] 2]) [1]) by (split; repeat constructor; simpl; intuition lia).
  assert (J : check_JR (mkp 2 [mkv [0] 2]) [1] None = Ok false) by (vm_compute; reflexivity).
  assert (NP : ~ PJR (mkp 2 [mkv [0] 2]) (the_quota (mkp 2 [mkv [0] 2]) [1] None) [1]).
  { intro P. apply PJR_JR in P; auto.
    destruct (check_JR_exact (mkp 2 [mkv [0] 2]) [1] None Hw Hc ltac:(discriminate)) as (b & E & H); [vm_compute; reflexivity|].
    rewrite J in E. inversion E; subst b. apply H in P. discriminate. }
  split; auto. split; auto. split; [discriminate|]. intros s Hs.
  destruct (check_gurobi_exact s (mkp 2 [mkv [0] 2]) [1] None "gurobi") as ((b1 & E1 & H1) & (b2 & E2 & H2) & _); auto; [discriminate|vm_compute; reflexivity|left; reflexivity|].
  split; [rewrite E1; f_equal; destruct b1; auto; exfalso; apply NP, EJR_PJR; auto; [apply Hc|apply H1; auto]|].
  split; [vm_compute; reflexivity|]. split; [rewrite E2; f_equal; destruct b2; auto; exfalso; apply NP, H2; auto|vm_compute; reflexivity].
Qed.
Print Assumptions C56_weighted_refuted.

Lemma ref_exact : forall p, exact_solver p (ref_solver (election_size p)).
Proof. intros p m Hg HB. apply ref_solver_correct; auto. Qed.
(** three voters of weights 2, 1 and 1/2 *)
Definition ex_three : profile := mkp 3 [mkv [0;1] 2; mkv [2] 1; mkv [1] (1#2)].
Example C56_example : wf ex_three /\ cand_set ex_three [0;2] /\ (0 < the_quota ex_three [0;2]%nat None)%Q /\
  exact_solver ex_three (ref_solver (election_size ex_three)) /\
  (exists b, check_EJR (EJR_gurobi (ref_solver (election_size ex_three))) ex_three [0;2] None "gurobi" = Ok b).
Proof.
  assert (Hw : wf ex_three) by wf_tac.
  assert (Hc : cand_set ex_three [0;2]) by (split; repeat constructor; simpl; intuition lia).
  split; auto. split; auto. split; [vm_compute; reflexivity|]. split; [apply ref_exact|].
  destruct (check_gurobi_exact (ref_solver (election_size ex_three)) ex_three [0;2] None "gurobi") as ((b & E & _) & _); eauto;
    [discriminate|vm_compute; reflexivity|apply ref_exact|left; reflexivity].
Qed.
(** the reference solver really decides; the first voter of [C56_weighted_refuted] deserves the seat *)
Example C56_computes : check_EJR (EJR_gurobi (ref_solver 5)) (mkp 2 [mkv [0] 2; mkv [1] 1]) [1] None "gurobi" = Ok true /\
  check_core (core_gurobi (ref_solver 5)) (mkp 2 [mkv [0] 2; mkv [0] 1]) [1] None "fastest" = Ok false.
Proof. split; vm_compute; reflexivity. Qed.

(** ** C51 *)
(** [stable = false] is check_priceability, [stable = true] is check_stable_priceability *)
Theorem C51_exact : forall s p W alg (stable : bool), wf p -> cand_set p W -> W <> [] -> exact_solver p s -> uses_gurobi alg ->
  exists b, check_priceability s p W alg stable = Ok b /\ (b = true <-> passes_price_check p W stable).
Proof. exact check_priceability_exact. Qed.
Print Assumptions C51_exact.

Lemma quota_positive : forall p (W : list nat), wf p -> voters p <> [] -> W <> [] -> (0 < default_quota p (length W))%Q.
Proof.
  intros p W Hw Hv Hne. unfold default_quota. apply Qlt_shift_div_l; [|pose proof (MesFinal.wsum_pos p Hw Hv); lra].
  destruct W; [congruence|]. change 0%Q with (Qnat 0). apply -> Qnat_lt. cbn. lia.
Qed.
Lemma gurobi_true : forall s p W alg, wf p -> voters p <> [] -> cand_set p W -> W <> [] -> exact_solver p s -> uses_gurobi alg ->
  (PJR p (default_quota p (length W)) W -> check_PJR (PJR_gurobi s) p W None alg = Ok true) /\
  (in_core p (default_quota p (length W)) W -> check_core (core_gurobi s) p W None alg = Ok true).
Proof.
  intros s p W alg Hw Hv HW Hne Hs Ha.
  destruct (check_gurobi_exact s p W None alg Hw HW (fun _ => Hne) (quota_positive p W Hw Hv Hne) Hs Ha) as (_ & (b & E & H) & _ & (b' & E' & H')).
  split; intros K; [rewrite E; apply H in K; congruence|rewrite E'; apply H' in K; congruence].
Qed.
Lemma passes_true : forall s p W alg (stable : bool), wf p -> cand_set p W -> W <> [] -> exact_solver p s -> uses_gurobi alg ->
  check_priceability s p W alg stable = Ok true -> passes_price_check p W stable.
Proof.
  intros s p W alg stable Hw HW Hne Hs Ha E. destruct (check_priceability_exact s p W alg stable) as (b & E' & H); auto. apply H. congruence.
Qed.
Lemma core_PJR : forall p W q, wf p -> NoDup W -> (0 < q)%Q -> in_core p q W -> PJR p q W.
Proof. intros p W q Hw HN Hq H. destruct (axiom_implications p q W Hw HN Hq) as (A & B & _ & D & _). auto. Qed.

Theorem C51_priceable_PJR : forall s p W alg, wf p -> voters p <> [] -> cand_set p W -> W <> [] -> exact_solver p s -> uses_gurobi alg ->
  check_priceability s p W alg false = Ok true ->
  check_PJR (PJR_gurobi s) p W None alg = Ok true /\
  (unit_weights p -> check_PJR (PJR_gurobi s) p W None "brute-force" = Ok true) /\
  check_JR p W None = Ok true /\
  PJR p (default_quota p (length W)) W.
Proof.
  intros s p W alg Hw Hv HW Hne Hs Ha E. apply passes_true in E; auto.
  assert (HP : PJR p (default_quota p (length W)) W).
  { destruct E as [[_ E]|[_ E]]; [apply core_PJR; auto; [apply HW|apply quota_positive; auto|apply all_approved_core; auto; apply HW]|].
    apply PJR_plus_PJR. apply priceable_PJR_plus; auto. }
  split; [apply gurobi_true; auto|]. split; [intros Hu; apply passes_PJR; auto|]. split; auto.
  apply passes_JR; auto. apply PJR_JR; auto.
Qed.
Print Assumptions C51_priceable_PJR.

Theorem C51_stable_core : forall s p W alg, wf p -> voters p <> [] -> cand_set p W -> W <> [] -> exact_solver p s -> uses_gurobi alg ->
  check_priceability s p W alg true = Ok true ->
  check_core (core_gurobi s) p W None alg = Ok true /\ check_core (core_gurobi s) p W None "brute-force" = Ok true /\
  check_priceability s p W alg false = Ok true.
Proof.
  intros s p W alg Hw Hv HW Hne Hs Ha E. apply passes_true in E; auto.
  assert (HC : in_core p (default_quota p (length W)) W).
  { destruct E as [[_ E]|[_ E]]; [apply all_approved_core; auto; apply HW|apply stable_core; auto]. }
  assert (C : check_core (core_gurobi s) p W None alg = Ok true) by (apply gurobi_true; auto). split; auto. split.
  - destruct (algorithms_agree s p W None alg) as (_ & _ & A & _); auto; [apply quota_positive; auto|congruence].
  - destruct (check_priceability_exact s p W alg false) as (b & -> & H); auto. f_equal. apply H.
    destruct E as [E|[E1 E2]]; [left; auto|right; split; auto]. apply stable_is_priceable; auto.
Qed.
Print Assumptions C51_stable_core.

(** priceability and PJR+ for every weighting; stable priceability and the core *)
Theorem C51_axioms : forall p W, wf p -> voters p <> [] -> cand_set p W -> W <> [] ->
  (priceable p W -> PJR_plus p (default_quota p (length W)) W) /\
  (stable_priceable p W -> priceable p W /\ in_core p (default_quota p (length W)) W).
Proof.
  intros p W Hw Hv HW Hne. split; [apply priceable_PJR_plus; auto|]. intros H. split; [apply stable_is_priceable; auto|apply stable_core; auto].
Qed.
Print Assumptions C51_axioms.

(** other algorithm names *)
Theorem C51_only_gurobi : forall s p W alg (stable : bool), cand_set p W -> ~ uses_gurobi alg -> check_priceability s p W alg stable = Err NotImplementedError.
Proof.
  intros s p W alg stable HW Ha. unfold check_priceability. rewrite checked_ok by auto. cbn [rbind]. unfold uses_gurobi in Ha.
  destruct (String.eqb_spec alg "fastest"); [tauto|]. destruct (String.eqb_spec alg "gurobi"); [tauto|reflexivity].
Qed.
Print Assumptions C51_only_gurobi.

Definition ex_pair : profile := mkp 2 [mkv [0] 2; mkv [1] 1].
Example C51_example : wf ex_pair /\ voters ex_pair <> [] /\ cand_set ex_pair [0] /\ exact_solver ex_pair (ref_solver (election_size ex_pair)) /\
  check_priceability (ref_solver (election_size ex_pair)) ex_pair [0] "gurobi" false = Ok true /\
  check_priceability (ref_solver (election_size ex_pair)) ex_pair [1] "gurobi" false = Ok false /\
  check_priceability (ref_solver (election_size ex_pair)) (mkp 3 [mkv [0] 2]) [0;2] "fastest" true = Ok true /\
  stable_priceable ex_pair [0].
Proof.
  split; [wf_tac|]. split; [discriminate|]. split; [split; repeat constructor; simpl; intuition lia|]. split; [apply ref_exact|].
  split; [vm_compute; reflexivity|]. split; [vm_compute; reflexivity|]. split; [vm_compute; reflexivity|].
  exists (1#2)%Q, (fun i c => if (i =? 0) && (c =? 0) then 1%Q else 0%Q). split; [split|].
  - lra.
  - intros i c _ _. destruct ((i =? 0) && (c =? 0)); lra.
  - intros i Hi. cbn in Hi. destruct i as [|[|i]]; [vm_compute; discriminate|vm_compute; discriminate|lia].
  - intros i c Hi Hc Hn. cbn in Hi, Hc. destruct i as [|[|i]]; [|reflexivity|lia]. destruct c as [|[|c]]; [|reflexivity|lia]. cbn in Hn. tauto.
  - intros c Hc [<-|[]]. vm_compute. reflexivity.
  - intros c Hc Hn. cbn in Hc. destruct c as [|[|c]]; [cbn in Hn; tauto|vm_compute; reflexivity|lia].
  - intros c Hc Hn. cbn in Hc. destruct c as [|[|c]]; [cbn in Hn; tauto|vm_compute; discriminate|lia].
Qed.

(** ** C57: what the rules guarantee *)
Lemma passes_priceability : forall s p W alg, wf p -> cand_set p W -> W <> [] -> exact_solver p s -> uses_gurobi alg ->
  passes_price_check p W false -> check_priceability s p W alg false = Ok true.
Proof. intros s p W alg Hw HW Hne Hs Ha H. destruct (check_priceability_exact s p W alg false) as (b & -> & E); auto. f_equal. apply E; auto. Qed.

Theorem C57_seqphragmen : forall e s p k alg alg' resolute maxn l W, exact_arithmetic e alg -> valid_call p k resolute maxn -> enough_support p k ->
  exact_solver p s -> uses_gurobi alg' ->
  compute_seqphragmen e p (Z.of_nat k) alg resolute maxn = Ok l -> In W l ->
  check_priceability s p W alg' false = Ok true.
Proof.
  intros e s p k alg alg' resolute maxn l W Ha Hc Hs Hex Hg E Hin.
  assert (HW : phragmen_winner p k W) by (eapply answers_In; [|exact E|exact Hin]; apply compute_seqphragmen_correct; auto).
  destruct Hc as (Hw & Hv & Hk & _).
  assert (Hcom : is_committee p k W) by (eapply run_step_facts; [|exact HW]; apply phragmen_choice_fresh).
  destruct (committee_cand_set p k W (proj1 Hk) Hcom) as [Hcs Hne]. apply passes_priceability; auto. eapply phragmen_passes_price; eauto.
Qed.
Print Assumptions C57_seqphragmen.

Theorem C57_equal_shares : forall e s p k alg alg' resolute maxn l W, exact_arithmetic e alg -> valid_call p k resolute maxn ->
  exact_solver p s -> uses_gurobi alg' ->
  compute_equal_shares e p (Z.of_nat k) alg resolute maxn None = Ok l \/
  (enough_support p k /\ compute_equal_shares e p (Z.of_nat k) alg resolute maxn (Some "seqphragmen") = Ok l) ->
  In W l -> W <> [] -> check_priceability s p W alg' false = Ok true.
Proof.
  intros e s p k alg alg' resolute maxn l W Ha Hc Hex Hg E Hin Hne.
  assert (HW : mes_winner p k (equal_share p k) no_completion W \/ mes_winner p k (equal_share p k) (phragmen_completion p k) W).
  { destruct E as [E|[Hs E]]; [left|right].
    - eapply answers_In; [|exact E|exact Hin]. apply (compute_mes_correct e p k alg resolute maxn None NoCompletion); auto; [eexists; reflexivity|discriminate|exact I].
    - eapply answers_In; [|exact E|exact Hin]. apply (compute_mes_correct e p k alg resolute maxn (Some "seqphragmen") PhragmenCompletion); auto; [eexists; reflexivity|discriminate]. }
  destruct Hc as (Hw & Hv & Hk & _). apply passes_priceability; auto; [|apply (mes_passes_price p Hw Hv k W); auto; lia].
  assert (HW' : exists L b, mes_ends p k (equal_share p k) L b /\ (W = isort L \/ phragmen_completion p k L b W)).
  { destruct HW as [(L & b & He & H1 & H2)|(L & b & He & H1 & H2)]; exists L, b; split; auto; destruct (proj2 He) as [El|[El _]]; auto. left. exact (H2 El). }
  destruct HW' as (L & b & He & H). destruct (mes_priced_run p Hw Hv k L b ltac:(lia) He) as [HL _].
  destruct H as [->|(L' & x & Hr & _ & ->)]; apply cand_set_isort; auto. eapply runs_fresh; eauto.
Qed.
Print Assumptions C57_equal_shares.

Example C57_example : valid_call ex_unit 3 true None /\ enough_support ex_unit 3 /\
  compute_seqphragmen ex_env ex_unit 3 "standard-fractions" true None = Ok [[0; 2; 3]] /\
  compute_equal_shares ex_env ex_unit 3 "standard-fractions" true None None = Ok [[0]] /\
  exact_solver ex_unit (ref_solver (election_size ex_unit)).
Proof.
  split; [apply ex_unit_valid|]. split.
  { apply heavy_enough; [apply ex_unit_wf|lia|]. cbn. intros v H. repeat (destruct H as [<-|H]; [cbn; lra|]). destruct H. }
  split; [vm_compute; reflexivity|]. split; [vm_compute; reflexivity|apply ref_exact].
Qed.
