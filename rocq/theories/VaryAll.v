(** * More approvals (C66): every rule *)
From Coq Require Import String.
From Coq Require Import List Arith Bool ZArith QArith Lia Lqa Permutation Sorted.
From Verif Require Import Milp RulesSolver SpecLoads SolverMaximin SolverCompute SolverLex IsoSeq RulesMonroe RulesMore MaximinPJR.
From Verif Require Import Prelude Misc Common MiscProofs Preferences Scores ScoresProofs Rule Spec SpecRules Compute SpecCompute SpecSeq SpecAxioms
  SpecMonroe ComputeProofs Guarantees ComputeAll SpecAll AllProofs Mono TieBreak SpecVary Vary VaryRuns VaryMes VaryLoads.
Import ListNotations.
Local Open Scope string_scope.
Open Scope nat_scope.
Local Open Scope list_scope.

Section VaryAll.
  Variable rnd : random.
  Variable nx : networkx.
  Variable sv : solvers.
  Variable e : env.
  Let e' := with_solvers nx sv e.

  Lemma winner_exists : forall p k id alg P, libraries_ok p rnd nx sv e -> listed_by e p k id alg P -> valid_call p k false None -> exists W, P W.
  Proof using.
    intros p k id alg P HL Hl Hc. pose proof Hc as (Hw & Hv & Hk & _).
    assert (Hc' : valid_call p k true None) by (split; auto).
    destruct (listed_by_determined rnd nx sv e p k id alg P HL Hl Hw Hv Hk true None Hc') as (l & _ & _ & _ & H1 & H2). destruct l as [|W l]; [discriminate|].
    exists W. apply H1. left. auto.
  Qed.

  Lemma gains_unit : forall c p q, gains c p q -> unit_weights p -> unit_weights q.
  Proof using.
    intros c p q [_ HF] H. unfold unit_weights in *. induction HF as [|v u l l' Hvu HF IH]; constructor; inversion H; subst; auto. destruct Hvu as (-> & _). auto.
  Qed.
  Lemma gains_fraction : forall c p q, gains c p q -> fraction_weights p -> fraction_weights q.
  Proof using.
    intros c p q [_ HF] H. unfold fraction_weights in *. induction HF as [|v u l l' Hvu HF IH]; constructor; inversion H; subst; auto. destruct Hvu as (_ & -> & _). auto.
  Qed.
  Lemma gains_int : forall c p q, gains c p q -> Forall (fun v => weight_is_int v = true) (voters p) -> Forall (fun v => weight_is_int v = true) (voters q).
  Proof using.
    intros c p q [_ HF] H. induction HF as [|v u l l' Hvu HF IH]; constructor; inversion H; subst; auto. destruct Hvu as (_ & -> & _). auto.
  Qed.
  Lemma gains_granular : forall c p q, gains c p q -> granular p -> granular q.
  Proof using.
    intros c p q [_ HF] (u & Hu & H). exists u. split; auto. clear Hu. induction HF as [|v v' l l' Hvu HF IH]; intros a Ha; [destruct Ha|].
    destruct Ha as [<-|Ha]; [|apply IH; auto; intros b Hb; apply H; right; auto]. destruct Hvu as (-> & _). apply H. left. auto.
  Qed.
  Lemma denotes_nonneg : forall id f, denotes e id f -> forall i, 1 <= i -> (0 <= f i)%Q.
  Proof using.
    intros id f Hd i Hi. destruct (string_dec id "cc") as [->|Hne]; [|apply Qlt_le_weak, (denotes_pos e id f Hd Hne i Hi)].
    inversion Hd; subst; try discriminate. unfold cc_w. destruct (i =? 1); lra.
  Qed.

  Lemma monotone_listed : forall c p q k id alg, approval_monotone e p q k id alg -> gains c p q ->
    libraries_ok q rnd nx sv e -> valid_call p k false None -> valid_call q k false None ->
    exists P Q, listed_by e p k id alg P /\ listed_by e q k id alg Q /\ forall W, P W -> In c W -> exists V, Q V /\ In c V.
  Proof using.
    intros c p q k id alg Ha Hg HLq Hcp Hcq.
    pose proof Hcp as (Hwp & Hvp & Hk & _). pose proof Hcq as (Hwq & Hvq & Hkq & _). pose proof (gains_num p q c Hg) as Hm.
    Ltac both P Q := exists P, Q; split; [|split; [|intros W HW Hc]].
    destruct Ha.
    - both (maximises (fun W => Qsum (map (support p) W)) p k) (maximises (fun W => Qsum (map (support q) W)) q k); [apply b_av|apply b_av|].
      destruct (winner_exists _ _ _ _ _ HLq (b_av e q k) Hcq) as (V & HV). apply (av_gains p q c Hwp Hwq Hg k W V); auto.
    - pose proof (gains_fraction c p q Hg H) as Hq. both (maximises (fun W => Qsum (map (sav_support p) W)) p k) (maximises (fun W => Qsum (map (sav_support q) W)) q k); [apply b_sav; auto|apply b_sav; auto|].
      destruct (winner_exists _ _ _ _ _ HLq (b_sav e q k Hq) Hcq) as (V & HV). apply (sav_gains p q c Hwp Hwq Hg k W V); auto.
    - both (maximises (Thiele f p) p k) (maximises (Thiele f q) q k); [eapply b_thiele; eauto|eapply b_thiele; eauto|].
      destruct (winner_exists _ _ _ _ _ HLq (b_thiele e q k id f H) Hcq) as (V & HV). apply (thiele_gains p q c Hwp Hwq Hg f k W V); auto. eapply denotes_nonneg; eauto.
    - both (maximises (Thiele f p) p k) (maximises (Thiele f q) q k); [eapply b_thiele_bb; eauto|eapply b_thiele_bb; eauto|].
      destruct (winner_exists _ _ _ _ _ HLq (b_thiele e q k id f H) Hcq) as (V & HV). apply (thiele_gains p q c Hwp Hwq Hg f k W V); auto. eapply denotes_nonneg; eauto.
    - both (maximises (Thiele f p) p k) (maximises (Thiele f q) q k); [eapply b_thiele_mip; eauto|eapply b_thiele_mip; eauto|].
      destruct (winner_exists _ _ _ _ _ HLq (b_thiele e q k id f H) Hcq) as (V & HV). apply (thiele_gains p q c Hwp Hwq Hg f k W V); auto. eapply denotes_nonneg; eauto.
    - both (maximises (Thiele cc_w p) p k) (maximises (Thiele cc_w q) q k); [apply b_cc_cp; auto|apply b_cc_cp; eapply gains_int; eauto|].
      destruct (winner_exists _ _ _ _ _ HLq (b_thiele e q k "cc" cc_w (den_cc e)) Hcq) as (V & HV). apply (thiele_gains p q c Hwp Hwq Hg cc_w k W V); auto.
      intros i _. unfold cc_w. destruct (i =? 1); lra.
    - both (lexcc_winner p k) (lexcc_winner q k); [apply b_lexcc|apply b_lexcc|].
      destruct (winner_exists _ _ _ _ _ HLq (b_lexcc e q k) Hcq) as (V & HV). apply (lexcc_gains p q c Hwp Hwq Hg k W V); auto.
    - both (lexcc_winner p k) (lexcc_winner q k); [apply b_lexcc_gurobi; auto|apply b_lexcc_gurobi; eapply gains_granular; eauto|].
      destruct (winner_exists _ _ _ _ _ HLq (b_lexcc e q k) Hcq) as (V & HV). apply (lexcc_gains p q c Hwp Hwq Hg k W V); auto.
    - both (seq_thiele_winner f p k) (seq_thiele_winner f q k); [eapply b_seq; eauto|eapply b_seq; eauto|].
      apply (seq_gains p q c Hwp Hwq Hg f k W); auto; [eapply denotes_nonneg; eauto|lia].
    - both (phragmen_winner p k) (phragmen_winner q k); [apply b_seqphragmen; auto|apply b_seqphragmen; auto|].
      apply (phragmen_gains p q c Hwp Hwq Hg k W); auto. lia.
    - pose proof (weights_gain p q c Hg H) as Hone. pose proof (approved_gain p q c Hg) as Hap.
      both (minimaxphragmen_winner CMP_ACCURACY p k) (minimaxphragmen_winner CMP_ACCURACY q k); [apply b_minimaxphragmen; auto|apply b_minimaxphragmen; auto; lia|].
      apply (minimaxphragmen_gains p q c Hwp Hwq Hg CMP_ACCURACY k W); auto. unfold CMP_ACCURACY; discriminate.
    - both (maximin_winner CMP_ACCURACY p k) (maximin_winner CMP_ACCURACY q k); [apply b_maximin; auto|apply b_maximin; auto|].
      apply (maximin_gains p q c Hwp Hwq Hg CMP_ACCURACY k W); auto; [unfold CMP_ACCURACY; discriminate| |lia].
      destruct HW as (L & x & Hr & _ & ->). rewrite isort_In in Hc. destruct (maximin_run_NoDup p CMP_ACCURACY L x Hr) as [_ HF]. rewrite Forall_forall in HF. auto.
    - both (monroe_winner p k) (monroe_winner q k); [apply b_monroe; auto|apply b_monroe; auto; eapply gains_unit; eauto|].
      destruct (winner_exists _ _ _ _ _ HLq (b_monroe e q k alg (gains_unit c p q Hg H) H0) Hcq) as (V & HV). apply (monroe_gains p q c Hwp Hwq Hg k W V); auto.
    - both (minimaxav_winner p k) (minimaxav_winner q k); [apply b_minimaxav; auto|apply b_minimaxav; auto|].
      destruct (winner_exists _ _ _ _ _ HLq (b_minimaxav e q k alg H) Hcq) as (V & HV). apply (minimaxav_gains p q c Hwp Hwq Hg k W V); auto.
    - both (lexminimaxav_winner p k) (lexminimaxav_winner q k); [apply b_lexminimaxav; auto|apply b_lexminimaxav; auto; eapply gains_unit; eauto|].
      destruct (winner_exists _ _ _ _ _ HLq (b_lexminimaxav e q k alg (gains_unit c p q Hg H) H0) Hcq) as (V & HV). apply (lexminimaxav_gains p q c Hwp Hwq Hg k W V); auto.
    - both (mes_winner p k (equal_share p k) (phragmen_completion p k)) (mes_winner q k (equal_share q k) (phragmen_completion q k)); [apply b_mes_phragmen; auto|apply b_mes_phragmen; auto|].
      apply (mes_all_gains p q c Hwp Hwq Hg k (phragmen_completion p k) _ W); auto; [lia|apply phragmen_completion_fills; lia|apply phragmen_completion_gains; auto; lia].
    - both (mes_winner p k (equal_share p k) (av_completion p k)) (mes_winner q k (equal_share q k) (av_completion q k)); [apply b_mes_av; auto|apply b_mes_av; auto|].
      apply (mes_all_gains p q c Hwp Hwq Hg k (av_completion p k) _ W); auto; [lia|apply av_completion_fills; auto; lia|apply av_completion_gains; auto].
    - both (mes_winner p k (equal_share p k) no_completion) (mes_winner q k (equal_share q k) no_completion); [apply b_mes_short; auto|apply b_mes_short; auto|].
      apply (mes_all_gains p q c Hwp Hwq Hg k no_completion _ W); auto; [lia|apply no_completion_fills|apply no_completion_gains].
    - both (enestroem_winner p k) (enestroem_winner q k); [apply b_enestroem; auto|apply b_enestroem; auto|].
      apply (enestroem_gains p q c Hwp Hwq Hg k W); auto; lia.
    - both (consensus_winner p k) (consensus_winner q k); [apply b_consensus; auto|apply b_consensus; auto|].
      apply (consensus_gains p q c Hwp Hwq Hg k W); auto; lia.
    - both (is_committee p k) (is_committee q k); [apply b_trivial|apply b_trivial|]. exists W. split; auto. unfold is_committee in *. rewrite Hm. auto.
  Qed.

  Theorem approval_monotone_ok : forall c p q k id alg, approval_monotone e p q k id alg -> gains c p q ->
    libraries_ok p rnd nx sv e -> libraries_ok q rnd nx sv e -> valid_call p k false None -> valid_call q k false None ->
    exists l l', compute rnd nx e' id p (Z.of_nat k) None (args alg false None) = Ok l /\
      compute rnd nx e' id q (Z.of_nat k) None (args alg false None) = Ok l' /\
      ((exists W, In W l /\ In c W) -> exists V, In V l' /\ In c V).
  Proof using.
    intros c p q k id alg Ha Hg HLp HLq Hcp Hcq. destruct (monotone_listed c p q k id alg Ha Hg HLq Hcp Hcq) as (P & Q & HP & HQ & H).
    destruct (irresolute_list rnd nx sv e p k id alg P HLp HP Hcp) as (l & El & Hl). destruct (irresolute_list rnd nx sv e q k id alg Q HLq HQ Hcq) as (l' & El' & Hl').
    exists l, l'. split; [exact El|]. split; [exact El'|]. intros (W & HW & Hc). apply Hl in HW. destruct (H W HW Hc) as (V & HV & HcV). exists V. split; auto. apply Hl'. auto.
  Qed.
End VaryAll.
