(** * Candidates approved by nobody (C88): the calls *)
From Coq Require Import String.
From Coq Require Import List Arith Bool ZArith QArith Lia Lqa Permutation Sorted.
From Verif Require Import Milp RulesSolver SpecLoads SolverPhragmen SolverCompute SolverLex RulesMonroe RulesMore SolverMore.
From Verif Require Import Prelude Misc Common MiscProofs Preferences Scores ScoresProofs Rule Spec SpecRules SpecMore Compute SpecCompute SpecSeq
  SpecMonroe ComputeProofs Guarantees ComputeAll SpecAll AllProofs Mono TieBreak SpecVary Vary VaryAll Join JoinAll Pareto SingleSeat SpecExtra Extra ExtraSeq ExtraEph.
Import ListNotations.
Local Open Scope string_scope.
Open Scope nat_scope.
Local Open Scope list_scope.

Section ExtraAll.
  Variables p q : profile.
  Hypothesis HE : extra_candidates p q.
  Hypothesis Hw : wf p.
  Variable e : env.

  Lemma enough_support_q : forall k, enough_support p k -> enough_support q k.
  Proof using HE Hw.
    intros k H c Hc. rewrite (support_q p q HE). destruct (Nat.lt_ge_cases c (num_cand p)) as [Hl|Hl]; [auto|left]. rewrite (support_new p Hw c Hl). reflexivity.
  Qed.
  Ltac over := rewrite (same_voters p q HE); assumption.
  Lemma approved_candidates_q : approved_candidates q = approved_candidates p.
  Proof using HE. unfold approved_candidates. rewrite (same_voters p q HE). reflexivity. Qed.
  Lemma granular_q : granular p -> granular q.
  Proof using HE. intros (u & A & B). exists u. split; [exact A|]. intros v Hv. apply B. rewrite <- (same_voters p q HE). exact Hv. Qed.

  Lemma listed_by_extra : forall k id alg P, 1 <= k <= num_cand p -> voters p <> [] -> listed_by e p k id alg P -> (id = "sav" -> fraction_weights p) ->
    exists R, listed_by e q k id alg R /\ forall W, P W <-> R W /\ candidates_of p W.
  Proof using HE Hw.
    intros k id alg P [K1 K] Hv Hl Hsav. destruct Hl.
    - eexists. split; [apply b_av|]. apply (extra_separable p q HE Hw weight); auto.
      + intros v Hu. pose proof (weights_nonneg p Hw v Hu). lra.
      + intros c. apply (support_q p q HE).
    - eexists. split; [apply b_sav; unfold fraction_weights in *; over|]. apply (extra_separable p q HE Hw (fun v => weight v / Qnat (length (approved v)))%Q); auto.
      + intros v Hu. pose proof (weights_nonneg p Hw v Hu). unfold Qdiv. apply Qmult_le_0_compat; [lra|]. apply Qinv_le_0_compat. unfold Qnat, Qle. cbn. lia.
      + intros c. unfold sav_support, supporters. rewrite (same_voters p q HE). reflexivity.
    - exfalso. auto.
    - eexists. split; [eapply b_thiele; eauto|]. apply (extra_thiele p q HE Hw); auto. eapply denotes_nonneg; eauto.
    - eexists. split; [eapply b_thiele_bb; eauto|]. apply (extra_thiele p q HE Hw); auto. eapply denotes_nonneg; eauto.
    - eexists. split; [eapply b_thiele_mip; eauto|]. apply (extra_thiele p q HE Hw); auto. eapply denotes_nonneg; eauto.
    - eexists. split; [apply b_cc_cp; over|]. apply (extra_thiele p q HE Hw); auto. eapply (denotes_nonneg e "cc"). constructor.
    - eexists. split; [apply b_lexcc|]. apply (extra_lexcc p q HE Hw); auto.
    - eexists. split; [apply b_lexcc_gurobi, granular_q; auto|]. apply (extra_lexcc p q HE Hw); auto.
    - eexists. split; [eapply b_seq; eauto|]. intros W. apply (extra_seq p q HE Hw). eapply denotes_nonneg; eauto.
    - eexists. split; [eapply b_revseq; eauto|]. intros W. apply (extra_revseq p q HE Hw). eapply denotes_nonneg; eauto.
    - eexists. split; [apply b_seqphragmen; auto; apply enough_support_q; auto|]. intros W. apply (extra_phragmen p q HE Hw).
    - eexists. split; [apply b_minimaxphragmen; auto; [unfold weights_at_least_one in *; over|rewrite approved_candidates_q; auto]|]. intros W. apply (extra_minimaxphragmen p q HE Hw).
    - eexists. split; [apply (b_leximaxphragmen e q k bounds); auto; [unfold weights_at_least_one in *; over|rewrite approved_candidates_q; auto|apply (enough_bounds_q p q HE Hw); auto]|].
      intros W. apply (extra_leximax p q HE Hw).
    - eexists. split; [apply b_maximin; auto|]. intros W. apply (extra_maximin p q HE Hw). vm_compute. discriminate.
    - eexists. split; [apply b_monroe; auto; unfold unit_weights in *; over|]. intros W. apply (extra_monroe p q HE Hw); auto.
    - eexists. split; [apply b_minimaxav; auto|]. apply (extra_minimaxav p q HE Hw); auto.
    - eexists. split; [apply b_lexminimaxav; auto; unfold unit_weights in *; over|]. apply (extra_lexminimaxav p q HE Hw); auto.
    - eexists. split; [apply b_mes_phragmen; auto; apply enough_support_q; auto|]. intros W. apply (extra_mes_phragmen p q HE Hw).
    - eexists. split; [apply b_mes_av; auto|]. intros W. apply (extra_mes_av p q HE Hw).
    - eexists. split; [apply b_mes_short; auto|]. intros W. apply (extra_mes_short p q HE Hw).
    - eexists. split; [apply b_enestroem; auto|]. intros W. apply (extra_enestroem p q HE Hw); auto.
    - eexists. split; [apply b_consensus; auto|]. intros W. apply (extra_consensus p q HE Hw).
    - eexists. split; [apply b_trivial|]. intros W. apply (extra_trivial p q HE).
    - eexists. split; [apply b_eph; auto; pose proof (num_le p q HE); lia|]. intros W. apply (extra_eph p q HE Hw); auto.
  Qed.
End ExtraAll.

Lemma strongly_sorted_filter : forall (A : Type) (R : A -> A -> Prop) (f : A -> bool) l, StronglySorted R l -> StronglySorted R (filter f l).
Proof.
  intros A R f l H. induction H as [|a l H IH HF]; cbn; [constructor|]. destruct (f a); [|exact IH]. constructor; [exact IH|].
  rewrite Forall_forall in *. intros x Hx. apply filter_In in Hx. apply HF. tauto.
Qed.
Theorem extra_ok : forall rnd nx sv rnd' nx' sv' e p q k id alg, extra_candidates p q ->
  libraries_ok p rnd nx sv e -> libraries_ok q rnd' nx' sv' e -> valid_call p k false None ->
  listed e p k id alg \/ listed_short e id alg -> (id = "sav" -> fraction_weights p) ->
  exists l, compute rnd' nx' (with_solvers nx' sv' e) id q (Z.of_nat k) None (args alg false None) = Ok l /\
    compute rnd nx (with_solvers nx sv e) id p (Z.of_nat k) None (args alg false None) = Ok (filter (forallb (fun c => c <? num_cand p)) l).
Proof.
  intros rnd nx sv rnd' nx' sv' e p q k id alg HE Lp Lq Vp Hl Hsav. pose proof Vp as (Wp & Np & Kp & _). pose proof (wf_q p q HE Wp) as Wq.
  assert (Nq : voters q <> []) by (rewrite (same_voters p q HE); exact Np).
  assert (Kq : 1 <= k <= num_cand q) by (pose proof (num_le p q HE); lia).
  assert (Vq : valid_call q k false None). { destruct Vp as (_ & _ & _ & M). split; [exact Wq|]. split; [exact Nq|]. split; [exact Kq|exact M]. }
  destruct (listed_listed_by nx e p k id alg Wp Np Hl) as (P & HP).
  destruct (listed_by_extra p q HE Wp e k id alg P Kp Np HP Hsav) as (R & HR & E).
  destruct (listed_by_determined rnd nx sv e p k id alg P Lp HP Wp Np Kp false None Vp) as (l & El & N & O & A & B).
  destruct (listed_by_determined rnd' nx' sv' e q k id alg R Lq HR Wq Nq Kq false None Vq) as (l' & El' & N' & O' & A' & B').
  assert (F : forall W, forallb (fun c => c <? num_cand p) W = true <-> candidates_of p W).
  { intros W. rewrite forallb_forall. unfold candidates_of. split; intros H c Hc; apply Nat.ltb_lt; auto; apply Nat.ltb_lt; auto. }
  exists l'. split; [exact El'|]. refine (eq_trans El _). f_equal. apply printed_eq; auto.
  - apply NoDup_filter. auto.
  - apply strongly_sorted_filter. auto.
  - apply Forall_forall. intros W HW. destruct (listed_by_committee e p k id alg P HP W (A W HW)) as [HH _]. exact HH.
  - intros W. rewrite filter_In, F. split.
    + intros HW. apply A, E in HW. split; [apply B'|]; tauto.
    + intros [HW HO]. apply B, E. split; auto.
Qed.
