(** * Candidates approved by nobody (C88): [resolute=True] *)
From Coq Require Import String.
From Coq Require Import List Arith Bool ZArith QArith Lia Lqa Permutation Sorted.
From Verif Require Import Milp RulesSolver SpecLoads SolverPhragmen SolverCompute SolverLex RulesMonroe RulesMore SolverMore.
From Verif Require Import Prelude Misc Common MiscProofs Preferences Scores ScoresProofs Rule Spec SpecRules SpecMore Compute SpecCompute SpecSeq
  SpecMonroe ComputeProofs Guarantees ComputeAll SpecAll AllProofs Mono SpecMono TieBreak SpecVary Vary VaryAll Join JoinAll Pareto SingleSeat SpecExtra Extra ExtraSeq ExtraEph ExtraAll GreedyMonroe.
Import ListNotations.
Local Open Scope string_scope.
Open Scope nat_scope.
Local Open Scope list_scope.

Lemma number_first_asym : forall a b, number_first a b -> ~ number_first b a.
Proof. intros a b H. induction H as [x y l l' H|x l l' H IH]; intros K; inversion K; subst; try lia. auto. Qed.
Lemma replaced_first : forall m W U, ascending W -> ascending U -> length U = length W -> (forall c, In c W -> c < m -> In c U) -> (forall c, In c U -> c < m) ->
  U = W \/ number_first U W.
Proof.
  intros m W. induction W as [|w W IH]; intros [|u U] HW HU HL H1 H2; try discriminate; [left; reflexivity|].
  apply StronglySorted_inv in HW. apply StronglySorted_inv in HU. destruct HW as [HW FW], HU as [HU FU]. rewrite Forall_forall in FW, FU.
  assert (u < m) by (apply H2; left; reflexivity). destruct (Nat.lt_ge_cases w m) as [Hm|Hm]; [|right; constructor; lia].
  destruct (H1 w (or_introl eq_refl) Hm) as [->|Hin].
  - destruct (IH U) as [->|G]; auto; [|intros c Hc; apply H2; right; auto|right; constructor 2; auto].
    intros c Hc Hcm. destruct (H1 c (or_intror Hc) Hcm) as [<-|Hc']; [specialize (FW w Hc); lia|exact Hc'].
  - right. constructor. apply FU. exact Hin.
Qed.

Section First.
  Variables p q : profile.
  Hypothesis HE : extra_candidates p q.
  Hypothesis Hw : wf p.
  Variable e : env.

  Lemma separable_more : forall (g : voter -> Q) (t : nat -> Q) k W U, (forall v, In v (voters p) -> (0 <= g v)%Q) -> (forall c, t c = Qsum (map g (supporters p c))) ->
    is_committee q k W -> is_committee p k U -> (forall c, In c W -> c < num_cand p -> In c U) -> (Qsum (map t W) <= Qsum (map t U))%Q.
  Proof using Hw.
    intros g t k W U Hg Es (AV & _ & _) (AU & _ & _) H.
    assert (S : forall X, NoDup X -> (Qsum (map t X) == Qsum (map (fun v => g v * Qnat (util v X)) (voters p)))%Q).
    { intros X NX. rewrite <- (sep_swap g p X Hw NX). apply Qsum_map_ext. intros c _. rewrite Es. reflexivity. }
    rewrite !S by (apply ascending_NoDup; auto). apply Qsum_map_le. intros v Hv. specialize (Hg v Hv). pose proof (replace_util p Hw W U H v Hv) as L.
    assert (Q1 : (Qnat (util v W) <= Qnat (util v U))%Q) by (unfold Qnat; rewrite <- Zle_Qle; lia). nra.
  Qed.
  Lemma maximises_up : forall (t : list nat -> Q) k W, k <= num_cand p -> maximises t q k W ->
    (forall U, is_committee q k W -> is_committee p k U -> (forall c, In c W -> c < num_cand p -> In c U) -> (t W <= t U)%Q) ->
    exists U, maximises t q k U /\ is_committee p k U /\ forall c, In c W -> c < num_cand p -> In c U.
  Proof using HE.
    intros t k W Hk [HC H] HM. destruct (replace_new p q k W Hk HC) as (U & HU & I). exists U. split; [|split; auto].
    split; [apply (committee_up p q HE); auto|]. intros V HV. specialize (H V HV). specialize (HM U HC HU I). lra.
  Qed.
  Lemma keeps_first_replace : forall k id alg, 1 <= k <= num_cand p -> keeps_first e q id alg -> (id = "sav" -> fraction_weights p) ->
    exists R, listed_by e q k id alg R /\ (forall W, R W -> is_committee q k W) /\ forall W, R W -> exists U, R U /\ is_committee p k U /\ forall c, In c W -> c < num_cand p -> In c U.
  Proof using HE Hw.
    intros k id alg [_ Hk] Hid Hsav. destruct Hid as [|Hf|id f Hd|].
    - eexists. split; [apply b_av|]. split; [intros W [HW _]; exact HW|]. intros W HW. apply maximises_up; auto. intros U H1 H2 H3. apply (separable_more weight (support q) k); auto.
      + intros v Hv. pose proof (weights_nonneg p Hw v Hv). lra.
      + intros c. apply (support_q p q HE).
    - eexists. split; [apply b_sav; unfold fraction_weights in *; rewrite (same_voters p q HE); auto|]. split; [intros W [HW _]; exact HW|]. intros W HW. apply maximises_up; auto. intros U H1 H2 H3.
      apply (separable_more (fun v => weight v / Qnat (length (approved v)))%Q (sav_support q) k); auto.
      + intros v Hu. pose proof (weights_nonneg p Hw v Hu). unfold Qdiv. apply Qmult_le_0_compat; [lra|]. apply Qinv_le_0_compat. unfold Qnat, Qle. cbn. lia.
      + intros c. unfold sav_support, supporters. rewrite (same_voters p q HE). reflexivity.
    - eexists. split; [eapply b_thiele; eauto|]. split; [intros W [HW _]; exact HW|]. intros W HW. apply maximises_up; auto. intros U H1 H2 H3. rewrite !(thiele_q p q HE). apply (thiele_more p Hw); auto. eapply denotes_nonneg; eauto.
    - eexists. split; [apply b_trivial|]. split; [intros W HW; exact HW|]. intros W HW. destruct (replace_new p q k W Hk HW) as (U & HU & I). exists U. split; [apply (committee_up p q HE); auto|auto].
  Qed.
  Lemma keeps_first_q : forall id alg, keeps_first e p id alg -> (id = "sav" -> fraction_weights p) -> keeps_first e q id alg.
  Proof using HE. intros id alg H Hs. destruct H; [constructor|constructor; left; unfold fraction_weights in *; rewrite (same_voters p q HE); auto|econstructor; eauto|constructor]. Qed.
  Lemma keeps_first_listed : forall k id alg, keeps_first e p id alg -> listed e p k id alg.
  Proof using. intros k id alg H. destruct H; [apply l_av|apply l_sav; auto|eapply l_thiele; eauto|apply l_trivial]. Qed.
End First.

Theorem extra_resolute : forall rnd nx sv rnd' nx' sv' e p q k id alg, extra_candidates p q ->
  libraries_ok p rnd nx sv e -> libraries_ok q rnd' nx' sv' e -> valid_call p k true None ->
  keeps_first e p id alg -> (id = "sav" -> fraction_weights p) ->
  compute rnd' nx' (with_solvers nx' sv' e) id q (Z.of_nat k) None (args alg true None) =
  compute rnd nx (with_solvers nx sv e) id p (Z.of_nat k) None (args alg true None).
Proof.
  intros rnd nx sv rnd' nx' sv' e p q k id alg HE Lp Lq Vp Hid Hsav. pose proof Vp as (Wp & Np & Kp & M). pose proof (wf_q p q HE Wp) as Wq.
  assert (Nq : voters q <> []) by (rewrite (same_voters p q HE); exact Np).
  assert (Kq : 1 <= k <= num_cand q) by (pose proof (num_le p q HE); lia).
  assert (Vq : valid_call q k true None) by (split; [exact Wq|]; split; [exact Nq|]; split; [exact Kq|exact M]).
  pose proof (valid_irresolute _ _ _ _ Vp) as Vp'. pose proof (valid_irresolute _ _ _ _ Vq) as Vq'.
  pose proof (keeps_first_q p q HE e id alg Hid Hsav) as Hid'.
  destruct (keeps_first_ok rnd nx sv e p k id alg Lp Hid Vp) as (A & l & EA & El & IA & HA).
  destruct (keeps_first_ok rnd' nx' sv' e q k id alg Lq Hid' Vq) as (B & l' & EB & El' & IB & HB).
  destruct (extra_ok rnd nx sv rnd' nx' sv' e p q k id alg HE Lp Lq Vp' (or_introl (keeps_first_listed p e k id alg Hid)) Hsav) as (l2 & E2 & E3).
  rewrite El' in E2. injection E2 as <-. rewrite El in E3. injection E3 as E3.
  assert (F : forall W, forallb (fun c => c <? num_cand p) W = true <-> candidates_of p W).
  { intros W. rewrite forallb_forall. unfold candidates_of. split; intros H c Hc; apply Nat.ltb_lt; auto; apply Nat.ltb_lt; auto. }
  destruct (keeps_first_replace p q HE Wp e k id alg Kp Hid' Hsav) as (R & HR & RC & RU).
  destruct (listed_by_determined rnd' nx' sv' e q k id alg R Lq HR Wq Nq Kq false None Vq') as (l3 & E4 & _ & _ & A' & B').
  pose proof (eq_trans (eq_sym El') E4) as E5. injection E5 as <-.
  destruct (RU B (A' B IB)) as (U & HU & CU & IU). specialize (B' U HU).
  pose proof (RC B (A' B IB)) as CB.
  destruct CU as (U1 & U2 & U3). destruct CB as (C1 & C2 & C3). rewrite Forall_forall in U3.
  assert (EU : U = B).
  { destruct (replaced_first (num_cand p) B U C1 U1) as [E|E]; auto; [congruence|]. destruct (HB U B') as [G|G]; [exact G|]. exfalso. apply (number_first_asym _ _ E G). }
  subst U. assert (IBl : In B l). { rewrite E3. apply filter_In. split; [exact IB|]. apply F. exact U3. }
  assert (IAl : In A l'). { rewrite E3 in IA. apply filter_In in IA. tauto. }
  refine (eq_trans EB (eq_trans _ (eq_sym EA))). f_equal. f_equal.
  destruct (HA B IBl) as [G|G]; [exact G|]. destruct (HB A IAl) as [G'|G']; [symmetry; exact G'|]. exfalso. apply (number_first_asym _ _ G G').
Qed.

(** Greedy Monroe *)
Theorem extra_greedy_monroe : forall nx nx' e p q k, extra_candidates p q -> networkx_correct nx -> networkx_correct nx' ->
  valid_call p k true None -> unit_weights p ->
  compute_greedy_monroe nx' e q (Z.of_nat k) "standard" true None = compute_greedy_monroe nx e p (Z.of_nat k) "standard" true None.
Proof.
  intros nx nx' e p q k HE Hx Hx' Vp Up. pose proof Vp as (Wp & Np & Kp & M). pose proof (wf_q p q HE Wp) as Wq. pose proof (same_voters p q HE) as SV. pose proof (num_le p q HE) as NL.
  assert (Vq : valid_call q k true None) by (split; [exact Wq|]; split; [rewrite SV; exact Np|]; split; [lia|exact M]).
  assert (Uq : unit_weights q) by (unfold unit_weights; rewrite SV; exact Up).
  destruct (compute_greedy_monroe_correct nx e p k Hx Vp Up) as (W & E1 & H1 & _).
  destruct (compute_greedy_monroe_correct nx' e q k Hx' Vq Uq) as (W' & E2 & H2 & _).
  rewrite E1, E2. f_equal. f_equal. apply (greedy_winner_unique q k); [exact H2|]. destruct H1 as (L & rem & HR & HL & ->). exists L, rem. split; [|auto].
  assert (FQ : forall r c, fans_among q r c = fans_among p r c) by (intros; unfold fans_among; rewrite SV; reflexivity).
  assert (FN : forall r c, num_cand p <= c -> fans_among p r c = []).
  { intros r c Hc. unfold fans_among. induction r as [|i r IH]; [reflexivity|]. cbn [filter]. destruct (nth_error (voters p) i) as [v|] eqn:E; [|exact IH].
    rewrite (approves_new p Wp v c); [exact IH|eapply nth_error_In; eauto|exact Hc]. }
  clear HL E1. induction HR as [|L rem c HR IH Hc Nc Hb]; [rewrite <- SV; constructor|]. rewrite <- SV, <- FQ. constructor; [exact IH|lia|exact Nc|].
  intros d Hd Nd. rewrite !FQ. destruct (Nat.lt_ge_cases d (num_cand p)) as [Hl|Hl]; [auto|]. rewrite (FN rem d Hl). cbn. lia.
Qed.
