(** * Candidates approved by nobody (C88): rules that compare all committees *)
From Coq Require Import String.
From Coq Require Import List Arith Bool ZArith QArith Lia Lqa Permutation Sorted.
From Verif Require Import Milp RulesSolver SpecLoads SolverPhragmen SolverCompute SolverLex RulesMonroe RulesMore.
From Verif Require Import Prelude Misc Common MiscProofs Preferences Scores ScoresProofs Rule Spec SpecRules SpecMore Compute SpecCompute SpecSeq
  SpecMonroe ComputeProofs Guarantees ComputeAll SpecAll AllProofs Mono TieBreak SpecVary Vary VaryAll Join Pareto ThieleProofs RevseqProofs SpecExtra.
Import ListNotations.
Local Open Scope string_scope.
Open Scope nat_scope.
Local Open Scope list_scope.

Lemma firstn_incl_In : forall (A : Type) n (l : list A) x, In x (firstn n l) -> In x l.
Proof. intros A n l x H. rewrite <- (firstn_skipn n l). apply in_or_app. auto. Qed.
Lemma filter_length_le : forall (A : Type) (b : A -> bool) (l : list A), length (filter b l) <= length l.
Proof. intros A b l. induction l as [|x l IH]; cbn; [lia|]. destruct (b x); cbn; lia. Qed.

Section Extra.
  Variables p q : profile.
  Hypothesis HE : extra_candidates p q.
  Hypothesis Hw : wf p.

  Lemma num_le : num_cand p <= num_cand q. Proof using HE. apply HE. Qed.
  Lemma same_voters : voters q = voters p. Proof using HE. apply HE. Qed.
  Lemma wf_q : wf q.
  Proof using HE Hw.
    destruct Hw as [H0 HF]. destruct HE as [Hl Hv]. split; [lia|]. rewrite Hv. eapply Forall_impl; [|exact HF].
    intros v (A & B & C). split; [exact A|]. split; [|exact C]. rewrite Forall_forall in *. intros c Hc. specialize (B c Hc). lia.
  Qed.
  Lemma ballots_old : forall v c, In v (voters p) -> In c (approved v) -> c < num_cand p.
  Proof using Hw. intros v c Hv Hc. destruct Hw as [_ HF]. rewrite Forall_forall in HF. destruct (HF v Hv) as (_ & B & _). rewrite Forall_forall in B. auto. Qed.
  Lemma approves_new : forall v c, In v (voters p) -> num_cand p <= c -> approves v c = false.
  Proof using Hw.
    intros v c Hv Hc. unfold approves. destruct (mem c (approved v)) eqn:E; [|reflexivity]. apply mem_In in E. apply (ballots_old v c Hv) in E. lia.
  Qed.
  Lemma old_committee : forall k W, is_committee p k W <-> is_committee q k W /\ candidates_of p W.
  Proof using HE.
    intros k W. unfold is_committee, candidates_of. rewrite !Forall_forall. pose proof num_le. split.
    - intros (A & B & C). split; [|exact C]. split; [exact A|]. split; [exact B|]. intros c Hc. specialize (C c Hc). lia.
    - intros ((A & B & _) & C). auto.
  Qed.
  Lemma committee_up : forall k W, is_committee p k W -> is_committee q k W.
  Proof using HE. intros k W H. apply old_committee in H. tauto. Qed.

  (** new members can be replaced by old ones *)
  Lemma replace_new : forall k V, k <= num_cand p -> is_committee q k V -> exists U, is_committee p k U /\ forall c, In c V -> c < num_cand p -> In c U.
  Proof using.
    intros k V Hk (HA & HL & _). pose proof (ascending_NoDup V HA) as ND.
    set (O := filter (fun c => c <? num_cand p) V). set (R := filter (fun c => negb (mem c O)) (seq 0 (num_cand p))).
    assert (NO : NoDup O) by (apply NoDup_filter; auto). assert (NR : NoDup R) by (apply NoDup_filter, seq_NoDup).
    assert (OI : forall c, In c O <-> In c V /\ c < num_cand p). { intros c. unfold O. rewrite filter_In, Nat.ltb_lt. tauto. }
    assert (RI : forall c, In c R <-> c < num_cand p /\ ~ In c O).
    { intros c. unfold R. rewrite filter_In, in_seq. rewrite negb_true_iff. rewrite <- not_true_iff_false, mem_In. intuition lia. }
    assert (NOR : NoDup (O ++ R)). { apply NoDup_app_intro; auto. intros c H1 H2. apply RI in H2. tauto. }
    assert (LO : length O <= k) by (unfold O; rewrite <- HL; apply filter_length_le).
    assert (LT : num_cand p <= length O + length R).
    { rewrite <- app_length. rewrite <- (seq_length (num_cand p) 0). apply NoDup_incl_length; [apply seq_NoDup|]. intros c Hc. apply in_seq in Hc. apply in_or_app.
      destruct (in_dec Nat.eq_dec c O); [left; auto|right]. apply RI. split; [lia|auto]. }
    set (T := O ++ firstn (k - length O) R).
    assert (NT : NoDup T). { unfold T. apply NoDup_app_intro; auto; [apply NoDup_firstn; auto|]. intros c H1 H2. apply firstn_incl_In in H2. apply RI in H2. tauto. }
    assert (LTk : length T = k). { unfold T. rewrite app_length, firstn_length. lia. }
    exists (isort T). split.
    - split; [apply isort_ascending; auto|]. split; [rewrite isort_length; auto|]. apply Forall_forall. intros c Hc. rewrite isort_In in Hc. unfold T in Hc. apply in_app_or in Hc.
      destruct Hc as [Hc|Hc]; [apply OI in Hc; tauto|]. apply firstn_incl_In in Hc. apply RI in Hc. tauto.
    - intros c Hc Hl. rewrite isort_In. unfold T. apply in_or_app. left. apply OI. auto.
  Qed.
  Lemma replace_util : forall V U, (forall c, In c V -> c < num_cand p -> In c U) -> forall v, In v (voters p) -> util v V <= util v U.
  Proof using Hw.
    intros V U H v Hv. unfold util. apply NoDup_incl_length.
    - apply NoDup_filter. destruct Hw as [_ HF]. rewrite Forall_forall in HF. apply HF. auto.
    - intros c Hc. apply inter_In in Hc. apply inter_In. destruct Hc as [H1 H2]. split; [exact H1|]. apply H; auto. apply (ballots_old v c Hv). auto.
  Qed.

  Lemma extra_maximises : forall k (s t : list nat -> Q), k <= num_cand p -> (forall W, is_committee q k W -> (t W == s W)%Q) ->
    (forall V U, is_committee q k V -> is_committee p k U -> (forall v, In v (voters p) -> util v V <= util v U) -> (s V <= s U)%Q) ->
    forall W, maximises s p k W <-> maximises t q k W /\ candidates_of p W.
  Proof using HE Hw.
    intros k s t Hk E M W. unfold maximises. split.
    - intros [HC H]. split; [|apply old_committee in HC; tauto]. pose proof (committee_up k W HC) as HQ. split; [exact HQ|]. intros V HV.
      rewrite (E V HV), (E W HQ). destruct (replace_new k V Hk HV) as (U & HU & I). pose proof (M V U HV HU (replace_util V U I)). specialize (H U HU). lra.
    - intros [[HC H] HO]. split; [apply old_committee; auto|]. intros V HV. pose proof (H V (committee_up k V HV)) as HH. rewrite (E V (committee_up k V HV)), (E W HC) in HH. exact HH.
  Qed.
  Lemma weights_nonneg : forall v, In v (voters p) -> (0 < weight v)%Q.
  Proof using Hw. intros v Hv. destruct Hw as [_ HF]. rewrite Forall_forall in HF. apply HF. auto. Qed.
  Lemma extra_thiele : forall f k, k <= num_cand p -> (forall i, 1 <= i -> (0 <= f i)%Q) -> forall W, maximises (Thiele f p) p k W <-> maximises (Thiele f q) q k W /\ candidates_of p W.
  Proof using HE Hw.
    intros f k Hk Hf. apply extra_maximises; auto.
    - intros W _. unfold Thiele. rewrite same_voters. reflexivity.
    - intros V U _ _ H. unfold Thiele. apply Qsum_map_le. intros v Hv. pose proof (weights_nonneg v Hv). pose proof (prefix_sum_le f _ _ Hf (H v Hv)). nra.
  Qed.
  Lemma extra_separable : forall (g : voter -> Q) (s t : nat -> Q) k, k <= num_cand p -> (forall v, In v (voters p) -> (0 <= g v)%Q) ->
    (forall c, s c = Qsum (map g (supporters p c))) -> (forall c, t c = s c) ->
    forall W, maximises (fun W => Qsum (map s W)) p k W <-> maximises (fun W => Qsum (map t W)) q k W /\ candidates_of p W.
  Proof using HE Hw.
    intros g s t k Hk Hg Es Et. apply extra_maximises; auto.
    - intros W _. apply Qsum_map_ext. intros c _. rewrite Et. reflexivity.
    - intros V U (AV & _ & _) (AU & _ & _) H.
      assert (S : forall X, NoDup X -> (Qsum (map s X) == Qsum (map (fun v => g v * Qnat (util v X)) (voters p)))%Q).
      { intros X NX. rewrite <- (sep_swap g p X Hw NX). apply Qsum_map_ext. intros c _. rewrite Es. reflexivity. }
      rewrite !S by (apply ascending_NoDup; auto). apply Qsum_map_le. intros v Hv. specialize (Hg v Hv). specialize (H v Hv).
      assert (Q1 : (Qnat (util v V) <= Qnat (util v U))%Q) by (unfold Qnat; rewrite <- Zle_Qle; lia). nra.
  Qed.

  Lemma extra_lexcc : forall k, k <= num_cand p -> forall W, lexcc_winner p k W <-> lexcc_winner q k W /\ candidates_of p W.
  Proof using HE Hw.
    intros k Hk W. unfold lexcc_winner. assert (E : forall X i, at_least_weight q X i = at_least_weight p X i) by (intros; unfold at_least_weight; rewrite same_voters; reflexivity).
    split.
    - intros [HC H]. split; [|apply old_committee in HC; tauto]. split; [apply committee_up; auto|]. intros V HV.
      destruct (replace_new k V Hk HV) as (U & HU & I). pose proof (replace_util V U I) as RU.
      eapply lex_ge_ext; [| |apply lex_ge_trans with (at_least_weight p U); [apply H; auto|apply lex_ge_pointwise with (y := at_least_weight p V)]].
      + intros i. rewrite E. reflexivity.
      + intros i. rewrite E. reflexivity.
      + intros i Hi. unfold at_least_weight. rewrite !wsum_filter. apply Qsum_map_le. intros v Hv. pose proof (weights_nonneg v Hv). specialize (RU v Hv).
        destruct (Nat.leb_spec i (util v V)), (Nat.leb_spec i (util v U)); try lra; lia.
    - intros [[HC H] HO]. split; [apply old_committee; auto|]. intros V HV. eapply lex_ge_ext; [| |apply (H V), committee_up; exact HV]; intros i; rewrite E; reflexivity.
  Qed.
  Lemma replace_distance : forall k V U v, In v (voters p) -> is_committee q k V -> is_committee p k U -> (forall v, In v (voters p) -> util v V <= util v U) ->
    distance (approved v) U <= distance (approved v) V.
  Proof using HE Hw.
    intros k V U v Hv HV HU H. pose proof (distance_util p Hw k v U Hv HU). assert (Hq : In v (voters q)) by (rewrite same_voters; auto).
    pose proof (distance_util q wf_q k v V Hq HV). specialize (H v Hv). lia.
  Qed.
  Lemma max_distance_q : forall W d, max_distance q W d <-> max_distance p W d.
  Proof using HE. intros W d. unfold max_distance. rewrite same_voters. tauto. Qed.
  Lemma extra_minimaxav : forall k, k <= num_cand p -> forall W, minimaxav_winner p k W <-> minimaxav_winner q k W /\ candidates_of p W.
  Proof using HE Hw.
    intros k Hk W. unfold minimaxav_winner. split.
    - intros [HC H]. split; [|apply old_committee in HC; tauto]. split; [apply committee_up; auto|]. intros V d d' HV Hd Hd'. apply max_distance_q in Hd, Hd'.
      destruct (replace_new k V Hk HV) as (U & HU & I). destruct (max_distance_exists p U) as (x & Hx). pose proof (H U d x HU Hd Hx) as L1.
      enough (x <= d') by lia. destruct Hx as (_ & X2 & X3). destruct Hd' as (D1 & _).
      assert (HD : voters p = [] \/ voters p <> []) by (destruct (voters p); [left; reflexivity|right; discriminate]). destruct HD as [HD|HD]; [rewrite X3 by auto; lia|].
      destruct (X2 HD) as (v & Hv & <-). specialize (D1 v Hv). pose proof (replace_distance k V U v Hv HV HU (replace_util V U I)). lia.
    - intros [[HC H] HO]. split; [apply old_committee; auto|]. intros V d d' HV Hd Hd'. apply (H V d d'); [apply committee_up; auto|apply max_distance_q; auto|apply max_distance_q; auto].
  Qed.
  Lemma lexmin_lexm : forall o W V, lexmin_le o W V <-> lexm (voters_at_least o W) (voters_at_least o V).
  Proof using. intros. unfold lexmin_le, lexm. tauto. Qed.
  Lemma extra_lexminimaxav : forall k, k <= num_cand p -> forall W, lexminimaxav_winner p k W <-> lexminimaxav_winner q k W /\ candidates_of p W.
  Proof using HE Hw.
    intros k Hk W. unfold lexminimaxav_winner. assert (E : forall X d, voters_at_least q X d = voters_at_least p X d) by (intros; unfold voters_at_least; rewrite same_voters; reflexivity).
    assert (EL : forall X Y, lexmin_le q X Y <-> lexmin_le p X Y).
    { intros X Y. unfold lexmin_le. split; (intros [A|(d & A & B)]; [left; intros d; specialize (A d); rewrite !E in *; exact A|right; exists d; split; [rewrite !E in *; exact A|intros x Hx; specialize (B x Hx); rewrite !E in *; exact B]]). }
    split.
    - intros [HC H]. split; [|apply old_committee in HC; tauto]. split; [apply committee_up; auto|]. intros V HV. apply EL. apply (proj2 (lexmin_lexm p W V)).
      destruct (replace_new k V Hk HV) as (U & HU & I). apply lexm_trans with (voters_at_least p U); [exact (proj1 (lexmin_lexm p W U) (H U HU))|].
      destruct (distances_bounded p U) as (n1 & N1), (distances_bounded p V) as (n2 & N2). apply (lexm_pointwise (Nat.max n1 n2)).
      + intros d. unfold voters_at_least. apply (Forall2_count_le eq); [clear; induction (voters p); constructor; auto|]. intros v u Hv _ <- Hd. apply Nat.leb_le in Hd. apply Nat.leb_le.
        pose proof (replace_distance k V U v Hv HV HU (replace_util V U I)). lia.
      + intros d Hd. rewrite N1, N2 by lia. reflexivity.
    - intros [[HC H] HO]. split; [apply old_committee; auto|]. intros V HV. apply EL. apply H. apply committee_up. auto.
  Qed.
  Lemma extra_trivial : forall k W, is_committee p k W <-> is_committee q k W /\ candidates_of p W.
  Proof using HE. exact old_committee. Qed.

  (** loads: nobody pays for a new candidate *)
  Lemma loads_q : forall W l, load_distribution q W l <-> load_distribution p W l.
  Proof using HE. intros. unfold load_distribution, with_positions. rewrite same_voters. tauto. Qed.
  Lemma loads_old : forall W l, load_distribution p W l -> candidates_of p W.
  Proof using Hw.
    intros W l [_ H] c Hc. destruct (Nat.lt_ge_cases c (num_cand p)) as [L|L]; [exact L|exfalso]. specialize (H c Hc).
    assert (E : filter (fun iv : nat * voter => approves (snd iv) c) (with_positions p) = []).
    { clear H. unfold with_positions. assert (G : forall l, (forall iv, In iv l -> In (snd iv) (voters p)) -> filter (fun iv : nat * voter => approves (snd iv) c) l = []).
      { intros l0. induction l0 as [|iv l0 IH]; intros HI; cbn; [reflexivity|]. rewrite (approves_new (snd iv) c) by (auto; apply HI; left; reflexivity). apply IH. intros. apply HI. right. auto. }
      apply G. intros [i v] Hi. apply in_combine_r in Hi. exact Hi. }
    rewrite E in H. cbn in H. discriminate H.
  Qed.
  Lemma committee_loads : forall k W l, load_distribution p W l -> is_committee q k W <-> is_committee p k W.
  Proof using HE Hw. intros k W l H. pose proof (loads_old W l H). rewrite (old_committee k W). tauto. Qed.
  Lemma max_load_q : forall W b, max_load q W b <-> max_load p W b.
  Proof using HE. intros. unfold max_load. unfold with_positions. rewrite same_voters. split; intros (l & A & B); exists l; (split; [apply loads_q; exact A|exact B]). Qed.
  Lemma extra_minimaxphragmen : forall eps k W, minimaxphragmen_winner eps p k W <-> minimaxphragmen_winner eps q k W /\ candidates_of p W.
  Proof using HE Hw.
    intros eps k W. unfold minimaxphragmen_winner. split.
    - intros (HC & b & Hb & H). split; [|apply old_committee in HC; tauto]. split; [apply committee_up; auto|]. exists b. split; [apply max_load_q; auto|].
      intros V b' HV Hb'. apply max_load_q in Hb'. apply (H V); auto. destruct Hb' as (l & Hl & _). apply (committee_loads k V l Hl). auto.
    - intros [(HC & b & Hb & H) HO]. split; [apply old_committee; auto|]. exists b. split; [apply max_load_q; auto|]. intros V b' HV Hb'. apply (H V); [apply committee_up; auto|apply max_load_q; auto].
  Qed.
  Lemma sorted_load_q : forall W bounds eps b, sorted_load q W bounds eps b <-> sorted_load p W bounds eps b.
  Proof using HE. intros. unfold sorted_load. rewrite same_voters. split; intros (l & o & A & B & C); exists l, o; (split; [apply loads_q; exact A|split; [exact B|exact C]]). Qed.
  Lemma sorted_committee : forall k W bounds eps b, sorted_load p W bounds eps b -> is_committee q k W <-> is_committee p k W.
  Proof using HE Hw. intros k W bounds eps b (l & o & A & _). apply (committee_loads k W l A). Qed.
  Lemma next_bound_q : forall k bounds eps b, next_bound q k bounds eps b <-> next_bound p k bounds eps b.
  Proof using HE Hw.
    intros k bounds eps b. unfold next_bound. split; intros [(W & HW & Hs) H]; split.
    - apply sorted_load_q in Hs. exists W. split; auto. apply (sorted_committee k W _ _ _ Hs). auto.
    - intros V b' HV Hb'. apply (H V); [apply committee_up; auto|apply sorted_load_q; auto].
    - exists W. split; [apply committee_up; auto|apply sorted_load_q; auto].
    - intros V b' HV Hb'. apply sorted_load_q in Hb'. apply (H V); auto. apply (sorted_committee k V _ _ _ Hb'). auto.
  Qed.
  Lemma leximax_bounds_q : forall k eps bounds, leximax_bounds p k eps bounds -> leximax_bounds q k eps bounds.
  Proof using HE Hw. intros k eps bounds H. induction H; constructor; auto. apply next_bound_q. auto. Qed.
  Lemma enough_bounds_q : forall k bounds, enough_bounds p k bounds -> enough_bounds q k bounds.
  Proof using HE Hw.
    intros k bounds (A & B & C). split; [apply leximax_bounds_q; auto|]. split; [exact B|]. rewrite same_voters. destruct C as [C|(C & b & Hb & D)]; [left; exact C|right].
    split; [exact C|]. exists b. split; [apply next_bound_q; auto|exact D].
  Qed.
  Lemma extra_leximax : forall k bounds W, leximax_winner p k bounds W <-> leximax_winner q k bounds W /\ candidates_of p W.
  Proof using HE Hw.
    intros k bounds W. unfold leximax_winner. split.
    - intros (HC & b & Hb & H). split; [|apply old_committee in HC; tauto]. split; [apply committee_up; auto|]. exists b. split; [apply sorted_load_q; auto|].
      intros V b' HV Hb'. apply sorted_load_q in Hb'. apply (H V); auto. apply (sorted_committee k V _ _ _ Hb'). auto.
    - intros [(HC & b & Hb & H) HO]. split; [apply old_committee; auto|]. exists b. split; [apply sorted_load_q; auto|]. intros V b' HV Hb'. apply (H V); [apply committee_up; auto|apply sorted_load_q; auto].
  Qed.
End Extra.
