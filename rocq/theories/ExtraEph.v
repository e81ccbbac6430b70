(** * Candidates approved by nobody (C88): E Pluribus Hugo *)
From Coq Require Import String.
From Coq Require Import List Arith Bool ZArith QArith Lia Lqa Permutation Sorted.
From Verif Require Import RulesMore.
From Verif Require Import Prelude Misc Common MiscProofs Preferences Scores ScoresProofs Rule Spec SpecRules SpecMore Compute SpecCompute SpecSeq
  ComputeProofs Pareto EphProofs SpecExtra Extra ExtraSeq.
Import ListNotations.
Local Open Scope string_scope.
Open Scope nat_scope.
Local Open Scope list_scope.

Section Round.
  (** one profile [r] with some candidate [z] that nobody supports *)
  Variable r : profile.
  Hypothesis Hw : wf r.
  Variable k : nat.
  Variable S : list nat.
  Hypothesis HS : ascending S.
  Hypothesis SI : forall c, In c S <-> c < num_cand r /\ (0 < support r c)%Q.

  Lemma no_supporters : forall c, ~ (0 < support r c)%Q -> supporters r c = [].
  Proof using Hw.
    intros c H. destruct (supporters r c) as [|v l] eqn:E; [reflexivity|]. exfalso. apply H. unfold support, wsum. rewrite E. unfold Qsum. cbn [map fold_right].
    assert (P : forall u, In u (v :: l) -> (0 < weight u)%Q). { intros u Hu. rewrite <- E in Hu. apply filter_In in Hu. apply (weights_nonneg r Hw). tauto. }
    pose proof (P v (or_introl eq_refl)). assert (0 <= Qsum (map weight l))%Q by (apply Qsum_map_nonneg; intros u Hu; specialize (P u (or_intror Hu)); lra).
    unfold Qsum in *. lra.
  Qed.
  Lemma points_nonneg : forall R c, (0 <= points r R c)%Q.
  Proof using Hw.
    intros R c. unfold points. apply Qsum_map_nonneg. intros v Hv. apply filter_In in Hv. pose proof (weights_nonneg r Hw v (proj1 Hv)).
    unfold Qdiv. apply Qmult_le_0_compat; [lra|]. apply Qinv_le_0_compat. unfold Qnat, Qle. cbn. lia.
  Qed.
  Lemma support_zero : forall c, ~ (0 < support r c)%Q -> (support r c == 0)%Q.
  Proof using Hw. intros c H. unfold support. rewrite no_supporters by auto. reflexivity. Qed.
  Lemma support_ge : forall c, (0 <= support r c)%Q.
  Proof using Hw. intros c. destruct (Qlt_le_dec 0 (support r c)) as [H|H]; [lra|]. rewrite support_zero; lra. Qed.
  Lemma eliminated_zero : forall R z, In z R -> ~ (0 < support r z)%Q -> forall c, eliminated r R c <-> In c R /\ ~ (0 < support r c)%Q.
  Proof using Hw.
    intros R z Hz Nz. assert (WZ : forall c, In c R -> ~ (0 < support r c)%Q -> weak r R c).
    { intros c Hc Nc. split; [exact Hc|]. intros d d' _ _ H. exfalso. pose proof (points_nonneg R d). unfold points at 2 in H. rewrite (no_supporters c Nc) in H. unfold Qsum in H. cbn in H. lra. }
    intros c. split.
    - intros [[Hc _] H]. split; [exact Hc|]. specialize (H z (WZ z Hz Nz)). rewrite (support_zero z Nz) in H. lra.
    - intros [Hc Nc]. split; [apply WZ; auto|]. intros d _. rewrite (support_zero c Nc). apply support_ge.
  Qed.
  Variable z : nat.
  Hypothesis Hz : z < num_cand r.
  Hypothesis Nz : ~ (0 < support r z)%Q.
  Lemma first_round_left : forall c, In c S <-> In c (candidates r) /\ ~ eliminated r (candidates r) c.
  Proof using Hw SI Hz Nz.
    intros c. assert (HZ : In z (candidates r)) by (apply in_seq; lia). rewrite (eliminated_zero _ z HZ Nz), SI. unfold candidates. rewrite in_seq.
    destruct (Qlt_le_dec 0 (support r c)) as [H|H]; split; intros [A B]; (split; [lia|]); try tauto.
    exfalso. apply B. split; [lia|lra].
  Qed.
  Lemma many_supported : k < length S -> forall W, eph_winner r k W <-> winner_from r k S W.
  Proof using HS Hw SI Hz Nz. intros HL W. rewrite winner_from_start. apply winner_from_next. split; [exact HS|]. split; [apply first_round_left|exact HL]. Qed.
  Lemma few_supported : length S <= k -> forall W, eph_winner r k W <-> is_committee r k W /\ incl S W.
  Proof using HS Hw SI Hz Nz.
    intros HL W. assert (HZ : In z (candidates r)) by (apply in_seq; lia). rewrite winner_from_start. split.
    - intros (R & HR & HC & HI & HE & _). split; [exact HC|]. apply reaches_cases in HR. destruct HR as [->|(R1 & (A & B & C) & _)].
      + intros c Hc. destruct (in_dec Nat.eq_dec c W) as [H|H]; [exact H|]. exfalso. apply first_round_left in Hc. destruct Hc as [Hc Nc]. apply Nc, HE; auto.
      + exfalso. assert (R1 = S) by (apply ascending_ext; auto; intros c; rewrite B, first_round_left; tauto). subst R1. lia.
    - intros [HC HI]. exists (candidates r). split; [constructor|]. split; [exact HC|]. split; [|split].
      + intros c Hc. destruct HC as (_ & _ & HF). rewrite Forall_forall in HF. apply in_seq. specialize (HF c Hc). lia.
      + intros c Hc Nc. apply (eliminated_zero _ z HZ Nz). split; [exact Hc|]. intros H. apply Nc, HI, SI. split; [apply in_seq in Hc; lia|exact H].
      + intros T HT HT'. replace T with S; [exact HL|]. apply ascending_ext; auto. intros c. rewrite HT', first_round_left. tauto.
  Qed.
End Round.

Section ExtraEph.
  Variables p q : profile.
  Hypothesis HE : extra_candidates p q.
  Hypothesis Hw : wf p.

  Lemma points_q : forall R c, points q R c = points p R c.
  Proof using HE. intros. unfold points, supporters. rewrite (same_voters p q HE). reflexivity. Qed.
  Lemma eliminated_q : forall R c, eliminated q R c <-> eliminated p R c.
  Proof using HE.
    assert (E : forall R c, weak q R c <-> weak p R c).
    { intros R c. unfold weak. split; intros [A B]; (split; [exact A|]); intros d d' H1 H2 H3 H4; apply B; auto; rewrite ?points_q in *; auto. }
    intros R c. unfold eliminated. split; intros [A B]; (split; [apply E; exact A|]); intros d Hd; specialize (B d); rewrite ?(support_q p q HE) in *; apply B, E, Hd.
  Qed.
  Lemma reaches_q : forall k R0 R, reaches_from q k R0 R <-> reaches_from p k R0 R.
  Proof using HE.
    intros k R0 R. assert (N : forall R R', eph_next q k R R' <-> eph_next p k R R').
    { intros A B. unfold eph_next. split; intros (X & Y & Z); (split; [exact X|]); (split; [|exact Z]); intros c; rewrite Y; rewrite eliminated_q; tauto. }
    split; intros H; induction H as [|A B H IH HN]; [constructor|econstructor; [exact IH|apply N; exact HN]|constructor|econstructor; [exact IH|apply N; exact HN]].
  Qed.
  Lemma reaches_incl : forall k R0 R, reaches_from p k R0 R -> incl R R0.
  Proof using. intros k R0 R H. induction H as [|A B H IH (_ & X & _)]; [intros c Hc; exact Hc|]. intros c Hc. apply X in Hc. apply IH. tauto. Qed.
  Lemma winner_from_q : forall k R0 W, candidates_of p R0 -> winner_from p k R0 W <-> winner_from q k R0 W /\ candidates_of p W.
  Proof using HE.
    intros k R0 W H0. unfold winner_from. split.
    - intros (R & HR & HC & HI & A & B). apply (old_committee p q HE) in HC. destruct HC as [HC HO]. split; [|exact HO]. exists R. split; [apply reaches_q; auto|].
      split; [exact HC|]. split; [exact HI|]. split; [intros; apply eliminated_q; auto|]. intros T H1 H2. apply B; auto. intros c. rewrite H2, eliminated_q. tauto.
    - intros [(R & HR & HC & HI & A & B) HO]. exists R. split; [apply reaches_q; auto|]. split; [apply (old_committee p q HE); auto|].
      split; [exact HI|]. split; [intros; apply eliminated_q; auto|]. intros T H1 H2. apply B; auto. intros c. rewrite H2, eliminated_q. tauto.
  Qed.

  Lemma extra_eph : forall k W, k <= num_cand p -> eph_winner p k W <-> eph_winner q k W /\ candidates_of p W.
  Proof using HE Hw.
    intros k W Hk. pose proof (num_le p q HE) as NL. pose proof (wf_q p q HE Hw) as Hwq.
    assert (CP : candidates_of p (candidates p)) by (intros c Hc; apply in_seq in Hc; lia).
    destruct (Nat.eq_dec (num_cand q) (num_cand p)) as [En|En].
    { rewrite !winner_from_start. replace (candidates q) with (candidates p) by (unfold candidates; rewrite En; reflexivity). apply winner_from_q. exact CP. }
    set (S := filter (fun c => negb (Qle_bool (support p c) 0)) (seq 0 (num_cand p))).
    assert (HS : ascending S) by (apply ascending_filter, ascending_seq).
    assert (POS : forall c, negb (Qle_bool (support p c) 0) = true <-> (0 < support p c)%Q).
    { intros c. rewrite negb_true_iff, <- not_true_iff_false, Qle_bool_iff. split; intros H; [apply Qnot_le_lt; exact H|lra]. }
    assert (SP : forall c, In c S <-> c < num_cand p /\ (0 < support p c)%Q).
    { intros c. unfold S. rewrite filter_In, in_seq, POS. intuition lia. }
    assert (SQ : forall c, In c S <-> c < num_cand q /\ (0 < support q c)%Q).
    { intros c. rewrite SP, (support_q p q HE). split; intros [A B]; (split; [|exact B]); [lia|].
      destruct (Nat.lt_ge_cases c (num_cand p)) as [H|H]; [exact H|]. rewrite (support_new p Hw c H) in B. lra. }
    assert (CS : candidates_of p S) by (intros c Hc; apply SP in Hc; tauto).
    assert (ZQ : ~ (0 < support q (num_cand p))%Q) by (rewrite (support_q p q HE), (support_new p Hw _ (le_n _)); lra).
    assert (LQ : num_cand p < num_cand q) by lia.
    destruct (Nat.lt_ge_cases k (length S)) as [HL|HL].
    - rewrite (many_supported q Hwq k S HS SQ (num_cand p) LQ ZQ HL W), <- (winner_from_q k S W CS).
      destruct (existsb (fun c => Qle_bool (support p c) 0) (seq 0 (num_cand p))) eqn:X.
      + apply existsb_exists in X. destruct X as (z & Hz & Z0). apply in_seq in Hz. apply Qle_bool_iff in Z0. apply (many_supported p Hw k S HS SP z); auto; [lia|lra].
      + replace S with (candidates p); [apply winner_from_start|]. symmetry. apply GreedyMonroe.filter_true. intros c Hc. apply negb_true_iff. apply not_true_iff_false. intros Y.
        apply not_true_iff_false in X. apply X. apply existsb_exists. eauto.
    - assert (P : eph_winner p k W <-> is_committee p k W /\ incl S W).
      { destruct (existsb (fun c => Qle_bool (support p c) 0) (seq 0 (num_cand p))) eqn:X.
        + apply existsb_exists in X. destruct X as (z & Hz & Z0). apply in_seq in Hz. apply Qle_bool_iff in Z0. apply (few_supported p Hw k S HS SP z); auto; [lia|lra].
        + assert (ES : S = seq 0 (num_cand p)).
          { apply GreedyMonroe.filter_true. intros c Hc. apply negb_true_iff. apply not_true_iff_false. intros Y.
            apply not_true_iff_false in X. apply X. apply existsb_exists. eauto. }
          assert (EK : k = num_cand p) by (rewrite ES, seq_length in HL; lia).
          assert (ALL : is_committee p k W -> incl (seq 0 (num_cand p)) W).
          { intros (A & B & C). apply NoDup_length_incl; [apply ascending_NoDup; exact A|rewrite seq_length; lia|]. intros c Hc. rewrite Forall_forall in C. apply in_seq. specialize (C c Hc). lia. }
          rewrite ES, winner_from_start. split.
          * intros (R & _ & HC & _). split; auto.
          * intros [HC HI]. exists (candidates p). split; [constructor|]. split; [exact HC|]. split; [|split].
            -- intros c Hc. destruct HC as (_ & _ & HF). rewrite Forall_forall in HF. apply in_seq. specialize (HF c Hc). lia.
            -- intros c Hc Nc. exfalso. apply Nc, HI. exact Hc.
            -- intros T HT HT'. rewrite EK, <- (seq_length (num_cand p) 0). apply NoDup_incl_length; [apply ascending_NoDup; exact HT|]. intros c Hc. apply HT' in Hc. tauto. }
      rewrite P, (few_supported q Hwq k S HS SQ (num_cand p) LQ ZQ HL W), (old_committee p q HE). tauto.
  Qed.
End ExtraEph.
