(** * Apportionment on party-list profiles: the rules (C85) *)
From Coq Require Import String.
From Coq Require Import List Arith Bool ZArith QArith Lia Lqa Permutation Sorted.
From Verif Require Import Milp RulesSolver SpecLoads SolverCompute SolverLex RulesMonroe RulesMore SolverMore.
From Verif Require Import Prelude Misc Common MiscProofs Preferences Scores ScoresProofs Rule Spec SpecRules Compute SpecCompute SpecSeq SpecAxioms
  SpecMonroe PhragmenProofs EnestroemProofs MesProofs MesFinal ComputeProofs ThieleProofs Guarantees Proportional ComputeAll SpecAll AllProofs Mono
  TieBreak SpecVary Vary VaryRuns VaryMes VaryAll Join Pareto SingleSeat SpecParty PartyLists.
Import ListNotations.
Local Open Scope string_scope.
Open Scope nat_scope.
Local Open Scope list_scope.

Section Party.
  Variable p : profile.
  Hypothesis Hw : wf p.
  Hypothesis Hp : party_lists p.
  Notation same := (same_party p).

  Lemma party_same : forall v c d, In v (voters p) -> approves v c = true -> same c d = approves v d.
  Proof using Hp.
    intros v c d Hv Hc. destruct (approves v d) eqn:E.
    - apply same_iff. intros u Hu. unfold approves in *. apply mem_In in Hc, E. destruct (Hp v u Hv Hu) as [H|H].
      + transitivity true; [|symmetry]; apply mem_In; apply H; auto.
      + transitivity false; [|symmetry]; apply mem_false; apply H; auto.
    - apply not_true_iff_false. intros H. rewrite same_iff in H. rewrite <- (H v Hv), Hc in E. discriminate.
  Qed.
  Lemma util_seats : forall v c W, In v (voters p) -> NoDup W -> approves v c = true -> util v W = seats p W c.
  Proof using Hp Hw.
    intros v c W Hv N Hc. destruct (wt p Hw v Hv) as [Nv _]. unfold util. rewrite inter_comm_length by auto. unfold seats, inter. f_equal.
    apply filter_ext. intros d. symmetry. apply party_same; auto.
  Qed.
  Lemma gain_seats : forall f W c, NoDup W -> (gain f p W c == support p c * f (S (seats p W c)))%Q.
  Proof using Hp Hw.
    intros f W c N. unfold gain, support, wsum.
    assert (E : forall l, incl l (supporters p c) -> (Qsum (map (fun v => weight v * f (S (util v W))) l) == Qsum (map weight l) * f (S (seats p W c)))%Q).
    { induction l as [|v l IH]; intros HI; [cbn; change (Qsum []) with 0%Q; ring|]. cbn [map]. change (Qsum (?a :: ?b)) with (a + Qsum b)%Q.
      rewrite IH by (intros a Ha; apply HI; right; auto). assert (Hv : In v (supporters p c)) by (apply HI; left; auto). apply filter_In in Hv as [Hv Hc].
      rewrite (util_seats v c W Hv N Hc). ring. }
    apply E. apply incl_refl.
  Qed.
  Lemma support_nonneg : forall c, (0 <= support p c)%Q.
  Proof using Hw. intros c. rewrite support_fans. apply sum_nonneg. intros i Hi. apply in_fans in Hi as [Hi _]. pose proof (w_pos p i Hw Hi). lra. Qed.

  (** ** Thiele methods *)
  Section Thiele.
    Variable f : nat -> Q.
    Hypothesis Hf : non_increasing f.
    Definition claim (c s : nat) : Q := (support p c * f s)%Q.

    Lemma claim_same : forall c d s, same c d = true -> (claim c s == claim d s)%Q.
    Proof using. intros c d s H. unfold claim. rewrite (same_support p c d H). reflexivity. Qed.
    Lemma claim_mono : forall c i j, 1 <= i -> i <= j -> (claim c j <= claim c i)%Q.
    Proof using Hw Hf. intros c i j Hi Hj. unfold claim. pose proof (Hf i j Hi Hj). pose proof (support_nonneg c). nra. Qed.
    Lemma ha_fair : forall k W, highest_averages f p k W <-> is_committee p k W /\ fair p claim W.
    Proof using. intros k W. unfold highest_averages, fair, claim. tauto. Qed.
    Lemma thiele_add : forall L c, NoDup L -> ~ In c L -> c < num_cand p -> (Thiele f p (c :: L) == Thiele f p L + claim c (S (seats p L c)))%Q.
    Proof using Hw Hp. intros L c N Hn Hc. pose proof (gain_correct f p L c Hw Hn) as H. rewrite gain_seats in H by auto. unfold claim. lra. Qed.

    Theorem thiele_apportions : forall k W, maximises (Thiele f p) p k W <-> highest_averages f p k W.
    Proof using Hw Hp Hf.
      intros k W. rewrite ha_fair. apply (maximises_fair p claim claim_same claim_mono (Thiele f p)).
      - intros L V H. apply Thiele_set_same. auto.
      - apply thiele_add.
    Qed.

    Lemma best_claim : forall L x, NoDup L -> best_addition f p L x <-> best p claim L x.
    Proof using Hw Hp.
      intros L x N. unfold best_addition, best, fresh. split.
      - intros (Hx & Hn & HB). split; auto. intros d [Hd Hdn]. specialize (HB d Hd Hdn). rewrite !thiele_add in HB by auto. lra.
      - intros ([Hx Hn] & HB). split; auto. split; auto. intros d Hd Hdn. specialize (HB d (conj Hd Hdn)). rewrite !thiele_add by auto. lra.
    Qed.

    Theorem seq_apportions : forall k W, seq_thiele_winner f p k W <-> highest_averages f p k W.
    Proof using Hw Hp Hf.
      intros k W. rewrite ha_fair. split.
      - intros (L & HL & Hk & ->). assert (HF : NoDup L /\ Forall (fun c => c < num_cand p) L /\ fair p claim L).
        { apply (filled_ok p claim claim_same claim_mono []); [constructor|constructor|intros c d []|]. clear Hk. induction HL as [|L c HL IH Hc]; [constructor|]. constructor; auto.
          apply best_claim; auto. apply (greedy_ok f p L HL). }
        destruct HF as (N & R & F). split; [apply isort_committee; auto|]. apply (fair_set p claim L); auto; [eapply Permutation_NoDup; [apply isort_perm|auto]|]. intros x. symmetry. apply isort_In.
      - intros [HC F]. pose proof HC as (A & Hl & R). destruct (fill_up p claim claim_same claim_mono W F (ascending_NoDup W A) R k []) as (L & HL & N & HI & Hl').
        + constructor.
        + intros x [].
        + cbn. lia.
        + exists L. split; [|split; [lia|apply isort_of_full; auto]].
          assert (G : NoDup L /\ greedy_run f p L); [|apply G]. clear - HL Hw Hp. induction HL as [|L x HL [N IH] Hx]; [split; constructor|].
          split; [constructor; auto; apply Hx|]. constructor; auto. apply best_claim; auto.
    Qed.

    Lemma best_removal_claim : forall W x, NoDup W -> Forall (fun c => c < num_cand p) W ->
      (best_removal f p W x <-> In x W /\ forall c, In c W -> (claim x (seats p W x) <= claim c (seats p W c))%Q).
    Proof using Hw Hp.
      intros W x N R. assert (E : forall y, In y W -> (Thiele f p W == Thiele f p (without y W) + claim y (seats p W y))%Q).
      { intros y Hy. apply score_without; auto; [intros; apply Thiele_set_same; auto|apply thiele_add]. }
      unfold best_removal. split; intros [Hx H]; (split; auto); intros d Hd; specialize (H d Hd); pose proof (E d Hd); pose proof (E x Hx); lra.
    Qed.
    Lemma removal_props : forall W, removal_run f p W -> ascending W /\ Forall (fun c => c < num_cand p) W /\ fair p claim W.
    Proof using Hw Hp Hf.
      intros W H. induction H as [|W c H (A & R & F) Hc].
      - split; [apply ascending_seq|]. split; [apply Forall_forall; intros x Hx; apply in_seq in Hx; lia|]. intros c d _ Hd Hn. exfalso. apply Hn. apply in_seq. lia.
      - split; [apply ascending_filter; auto|]. split; [apply Forall_forall; intros x Hx; apply without_incl in Hx; rewrite Forall_forall in R; auto|].
        apply best_removal_claim in Hc as [Hc HB]; [|apply ascending_NoDup; auto|auto].
        apply fair_remove; auto; [apply claim_same|apply claim_mono|apply ascending_NoDup; auto].
    Qed.
    Theorem revseq_apportions : forall k W, 1 <= k -> revseq_winner f p k W <-> highest_averages f p k W.
    Proof using Hw Hp Hf.
      intros k W Hk. rewrite ha_fair. split.
      - intros [H Hl]. destruct (removal_props W H) as (A & R & F). split; [split; auto|auto].
      - intros [HC F]. pose proof HC as (A & Hl & R). split; auto. pose proof (ascending_NoDup W A) as N.
        assert (G : forall n, n + length W <= num_cand p -> exists U, removal_run f p U /\ incl W U /\ length U = num_cand p - n).
        { induction n as [|n IH]; intros Hn.
          - exists (seq 0 (num_cand p)). split; [constructor|]. split; [|rewrite seq_length; lia]. intros x Hx. apply in_seq. rewrite Forall_forall in R. specialize (R x Hx). lia.
          - destruct IH as (U & HU & HI & HlU); [lia|]. destruct (removal_props U HU) as (AU & RU & _). pose proof (ascending_NoDup U AU) as NU.
            destruct (fair_prev p claim claim_same claim_mono W U F N) as (x & Hx & Hxn & HB); auto; [destruct W; [cbn in Hl; lia|discriminate]|lia|].
            exists (without x U). split; [constructor; auto; apply best_removal_claim; auto|]. split.
            + intros y Hy. apply without_spec. split; auto. intros ->. contradiction.
            + pose proof (without_length x U NU Hx). lia. }
        assert (Hkm : length W <= num_cand p).
        { rewrite <- (seq_length (num_cand p) 0). apply NoDup_incl_length; auto. intros x Hx. apply in_seq. rewrite Forall_forall in R. specialize (R x Hx). lia. }
        destruct (G (num_cand p - length W)) as (U & HU & HI & HlU); [lia|]. destruct (removal_props U HU) as (AU & RU & _).
        assert (E : W = U); [|rewrite E; auto]. rewrite <- (isort_id W A), <- (isort_id U AU). apply isort_perm_eq.
        apply NoDup_Permutation_bis; auto. lia.
    Qed.
  End Thiele.
End Party.
