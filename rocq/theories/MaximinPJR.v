(** * The maximin support method satisfies PJR+ (up to the tolerance of the comparison) *)
From Coq Require Import String.
From Coq Require Import List Arith Bool ZArith QArith Lia Lqa Permutation Sorted Setoid.
From Verif Require Import Milp RulesSolver SpecLoads SolverMaximin SolverCompute IsoSeq Mono.
From Verif Require Import Prelude Misc MiscProofs Preferences Scores Spec ScoresProofs Search Rule RulesThiele
  Common ThieleProofs SpecRules OptProofs Compute SpecCompute ComputeProofs Checks SpecAxioms ChecksProofs Guarantees
  SpecSeq RulesSeq SeqProofs PhragmenProofs
  EnestroemProofs RulesMes PoolProofs MesProofs MesLoop AvPhase MesFinal ComputeSeq ComputeSeqProofs Proportional.
Import ListNotations.
Local Open Scope string_scope.
Open Scope nat_scope.
Local Open Scope list_scope.

(** what voter [i] gives to the members of [A] that it approves *)
Definition spent (p : profile) (g : nat -> nat -> Q) (A : list nat) (i : nat) : Q := sum (filter (fun d => likes p i d) A) (g i).
(** what [d] receives *)
Definition recv (p : profile) (g : nat -> nat -> Q) (d : nat) : Q := sum (fans p d) (fun i => g i d).
(** nobody gives more than its weight *)
Definition partial (p : profile) (A : list nat) (g : nat -> nat -> Q) : Prop :=
  (forall i d, 0 <= g i d)%Q /\ forall i, i < length (voters p) -> (spent p g A i <= w p i)%Q.

Lemma sum_spent : forall p g A S,
  (sum S (spent p g A) == sum A (fun d => sum (filter (fun i => likes p i d) S) (fun i => g i d)))%Q.
Proof.
  intros p g A S. induction S as [|i S IH].
  - symmetry. apply (sum_const0 A).
  - change (sum (i :: S) (spent p g A)) with (spent p g A i + sum S (spent p g A))%Q. rewrite IH. clear IH.
    rewrite (sum_ext A (fun d => sum (filter (fun i0 => likes p i0 d) (i :: S)) (fun i0 => g i0 d))
                       (fun d => (if likes p i d then g i d else 0) + sum (filter (fun i0 => likes p i0 d) S) (fun i0 => g i0 d))%Q).
    + rewrite sum_plus. apply Qplus_comp; [|reflexivity]. unfold spent. induction A as [|d A IH]; [reflexivity|]. cbn [filter].
      change (sum (d :: A) (fun d0 => if likes p i d0 then g i d0 else 0%Q)) with
        ((if likes p i d then g i d else 0) + sum A (fun d0 => if likes p i d0 then g i d0 else 0))%Q.
      destruct (likes p i d).
      * change (sum (d :: filter (fun d0 => likes p i d0) A) (g i)) with (g i d + sum (filter (fun d0 => likes p i d0) A) (g i))%Q.
        rewrite IH. reflexivity.
      * rewrite IH. ring.
    + intros d _. cbn [filter]. destruct (likes p i d); [reflexivity|]. ring.
Qed.

Section MaximinPJR.
  Variable p : profile.
  Hypothesis Hw : wf p.
  Hypothesis Hv : voters p <> [].

  Lemma received_recv : forall f c, received p f c = recv p f c.
  Proof using. intros f c. unfold received, recv. rewrite positions_fans. reflexivity. Qed.

  Lemma inter_perm : forall A i, NoDup A -> i < length (voters p) ->
    Permutation (inter (approved (the_voter p i)) A) (filter (fun d => likes p i d) A).
  Proof using Hw.
    intros A i HA Hi. apply NoDup_Permutation.
    - unfold inter. apply NoDup_filter. destruct Hw as [_ H]. rewrite Forall_forall in H.
      apply (H (the_voter p i)). apply the_voter_In. auto.
    - apply NoDup_filter. auto.
    - intros d. rewrite inter_In, filter_In. unfold likes, approves. rewrite mem_In. tauto.
  Qed.

  Lemma distribution_partial : forall A f, NoDup A -> support_distribution p A f -> partial p A f.
  Proof using Hw.
    intros A f HA [H0 H1]. split; auto. intros i Hi. unfold spent.
    rewrite <- (sum_perm _ _ (f i) (inter_perm A i HA Hi)).
    destruct (inter (approved (the_voter p i)) A) as [|a r] eqn:E.
    - unfold sum. cbn. apply Qlt_le_weak, w_pos; auto.
    - specialize (H1 i (the_voter p i) ltac:(apply In_positions; auto)). rewrite E in H1. unfold sum, w. rewrite H1 by discriminate. lra.
  Qed.

  (** what is left over can be given to anybody *)
  Lemma partial_distribution : forall A g, NoDup A -> partial p A g ->
    exists f, support_distribution p A f /\ forall d, (recv p g d <= recv p f d)%Q.
  Proof using Hw.
    intros A g HA [H0 H1].
    set (f := fun i d => if i <? length (voters p) then
                           match filter (fun d => likes p i d) A with
                           | a :: _ => if d =? a then (g i d + (w p i - spent p g A i))%Q else g i d
                           | [] => g i d
                           end else g i d).
    assert (Hge : forall i d, (g i d <= f i d)%Q).
    { intros i d. unfold f. destruct (Nat.ltb_spec i (length (voters p))); [|lra]. specialize (H1 i H).
      destruct (filter (fun d0 => likes p i d0) A) as [|a r]; [lra|]. destruct (d =? a); lra. }
    exists f. split; [split|].
    - intros i d. eapply Qle_trans; [apply H0|apply Hge].
    - intros i v Hiv Hne. apply In_positions in Hiv as [Hi ->].
      change (sum (inter (approved (the_voter p i)) A) (f i) == w p i)%Q.
      rewrite (sum_perm _ _ (f i) (inter_perm A i HA Hi)).
      destruct (filter (fun d => likes p i d) A) as [|a r] eqn:E.
      { exfalso. apply Hne. apply length_zero_iff_nil. rewrite (Permutation_length (inter_perm A i HA Hi)), E. reflexivity. }
      assert (Hnd : NoDup (a :: r)) by (rewrite <- E; apply NoDup_filter; auto).
      inversion Hnd as [|? ? Ha Hr]; subst.
      assert (Efa : (f i a == g i a + (w p i - spent p g A i))%Q).
      { unfold f. destruct (Nat.ltb_spec i (length (voters p))); [|lia]. rewrite E, Nat.eqb_refl. reflexivity. }
      assert (Efr : (sum r (f i) == sum r (g i))%Q).
      { apply sum_ext. intros d Hd. unfold f. destruct (i <? length (voters p)); [|reflexivity]. rewrite E.
        destruct (Nat.eqb_spec d a); [subst; tauto|reflexivity]. }
      change (sum (a :: r) (f i)) with (f i a + sum r (f i))%Q. rewrite Efa, Efr. unfold spent. rewrite E.
      change (sum (a :: r) (g i)) with (g i a + sum r (g i))%Q. ring.
    - intros d. apply sum_le. intros i _. apply Hge.
  Qed.

  (** a group that still has money for another candidate *)
  Lemma partial_step : forall A S l c r f, NoDup A -> ~ In c A -> is_group p S -> c < num_cand p ->
    (forall i, In i S -> In c (ballot p i)) -> length (covered p S A) < l -> (0 < r)%Q ->
    (Qnat l * r <= sum S (w p))%Q -> partial p A f -> (forall d, In d A -> (r <= recv p f d)%Q) ->
    exists g, partial p (c :: A) g /\ forall d, In d (c :: A) -> (r <= recv p g d)%Q.
  Proof using Hw.
    intros A S l c r f HA HcA HS Hcm Ha Hcov Hr Hl [F0 F1] Hf.
    pose proof (group_in_fans p S c HS Ha) as Hfans.
    assert (Hid : forall i, In i S -> i < length (voters p)).
    { intros i Hi. destruct HS as (_ & _ & H). rewrite Forall_forall in H. auto. }
    set (h := fun i d => (r / recv p f d * f i d)%Q).
    assert (Hscale : forall d, In d A -> (0 <= r / recv p f d <= 1)%Q).
    { intros d Hd. specialize (Hf d Hd). split.
      - apply Qle_shift_div_l; lra.
      - apply Qle_shift_div_r; lra. }
    assert (Hh0 : forall i d, In d A -> (0 <= h i d <= f i d)%Q).
    { intros i d Hd. specialize (Hscale d Hd). specialize (F0 i d). unfold h. split; nra. }
    assert (Hhr : forall d, In d A -> (recv p h d == r)%Q).
    { intros d Hd. specialize (Hf d Hd). unfold recv at 1, h. rewrite sum_scal. fold (recv p f d). field. lra. }
    assert (Hhs : forall i, (spent p h A i <= spent p f A i)%Q).
    { intros i. apply sum_le. intros d Hd. apply filter_In in Hd as [Hd _]. apply Hh0. auto. }
    set (g := fun i d => if d =? c then (if mem i S then (w p i - spent p h A i)%Q else 0%Q)
                         else if mem d A then h i d else 0%Q).
    assert (Hga : forall i d, In d A -> g i d = h i d).
    { intros i d Hd. unfold g. destruct (Nat.eqb_spec d c); [subst; tauto|]. replace (mem d A) with true; auto. symmetry. apply mem_In. auto. }
    assert (Hgs : forall i, (spent p g A i == spent p h A i)%Q).
    { intros i. apply sum_ext. intros d Hd. apply filter_In in Hd as [Hd _]. rewrite Hga by auto. reflexivity. }
    assert (Hleft : forall i, i < length (voters p) -> (0 <= w p i - spent p h A i)%Q).
    { intros i Hi. specialize (F1 i Hi). specialize (Hhs i). lra. }
    exists g. split; [split|].
    - intros i d. unfold g. destruct (d =? c).
      + destruct (mem i S) eqn:E; [|lra]. apply mem_In in E. apply Hleft. auto.
      + destruct (mem d A) eqn:E; [|lra]. apply mem_In in E. apply Hh0. auto.
    - intros i Hi. unfold spent. cbn [filter].
      assert (EA : (sum (filter (fun d => likes p i d) A) (g i) == spent p h A i)%Q) by apply Hgs.
      specialize (Hleft i Hi). destruct (likes p i c); [|rewrite EA; lra].
      change (sum (c :: filter (fun d => likes p i d) A) (g i)) with (g i c + sum (filter (fun d => likes p i d) A) (g i))%Q.
      rewrite EA. unfold g. rewrite Nat.eqb_refl. destruct (mem i S); lra.
    - intros d [<-|Hd].
      + unfold recv.
        assert (H1 : (sum S (fun i => w p i - spent p h A i) <= sum (fans p c) (fun i => g i c))%Q).
        { eapply Qle_trans; [|apply (sum_incl_le S); auto; try apply fans_NoDup; try apply HS].
          - apply Qle_lteq. right. apply sum_ext. intros i Hi. unfold g. rewrite Nat.eqb_refl.
            replace (mem i S) with true by (symmetry; apply mem_In; auto). reflexivity.
          - intros i Hi. apply in_fans in Hi as [Hi _]. unfold g. rewrite Nat.eqb_refl.
            destruct (mem i S); [apply Hleft; auto|lra]. }
        rewrite sum_minus, sum_spent in H1.
        assert (H2 : (sum A (fun d => sum (filter (fun i => likes p i d) S) (fun i => h i d)) <= Qnat (length (covered p S A)) * r)%Q).
        { clear H1. assert (Hin : incl A A) by (intros x; auto). revert Hin. generalize A at 1 3 4. induction A0 as [|d B IH]; intros Hin.
          - unfold sum, covered. cbn. change (Qnat 0) with 0%Q. lra.
          - rewrite covered_cons.
            change (sum (d :: B) (fun d0 => sum (filter (fun i => likes p i d0) S) (fun i => h i d0))) with
              (sum (filter (fun i => likes p i d) S) (fun i => h i d) + sum B (fun d0 => sum (filter (fun i => likes p i d0) S) (fun i => h i d0)))%Q.
            specialize (IH ltac:(intros x Hx; apply Hin; right; auto)).
            assert (HdA : In d A) by (apply Hin; left; auto).
            destruct (existsb (fun i => likes p i d) S) eqn:Ex.
            + cbn [Nat.add]. rewrite Qnat_S.
              assert (sum (filter (fun i => likes p i d) S) (fun i => h i d) <= r)%Q; [|lra].
              rewrite <- (Hhr d HdA). apply sum_incl_le.
              * apply NoDup_filter, HS.
              * apply fans_NoDup.
              * intros i Hi. apply filter_In in Hi as [Hi Hi']. apply in_fans. auto.
              * intros i _. apply Hh0. auto.
            + cbn [Nat.add].
              assert (Ef : filter (fun i => likes p i d) S = []).
              { destruct (filter (fun i => likes p i d) S) as [|i F] eqn:Ef; auto. exfalso.
                assert (Hi : In i (filter (fun i => likes p i d) S)) by (rewrite Ef; left; auto).
                apply filter_In in Hi. assert (existsb (fun i => likes p i d) S = true) by (apply existsb_exists; eauto). congruence. }
              rewrite Ef. unfold sum at 1. cbn [map Qsum fold_right]. lra. }
        assert (Qnat (length (covered p S A)) + 1 <= Qnat l)%Q by (rewrite <- Qnat_S; apply -> Qnat_le; lia).
        nra.
      + rewrite <- (Hhr d Hd). apply Qle_lteq. right. apply sum_ext. intros i _. rewrite Hga by auto. reflexivity.
  Qed.

  (** the supports of the members add up to at most the total weight *)
  Lemma partial_total : forall A g r, partial p A g -> (forall d, In d A -> (r <= recv p g d)%Q) ->
    (Qnat (length A) * r <= wsum (voters p))%Q.
  Proof using Hw.
    intros A g r [G0 G1] Hg. rewrite wsum_voter_ids.
    assert (H1 : (sum (voter_ids p) (spent p g A) <= sum (voter_ids p) (w p))%Q).
    { apply sum_le. intros i Hi. apply G1, in_voter_ids. auto. }
    rewrite sum_spent in H1. eapply Qle_trans; [|exact H1]. clear H1 G1.
    induction A as [|d A IH].
    - unfold sum. cbn. change (Qnat 0) with 0%Q. lra.
    - cbn [length]. rewrite Qnat_S.
      change (sum (d :: A) (fun d0 => sum (filter (fun i => likes p i d0) (voter_ids p)) (fun i => g i d0))) with
        (recv p g d + sum A (fun d0 => sum (filter (fun i => likes p i d0) (voter_ids p)) (fun i => g i d0)))%Q.
      specialize (IH ltac:(intros x Hx; apply Hg; right; auto)). specialize (Hg d (or_introl eq_refl)). lra.
  Qed.

  Lemma maximin_run_NoDup : forall eps L x, runs_from p (maximin_choice eps p) (no_update p) [] (fun _ => 0%Q) L x ->
    NoDup L /\ Forall (fun c => c < num_cand p) L.
  Proof using.
    intros eps L x Hr. induction Hr as [x Hx|W x d x' Hr [N F] [[Hd1 Hd2] _] _]; [split; constructor|]. split; constructor; auto.
  Qed.

  Section Group.
    Variables (eps q : Q) (S : list nat) (l c : nat) (k : nat).
    Hypothesis Heps : (0 <= eps)%Q.
    Hypothesis HS : is_group p S.
    Hypothesis Hd : deserves p q S l.
    Hypothesis Hcm : c < num_cand p.
    Hypothesis Ha : forall i, In i S -> In c (ballot p i).
    Hypothesis Hq : (Qnat k * eps < q)%Q.

    Lemma group_r : forall j, j <= k -> (0 < q - Qnat j * eps)%Q /\ (Qnat l * (q - Qnat j * eps) <= sum S (w p))%Q.
    Proof using Heps Hd Hq.
      intros j Hj. assert (Hjk : (Qnat j <= Qnat k)%Q) by (apply -> Qnat_le; auto).
      pose proof (Qnat_nonneg j) as H0. pose proof (Qnat_nonneg l) as H1. split; [nra|].
      unfold deserves in Hd. rewrite gweight_sum in Hd. assert (0 <= Qnat j * eps)%Q by nra. nra.
    Qed.

    Lemma maximin_invariant : forall L x, runs_from p (maximin_choice eps p) (no_update p) [] (fun _ => 0%Q) L x ->
      ~ In c L -> length (covered p S L) < l -> length L <= k ->
      exists f, partial p L f /\ forall d, In d L -> (q - Qnat (length L) * eps <= recv p f d)%Q.
    Proof using Hw Heps HS Hd Hcm Ha Hq.
      intros L x Hr. induction Hr as [x Hx|W x d x' Hr IH Hdc Hu]; intros Hn Hcov Hlen.
      - exists (fun _ _ => 0%Q). split; [split|].
        + intros. lra.
        + intros i Hi. unfold spent, sum. cbn. apply Qlt_le_weak, w_pos; auto.
        + intros d [].
      - rewrite covered_cons in Hcov. cbn [length] in Hlen.
        assert (Hcov' : length (covered p S W) < l) by (destruct (existsb (fun i => likes p i d) S); lia).
        assert (HcW : ~ In c W) by (intro; apply Hn; right; auto).
        destruct (IH HcW Hcov' ltac:(lia)) as (f & Hf & Hfr).
        destruct (group_r (length W) ltac:(lia)) as [Hr0 Hrl].
        destruct (maximin_run_NoDup _ _ _ Hr) as [HNW HFW].
        destruct (partial_step W S l c _ f HNW HcW HS Hcm Ha Hcov' Hr0 Hrl Hf Hfr) as (g & Hg & Hgr).
        assert (HNc : NoDup (c :: W)) by (constructor; auto).
        destruct (partial_distribution _ g HNc Hg) as (g' & Hg' & Hge).
        destruct (maximin_support_exists p (c :: W) Hw HNc ltac:(constructor; auto) ltac:(discriminate)) as (b & Hb).
        destruct Hdc as (Hdf & s & Hs & Hmax).
        assert (Hbs : (b <= s + eps)%Q) by (apply (Hmax c b); [split; auto|auto]).
        assert (Hrb : (q - Qnat (length W) * eps <= b)%Q).
        { destruct Hb as [_ Hb]. apply (Hb g' _ Hg'). intros e He. rewrite received_recv.
          exact (Qle_trans _ _ _ (Hgr e He) (Hge e)). }
        destruct Hs as [(f' & Hf' & Hfs) _]. exists f'. split.
        + apply distribution_partial; auto. destruct Hdf. constructor; auto.
        + intros e He. rewrite <- received_recv. cbn [length]. rewrite Qnat_S. specialize (Hfs e He). lra.
    Qed.
  End Group.

  Theorem maximin_PJR_plus : forall eps k W, (0 <= eps)%Q -> 1 <= k ->
    (Qnat (k * k * (k + 1)) * eps < wsum (voters p))%Q ->
    maximin_winner eps p k W -> PJR_plus p (default_quota p k) W.
  Proof using Hw Hv.
    intros eps k W He Hk Htol (L & x & Hr & Hl & ->) S l c HS Hd Hcm Hcn Ha. rewrite isort_In in Hcn.
    assert (Hcov : length (covered p S (isort L)) = length (covered p S L)).
    { unfold covered. apply Permutation_length. apply Permutation_filter. apply Permutation_sym, isort_perm. }
    rewrite Hcov. destruct (Nat.le_gt_cases l (length (covered p S L))) as [|Hlt]; auto. exfalso.
    assert (Hk0 : (0 < Qnat k)%Q) by (apply Qnat_pos; lia).
    set (q := default_quota p k) in *.
    assert (Eq : (q * Qnat k == wsum (voters p))%Q) by (unfold q, default_quota; field; lra).
    assert (Ek : (Qnat (k * k * (k + 1)) == Qnat k * Qnat k * (Qnat k + 1))%Q).
    { unfold Qnat. rewrite Nat2Z.inj_mul, Nat2Z.inj_mul, Nat2Z.inj_add, !inject_Z_mult, inject_Z_plus. reflexivity. }
    rewrite Ek, <- Eq in Htol.
    assert (Htol' : (Qnat k * (Qnat k + 1) * eps < q)%Q).
    { apply (Qmult_lt_r _ _ (Qnat k)); auto. lra. }
    assert (Hq : (Qnat k * eps < q)%Q).
    { assert (0 <= Qnat k * Qnat k * eps)%Q by (apply Qmult_le_0_compat; nra). lra. }
    assert (Ha' : forall i, In i S -> In c (ballot p i)) by (intros i Hi; apply Ha; auto; left; auto).
    destruct (maximin_invariant eps q S l c k He HS Hd Hcm Ha' Hq L x Hr Hcn Hlt ltac:(lia)) as (f & Hf & Hfr).
    destruct (group_r eps q S l k He Hd Hq (length L) ltac:(lia)) as [Hr0 Hrl].
    destruct (maximin_run_NoDup _ _ _ Hr) as [HN HF].
    destruct (partial_step L S l c _ f HN Hcn HS Hcm Ha' Hlt Hr0 Hrl Hf Hfr) as (g & Hg & Hgr).
    pose proof (partial_total _ g _ Hg Hgr) as Ht. cbn [length] in Ht. rewrite Qnat_S, Hl, <- Eq in Ht. lra.
  Qed.
End MaximinPJR.

Lemma maximin_passes : forall nx sv e gurobi p k alg resolute maxn l W, exact_solvers p sv ->
  valid_call p k resolute maxn -> In alg ["gurobi"; "mip-gurobi"; "mip-cbc"] ->
  (Qnat (k * k * (k + 1)) * CMP_ACCURACY < wsum (voters p))%Q ->
  compute_maximin_support (with_solvers nx sv e) p (Z.of_nat k) alg resolute maxn = Ok l -> In W l ->
  PJR_plus p (default_quota p k) W /\ check_JR p W None = Ok true /\
  (unit_weights p -> check_PJR gurobi p W None "brute-force" = Ok true).
Proof.
  intros nx sv e g p k alg resolute maxn l W Hs Hc Ha Htol E Hin.
  assert (HW : maximin_winner CMP_ACCURACY p k W).
  { eapply answers_In; [|exact E|exact Hin]. apply compute_maximin_support_correct; auto. }
  destruct Hc as (Hw & Hv & Hk & _).
  assert (HP := maximin_PJR_plus p Hw Hv CMP_ACCURACY k W ltac:(unfold CMP_ACCURACY; lra) ltac:(lia) Htol HW).
  assert (Hcom : is_committee p k W) by (eapply run_step_facts; [|exact HW]; intros V x c H; apply H).
  destruct (committee_cand_set p k W (proj1 Hk) Hcom) as [Hcs Hne].
  assert (El : length W = k) by apply Hcom.
  assert (HPJR : PJR p (default_quota p (length W)) W) by (rewrite El; apply PJR_plus_PJR; auto).
  split; auto. split; [apply passes_JR; auto; apply PJR_JR; auto|]. intros Hu. apply passes_PJR; auto.
Qed.
