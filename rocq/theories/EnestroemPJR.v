(** * Phragmén's method in Eneström's version satisfies PJR+ *)
From Coq Require Import String.
From Coq Require Import List Arith Bool ZArith QArith Lia Lqa Permutation Sorted Setoid.
From Verif Require Import Prelude Misc MiscProofs Preferences Scores Spec ScoresProofs Search Rule RulesThiele
  Common ThieleProofs SpecRules OptProofs Compute SpecCompute ComputeProofs Checks SpecAxioms ChecksProofs Guarantees
  SpecSeq RulesSeq SeqProofs PhragmenProofs
  EnestroemProofs RulesMes PoolProofs MesProofs MesLoop AvPhase MesFinal ComputeSeq ComputeSeqProofs Proportional.
Import ListNotations.
Local Open Scope string_scope.
Open Scope nat_scope.

Section EnestroemPJR.
  Variables (p : profile) (k : nat).
  Hypothesis Hw : wf p.
  Hypothesis Hv : voters p <> [].
  Hypothesis Hk : 1 <= k.
  Let q : Q := (wsum (voters p) / Qnat k)%Q.

  Lemma seat_price_pos : (0 < q)%Q.
  Proof using Hw Hv Hk.
    unfold q. apply Qlt_shift_div_l; [apply Qnat_pos; lia|]. pose proof (wsum_pos p Hw Hv). lra.
  Qed.

  (** when the winner's supporters can pay, they pay exactly the price *)
  Lemma enestroem_payment : forall W x d x', (forall i, i < length (voters p) -> (0 <= x i)%Q) ->
    (q <= purse p x d)%Q -> enestroem_update p k W x d x' ->
    (forall i, i < length (voters p) -> (0 <= x' i)%Q) /\
    (forall i, i < length (voters p) -> (0 <= x i - x' i)%Q) /\
    (forall i, i < length (voters p) -> likes p i d = false -> (x i - x' i == 0)%Q) /\
    (sum (fans p d) (fun i => x i - x' i) == q)%Q.
  Proof using Hw Hv Hk.
    intros W x d x' H0 Hq [Hu1 Hu2]. pose proof seat_price_pos as Hqp. fold q in Hu1, Hu2.
    destruct (Qlt_le_dec q (purse p x d)) as [Hlt|Hle].
    - specialize (Hu1 Hlt).
      assert (HP : (0 < purse p x d)%Q) by lra.
      assert (Hf : forall i, i < length (voters p) -> (0 <= q * (x i / purse p x d) <= x i)%Q).
      { intros i Hi. specialize (H0 i Hi).
        assert (E : (q * (x i / purse p x d) == q * x i / purse p x d)%Q) by (field; lra). split; rewrite E.
        - apply Qle_shift_div_l; auto. nra.
        - apply Qle_shift_div_r; auto. nra. }
      split; [|split; [|split]].
      + intros i Hi. rewrite (Hu1 i Hi). cbv beta. specialize (Hf i Hi). specialize (H0 i Hi). destruct (likes p i d); lra.
      + intros i Hi. rewrite (Hu1 i Hi). cbv beta. specialize (Hf i Hi). specialize (H0 i Hi). destruct (likes p i d); lra.
      + intros i Hi Hl. rewrite (Hu1 i Hi). cbv beta. rewrite Hl. ring.
      + rewrite (sum_ext _ _ (fun i => (q / purse p x d) * x i)%Q).
        * rewrite sum_scal. fold (purse p x d). field. lra.
        * intros i Hi. apply in_fans in Hi as [Hi Hl]. rewrite (Hu1 i Hi). cbv beta. rewrite Hl. field. lra.
    - specialize (Hu2 Hle). split; [|split; [|split]].
      + intros i Hi. rewrite (Hu2 i Hi). cbv beta. specialize (H0 i Hi). destruct (likes p i d); lra.
      + intros i Hi. rewrite (Hu2 i Hi). cbv beta. specialize (H0 i Hi). destruct (likes p i d); lra.
      + intros i Hi Hl. rewrite (Hu2 i Hi). cbv beta. rewrite Hl. ring.
      + rewrite (sum_ext _ _ x).
        * fold (purse p x d). lra.
        * intros i Hi. apply in_fans in Hi as [Hi Hl]. rewrite (Hu2 i Hi). cbv beta. rewrite Hl. ring.
  Qed.

  (** while a group of [l] seats' weight that agrees on an unelected candidate is
      represented by fewer than [l] of the elected candidates *)
  Lemma enestroem_invariant : forall S l c, is_group p S -> deserves p q S l -> c < num_cand p ->
    (forall i, In i S -> In c (ballot p i)) -> forall L x,
    runs_from p (richest_choice p) (enestroem_update p k) [] (w p) L x -> ~ In c L ->
    length (covered p S L) < l ->
    (forall i, i < length (voters p) -> (0 <= x i)%Q) /\
    (sum (voter_ids p) x == wsum (voters p) - q * Qnat (length L))%Q /\
    (sum S (w p) - q * Qnat (length (covered p S L)) <= sum S x)%Q.
  Proof using Hw Hv Hk.
    intros S l c HS Hd Hcm Ha L x Hr. pose proof seat_price_pos as Hqp.
    pose proof (group_in_fans p S c HS Ha) as Hfans.
    assert (Hid : forall i, In i S -> i < length (voters p)).
    { intros i Hi. destruct HS as (_ & _ & H). rewrite Forall_forall in H. auto. }
    induction Hr as [x Hx|W x d x' Hr IH Hdc Hu]; intros Hn Hcov.
    - split; [|split].
      + intros i Hi. rewrite (Hx i Hi). apply Qlt_le_weak, w_pos; auto.
      + rewrite (sum_ext _ x (w p)) by (intros i Hi; apply Hx, in_voter_ids; auto).
        rewrite <- wsum_voter_ids. change (Qnat (length (@nil nat))) with 0%Q. ring.
      + rewrite (sum_ext S x (w p)) by (intros i Hi; apply Hx; auto).
        change (Qnat (length (covered p S []))) with 0%Q. lra.
    - rewrite covered_cons in Hcov.
      assert (Hcov' : length (covered p S W) < l) by (destruct (existsb (fun i => likes p i d) S); lia).
      destruct (IH ltac:(intro; apply Hn; right; auto) Hcov') as (H0 & Htot & Hgr).
      assert (HqS : (q <= sum S x)%Q).
      { unfold deserves in Hd. rewrite gweight_sum in Hd.
        assert (Qnat (length (covered p S W)) + 1 <= Qnat l)%Q by (rewrite <- Qnat_S; apply -> Qnat_le; lia). nra. }
      assert (Hpc : (sum S x <= purse p x c)%Q).
      { apply sum_incl_le; [apply HS|apply fans_NoDup|auto|]. intros i Hi. apply in_fans in Hi as [Hi _]. auto. }
      assert (Hpd : (q <= purse p x d)%Q).
      { destruct Hdc as [_ Hdc]. assert (Hc : fresh p W c) by (split; auto; intro; apply Hn; right; auto).
        specialize (Hdc c Hc). lra. }
      destruct (enestroem_payment W x d x' H0 Hpd Hu) as (P1 & P2 & P3 & P4).
      assert (Hsplit : forall l, (sum l x' == sum l x - sum l (fun i => x i - x' i))%Q).
      { intros l'. rewrite sum_minus. ring. }
      split; [exact P1|split].
      + rewrite Hsplit, Htot. cbn [length]. rewrite Qnat_S.
        assert (E : (sum (voter_ids p) (fun i => x i - x' i) == q)%Q); [|rewrite E; ring].
        rewrite (sum_split (fun i => likes p i d) (voter_ids p)).
        assert (Z : (sum (filter (fun i => negb (likes p i d)) (voter_ids p)) (fun i => x i - x' i) == 0)%Q).
        { rewrite (sum_ext _ _ (fun _ => 0%Q)); [apply sum_const0|]. intros i Hi. apply filter_In in Hi as [Hi Hl].
          apply P3; [apply in_voter_ids; auto|]. apply negb_true_iff. auto. }
        rewrite Z, Qplus_0_r. exact P4.
      + rewrite Hsplit, covered_cons. destruct (existsb (fun i => likes p i d) S) eqn:Ex.
        * cbn [Nat.add]. rewrite Qnat_S.
          assert (sum S (fun i => x i - x' i) <= q)%Q; [|lra].
          rewrite <- P4. rewrite (sum_split (fun i => likes p i d) S).
          assert (Z : (sum (filter (fun i => negb (likes p i d)) S) (fun i => x i - x' i) == 0)%Q).
          { rewrite (sum_ext _ _ (fun _ => 0%Q)); [apply sum_const0|]. intros i Hi. apply filter_In in Hi as [Hi Hl].
            apply P3; auto. apply negb_true_iff. auto. }
          rewrite Z, Qplus_0_r. apply sum_incl_le.
          -- apply NoDup_filter. apply HS.
          -- apply fans_NoDup.
          -- intros i Hi. apply filter_In in Hi as [Hi Hl]. apply in_fans. auto.
          -- intros i Hi. apply in_fans in Hi as [Hi _]. auto.
        * cbn [Nat.add].
          assert (E : (sum S (fun i => x i - x' i) == 0)%Q).
          { rewrite (sum_ext _ _ (fun _ => 0%Q)); [apply sum_const0|]. intros i Hi. apply P3; auto.
            destruct (likes p i d) eqn:El; auto. assert (existsb (fun i => likes p i d) S = true) by (apply existsb_exists; eauto).
            congruence. }
          rewrite E. lra.
  Qed.

  Theorem enestroem_PJR_plus : forall W, enestroem_winner p k W -> PJR_plus p (default_quota p k) W.
  Proof using Hw Hv Hk.
    intros W (L & x & Hr & Hl & ->) S l c HS Hd Hcm Hcn Ha.
    rewrite isort_In in Hcn. change (default_quota p k) with q in Hd. pose proof seat_price_pos as Hqp.
    assert (Hcov : length (covered p S (isort L)) = length (covered p S L)).
    { unfold covered. apply Permutation_length. apply Permutation_filter. apply Permutation_sym, isort_perm. }
    rewrite Hcov. destruct (Nat.le_gt_cases l (length (covered p S L))) as [|Hlt]; auto. exfalso.
    destruct (enestroem_invariant S l c HS Hd Hcm ltac:(intros i Hi; apply Ha; auto; left; auto) L x Hr Hcn Hlt) as (H0 & Htot & Hgr).
    assert (HqS : (q <= sum S x)%Q).
    { unfold deserves in Hd. rewrite gweight_sum in Hd.
      assert (Qnat (length (covered p S L)) + 1 <= Qnat l)%Q by (rewrite <- Qnat_S; apply -> Qnat_le; lia). nra. }
    assert (HT : (sum S x <= sum (voter_ids p) x)%Q).
    { apply sum_incl_le; [apply HS|apply voter_ids_NoDup| |].
      - intros i Hi. destruct HS as (_ & _ & H). rewrite Forall_forall in H. apply in_voter_ids. auto.
      - intros i Hi. apply H0, in_voter_ids. auto. }
    rewrite Htot, Hl in HT.
    assert (E : (q * Qnat k == wsum (voters p))%Q).
    { unfold q. assert (0 < Qnat k)%Q by (apply Qnat_pos; lia). field. lra. }
    lra.
  Qed.
End EnestroemPJR.

Lemma enestroem_passes : forall e gurobi p k alg resolute maxn l W, exact_arithmetic e alg ->
  valid_call p k resolute maxn ->
  compute_phragmen_enestroem e p (Z.of_nat k) alg resolute maxn = Ok l -> In W l ->
  PJR_plus p (default_quota p k) W /\ check_JR p W None = Ok true /\
  (unit_weights p -> check_PJR gurobi p W None "brute-force" = Ok true).
Proof.
  intros e g p k alg resolute maxn l W Ha Hc E Hin.
  assert (HW : enestroem_winner p k W).
  { eapply answers_In; [|exact E|exact Hin]. apply compute_enestroem_correct; auto. }
  destruct Hc as (Hw & Hv & Hk & _).
  assert (HP := enestroem_PJR_plus p k Hw Hv ltac:(lia) W HW).
  assert (Hcom : is_committee p k W) by (eapply run_step_facts; [|exact HW]; apply richest_fresh).
  destruct (committee_cand_set p k W (proj1 Hk) Hcom) as [Hcs Hne].
  assert (El : length W = k) by apply Hcom.
  assert (HPJR : PJR p (default_quota p (length W)) W) by (rewrite El; apply PJR_plus_PJR; auto).
  split; auto. split; [apply passes_JR; auto; apply PJR_JR; auto|]. intros Hu. apply passes_PJR; auto.
Qed.
