(** * Apportionment on party-list profiles: Eneström's method and the calls (C85) *)
From Coq Require Import String.
From Coq Require Import List Arith Bool ZArith QArith Lia Lqa Permutation Sorted.
From Verif Require Import Milp RulesSolver SpecLoads SolverCompute SolverLex RulesMonroe RulesMore SolverMore.
From Verif Require Import Prelude Misc Common MiscProofs Preferences Scores ScoresProofs Rule Spec SpecRules Compute SpecCompute SpecSeq SpecAxioms
  SpecMonroe PhragmenProofs EnestroemProofs MesProofs MesFinal ComputeProofs ThieleProofs Guarantees Proportional ComputeAll SpecAll AllProofs Mono
  TieBreak SpecVary Vary VaryRuns VaryMes VaryAll Join Pareto SingleSeat EnestroemPJR SpecParty PartyLists PartyRules PartySeq.
Import ListNotations.
Local Open Scope string_scope.
Open Scope nat_scope.
Local Open Scope list_scope.

Section Enestroem.
  Variable p : profile.
  Hypothesis Hw : wf p.
  Hypothesis Hp : party_lists p.
  Hypothesis Hv : voters p <> [].
  Variable k : nat.
  Hypothesis Hk : 1 <= k.
  Notation T := (wsum (voters p)).
  Notation same := (same_party p).
  Notation price := (T / Qnat k)%Q.

  Lemma price_pos : (0 < price)%Q.
  Proof using Hw Hv Hk.
    pose proof (wsum_pos p Hw Hv) as HT. assert (HK : (0 < Qnat k)%Q) by (apply Qnat_pos; lia). apply Qlt_shift_div_l; auto.
  Qed.
  (** the two cases of [unused] *)
  Lemma unused_cases : forall c s, let rest := (support p c - Qnat (s - 1) * price)%Q in
    (rest <= 0)%Q /\ (unused p k c s == 0)%Q \/ (0 < rest)%Q /\ (unused p k c s == rest)%Q.
  Proof using.
    clear. intros c s rest. unfold unused. fold rest. destruct (Qle_bool rest 0) eqn:E.
    - left. apply Qle_bool_iff in E. split; auto. reflexivity.
    - right. split; [|reflexivity]. apply Qnot_le_lt. intros H. apply Qle_bool_iff in H. congruence.
  Qed.
  Lemma unused_same : forall c d s, same c d = true -> (unused p k c s == unused p k d s)%Q.
  Proof using. clear. intros c d s H. unfold unused. rewrite (same_support p c d H). reflexivity. Qed.
  Lemma unused_mono : forall c i j, 1 <= i -> i <= j -> (unused p k c j <= unused p k c i)%Q.
  Proof using Hw Hv Hk.
    intros c i j Hi Hj. pose proof price_pos as HP. destruct (unused_cases c i) as [[A1 A2]|[A1 A2]], (unused_cases c j) as [[B1 B2]|[B1 B2]];
      (assert (Hq : (Qnat (i - 1) <= Qnat (j - 1))%Q) by (apply Qnat_le; lia)); rewrite A2, B2; nra.
  Qed.

  Definition purse_inv (L : list nat) (b : nat -> Q) : Prop :=
    forall i c, i < length (voters p) -> likes p i c = true -> (b i == w p i * (unused p k c (S (seats p L c)) / support p c))%Q.
  Lemma purse_unused : forall L b c, purse_inv L b -> (purse p b c == unused p k c (S (seats p L c)))%Q.
  Proof using Hw Hv Hk.
    intros L b c I. assert (D : fans p c = [] \/ fans p c <> []) by (destruct (fans p c); [left; auto|right; discriminate]). destruct D as [E|E].
    - assert (E0 : (support p c == 0)%Q) by (rewrite support_fans, E; reflexivity). unfold purse. rewrite E. pose proof price_pos as HP. pose proof (Qnat_nonneg (S (seats p L c) - 1)) as HN.
      destruct (unused_cases c (S (seats p L c))) as [[A1 A2]|[A1 A2]]; rewrite A2; [reflexivity|exfalso; nra].
    - pose proof (proj2 (support_pos p Hw c) E) as Hs. unfold purse.
      rewrite (sum_ext (fans p c) b (fun i => (unused p k c (S (seats p L c)) / support p c) * w p i)%Q).
      + rewrite sum_scal, <- support_fans. field. lra.
      + intros i Hi. apply in_fans in Hi as [Hi Hl]. rewrite (I i c Hi Hl). ring.
  Qed.
  Lemma richest_claims : forall L b c, purse_inv L b -> (richest_choice p L b c <-> best p (unused p k) L c).
  Proof using Hw Hv Hk.
    intros L b c I. unfold richest_choice, best. split; intros [Hc H]; (split; auto); intros d Hd; specialize (H d Hd); rewrite !(purse_unused L b) in * by auto; auto.
  Qed.
  Lemma purse_step : forall L b c b', purse_inv L b -> enestroem_update p k L b c b' -> purse_inv (c :: L) b'.
  Proof using Hw Hv Hk Hp.
    intros L b c b' I [U1 U2] i d Hi Hd. pose proof price_pos as HP. pose proof (purse_unused L b c I) as E0.
    assert (E1 : seats p (c :: L) d = (if likes p i c then 1 else 0) + seats p L d) by (rewrite seats_cons, (likes_same p Hp i d c Hi Hd); reflexivity).
    rewrite E1. destruct (likes p i c) eqn:El.
    2: { cbn [Nat.add]. destruct (Qlt_le_dec price (purse p b c)) as [Hlt|Hle].
         - specialize (U1 Hlt i Hi). cbn beta in U1. rewrite El in U1. rewrite U1. apply I; auto.
         - specialize (U2 Hle i Hi). cbn beta in U2. rewrite El in U2. rewrite U2. apply I; auto. }
    assert (Es : same d c = true) by (rewrite (likes_same p Hp i d c Hi Hd); auto).
    rewrite (seats_same p L d c Es), (unused_same d c _ Es), (same_support p d c Es).
    assert (Hs : (0 < support p c)%Q) by (apply (fans_support p Hw c i); apply in_fans; auto).
    change (1 + seats p L c) with (S (seats p L c)). pose proof (I i c Hi El) as Eb.
    assert (N1 : (Qnat (S (S (seats p L c)) - 1) == Qnat (S (seats p L c) - 1) + 1)%Q).
    { replace (S (S (seats p L c)) - 1) with (S (S (seats p L c) - 1)) by lia. rewrite Qnat_S. ring. }
    destruct (Qlt_le_dec price (purse p b c)) as [Hlt|Hle].
    - specialize (U1 Hlt i Hi). cbn beta in U1. rewrite El in U1. rewrite U1, Eb, E0. rewrite E0 in Hlt.
      destruct (unused_cases c (S (seats p L c))) as [[A1 A2]|[A1 A2]]; [rewrite A2 in Hlt; lra|]. rewrite A2 in Hlt.
      destruct (unused_cases c (S (S (seats p L c)))) as [[B1 B2]|[B1 B2]]; rewrite N1 in B1; [exfalso; clear - A1 B1 Hlt HP; set (pr := price) in *; set (q := Qnat (S (seats p L c) - 1)) in *; clearbody pr q; set (z := (q * pr)%Q) in *; assert (E : ((q + 1) * pr == z + pr)%Q) by (unfold z; ring); rewrite E in B1; lra|]. rewrite N1 in B2. rewrite A2, B2.
      set (r := (support p c - Qnat (S (seats p L c) - 1) * price)%Q) in *.
      assert (E : (support p c - (Qnat (S (seats p L c) - 1) + 1) * price == r - price)%Q) by (unfold r; ring). rewrite E. clearbody r. assert (HK : (0 < Qnat k)%Q) by (apply Qnat_pos; lia). set (pr := price) in *. clearbody pr. field. repeat split; lra.
    - specialize (U2 Hle i Hi). cbn beta in U2. rewrite El in U2. rewrite U2. rewrite E0 in Hle.
      destruct (unused_cases c (S (S (seats p L c)))) as [[B1 B2]|[B1 B2]]; rewrite B2; [field; lra|]. exfalso. rewrite N1, Qmult_plus_distr_l in B1.
      destruct (unused_cases c (S (seats p L c))) as [[A1 A2]|[A1 A2]]; rewrite A2 in Hle; clear - A1 B1 Hle HP; set (pr := price) in *; clearbody pr; lra.
  Qed.
  Theorem enestroem_apportions : forall W, enestroem_winner p k W <-> largest_remainders p k W.
  Proof using Hw Hv Hk Hp.
    intros W. unfold enestroem_winner.
    rewrite (run_apportions p (unused p k) unused_same unused_mono (richest_choice p) (enestroem_update p k) purse_inv).
    - unfold largest_remainders, fair. split; [tauto|]. intros [A B]. repeat split; auto; try apply A. intros x [].
    - intros L x c _ I. apply richest_claims. auto.
    - intros L x c x' _ I _ Hu. eapply purse_step; eauto.
    - intros L x c. apply enestroem_some.
    - constructor.
    - constructor.
    - intros c d [].
    - cbn. lia.
    - intros x Hx i c Hi Hl. rewrite (Hx i Hi). assert (Hs : (0 < support p c)%Q) by (apply (fans_support p Hw c i); apply in_fans; auto).
      change (seats p [] c) with 0. destruct (unused_cases c 1) as [[A1 A2]|[A1 A2]]; change (Qnat (1 - 1)) with 0%Q in *; rewrite A2; rewrite Qmult_0_l in *; [exfalso; lra|]. field. lra.
  Qed.
  Theorem remainders_lower_quota : forall W, largest_remainders p k W -> lower_quota p k W.
  Proof using Hw Hv Hk Hp.
    intros W HW. pose proof HW as [(A & Hl & R) _]. apply enestroem_apportions in HW. intros c Hc Hn.
    pose proof (wsum_pos p Hw Hv) as HT. assert (HK : (0 < Qnat k)%Q) by (apply Qnat_pos; lia).
    apply Qnot_le_lt. intros H.
    assert (Hf : fans p c <> []). { apply (support_pos p Hw). assert (0 < Qnat (S (seats p W c)))%Q by (apply Qnat_pos; lia). nra. }
    pose proof (enestroem_PJR_plus p k Hw Hv Hk W HW (fans p c) (S (seats p W c)) c) as HP.
    assert (E : length (covered p (fans p c) W) = seats p W c).
    { unfold covered, seats. f_equal. apply filter_ext. intros d. destruct (same c d) eqn:E.
      - destruct (fans p c) as [|i l] eqn:Ef; [contradiction|]. cbn. assert (Hi : In i (fans p c)) by (rewrite Ef; left; auto). apply in_fans in Hi as [Hi Hlk].
        assert (mem d (ballot p i) = true); [|rewrite H0; reflexivity]. rewrite (likes_same p Hp i c d Hi Hlk) in E. exact E.
      - apply not_true_iff_false. intros H0. apply existsb_exists in H0 as (i & Hi & H0). apply in_fans in Hi as [Hi Hlk]. rewrite (likes_same p Hp i c d Hi Hlk) in E.
        change (likes p i d) with (mem d (ballot p i)) in E. congruence. }
    rewrite E in HP. assert (S (seats p W c) <= seats p W c); [apply HP; auto|lia].
    - split; auto. split; [apply fans_NoDup|]. apply Forall_forall. intros i Hi. apply in_fans in Hi as [Hi _]. auto.
    - unfold deserves, default_quota. change (gweight p (fans p c)) with (sum (fans p c) (w p)). rewrite <- support_fans.
      assert (E' : (Qnat (S (seats p W c)) * (T / Qnat k) == (Qnat (S (seats p W c)) * T) / Qnat k)%Q) by (field; lra). rewrite E'. apply Qle_shift_div_r; auto.
    - intros i d Hi [<-|[]]. apply in_fans in Hi as [_ Hi]. apply mem_In. exact Hi.
  Qed.
End Enestroem.

(** ** the calls *)
Section Calls.
  Variable rnd : random.
  Variable nx : networkx.
  Variable sv : solvers.
  Variable e : env.
  Notation e' := (with_solvers nx sv e).

  Lemma apportions_listed : forall p k id alg f, apportions e p k id alg f -> wf p -> party_lists p -> voters p <> [] -> 1 <= k <= num_cand p ->
    exists P, listed_by e p k id alg P /\ forall W, P W <-> highest_averages f p k W.
  Proof using.
    intros p k id alg f Ha Hw Hp Hv Hk. destruct Ha.
    - eexists. split; [eapply b_thiele; eauto|]. apply thiele_apportions; auto.
    - eexists. split; [eapply b_thiele_bb; eauto|]. apply thiele_apportions; auto.
    - eexists. split; [eapply b_thiele_mip; eauto|]. apply thiele_apportions; auto.
    - eexists. split; [apply b_cc_cp; auto|]. apply thiele_apportions; auto. exact cc_antitone.
    - eexists. split; [eapply b_seq; eauto|]. apply seq_apportions; auto.
    - eexists. split; [eapply b_revseq; eauto|]. intros W. apply revseq_apportions; auto. lia.
    - eexists. split; [apply b_seqphragmen; auto|]. intros W. apply phragmen_apportions; auto.
    - eexists. split; [apply b_mes_phragmen; auto|]. intros W. apply mes_apportions; auto; lia.
  Qed.
  Theorem apportions_ok : forall p k id alg f resolute maxn, apportions e p k id alg f -> party_lists p -> libraries_ok p rnd nx sv e -> valid_call p k resolute maxn ->
    answers (highest_averages f p k) resolute (limit maxn) (compute rnd nx e' id p (Z.of_nat k) None (args alg resolute maxn)).
  Proof using.
    intros p k id alg f resolute maxn Ha Hp HL Hc. pose proof Hc as (Hw & Hv & Hk & _). destruct (apportions_listed p k id alg f Ha Hw Hp Hv Hk) as (P & HP & H).
    apply (answers_equiv P); auto. exact (listed_by_determined rnd nx sv e p k id alg P HL HP Hw Hv Hk resolute maxn Hc).
  Qed.
  Theorem apportions_agree : forall p k id alg id' alg' f, apportions e p k id alg f -> apportions e p k id' alg' f -> party_lists p -> libraries_ok p rnd nx sv e -> valid_call p k false None ->
    compute rnd nx e' id p (Z.of_nat k) None (args alg false None) = compute rnd nx e' id' p (Z.of_nat k) None (args alg' false None).
  Proof using.
    intros p k id alg id' alg' f Ha Ha' Hp HL Hc.
    destruct (apportions_ok p k id alg f false None Ha Hp HL Hc) as (l & El & N & O & A & B).
    destruct (apportions_ok p k id' alg' f false None Ha' Hp HL Hc) as (l' & El' & N' & O' & A' & B'). cbn in B, B'.
    rewrite El, El'. f_equal. apply printed_eq; auto.
    - apply Forall_forall. intros W HW. apply A in HW. apply HW.
    - intros W. split; auto.
  Qed.
  Theorem remainders_ok : forall p k alg resolute maxn, exact_arithmetic e alg -> party_lists p -> libraries_ok p rnd nx sv e -> valid_call p k resolute maxn ->
    answers (largest_remainders p k) resolute (limit maxn) (compute rnd nx e' "phragmen-enestroem" p (Z.of_nat k) None (args alg resolute maxn)).
  Proof using.
    intros p k alg resolute maxn Ha Hp HL Hc. pose proof Hc as (Hw & Hv & Hk & _). apply (answers_equiv (enestroem_winner p k)).
    - intros W. apply enestroem_apportions; auto. lia.
    - exact (listed_by_determined rnd nx sv e p k _ alg _ HL (b_enestroem e p k alg Ha) Hw Hv Hk resolute maxn Hc).
  Qed.
  Theorem whole_quotas_ok : forall p k id alg resolute maxn, listed_short e id alg -> party_lists p -> libraries_ok p rnd nx sv e -> valid_call p k resolute maxn ->
    answers (whole_quotas p k) resolute (limit maxn) (compute rnd nx e' id p (Z.of_nat k) None (args alg resolute maxn)).
  Proof using.
    intros p k id alg resolute maxn Ha Hp HL Hc. pose proof Hc as (Hw & Hv & Hk & _). destruct Ha as [id alg Ha Hid]. apply (answers_equiv (mes_winner p k (equal_share p k) no_completion)).
    - intros W. apply mes_whole_quotas; auto. lia.
    - exact (listed_by_determined rnd nx sv e p k _ alg _ HL (b_mes_short e p k id alg Ha Hid) Hw Hv Hk resolute maxn Hc).
  Qed.
End Calls.
