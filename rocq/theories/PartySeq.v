(** * Apportionment on party-list profiles: rules with loads and budgets (C85) *)
From Coq Require Import String.
From Coq Require Import List Arith Bool ZArith QArith Lia Lqa Permutation Sorted.
From Verif Require Import Milp RulesSolver SpecLoads SolverCompute SolverLex RulesMonroe RulesMore SolverMore.
From Verif Require Import Prelude Misc Common MiscProofs Preferences Scores ScoresProofs Rule Spec SpecRules Compute SpecCompute SpecSeq SpecAxioms
  SpecMonroe PhragmenProofs EnestroemProofs MesProofs MesFinal ComputeProofs ThieleProofs Guarantees Proportional ComputeAll SpecAll AllProofs Mono
  TieBreak SpecVary Vary VaryRuns VaryMes VaryAll Join Pareto SingleSeat SpecParty PartyLists PartyRules.
Import ListNotations.
Local Open Scope string_scope.
Open Scope nat_scope.
Local Open Scope list_scope.

Section PartySeq.
  Variable p : profile.
  Hypothesis Hw : wf p.
  Hypothesis Hp : party_lists p.
  Notation same := (same_party p).

  Lemma likes_same : forall i c d, i < length (voters p) -> likes p i c = true -> same c d = likes p i d.
  Proof using Hp. intros i c d Hi Hc. apply party_same; auto. apply the_voter_In. auto. Qed.

  (** a run whose choices are the parties' claims *)
  Section Runs.
    Variable m : nat -> nat -> Q.
    Hypothesis Hm : forall c d s, same c d = true -> (m c s == m d s)%Q.
    Hypothesis Hmono : forall c i j, 1 <= i -> i <= j -> (m c j <= m c i)%Q.
    Variable choice : list nat -> (nat -> Q) -> nat -> Prop.
    Variable update : list nat -> (nat -> Q) -> nat -> (nat -> Q) -> Prop.
    Variable Inv : list nat -> (nat -> Q) -> Prop.
    Hypothesis Hchoice : forall L x c, NoDup L -> Inv L x -> (choice L x c <-> best p m L c).
    Hypothesis Hupdate : forall L x c x', NoDup L -> Inv L x -> best p m L c -> update L x c x' -> Inv (c :: L) x'.
    Hypothesis Hsome : forall L x c, exists x', update L x c x'.

    Lemma run_filled : forall L0 x0 L x, NoDup L0 -> (forall x, agree p x x0 -> Inv L0 x) -> runs_from p choice update L0 x0 L x ->
      NoDup L /\ Inv L x /\ filled p m L0 L.
    Proof using Hchoice Hupdate.
      intros L0 x0 L x N0 H0 H. induction H as [x Hx|L x c x' H (N & I & F) Hc Hu].
      - split; auto. split; auto. constructor.
      - apply Hchoice in Hc; auto. split; [constructor; auto; apply Hc|]. split; [eapply Hupdate; eauto|]. constructor; auto.
    Qed.
    Lemma filled_run : forall L0 x0 L, NoDup L0 -> (forall x, agree p x x0 -> Inv L0 x) -> filled p m L0 L -> exists x, runs_from p choice update L0 x0 L x.
    Proof using Hchoice Hupdate Hsome.
      intros L0 x0 L N0 H0 H. induction H as [|L c H (x & Hx) Hc].
      - exists x0. constructor. intros i _. reflexivity.
      - destruct (run_filled L0 x0 L x N0 H0 Hx) as (N & I & _). destruct (Hsome L x c) as (x' & Hx'). exists x'. econstructor; eauto. apply Hchoice; auto.
    Qed.
    Lemma filled_longer : forall L0 L, filled p m L0 L -> incl L0 L.
    Proof using. intros L0 L H. induction H; [apply incl_refl|]. intros y Hy. right. auto. Qed.
    Lemma run_apportions : forall L0 x0 k W, NoDup L0 -> Forall (fun c => c < num_cand p) L0 -> fair p m L0 -> length L0 <= k -> (forall x, agree p x x0 -> Inv L0 x) ->
      (run_winner p choice update L0 x0 k W <-> is_committee p k W /\ fair p m W /\ incl L0 W).
    Proof using Hm Hmono Hchoice Hupdate Hsome.
      intros L0 x0 k W N0 R0 F0 Hk H0. split.
      - intros (L & x & HL & Hl & ->). destruct (run_filled L0 x0 L x N0 H0 HL) as (_ & _ & HF).
        destruct (filled_ok p m Hm Hmono L0 L N0 R0 F0 HF) as (N & R & F). split; [apply isort_committee; auto|]. split.
        + apply (fair_set p m L); auto; [eapply Permutation_NoDup; [apply isort_perm|auto]|]. intros z. symmetry. apply isort_In.
        + intros z Hz. apply isort_In. apply (filled_longer L0 L); auto.
      - intros (HC & F & HI). pose proof HC as (A & Hl & R).
        destruct (fill_up p m Hm Hmono W F (ascending_NoDup W A) R (k - length L0) L0 N0 HI) as (L & HL & N & HIL & Hl'); [lia|].
        destruct (filled_run L0 x0 L N0 H0 HL) as (x & Hx). exists L, x. split; auto. split; [lia|]. apply isort_of_full; auto.
    Qed.
  End Runs.

  Notation dh := (claim p pav_w).

  Lemma Qdiv_claim : forall a b s t, (0 < a)%Q -> (0 < b)%Q -> (Qnat (S s) / a <= Qnat (S t) / b)%Q <-> (b * pav_w (S t) <= a * pav_w (S s))%Q.
  Proof using.
    intros a b s t Ha Hb. unfold pav_w. assert (Hs : (0 < Qnat (S s))%Q) by (apply Qnat_pos; lia). assert (Ht : (0 < Qnat (S t))%Q) by (apply Qnat_pos; lia).
    assert (E1 : (Qnat (S s) / a <= Qnat (S t) / b)%Q <-> (Qnat (S s) * b <= Qnat (S t) * a)%Q).
    { split; intros H.
      - apply (Qmult_le_compat_r _ _ (a * b)) in H; [|nra]. assert (X : (Qnat (S s) / a * (a * b) == Qnat (S s) * b)%Q) by (field; lra).
        assert (Y : (Qnat (S t) / b * (a * b) == Qnat (S t) * a)%Q) by (field; lra). lra.
      - apply Qle_shift_div_r; auto. assert (Y : (Qnat (S t) / b * a == (Qnat (S t) * a) / b)%Q) by (field; lra). rewrite Y. apply Qle_shift_div_l; auto. }
    assert (E2 : (b * (1 / Qnat (S t)) <= a * (1 / Qnat (S s)))%Q <-> (Qnat (S s) * b <= Qnat (S t) * a)%Q).
    { split; intros H.
      - apply (Qmult_le_compat_r _ _ (Qnat (S s) * Qnat (S t))) in H; [|nra]. assert (X : (b * (1 / Qnat (S t)) * (Qnat (S s) * Qnat (S t)) == Qnat (S s) * b)%Q) by (field; lra).
        assert (Y : (a * (1 / Qnat (S s)) * (Qnat (S s) * Qnat (S t)) == Qnat (S t) * a)%Q) by (field; lra). lra.
      - assert (X : (b * (1 / Qnat (S t)) == b / Qnat (S t))%Q) by (field; lra). assert (Y : (a * (1 / Qnat (S s)) == a / Qnat (S s))%Q) by (field; lra). rewrite X, Y.
        apply Qle_shift_div_l; auto. assert (Z : (b / Qnat (S t) * Qnat (S s) == (Qnat (S s) * b) / Qnat (S t))%Q) by (field; lra). rewrite Z. apply Qle_shift_div_r; auto. lra. }
    tauto.
  Qed.

  (** ** sequential Phragmén; all loads may start at [- o] *)
  Definition load_inv (o : Q) (L : list nat) (x : nat -> Q) : Prop :=
    forall i c, i < length (voters p) -> likes p i c = true -> (x i == Qnat (seats p L c) / support p c - o)%Q.
  Lemma fans_support : forall c i, In i (fans p c) -> (0 < support p c)%Q.
  Proof using Hw. intros c i Hi. apply support_pos; auto. intros E. rewrite E in Hi. contradiction. Qed.
  Lemma party_load : forall o L x c, load_inv o L x -> fans p c <> [] -> (new_load p x c == Qnat (S (seats p L c)) / support p c - o)%Q.
  Proof using Hw.
    intros o L x c I Hf. pose proof (proj2 (support_pos p Hw c) Hf) as Hs. unfold new_load.
    assert (E : (sum (fans p c) (fun i => w p i * x i) == (Qnat (seats p L c) / support p c - o) * support p c)%Q).
    { rewrite support_fans at 2. rewrite <- sum_scal. apply sum_ext. intros i Hi. apply in_fans in Hi as [Hi Hl]. rewrite (I i c Hi Hl). ring. }
    rewrite E, <- support_fans, Qnat_S. field. lra.
  Qed.
  Lemma phragmen_claims : forall o L x c, NoDup L -> load_inv o L x -> (phragmen_choice p L x c <-> best p dh L c).
  Proof using Hw.
    intros o L x c N I. assert (S0 : forall d, fans p d = [] -> (support p d == 0)%Q) by (intros d E; rewrite support_fans, E; reflexivity).
    assert (P0 : forall s, (0 < pav_w (S s))%Q) by (intros s; apply pav_pos; lia).
    assert (D : forall d, fans p d = [] \/ fans p d <> []) by (intros d; destruct (fans p d); [left; auto|right; discriminate]).
    unfold phragmen_choice, best, claim. destruct (D c) as [Ec|Ec].
    - rewrite Ec. cbn [length Nat.ltb Nat.leb]. split; intros [Hc H]; (split; auto); intros d Hd; specialize (H d Hd).
      + rewrite (S0 c Ec), (S0 d H). lra.
      + destruct (D d) as [E|E]; auto. exfalso. apply (support_pos p Hw) in E. rewrite (S0 c Ec) in H. pose proof (P0 (seats p L d)). nra.
    - assert (B : (0 <? length (fans p c)) = true) by (apply Nat.ltb_lt; destruct (fans p c); [contradiction|cbn; lia]). rewrite B.
      pose proof (proj2 (support_pos p Hw c) Ec) as Hsc. split; intros [Hc H]; (split; auto); intros d Hd.
      + destruct (D d) as [E|E]; [rewrite (S0 d E); pose proof (P0 (seats p L c)); nra|].
        pose proof (proj2 (support_pos p Hw d) E) as Hsd. specialize (H d Hd E). rewrite !(party_load o L x) in H by auto. apply Qdiv_claim; auto. lra.
      + intros E. pose proof (proj2 (support_pos p Hw d) E) as Hsd. specialize (H d Hd). rewrite !(party_load o L x) by auto. apply Qdiv_claim in H; auto. lra.
  Qed.
  Lemma phragmen_inv : forall o L x c x', NoDup L -> load_inv o L x -> phragmen_update p L x c x' -> load_inv o (c :: L) x'.
  Proof using Hw Hp.
    intros o L x c x' N I Hu i d Hi Hd. rewrite (Hu i Hi), seats_cons. rewrite (likes_same i d c Hi Hd). destruct (likes p i c) eqn:E.
    - assert (Ef : fans p c <> []). { intros E'. assert (In i (fans p c)) by (apply in_fans; auto). rewrite E' in H. contradiction. }
      rewrite (party_load o L x c I Ef). assert (Es : same d c = true) by (rewrite (likes_same i d c Hi Hd); auto).
      rewrite (seats_same p L d c Es), (same_support p d c Es). reflexivity.
    - cbn. apply I; auto.
  Qed.
  Lemma phragmen_run_apportions : forall o L0 x0 k W, NoDup L0 -> Forall (fun c => c < num_cand p) L0 -> fair p dh L0 -> length L0 <= k -> load_inv o L0 x0 ->
    (run_winner p (phragmen_choice p) (phragmen_update p) L0 x0 k W <-> is_committee p k W /\ fair p dh W /\ incl L0 W).
  Proof using Hw Hp.
    intros o L0 x0 k W N0 R0 F0 Hk H0. apply (run_apportions dh (claim_same p pav_w) (claim_mono p Hw pav_w pav_antitone) _ _ (load_inv o)); auto.
    - intros L x c N I. apply (phragmen_claims o); auto.
    - intros L x c x' N I _ Hu. eapply phragmen_inv; eauto.
    - intros L x c. eexists. intros i _. reflexivity.
    - intros x Hx i c Hi Hl. rewrite (Hx i Hi). auto.
  Qed.
  Theorem phragmen_apportions : forall k W, phragmen_winner p k W <-> highest_averages pav_w p k W.
  Proof using Hw Hp.
    intros k W. rewrite (ha_fair p pav_w). unfold phragmen_winner. rewrite (phragmen_run_apportions 0).
    - split; [tauto|]. intros [A B]. repeat split; auto; try apply A. intros x [].
    - constructor.
    - constructor.
    - intros c d [].
    - cbn. lia.
    - intros i c Hi Hl. assert (Hs : (0 < support p c)%Q) by (apply (fans_support c i); apply in_fans; auto). change (Qnat (seats p [] c)) with 0%Q. field. lra.
  Qed.

  (** ** Method of Equal Shares *)
  Hypothesis Hv : voters p <> [].
  Variable k : nat.
  Hypothesis Hk : 1 <= k.
  Notation T := (wsum (voters p)).
  (** what is left of the budget of a voter of [c]'s party, per weight *)
  Definition left_over (L : list nat) (c : nat) : Q := (Qnat k / T - Qnat (seats p L c) / support p c)%Q.
  Definition budget_inv (L : list nat) (b : nat -> Q) : Prop :=
    forall i c, i < length (voters p) -> likes p i c = true -> (b i == w p i * left_over L c)%Q.
  Lemma party_purse : forall L b c, budget_inv L b -> fans p c <> [] -> (purse p b c == support p c * Qnat k / T - Qnat (seats p L c))%Q.
  Proof using Hw Hv.
    intros L b c I Hf. pose proof (proj2 (support_pos p Hw c) Hf) as Hs. pose proof (wsum_pos p Hw Hv) as HT. unfold purse.
    assert (E : (sum (fans p c) b == left_over L c * support p c)%Q).
    { rewrite support_fans. rewrite <- sum_scal. apply sum_ext. intros i Hi. apply in_fans in Hi as [Hi Hl]. rewrite (I i c Hi Hl). ring. }
    rewrite E. unfold left_over. field. lra.
  Qed.
  Lemma party_price : forall L b c rho, budget_inv L b -> price_of p b c rho -> (rho == / support p c)%Q /\ (rho <= left_over L c)%Q.
  Proof using Hw Hv.
    intros L b c rho I HP. pose proof (price_purse p b c rho HP) as H1.
    assert (Ef : fans p c <> []). { intros E. unfold purse in H1. rewrite E in H1. unfold sum in H1. cbn in H1. lra. }
    pose proof (proj2 (support_pos p Hw c) Ef) as Hs. rewrite (party_purse L b c I Ef) in H1. pose proof (wsum_pos p Hw Hv) as HT.
    assert (H2 : (/ support p c <= left_over L c)%Q).
    { unfold left_over. assert (E : (Qnat k / T - Qnat (seats p L c) / support p c == (support p c * Qnat k / T - Qnat (seats p L c)) / support p c)%Q) by (field; lra).
      rewrite E. apply Qle_shift_div_l; auto. assert (E' : (/ support p c * support p c == 1)%Q) by (field; lra). lra. }
    assert (HP' : price_of p b c (/ support p c)).
    { assert (E : forall r, (r <= left_over L c)%Q -> (collected p b c r == r * support p c)%Q).
      { intros r Hr. unfold collected. rewrite support_fans, <- sum_scal. apply sum_ext. intros i Hi. apply in_fans in Hi as [Hi Hl]. pose proof (w_pos p i Hw Hi).
        apply Qmin_r. rewrite (I i c Hi Hl). nra. }
      assert (E' : (/ support p c * support p c == 1)%Q) by (field; lra). split; [rewrite E by auto; auto|].
      intros r Hr. rewrite E by lra. nra. }
    pose proof (price_unique p b c _ _ HP HP') as E. split; auto. rewrite E. auto.
  Qed.
  Lemma mes_inv : forall L b c b', budget_inv L b -> mes_update p L b c b' -> budget_inv (c :: L) b'.
  Proof using Hw Hv Hp.
    intros L b c b' I (rho & HP & Hu) i d Hi Hd. destruct (party_price L b c rho I HP) as [E1 E2]. rewrite (Hu i Hi). unfold left_over. rewrite seats_cons, (likes_same i d c Hi Hd).
    destruct (likes p i c) eqn:E.
    - assert (Es : same d c = true) by (rewrite (likes_same i d c Hi Hd); auto). pose proof (w_pos p i Hw Hi).
      rewrite Qmin_r by (rewrite (I i c Hi E); nra). rewrite (I i c Hi E). rewrite (seats_same p L d c Es), (same_support p d c Es).
      assert (Hs : (0 < support p c)%Q) by (apply (fans_support c i); apply in_fans; auto). pose proof (wsum_pos p Hw Hv). rewrite E1. unfold left_over.
      change (1 + seats p L c)%nat with (S (seats p L c)). rewrite Qnat_S. field. lra.
    - cbn. apply (I i d Hi Hd).
  Qed.
  Lemma mes_run_inv : forall L b, runs_from p (mes_choice p) (mes_update p) [] (equal_share p k) L b ->
    budget_inv L b /\ NoDup L /\ Forall (fun c => c < num_cand p) L /\
    (forall c, In c L -> (0 < support p c)%Q /\ (Qnat (seats p L c) * T <= support p c * Qnat k)%Q).
  Proof using Hw Hv Hp.
    intros L b H. pose proof (wsum_pos p Hw Hv) as HT. induction H as [b Hb|L b c b' H (I & N & R & Hq) Hc Hu].
    - split; [|split; [constructor|split; [constructor|intros c []]]]. intros i c Hi Hl. assert (Hs : (0 < support p c)%Q) by (apply (fans_support c i); apply in_fans; auto).
      rewrite (Hb i Hi). unfold equal_share, left_over. change (Qnat (seats p [] c)) with 0%Q. field. lra.
    - pose proof Hc as [[Hc1 Hc2] _]. split; [eapply mes_inv; eauto|]. split; [constructor; auto|]. split; [constructor; auto|].
      destruct (mes_choice_price p L b c Hc) as [_ H1].
      assert (Ef : fans p c <> []). { intros E. unfold purse in H1. rewrite E in H1. unfold sum in H1. cbn in H1. lra. }
      pose proof (proj2 (support_pos p Hw c) Ef) as Hs. rewrite (party_purse L b c I Ef) in H1.
      assert (Hc' : (Qnat (S (seats p L c)) * T <= support p c * Qnat k)%Q).
      { rewrite Qnat_S. assert (E : (support p c * Qnat k / T * T == support p c * Qnat k)%Q) by (field; lra). nra. }
      intros d Hd. rewrite seats_cons. destruct (same d c) eqn:Es.
      + rewrite (seats_same p L d c Es), (same_support p d c Es). split; auto.
      + cbn. apply Hq. destruct Hd as [<-|Hd]; auto. rewrite same_refl in Es. discriminate.
  Qed.
  Lemma mes_over : forall L b, mes_ends p k (equal_share p k) L b -> mes_stuck p L b.
  Proof using Hw Hv Hk.
    intros L b [H [El|[_ Hs]]]; auto. intros c _.
    assert (H0 : forall i, i < length (voters p) -> (0 <= equal_share p k i)%Q) by (intros i Hi; apply equal_share_nonneg; auto).
    pose proof (run_total p Hw _ L b H H0) as Ht. rewrite (start_total p Hw Hv k), El in Ht. pose proof (run_nonneg p _ L b H H0) as Hn.
    assert (sum (fans p c) b <= sum (voter_ids p) b)%Q; [|unfold purse; lra].
    apply sum_incl_le; [apply fans_NoDup|apply voter_ids_NoDup|intros i Hi; apply in_fans in Hi as [Hi _]; apply in_voter_ids; auto|].
    intros i Hi. apply Hn, in_voter_ids. auto.
  Qed.

  Lemma quota_ratio : forall s, 1 <= s -> forall a, (0 <= a)%Q -> (a * pav_w s == a / Qnat s)%Q.
  Proof using. clear. intros s Hs a Ha. unfold pav_w. assert (0 < Qnat s)%Q by (apply Qnat_pos; lia). field. lra. Qed.
  Lemma mes_fair : forall L b, mes_ends p k (equal_share p k) L b -> fair p dh L.
  Proof using Hw Hv Hk Hp.
    intros L b HE c d Hc Hd Hn. pose proof (mes_over L b HE) as Hs. destruct HE as [HR _]. destruct (mes_run_inv L b HR) as (I & N & R & Hq).
    destruct (Hq c Hc) as [Hsc Hqc]. pose proof (wsum_pos p Hw Hv) as HT. assert (HK : (0 < Qnat k)%Q) by (apply Qnat_pos; lia).
    assert (Hsp : 1 <= seats p L c) by (apply (seats_in p L c c); auto; apply same_refl). unfold claim.
    assert (H1 : (T / Qnat k <= support p c * pav_w (seats p L c))%Q).
    { rewrite quota_ratio by (auto; lra). assert (0 < Qnat (seats p L c))%Q by (apply Qnat_pos; lia). apply Qle_shift_div_l; auto.
      assert (E : (T / Qnat k * Qnat (seats p L c) == (Qnat (seats p L c) * T) / Qnat k)%Q) by (field; lra). rewrite E. apply Qle_shift_div_r; auto. }
    assert (H2 : (support p d * pav_w (S (seats p L d)) <= T / Qnat k)%Q); [|lra].
    assert (D : fans p d = [] \/ fans p d <> []) by (destruct (fans p d); [left; auto|right; discriminate]). destruct D as [E|E].
    - assert (support p d == 0)%Q by (rewrite support_fans, E; reflexivity). rewrite H. apply Qle_shift_div_l; auto. lra.
    - specialize (Hs d (conj Hd Hn)). rewrite (party_purse L b d I E) in Hs. pose proof (proj2 (support_pos p Hw d) E) as Hsd.
      rewrite quota_ratio by (lia || lra). assert (0 < Qnat (S (seats p L d)))%Q by (apply Qnat_pos; lia). apply Qle_shift_div_r; auto.
      assert (E2 : (T / Qnat k * Qnat (S (seats p L d)) == (Qnat (S (seats p L d)) * T) / Qnat k)%Q) by (field; lra). rewrite E2. apply Qle_shift_div_l; auto.
      rewrite Qnat_S. assert (E1 : (support p d * Qnat k / T * T == support p d * Qnat k)%Q) by (field; lra). nra.
  Qed.
  Lemma completion_loads : forall L b, budget_inv L b -> load_inv (Qnat k / T) L (fun i => - b i / w p i)%Q.
  Proof using Hw Hv.
    intros L b I i c Hi Hl. rewrite (I i c Hi Hl). pose proof (w_pos p i Hw Hi). assert (Hs : (0 < support p c)%Q) by (apply (fans_support c i); apply in_fans; auto).
    pose proof (wsum_pos p Hw Hv). unfold left_over. field. lra.
  Qed.

  Lemma same_fans : forall c d, same c d = true -> fans p c = fans p d.
  Proof using.
    intros c d H. rewrite same_iff in H. unfold fans. apply filter_ext_in. intros i Hi. apply H. apply the_voter_In. apply in_voter_ids. auto.
  Qed.
  Lemma same_choice : forall L b c d, same c d = true -> ~ In d L -> d < num_cand p -> mes_choice p L b c -> mes_choice p L b d.
  Proof using.
    intros L b c d E Hn Hd (_ & rho & HP & HB). split; [split; auto|]. exists rho. split; auto. unfold price_of, collected in *. rewrite <- (same_fans c d E). auto.
  Qed.
  Lemma dhondt_lower_quota : forall W, highest_averages pav_w p k W -> lower_quota p k W.
  Proof using Hw Hv Hk Hp.
    intros W HW. pose proof HW as [(A & Hl & R) _]. apply (thiele_apportions p Hw Hp pav_w pav_antitone) in HW. intros c Hc Hn.
    pose proof (wsum_pos p Hw Hv) as HT. assert (HK : (0 < Qnat k)%Q) by (apply Qnat_pos; lia).
    apply Qnot_le_lt. intros H. assert (HQ : EJR_plus p (T / Qnat k)%Q W).
    { apply (pav_EJR_plus p k W); auto. assert (E : (Qnat (k + 1) * (T / Qnat k) == T + T / Qnat k)%Q). { replace (k + 1) with (S k) by lia. rewrite Qnat_S. field. lra. }
      rewrite E. assert (0 < T / Qnat k)%Q by (apply Qlt_shift_div_l; lra). lra. }
    assert (Hf : fans p c <> []).
    { apply (support_pos p Hw). assert (0 < Qnat (S (seats p W c)))%Q by (apply Qnat_pos; lia). nra. }
    destruct (HQ (fans p c) (S (seats p W c)) c) as (i & Hi & Hi').
    - split; auto. split; [apply fans_NoDup|]. apply Forall_forall. intros i Hi. apply in_fans in Hi as [Hi _]. auto.
    - lia.
    - unfold deserves. change (gweight p (fans p c)) with (sum (fans p c) (w p)). rewrite <- support_fans.
      assert (E : (Qnat (S (seats p W c)) * (T / Qnat k) == (Qnat (S (seats p W c)) * T) / Qnat k)%Q) by (field; lra). rewrite E. apply Qle_shift_div_r; auto.
    - auto.
    - auto.
    - intros i d Hi [<-|[]]. apply in_fans in Hi as [_ Hi]. apply mem_In. exact Hi.
    - apply in_fans in Hi as [Hi Hlk]. pose proof (util_seats p Hw Hp (the_voter p i) c W (the_voter_In p i Hi) (ascending_NoDup W A) Hlk) as E.
      change (approves_in p i W) with (util (the_voter p i) W) in Hi'. lia.
  Qed.
  Lemma mes_within : forall W, ascending W -> Forall (fun c => c < num_cand p) W -> lower_quota p k W -> forall n L b, runs_from p (mes_choice p) (mes_update p) [] (equal_share p k) L b -> incl L W -> length L <= k -> k - length L <= n ->
    exists L' b', mes_ends p k (equal_share p k) L' b' /\ incl L' W.
  Proof using Hw Hv Hk Hp.
    intros W A R HQ. pose proof (wsum_pos p Hw Hv) as HT.
    induction n as [|n IH]; intros L b HR HI Hk1 Hn.
    - exists L, b. split; auto. split; auto. left. lia.
    - destruct (Nat.eq_dec (length L) k) as [E|E]; [exists L, b; split; auto; split; auto|].
      destruct (mes_progress p L b Hw) as [[c Hc]|Hs]; [|exists L, b; split; auto; split; auto; right; split; auto; lia].
      destruct (mes_run_inv L b HR) as (I & N & RL & _).
      assert (Hy : exists y, In y W /\ ~ In y L /\ same c y = true).
      { pose proof Hc as [[Hc1 Hc2] _]. destruct (in_dec Nat.eq_dec c W) as [Hcw|Hcw]; [exists c; split; auto; split; auto; apply same_refl|].
        apply seats_more; [apply ascending_NoDup; auto|]. specialize (HQ c Hc1 Hcw). destruct (mes_choice_price p L b c Hc) as [_ H1].
        assert (Ef : fans p c <> []). { intros Ef. unfold purse in H1. rewrite Ef in H1. unfold sum in H1. cbn in H1. lra. }
        rewrite (party_purse L b c I Ef) in H1.
        assert (H2 : (Qnat (S (seats p L c)) * T < Qnat (S (seats p W c)) * T)%Q).
        { rewrite Qnat_S at 1. assert (E' : (support p c * Qnat k / T * T == support p c * Qnat k)%Q) by (field; lra). nra. }
        apply Qmult_lt_r in H2; auto. apply Qnat_lt in H2. lia. }
      destruct Hy as (y & Hy & Hyn & Ey). rewrite Forall_forall in R.
      assert (Hcy : mes_choice p L b y) by (eapply same_choice; eauto). destruct (mes_update_exists p L b y Hcy) as (b' & Hb').
      apply (IH (y :: L) b').
      + econstructor; eauto.
      + intros z [<-|Hz]; auto.
      + cbn. lia.
      + cbn. lia.
  Qed.
  Theorem mes_apportions : k <= num_cand p -> forall W, mes_winner p k (equal_share p k) (phragmen_completion p k) W <-> highest_averages pav_w p k W.
  Proof using Hw Hv Hk Hp.
    intros Hkm W. split.
    - intros (L & b & HE & H1 & H2). pose proof (mes_fair L b HE) as F. pose proof HE as [HR HL]. destruct (mes_run_inv L b HR) as (I & N & R & _). apply ha_fair.
      destruct HL as [HL|[HL _]].
      + rewrite (H1 HL). split; [apply isort_committee; auto|]. apply (fair_set p dh L); auto; [eapply Permutation_NoDup; [apply isort_perm|auto]|]. intros z. symmetry. apply isort_In.
      + specialize (H2 HL). unfold phragmen_completion in H2. apply (phragmen_run_apportions (Qnat k / T)) in H2; auto; [tauto|lia|apply completion_loads; auto].
    - intros HW. pose proof HW as [(A0 & _ & R0) _]. destruct (mes_within W A0 R0 (dhondt_lower_quota W HW) k [] (equal_share p k)) as (L & b & HE & HI).
      + constructor. intros i _. reflexivity.
      + intros x [].
      + cbn. lia.
      + cbn. lia.
      + pose proof (mes_fair L b HE) as F. pose proof HE as [HR HL]. destruct (mes_run_inv L b HR) as (I & N & R & _). apply ha_fair in HW. destruct HW as [HC HF]. pose proof HC as (A & Hl & _).
        exists L, b. split; auto. split.
        * intros El. apply isort_of_full; auto. lia.
        * intros El. unfold phragmen_completion. apply (phragmen_run_apportions (Qnat k / T)); auto; [lia|apply completion_loads; auto].
  Qed.
  Theorem mes_whole_quotas : forall W, mes_winner p k (equal_share p k) no_completion W <-> whole_quotas p k W.
  Proof using Hw Hv Hk Hp.
    intros W. pose proof (wsum_pos p Hw Hv) as HT.
    assert (Q1 : forall L b c, mes_ends p k (equal_share p k) L b -> budget_inv L b -> c < num_cand p -> ~ In c L -> (support p c * Qnat k < Qnat (S (seats p L c)) * T)%Q).
    { intros L b c HE I Hc Hn. pose proof (mes_over L b HE c (conj Hc Hn)) as H1.
      assert (D : fans p c = [] \/ fans p c <> []) by (destruct (fans p c); [left; auto|right; discriminate]). destruct D as [E|E].
      - assert (E0 : (support p c == 0)%Q) by (rewrite support_fans, E; reflexivity). rewrite E0. assert (0 < Qnat (S (seats p L c)))%Q by (apply Qnat_pos; lia). nra.
      - rewrite (party_purse L b c I E) in H1. rewrite Qnat_S. assert (E' : (support p c * Qnat k / T * T == support p c * Qnat k)%Q) by (field; lra). nra. }
    split.
    - intros (L & b & HE & H1 & H2). pose proof HE as [HR HL]. destruct (mes_run_inv L b HR) as (I & N & R & Hq).
      assert (E : W = isort L) by (destruct HL as [HL|[HL _]]; auto; apply H2; auto). clear H1 H2.
      assert (Es : forall c, seats p W c = seats p L c). { intros c. rewrite E. apply seats_set; auto; [eapply Permutation_NoDup; [apply isort_perm|auto]|]. intros x. apply isort_In. }
      refine (conj _ (conj _ (conj _ _))).
      + rewrite E. apply isort_ascending. auto.
      + rewrite E. apply Forall_forall. intros x Hx. rewrite isort_In in Hx. rewrite Forall_forall in R. auto.
      + intros c Hc. rewrite Es. apply Hq. rewrite E, isort_In in Hc. auto.
      + intros c Hc Hn. rewrite Es. apply (Q1 L b c); auto. intros Hc'. apply Hn. rewrite E. apply isort_In. auto.
    - intros (A & R & HQ & HL). destruct (mes_within W A R HL k [] (equal_share p k)) as (L & b & HE & HI).
      + constructor. intros i _. reflexivity.
      + intros x [].
      + cbn. lia.
      + cbn. lia.
      + pose proof HE as [HR HLk]. destruct (mes_run_inv L b HR) as (I & N & RL & Hq).
        assert (HI' : incl W L).
        { intros y Hy. destruct (in_dec Nat.eq_dec y L) as [H|H]; auto. exfalso. rewrite Forall_forall in R. pose proof (Q1 L b y HE I (R y Hy) H) as H1. pose proof (HQ y Hy) as H2.
          assert (H3 : S (seats p L y) <= seats p W y) by (apply (seats_lt p L W y y); auto; apply same_refl). apply Qnat_le in H3. nra. }
        assert (E : W = isort L). { rewrite <- (isort_id W A). apply isort_set_eq; auto; [apply ascending_NoDup; auto|]. intros x. split; auto. }
        exists L, b. split; auto.
  Qed.
End PartySeq.
