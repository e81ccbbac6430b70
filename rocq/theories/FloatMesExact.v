(** * Method of Equal Shares with "float-fractions" and integer weights: the result of exact arithmetic *)
From Coq Require Import String.
From Coq Require Import List Arith Bool ZArith QArith Qabs Qround Lia Lqa Permutation Sorted.
From Verif Require Import Prelude Misc MiscProofs Preferences Scores Spec ScoresProofs Search RulesThiele
  Common ThieleProofs SpecRules SpecSeq RulesSeq RulesMes SeqProofs PhragmenProofs EnestroemProofs MesProofs MesFinal Floats RulesFloat FloatSearch FloatStruct SpecFloat SpecFloatMore FloatBounds FloatPhragmen FloatMesRun FloatIncrement FloatExact FloatAbs FloatConsensus FloatEnestroem FloatNear FloatMesQ.
Import ListNotations.
Open Scope Q_scope.

(** ** Two searches with completion that see the same candidates *)
Section PoolSim.
  Context {S T : Type} (R : S -> T -> Prop).
  Inductive same_expansion : expansion S -> expansion T -> Prop :=
  | same_branch : forall cs ds, Forall2 (same_child R) cs ds -> same_expansion (Branch cs) (Branch ds)
  | same_finish : forall ws, same_expansion (Finish ws) (Finish ws).
  Variables (e1 : S -> result (expansion S)) (e2 : T -> result (expansion T)).
  Hypothesis step : forall s t, R s t -> (exists x, e1 s = Err x /\ e2 t = Err x) \/ exists cs ds, e1 s = Ok cs /\ e2 t = Ok ds /\ same_expansion cs ds.
  Lemma pool_sim : forall maxn fuel st1 st2 win, Forall2 R st1 st2 -> pool_loop e1 maxn fuel st1 win = pool_loop e2 maxn fuel st2 win.
  Proof using step.
    intros maxn. induction fuel as [|fuel IH]; intros st1 st2 win H.
    - destruct H; reflexivity.
    - destruct H as [|s t st1 st2 Hst H]; [reflexivity|]. cbn [pool_loop].
      destruct (step s t Hst) as [(x & -> & ->)|(cs & ds & -> & -> & Hcd)]; cbn [rbind]; [reflexivity|].
      destruct Hcd as [cs ds Hcd|ws].
      + destruct (process_sim R maxn cs ds win Hcd) as (ps & qs & win' & stop & -> & -> & HR).
        assert (HF : Forall2 R (ps ++ st1) (qs ++ st2)) by (apply Forall2_app; auto).
        destruct stop; auto. destruct maxn as [m|]; [destruct (m <=? length win')%nat; auto|]; apply IH; auto.
      + destruct maxn as [m|]; [destruct (m <=? _)%nat; auto|]; apply IH; auto.
  Qed.
End PoolSim.

Section Exact.
  Variable A : arith.
  Hypothesis HA : float_ok A.
  Variables (p : profile) (k K N : nat).
  Hypothesis Hw : wf p.
  Hypothesis Hint : integer_weights p.
  Hypothesis HN : wsum (voters p) <= Qnat N.
  Hypothesis Hv : voters p <> [].
  Hypothesis Hk1 : (1 <= k)%nat.
  Hypothesis Hsmall : small_shares p k K.
  Hypothesis Hclear : clear_shares k K N.
  Local Notation ids := (voter_ids p).
  Local Notation step := (share_step p K).

  Definition shares_rel (C : list nat) (a : list Q) (f : list num) : Prop :=
    MGood p C a /\ sum ids (nthQ a) <= Qnat K /\ total_err p f (nthQ a) <= (Qnat (length C) + 1) * step /\
    exists D : Z, (1 <= D <= Z.of_nat N ^ (Z.of_nat (length C) + 1))%Z /\ forall i, (i < length (voters p))%nat -> is_int (nthQ a i * inject_Z D).

  Section One.
    Variables (C : list nat) (a : list Q) (f : list num).
    Hypothesis Hrel : shares_rel C a f.
    Hypothesis Hl : (length C < k)%nat.
    Lemma rel_state : exists D : Z, (forall i, (i < length (voters p))%nat -> 0 <= nthQ a i) /\ sum ids (nthQ a) <= Qnat K /\ total_err p f (nthQ a) <= Qnat k * step /\
      (1 <= D <= Z.of_nat N ^ (Z.of_nat (length C) + 1))%Z /\ (D * Z.of_nat N * Z.of_nat N * (2 * Z.of_nat K + 4) < 500000000000)%Z /\
      (forall i, (i < length (voters p))%nat -> is_int (nthQ a i * inject_Z D)).
    Proof using Hrel Hl Hw HN Hv Hk1 Hsmall Hclear.
      destruct Hrel as ((_ & _ & G0) & G1 & G2 & D & HD & HI). exists D. split; auto. split; auto. split; [|split; [auto|split; [|auto]]].
      - eapply Qle_trans; [exact G2|]. destruct (share_numbers p k K Hk1 Hsmall) as (_ & _ & _ & _ & _ & N6 & _). apply Qmult_le_compat_r; [|exact N6].
        rewrite <- Qnat_S. apply Qnat_le. lia.
      - pose proof (N_pos p N Hw HN Hv) as HN1. unfold clear_shares in Hclear.
        eapply Z.le_lt_trans; [|exact Hclear]. apply Z.mul_le_mono_nonneg_r; [lia|].
        transitivity (Z.of_nat N ^ (Z.of_nat (length C) + 1) * Z.of_nat N * Z.of_nat N)%Z; [nia|].
        transitivity (Z.of_nat N ^ (Z.of_nat (length C) + 3))%Z; [|apply Z.pow_le_mono_r; lia].
        replace (Z.of_nat (length C) + 3)%Z with (Z.succ (Z.succ (Z.of_nat (length C) + 1))) by lia. rewrite !Z.pow_succ_r by lia. lia.
    Qed.
    Lemma dict_same : forall cands, exists l m, f_min_q_dict A p f cands = Ok l /\ min_q_dict p a cands = Ok m /\ Forall2 (approximates (4000 * u)) l m /\
      forall y, In y m -> Qabs (snd y) <= Qnat K + 1 /\ exists R P, Permutation (R ++ P) (fans p (fst y)) /\ R <> [] /\ snd y * sum R (w p) == 1 - sum P (nthQ a).
    Proof using HA Hrel Hl Hw HN Hv Hk1 Hsmall Hclear Hint.
      destruct rel_state as (D & H0 & H1 & H2 & H3 & H4 & H5).
      induction cands as [|c cands IH]; [exists [], []; repeat split; try constructor; destruct H|].
      destruct IH as (l & m & El & Em & HF & Hm). cbn [f_min_q_dict min_q_dict]. rewrite El, Em.
      destruct (min_q_same A HA p k K N Hw Hint HN Hv Hk1 Hsmall a f D H0 H1 H2 (proj1 H3) H4 H5 c) as [[-> ->]|(q & R & P & HP & Hne & Hq & HR & HPo & -> & ->)]; cbn [rbind].
      - exists l, m. auto.
      - destruct (price_facts A HA p k K N Hw Hint HN Hk1 Hsmall a f H0 H1 H2 c R P q HP Hne Hq) as [F1 F2].
        exists ((c, loop_q A p f R P) :: l), ((c, q) :: m). split; auto. split; auto. split; [constructor; auto; split; auto|].
        intros y [<-|Hy]; auto. split; auto. exists R, P. auto.
    Qed.
    Lemma select_same : f_mes_select A p C f = mes_select p C a.
    Proof using HA Hrel Hl Hw HN Hv Hk1 Hsmall Hclear Hint.
      unfold f_mes_select, mes_select. destruct (dict_same (available p C)) as (l & m & -> & -> & HF & Hm). cbn [rbind].
      destruct HF as [|x y l m Hxy HF]; [reflexivity|]. set (l1 := x :: l) in *. set (m1 := y :: m) in *.
      destruct rel_state as (D & H0 & H1 & H2 & H3 & H4 & H5). destruct (share_numbers p k K Hk1 Hsmall) as (_ & _ & _ & _ & _ & _ & _ & N8 & _).
      destruct (min_entries_same A HA (4000 * u) (Qnat K + 1) l1 m1) as (mx & mn & E1 & E2 & _ & _ & _ & E3).
      - discriminate.
      - constructor; auto.
      - discriminate.
      - intros z Hz. apply Hm. auto.
      - exact N8.
      - intros z t Hz Ht Hlt. destruct (Hm z Hz) as (_ & R & P & G1 & G2 & G3). destruct (Hm t Ht) as (_ & R' & P' & G1' & G2' & G3').
        apply (prices_gap p k K N Hw Hint HN Hv Hk1 a D (proj1 H3) H4 H5 (fst z) R P (snd z) (fst t) R' P' (snd t)); auto.
      - rewrite E1, E2. cbn [rbind]. rewrite E3. reflexivity.
    Qed.
    Lemma next_rel : forall c, mes_choice p C (nthQ a) c -> shares_rel (C ++ [c]) (mes_next p C a c) (f_mes_next A p C f c).
    Proof using HA Hrel Hl Hw HN Hv Hk1 Hsmall Hclear Hint.
      intros c Hc. destruct Hrel as (HG & _ & HE & _). destruct rel_state as (D & H0 & H1 & H2 & H3 & H4 & H5).
      destruct (mes_next_ok p Hw C a c HG Hc) as [_ HG']. split; auto.
      destruct (min_q_same A HA p k K N Hw Hint HN Hv Hk1 Hsmall a f D H0 H1 H2 (proj1 H3) H4 H5 c) as [[E _]|(q & R & P & HP & Hne & Hq & HR & HPo & E1 & E2)].
      { exfalso. destruct (min_q_spec p a c Hw) as (r & Er & Hr). rewrite E in Er. injection Er as <-. apply mes_choice_price in Hc as [_ Hc]. lra. }
      split; [apply (after_sum p K N Hw Hint HN a H0 H1 C c q R P); auto|].
      rewrite app_length. cbn [length]. split.
      - pose proof (after_err A HA p k K N Hw Hint HN Hv Hk1 Hsmall a f D H0 H1 H2 (proj1 H3) H4 H5 C c q R P HP Hne Hq HR HPo E1 E2) as He.
        rewrite Nat.add_1_r, Qnat_S. rewrite (Qmult_plus_distr_l (Qnat (length C) + 1) 1), Qmult_1_l. lra.
      - destruct (after_int p N Hw Hint HN a D H5 C c q R P HP Hne Hq HR HPo E1) as (b & Hb & HI). exists (D * b)%Z. split; auto.
        replace (Z.of_nat (length C + 1) + 1)%Z with (Z.succ (Z.of_nat (length C) + 1)) by lia. rewrite Z.pow_succ_r by lia. nia.
    Qed.
  End One.

  Section Fill.
    Variables (ffill : list nat -> list num -> result (list (list nat))) (fill : list nat -> list Q -> result (list (list nat))) (resolute : bool).
    Hypothesis Hfill : forall C a f, shares_rel C a f -> (length C < k)%nat -> ffill C f = fill C a.
    Let Rel (s : list nat * list num) (t : list nat * list Q) := fst s = fst t /\ (length (fst t) < k)%nat /\ shares_rel (fst t) (snd t) (snd s).
    Lemma mes_expand_sim : forall s t, Rel s t ->
      (exists x, f_mes_expand A p k resolute ffill s = Err x /\ mes_expand p k resolute fill t = Err x) \/
      exists cs ds, f_mes_expand A p k resolute ffill s = Ok cs /\ mes_expand p k resolute fill t = Ok ds /\ same_expansion Rel cs ds.
    Proof using HA Hw HN Hv Hk1 Hsmall Hclear Hint Hfill.
      intros [C' f] [C a] (E & Hl & HR). cbn [fst snd] in E, Hl, HR. subst C'.
      unfold f_mes_expand, mes_expand. rewrite (select_same C a f HR Hl).
      destruct (mes_sel_ok p Hw C a (proj1 HR)) as (sel & Es & _ & Hsel & _). rewrite Es. cbn [rbind].
      destruct sel as [|c0 sel0].
      - rewrite (Hfill C a f HR Hl). destruct (fill C a) as [ws|x]; cbn [rbind]; [right|left; exists x; auto].
        eexists. eexists. split; [reflexivity|]. split; [reflexivity|]. constructor.
      - right. eexists. eexists. split; [reflexivity|]. split; [reflexivity|]. constructor.
        set (sel := c0 :: sel0) in *. assert (Hall : forall c, In c (if resolute then firstn 1 sel else sel) -> mes_choice p C (nthQ a) c).
        { intros c Hc. apply Hsel. destruct resolute; auto. simpl in Hc. destruct Hc as [<-|[]]. left. auto. }
        revert Hall. generalize (if resolute then firstn 1 sel else sel). intros l. induction l as [|c l IH]; intros Hall; [constructor|].
        cbn [map]. constructor; [|apply IH; intros d Hd; apply Hall; right; auto]. cbv zeta.
        destruct (Nat.eqb_spec (length (C ++ [c])) k) as [Hk|Hk]; [constructor|]. constructor. split; [reflexivity|]. cbn [fst snd].
        split; [rewrite app_length in *; cbn [length] in *; lia|]. apply next_rel; auto. apply Hall. left. auto.
    Qed.
    Theorem f_shares_exact : forall maxn fstart start, shares_rel [] start fstart ->
      f_equal_shares A p k resolute maxn ffill fstart = equal_shares p k resolute maxn fill start.
    Proof using HA Hw HN Hv Hk1 Hsmall Hclear Hint Hfill.
      intros maxn fstart start HR. unfold f_equal_shares, equal_shares. cbv zeta.
      rewrite (pool_sim Rel _ _ mes_expand_sim _ _ [([], fstart)] [([], start)]); [reflexivity|].
      constructor; [|constructor]. split; [reflexivity|]. split; [simpl; lia|exact HR].
    Qed.
  End Fill.
  Lemma fill_none_same : forall C a f, shares_rel C a f -> (length C < k)%nat -> f_fill_none C f = fill_none C a.
  Proof using. reflexivity. Qed.
  Lemma fill_av_same : forall C a f, shares_rel C a f -> (length C < k)%nat -> f_fill_av p k C f = fill_av p k C a.
  Proof using. reflexivity. Qed.

  (** ** Starting budgets *)
  Lemma total_int : exists b : Z, total_weight p == inject_Z b /\ (1 <= b <= Z.of_nat N)%Z.
  Proof using Hw Hint HN Hv.
    clear Hk1. assert (HI : is_int (wsum (voters p))).
    { apply (is_int_ext (sum ids (w p))); [symmetry; apply wsum_voter_ids|]. apply is_int_sum. intros i Hi. apply (w_int p Hint). apply in_voter_ids. auto. }
    destruct HI as (b & Hb). exists b. pose proof (wsum_pos p Hw Hv) as H0. pose proof (total_weight_eq p) as E. split; [rewrite E; auto|].
    rewrite Hb in H0, HN. change 0 with (inject_Z 0) in H0. rewrite <- Zlt_Qlt in H0. unfold Qnat in HN. rewrite <- Zle_Qle in HN. lia.
  Qed.
  (** budgets [start] of [w * m / W] in total [m] *)
  Lemma start_rel : forall start fstart m, (m <= K)%nat -> (forall i, (i < length (voters p))%nat -> nthQ start i == w p i * Qnat m / total_weight p) ->
    (forall i, (i < length (voters p))%nat -> Qabs (val (nth_num fstart i) - nthQ start i) <= 9 * u * nthQ start i) ->
    shares_rel [] start fstart.
  Proof using Hw Hint HN Hv Hk1 Hsmall.
    intros start fstart m Hm Hst Her. destruct total_int as (b & Hb & Hb1).
    assert (HbQ : 1 <= inject_Z b) by (change 1 with (inject_Z 1); rewrite <- Zle_Qle; lia).
    assert (Hpos : forall i, (i < length (voters p))%nat -> 0 <= nthQ start i).
    { intros i Hi. rewrite (Hst i Hi), Hb. apply Qle_shift_div_l; [lra|]. destruct (w_int p Hint i Hi) as [_ H1]. pose proof (Qnat_nonneg m). rewrite Qmult_0_l. apply Qmult_le_0_compat; lra. }
    assert (Hsum : sum ids (nthQ start) == Qnat m).
    { transitivity (sum ids (fun i => (Qnat m / total_weight p) * w p i)).
      - apply sum_ext. intros i Hi. apply in_voter_ids in Hi. rewrite (Hst i Hi), Hb. field. lra.
      - rewrite sum_scal. change (sum ids (fun i => w p i)) with (sum ids (w p)). rewrite <- wsum_voter_ids, <- total_weight_eq, Hb. field. lra. }
    assert (HmK : Qnat m <= Qnat K) by (apply Qnat_le; auto).
    split; [split; [constructor|split; [constructor|exact Hpos]]|]. split; [lra|]. split.
    - change (Qnat (length (@nil nat))) with 0. rewrite Qplus_0_l, Qmult_1_l.
      apply Qle_trans with (sum ids (fun i => 9 * u * nthQ start i)); [apply sum_le; intros i Hi; apply in_voter_ids in Hi; apply Her; auto|].
      rewrite sum_scal. change (sum ids (fun i => nthQ start i)) with (sum ids (nthQ start)). rewrite Hsum.
      destruct (share_numbers p k K Hk1 Hsmall) as (N1 & _ & N3 & _ & N5 & _). unfold share_step.
      assert (N9 : 0 <= Qnat (length (voters p)) * (u * (Qnat K + 1))) by (apply Qmult_le_0_compat; [lra|apply Qlt_le_weak; exact N5]).
      assert (9 * u * Qnat m <= 9 * u * (Qnat K + 1)) by (apply Qmult_le_l; [reflexivity|lra]). lra.
    - exists b. split; [change (Z.of_nat (length (@nil nat)) + 1)%Z with 1%Z; rewrite Z.pow_1_r; lia|]. intros i Hi.
      apply (is_int_ext (w p i * Qnat m)); [rewrite (Hst i Hi), Hb; field; lra|]. apply is_int_mult; [apply (w_int p Hint); auto|eexists; reflexivity].
  Qed.
  Lemma mes_start_rel : (k <= K)%nat -> shares_rel [] (mes_start p k) (f_mes_start A p k).
  Proof using HA Hw Hint HN Hv Hk1 Hsmall.
    intros HkK. apply (start_rel _ _ k HkK).
    - intros i Hi. unfold mes_start. rewrite nthQ_map_voters by auto. reflexivity.
    - intros i Hi. unfold mes_start, f_mes_start. rewrite nthQ_map_voters, nth_num_voters by auto.
      destruct total_int as (b & Hb & Hb1). assert (HbQ : 1 <= inject_Z b) by (change 1 with (inject_Z 1); rewrite <- Zle_Qle; lia).
      destruct (w_int p Hint i Hi) as [_ H1]. pose proof (Qnat_nonneg k) as Hk0. pose proof (total_exact A p HA) as HT. rewrite Hb in HT.
      change (weight (the_voter p i)) with (w p i). set (x := w p i * Qnat k). assert (Hx : 0 <= x) by (apply Qmult_le_0_compat; lra).
      pose proof (mul_err A HA (weight_num (the_voter p i)) (num_of_nat k)) as Hm. change (val (weight_num (the_voter p i))) with (w p i) in Hm. change (val (num_of_nat k)) with (Qnat k) in Hm.
      rewrite (Qabs_pos (w p i)), (Qabs_pos (Qnat k)) in Hm by lra. fold x in Hm. set (m := nmul A (weight_num (the_voter p i)) (num_of_nat k)) in *.
      assert (Htp : 0 < val (total_num A p)) by lra. pose proof (div_err A HA m (total_num A p) Htp) as Hd. rewrite HT in Hd. rewrite Hb.
      set (t := inject_Z b) in *. set (r := val (ndiv A m (total_num A p))) in *.
      assert (Hti : 0 <= / t) by (apply Qlt_le_weak, Qinv_lt_0_compat; lra).
      assert (E1 : Qabs (val m / t) == Qabs (val m) / t) by (unfold Qdiv; rewrite Qabs_Qmult, (Qabs_pos (/ t)) by auto; reflexivity).
      assert (E2 : Qabs (val m / t - x / t) == Qabs (val m - x) / t).
      { setoid_replace (val m / t - x / t) with ((val m - x) * / t) by (unfold Qdiv; ring). rewrite Qabs_Qmult, (Qabs_pos (/ t)) by auto. reflexivity. }
      rewrite E1 in Hd. pose proof (Qabs_le_of _ _ _ Hm) as L. rewrite (Qabs_pos x) in L by auto.
      assert (G1 : Qabs (val m) / t <= (x + 4 * u * x) / t) by (apply Qmult_le_compat_r; auto).
      assert (G2 : Qabs (val m - x) / t <= (4 * u * x) / t) by (apply Qmult_le_compat_r; auto).
      assert (G3 : (x + 4 * u * x) / t == x / t + 4 * u * (x / t)) by (unfold Qdiv; ring). assert (G4 : 4 * u * x / t == 4 * u * (x / t)) by (unfold Qdiv; ring).
      assert (Hy : 0 <= x / t) by (apply Qmult_le_0_compat; auto). set (y := x / t) in *.
      pose proof (Qabs_tri3 r (val m / t) y) as T.
      assert (G5 : 4 * u * (Qabs (val m) / t) <= 4 * u * (y + 4 * u * y)) by (apply Qmult_le_l; [reflexivity|lra]).
      assert (G6 : 4 * u * (y + 4 * u * y) == 4 * u * y + 16 * u * u * y) by ring.
      assert (G7 : 16 * u * u * y <= u * y) by (apply Qmult_le_compat_r; [qnum|auto]). lra.
  Qed.
  Lemma mes_start_increment_rel : forall m, (m <= K)%nat -> shares_rel [] (mes_start_increment p m) (f_mes_start_increment A p m).
  Proof using HA Hw Hint HN Hv Hk1 Hsmall.
    intros m HmK. apply (start_rel _ _ m HmK).
    - intros i Hi. unfold mes_start_increment. rewrite nthQ_map_voters by auto. change (weight (the_voter p i)) with (w p i). unfold Qdiv. ring.
    - intros i Hi. unfold mes_start_increment, f_mes_start_increment. rewrite nthQ_map_voters, nth_num_voters by auto.
      destruct total_int as (b & Hb & Hb1). assert (HbQ : 1 <= inject_Z b) by (change 1 with (inject_Z 1); rewrite <- Zle_Qle; lia).
      destruct (w_int p Hint i Hi) as [_ H1]. pose proof (Qnat_nonneg m) as Hm0. pose proof (total_exact A p HA) as HT.
      unfold nmul, arith_op. assert (Hkd : join_kind (kind_of (weight_num (the_voter p i))) (kind_of (mkNum KFrac (Qnat m / val (total_num A p)))) = KFrac).
      { unfold weight_num. destruct (weight_is_int _); reflexivity. }
      rewrite Hkd. cbn [val]. rewrite weight_num_val, HT. change (weight (the_voter p i)) with (w p i).
      setoid_replace (w p i * (Qnat m / total_weight p) - w p i * (Qnat m / total_weight p)) with 0 by ring. change (Qabs 0) with 0.
      apply Qmult_le_0_compat; [discriminate|]. apply Qmult_le_0_compat; [lra|]. rewrite Hb. apply Qle_shift_div_l; lra.
  Qed.
End Exact.

Section Rules.
  Variable A : arith.
  Hypothesis HA : float_ok A.
  Variables (p : profile) (k N : nat).
  Hypothesis Hw : wf p.
  Hypothesis Hint : integer_weights p.
  Hypothesis HN : wsum (voters p) <= Qnat N.
  Hypothesis Hv : voters p <> [].
  Hypothesis Hk1 : (1 <= k)%nat.
  Theorem f_mes_none_exact : small_shares p k k -> clear_shares k k N -> forall resolute maxn,
    f_equal_shares_rule A p k resolute maxn NoCompletion = equal_shares_rule p k resolute maxn NoCompletion.
  Proof using HA Hw Hint HN Hv Hk1.
    intros Hs Hc resolute maxn. unfold f_equal_shares_rule, equal_shares_rule.
    rewrite (f_shares_exact A HA p k k N Hw Hint HN Hv Hk1 Hs Hc f_fill_none fill_none resolute (fill_none_same p k k N) maxn _ (mes_start p k)); [reflexivity|].
    apply (mes_start_rel A HA p k k N); auto.
  Qed.
  Theorem f_mes_av_exact : small_shares p k k -> clear_shares k k N -> forall resolute maxn,
    f_equal_shares_rule A p k resolute maxn AvCompletion = equal_shares_rule p k resolute maxn AvCompletion.
  Proof using HA Hw Hint HN Hv Hk1.
    intros Hs Hc resolute maxn. unfold f_equal_shares_rule, equal_shares_rule.
    rewrite (f_shares_exact A HA p k k N Hw Hint HN Hv Hk1 Hs Hc (f_fill_av p k) (fill_av p k) resolute (fill_av_same p k k N) maxn _ (mes_start p k)); [reflexivity|].
    apply (mes_start_rel A HA p k k N); auto.
  Qed.
  Lemma increment_loop_same : forall K, small_shares p k K -> clear_shares k K N -> forall r m, (m + r <= K + 1)%nat -> f_increment_loop A p k r m = increment_loop p k r m.
  Proof using HA Hw Hint HN Hv Hk1.
    intros K Hs Hc. induction r as [|r IH]; intros m Hm; [reflexivity|]. cbn [f_increment_loop increment_loop].
    rewrite (f_shares_exact A HA p k K N Hw Hint HN Hv Hk1 Hs Hc f_fill_none fill_none true (fill_none_same p k K N) None _ (mes_start_increment p m)) by (apply (mes_start_increment_rel A HA p k K N); auto; lia).
    destruct (equal_shares p k true None fill_none (mes_start_increment p m)) as [cs|x]; cbn [rbind]; [|reflexivity].
    destruct (filter _ cs); [apply IH; lia|reflexivity].
  Qed.
  Theorem f_mes_increment_exact : small_shares p k (k * N) -> clear_shares k (k * N) N -> forall resolute maxn,
    f_equal_shares_rule A p k resolute maxn IncrementCompletion = equal_shares_rule p k resolute maxn IncrementCompletion.
  Proof using HA Hw Hint HN Hv Hk1.
    intros Hs Hc resolute maxn. unfold f_equal_shares_rule, equal_shares_rule, f_equal_shares_increment, equal_shares_increment.
    destruct (length (approved_candidates p) <? k)%nat; [reflexivity|].
    destruct (total_int p N Hw Hint HN Hv) as (b & Hb & Hb1).
    assert (E : Qnat k * total_weight p + 1 == inject_Z (Z.of_nat k * b + 1)) by (rewrite Hb, inject_Z_plus, inject_Z_mult; reflexivity).
    assert (E1 : Qceiling (Qnat k * val (total_num A p) + 1) = (Z.of_nat k * b + 1)%Z).
    { rewrite <- (Qceiling_Z (Z.of_nat k * b + 1)). apply Qceiling_comp. rewrite (total_exact A p HA). exact E. }
    assert (E2 : Qceiling (Qnat k * total_weight p + 1) = (Z.of_nat k * b + 1)%Z) by (rewrite <- (Qceiling_Z (Z.of_nat k * b + 1)); apply Qceiling_comp; exact E).
    rewrite E1, E2. rewrite (increment_loop_same (k * N) Hs Hc); [reflexivity|]. nia.
  Qed.
End Rules.
