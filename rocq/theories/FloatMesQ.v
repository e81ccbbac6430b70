(** * Method of Equal Shares with "float-fractions": the price of a candidate *)
From Coq Require Import String.
From Coq Require Import List Arith Bool ZArith QArith Qabs Lia Lqa Permutation Sorted.
From Verif Require Import Prelude Misc MiscProofs Preferences Scores Spec ScoresProofs Search RulesThiele
  Common ThieleProofs SpecRules SpecSeq RulesSeq RulesMes SeqProofs PhragmenProofs EnestroemProofs MesProofs Floats RulesFloat FloatSearch FloatStruct SpecFloat SpecFloatMore FloatBounds FloatPhragmen FloatMesRun FloatIncrement FloatExact FloatAbs FloatConsensus FloatEnestroem FloatNear.
Import ListNotations.
Open Scope Q_scope.

Section Parts.
  Variables (p : profile) (N : nat).
  Local Notation ids := (voter_ids p).
    Lemma part_sum : forall c R P (g : nat -> Q), Permutation (R ++ P) (fans p c) -> (forall i, (i < length (voters p))%nat -> 0 <= g i) ->
      0 <= sum R g /\ 0 <= sum P g /\ sum R g + sum P g <= sum ids g.
    Proof using.
      intros c R P g HP Hg.
      assert (Hin : forall i, In i (R ++ P) -> (i < length (voters p))%nat) by (intros i Hi; apply (Permutation_in i HP) in Hi; apply in_fans in Hi; tauto).
      split; [apply sum_nonneg; intros i Hi; apply Hg, Hin, in_app_iff; auto|]. split; [apply sum_nonneg; intros i Hi; apply Hg, Hin, in_app_iff; auto|].
      rewrite <- sum_app, (sum_perm _ _ _ HP). apply (sum_filter_le (fun i => likes p i c) ids). intros i Hi. apply Hg, in_voter_ids, Hi.
    Qed.
    Lemma part_length : forall c R P, Permutation (R ++ P) (fans p c) -> (length P <= length (voters p))%nat.
    Proof using.
      intros c R P HP. apply Permutation_length in HP. rewrite app_length in HP.
      assert (length (fans p c) <= length (voters p))%nat; [|lia]. unfold fans. etransitivity; [apply filter_length_le|]. unfold voter_ids. rewrite seq_length. lia.
    Qed.
    Hypothesis Hw : wf p.
    Hypothesis Hint : integer_weights p.
    Hypothesis HN : wsum (voters p) <= Qnat N.
    Lemma part_weight : forall c R P, Permutation (R ++ P) (fans p c) -> R <> [] -> exists b : Z, sum R (w p) == inject_Z b /\ (1 <= b <= Z.of_nat N)%Z /\
      forall i, In i R -> 0 < w p i /\ w p i <= sum R (w p).
    Proof using Hw Hint HN.
      intros c R P HP Hne.
      assert (Hin : forall i, In i R -> (i < length (voters p))%nat) by (intros i Hi; assert (Hi' : In i (R ++ P)) by (apply in_app_iff; auto); apply (Permutation_in i HP) in Hi'; apply in_fans in Hi'; tauto).
      assert (Hi : is_int (sum R (w p))) by (apply is_int_sum; intros i Hi; apply (w_int p Hint); auto). destruct Hi as (b & Hb). exists b. split; auto.
      destruct (part_sum c R P (w p) HP) as (H1 & H2 & H3); [intros i Hi; apply (w_nonneg p Hw); apply in_voter_ids; auto|].
      assert (Hpos : 0 < sum R (w p)) by (apply (weights_pos p Hw); auto).
      assert (Hle : sum R (w p) <= Qnat N). { eapply Qle_trans; [|exact HN]. rewrite wsum_voter_ids. lra. }
      split. { rewrite Hb in Hpos, Hle. unfold Qnat in Hle. rewrite <- Zle_Qle in Hle. change 0 with (inject_Z 0) in Hpos. rewrite <- Zlt_Qlt in Hpos. lia. }
      intros i Hi. split; [destruct (w_int p Hint i (Hin i Hi)); lra|]. apply (sum_one R (w p) i); auto. intros j Hj. apply (w_nonneg p Hw). apply in_voter_ids. auto.
    Qed.

End Parts.

Section Price.
  Variable A : arith.
  Hypothesis HA : float_ok A.
  Variables (p : profile) (k K N : nat).
  Hypothesis Hw : wf p.
  Hypothesis Hint : integer_weights p.
  Hypothesis HN : wsum (voters p) <= Qnat N.
  Hypothesis Hv : voters p <> [].
  Hypothesis Hk1 : (1 <= k)%nat.
  Hypothesis Hsmall : small_shares p k K.
  Let n := Qnat (length (voters p)).
  Local Notation ids := (voter_ids p).
  Let kap := Qnat K + 1.
  Definition share_step : Q := ((11 # 10) * n + 24) * (u * kap).
  Let step := share_step.

  Lemma share_numbers : 0 <= n /\ n <= 1819 /\ 1 <= kap /\ kap <= 84 /\ 0 < u * kap /\ 0 <= step /\ (Qnat k + 1) * step <= 4000 * u /\
    4000 * u + 2 * u * kap <= tiny /\ 2 * kap + 2 <= 170.
  Proof using Hk1 Hsmall.
    clear HA Hw Hint HN Hv.
    assert (H1 : 0 <= n) by apply Qnat_nonneg. assert (H2 : 1 <= kap) by (unfold kap; pose proof (Qnat_nonneg K); lra).
    assert (Hk : 1 <= Qnat k) by (change 1 with (Qnat 1); apply Qnat_le; auto).
    unfold small_shares in Hsmall. fold n in Hsmall. fold kap in Hsmall.
    assert (G : forall t, 0 <= t -> t <= (11 # 10) * n + 24 -> 2 * t * kap <= 4000).
    { intros t Ht Hl. eapply Qle_trans; [|exact Hsmall]. apply Qmult_le_compat_r; [|lra].
      apply Qle_trans with ((Qnat k + 1) * t); [apply Qmult_le_compat_r; lra|]. apply Qmult_le_l; lra. }
    assert (G1 := G ((11 # 10) * n) ltac:(lra) ltac:(lra)). assert (G2 := G 24 ltac:(discriminate) ltac:(lra)).
    assert (H4 : kap <= 84) by lra.
    assert (H3 : n <= 1819). { assert (2 * ((11 # 10) * n) * 1 <= 2 * ((11 # 10) * n) * kap) by (rewrite !(Qmult_comm (2 * ((11 # 10) * n))); apply Qmult_le_compat_r; lra). lra. }
    assert (H5 : 0 < u * kap) by (rewrite <- (Qmult_0_r u); apply Qmult_lt_l; [reflexivity|lra]).
    assert (H6 : u * kap <= u * 84) by (apply Qmult_le_l; [reflexivity|auto]).
    repeat split; auto; try lra.
    - unfold step, share_step. apply Qmult_le_0_compat; lra.
    - unfold step, share_step. setoid_replace ((Qnat k + 1) * (((11 # 10) * n + 24) * (u * kap))) with (u * ((Qnat k + 1) * ((11 # 10) * n + 24) * kap)) by ring.
      setoid_replace (4000 * u) with (u * 4000) by ring. apply Qmult_le_l; [reflexivity|exact Hsmall].
    - apply Qle_trans with (4000 * u + 2 * (u * 84)); [lra|qnum].
  Qed.

  Section State.
    Variables (a : list Q) (f : list num) (D : Z).
    Hypothesis Ha0 : forall i, (i < length (voters p))%nat -> 0 <= nthQ a i.
    Hypothesis HaK : sum ids (nthQ a) <= Qnat K.
    Hypothesis He : total_err p f (nthQ a) <= Qnat k * step.
    Hypothesis HD1 : (1 <= D)%Z.
    Hypothesis HDg : (D * Z.of_nat N * Z.of_nat N * (2 * Z.of_nat K + 4) < 500000000000)%Z.
    Hypothesis HDi : forall i, (i < length (voters p))%nat -> is_int (nthQ a i * inject_Z D).
    Let e := fun i => Qabs (val (nth_num f i) - nthQ a i).

    Lemma e_nonneg : forall i, 0 <= e i.
    Proof using. intros. apply Qabs_nonneg. Qed.
    Lemma e_total : sum ids e + step <= 4000 * u.
    Proof using He Hk1 Hsmall. destruct share_numbers as (_ & _ & _ & _ & _ & _ & H & _). change (sum ids e) with (total_err p f (nthQ a)). rewrite Qmult_plus_distr_l, Qmult_1_l in H. eapply Qle_trans; [|exact H]. apply Qplus_le_compat; [exact He|apply Qle_refl]. Qed.
    (** the sum of the budgets of the poor *)
    Lemma poor_err : forall c R P, Permutation (R ++ P) (fans p c) ->
      Qabs (val (nsum A (map (fun iv => nth_num f (fst iv)) (pairs p P))) - sum P (nthQ a)) <= sum P e + (101 # 100) * (n + 1) * (u * kap).
    Proof using HA Ha0 HaK He Hk1 Hsmall N.
      intros c R P HP. pose proof (sum_error A HA (map (fun iv => nth_num f (fst iv)) (pairs p P))) as H.
      rewrite map_length in H. unfold pairs in H at 2 3 4. rewrite map_length, !map_map in H. cbn [fst] in H.
      change (Qsum (map (fun x => val (nth_num f x)) P)) with (sum P (fun x => val (nth_num f x))) in H.
      change (Qsum (map (fun x => Qabs (val (nth_num f x))) P)) with (sum P (fun x => Qabs (val (nth_num f x)))) in H.
      pose proof (part_length p c R P HP) as Hlen. destruct share_numbers as (N1 & N2 & N3 & N4 & N5 & N6 & N7 & N8 & _).
      destruct (part_sum p c R P (nthQ a) HP Ha0) as (S1 & S2 & S3). destruct (part_sum p c R P e HP) as (S4 & S5 & S6); [intros; apply e_nonneg|].
      pose proof e_total as Et. assert (Hu1 : 4000 * u <= 1) by qnum.
      assert (HF : sum P (fun x => Qabs (val (nth_num f x))) <= kap).
      { apply Qle_trans with (sum P (fun i => nthQ a i + e i)).
        - apply sum_le. intros i Hi. rewrite <- (Qabs_pos (nthQ a i)) by (apply Ha0; assert (Hi' : In i (R ++ P)) by (apply in_app_iff; auto); apply (Permutation_in i HP) in Hi'; apply in_fans in Hi'; tauto).
          apply Qabs_le_of. apply Qle_refl.
        - rewrite sum_plus. change (sum P (fun i => nthQ a i)) with (sum P (nthQ a)). change (sum P (fun i => e i)) with (sum P e). unfold kap. lra. }
      assert (HG : grow (S (length P)) - 1 <= (101 # 100) * (n + 1) * u).
      { assert (Hb : (Z.of_nat (S (length P)) <= 1000000)%Z).
        { assert (Hq : n <= 1819) by auto. unfold n, Qnat in Hq. change 1819 with (inject_Z 1819) in Hq. rewrite <- Zle_Qle in Hq. lia. }
        pose proof (grow_lin _ Hb) as Hg. assert (Hq : Qnat (S (length P)) <= n + 1) by (unfold n; rewrite <- Qnat_S; apply Qnat_le; lia).
        assert ((101 # 100) * u * Qnat (S (length P)) <= (101 # 100) * u * (n + 1)) by (apply Qmult_le_l; [reflexivity|auto]). lra. }
      assert (HP0 : 0 <= sum P (fun x => Qabs (val (nth_num f x)))) by (apply sum_nonneg; intros; apply Qabs_nonneg).
      assert (HG2 : (grow (S (length P)) - 1) * sum P (fun x => Qabs (val (nth_num f x))) <= (101 # 100) * (n + 1) * u * kap).
      { apply Qle_trans with ((101 # 100) * (n + 1) * u * sum P (fun x => Qabs (val (nth_num f x)))); [apply Qmult_le_compat_r; auto|].
        assert (0 <= (101 # 100) * (n + 1) * u) by (apply Qmult_le_0_compat; [lra|discriminate]).
        rewrite !(Qmult_comm ((101 # 100) * (n + 1) * u)). apply Qmult_le_compat_r; auto. }
      pose proof (sum_diff_abs P (fun x => val (nth_num f x)) (nthQ a)) as Hd. cbv beta in Hd. change (sum P (fun i => Qabs (val (nth_num f i) - nthQ a i))) with (sum P e) in Hd.
      pose proof (Qabs_tri3 (val (nsum A (map (fun iv => nth_num f (fst iv)) (pairs p P)))) (sum P (fun x => val (nth_num f x))) (sum P (nthQ a))) as T. lra.
    Qed.
    Lemma rich_weight : forall R, val (nsum A (map (fun iv => weight_num (snd iv)) (pairs p R))) == sum R (w p).
    Proof using HA.
      clear Hw Hint HN Hv Hk1 Hsmall Ha0 HaK He HD1 HDg HDi. intros R. rewrite (sum_exact A HA).
      - unfold pairs. rewrite !map_map. cbn [snd]. reflexivity.
      - apply Forall_forall. intros x Hx. apply in_map_iff in Hx as (iv & <- & _). apply weight_num_kind.
    Qed.
    Definition loop_q (R P : list nat) : num :=
      ndiv A (nsub A (num_of_nat 1) (nsum A (map (fun iv => nth_num f (fst iv)) (pairs p P)))) (nsum A (map (fun iv => weight_num (snd iv)) (pairs p R))).
    Lemma price_err : forall c R P q, Permutation (R ++ P) (fans p c) -> R <> [] -> q * sum R (w p) == 1 - sum P (nthQ a) ->
      sum R (w p) * Qabs q <= kap /\ sum R (w p) * Qabs (val (loop_q R P) - q) <= sum P e + ((101 # 100) * n + (91 # 10)) * (u * kap).
    Proof using HA Hw Hint HN Ha0 HaK He Hk1 Hsmall.
      intros c R P q HP Hne Hq. destruct (part_weight p N Hw Hint HN c R P HP Hne) as (b & Hb & Hb1 & _).
      assert (HS : 1 <= sum R (w p)) by (rewrite Hb; change 1 with (inject_Z 1); rewrite <- Zle_Qle; lia). set (S := sum R (w p)) in *.
      destruct share_numbers as (N1 & N2 & N3 & N4 & N5 & N6 & N7 & N8 & _).
      destruct (part_sum p c R P (nthQ a) HP Ha0) as (S1 & S2 & S3). destruct (part_sum p c R P e HP) as (S4 & S5 & S6); [intros; apply e_nonneg|].
      pose proof e_total as Et. pose proof (poor_err c R P HP) as H1. set (PB := sum P (nthQ a)) in *. set (EP := sum P e) in *.
      unfold loop_q. set (pf := nsum A (map (fun iv => nth_num f (fst iv)) (pairs p P))) in *.
      assert (Habs : Qabs (1 - PB) <= kap) by (apply Qabs_Qle_condition; unfold kap; lra).
      assert (HQ : S * Qabs q == Qabs (1 - PB)). { rewrite <- Hq, Qabs_Qmult, (Qabs_pos S) by lra. ring. }
      split; [lra|].
      pose proof (FloatAbs.sub_err A HA (num_of_nat 1) pf) as H2. change (val (num_of_nat 1)) with 1 in H2. change (Qabs 1) with 1 in H2. set (nu := nsub A (num_of_nat 1) pf) in *.
      assert (Hn2 : n * (u * kap) <= 1819 * (u * kap)) by (apply Qmult_le_compat_r; lra).
      assert (Huk : 2000 * (u * kap) <= 1 # 1000). { apply Qle_trans with (2000 * (u * 84)); [|qnum]. apply Qmult_le_l; [reflexivity|]. apply Qmult_le_l; [reflexivity|auto]. }
      assert (Hu4 : 4000 * u <= 1 # 1000) by qnum.
      assert (Hpf : Qabs (val pf) <= Qnat K + (4 # 1000)).
      { pose proof (Qabs_le_of _ _ _ H1) as H3. rewrite (Qabs_pos PB) in H3 by auto. lra. }
      assert (H3 : Qabs (val nu - (1 - PB)) <= EP + ((101 # 100) * n + (411 # 100)) * (u * kap)).
      { pose proof (Qabs_tri3 (val nu) (1 - val pf) (1 - PB)) as T.
        setoid_replace (1 - val pf - (1 - PB)) with (- (val pf - PB)) in T by ring. rewrite Qabs_opp in T.
        assert (3 * u * (1 + Qabs (val pf)) <= 3 * u * ((1004 # 1000) * kap)) by (apply Qmult_le_l; [reflexivity|unfold kap in *; lra]). lra. }
      assert (Hnu : Qabs (val nu) <= (1004 # 1000) * kap). { pose proof (Qabs_le_of _ _ _ H3) as H4. lra. }
      assert (Hrw := rich_weight R). fold S in Hrw. set (rw := nsum A (map (fun iv => weight_num (snd iv)) (pairs p R))) in *.
      assert (Hrp : 0 < val rw) by lra. pose proof (div_err A HA nu rw Hrp) as H5. rewrite Hrw in H5.
      assert (H6 : S * Qabs (val (ndiv A nu rw) - val nu / S) <= 4 * u * Qabs (val nu)).
      { assert (Eq : 4 * u * Qabs (val nu) == S * (4 * (u * Qabs (val nu / S)))).
        { unfold Qdiv. rewrite Qabs_Qmult, (Qabs_pos (/ S)) by (apply Qlt_le_weak, Qinv_lt_0_compat; lra). field. lra. }
        rewrite Eq. apply Qmult_le_l; [lra|]. lra. }
      assert (H7 : S * Qabs (val nu / S - q) == Qabs (val nu - (1 - PB))).
      { rewrite <- Hq. rewrite <- (Qabs_pos S) at 1 by lra. rewrite <- Qabs_Qmult.
        assert (Eq : S * (val nu / S - q) == val nu - q * S) by (field; lra). rewrite Eq. reflexivity. }
      assert (H8 : S * Qabs (val (ndiv A nu rw) - q) <= S * (Qabs (val (ndiv A nu rw) - val nu / S) + Qabs (val nu / S - q))) by (apply Qmult_le_l; [lra|apply Qabs_tri3]).
      assert (H9 : 4 * u * Qabs (val nu) <= 4 * u * ((1004 # 1000) * kap)) by (apply Qmult_le_l; [reflexivity|auto]).
      lra.
    Qed.
    (** what a supporter has to pay *)
    Lemma due_err : forall c R P q i, Permutation (R ++ P) (fans p c) -> R <> [] -> q * sum R (w p) == 1 - sum P (nthQ a) -> (i < length (voters p))%nat ->
      sum R (w p) * Qabs (val (nmul A (loop_q R P) (weight_num (the_voter p i))) - q * w p i) <= w p i * (sum P e + ((101 # 100) * n + 14) * (u * kap)).
    Proof using HA Hw Hint HN Ha0 HaK He Hk1 Hsmall.
      intros c R P q i HP Hne Hq Hi. destruct (price_err c R P q HP Hne Hq) as [H1 H2]. destruct (part_weight p N Hw Hint HN c R P HP Hne) as (b & Hb & Hb1 & _).
      assert (HS : 1 <= sum R (w p)) by (rewrite Hb; change 1 with (inject_Z 1); rewrite <- Zle_Qle; lia). set (S := sum R (w p)) in *. set (qf := loop_q R P) in *.
      destruct share_numbers as (N1 & N2 & N3 & N4 & N5 & N6 & N7 & N8 & _). destruct (part_sum p c R P e HP) as (S4 & S5 & S6); [intros; apply e_nonneg|]. pose proof e_total as Et.
      assert (Hn2 : n * (u * kap) <= 1819 * (u * kap)) by (apply Qmult_le_compat_r; lra).
      assert (Huk : 2000 * (u * kap) <= 1 # 1000). { apply Qle_trans with (2000 * (u * 84)); [|qnum]. apply Qmult_le_l; [reflexivity|]. apply Qmult_le_l; [reflexivity|auto]. }
      assert (Hu4 : 4000 * u <= 1 # 1000) by qnum.
      destruct (w_int p Hint i Hi) as [_ Hw1].
      pose proof (mul_err A HA qf (weight_num (the_voter p i))) as H3. change (val (weight_num (the_voter p i))) with (w p i) in H3. rewrite (Qabs_pos (w p i)) in H3 by lra.
      set (due := nmul A qf (weight_num (the_voter p i))) in *.
      assert (Hqf : S * Qabs (val qf) <= (1003 # 1000) * kap).
      { pose proof (Qabs_le_of _ _ _ (Qle_refl (Qabs (val qf - q)))) as H4.
        assert (S * Qabs (val qf) <= S * (Qabs q + Qabs (val qf - q))) by (apply Qmult_le_l; [lra|auto]).
        lra. }
      assert (T : Qabs (val due - q * w p i) <= Qabs (val due - val qf * w p i) + w p i * Qabs (val qf - q)).
      { eapply Qle_trans; [apply (Qabs_tri3 _ (val qf * w p i))|].
        assert (Eq : val qf * w p i - q * w p i == w p i * (val qf - q)) by ring. rewrite Eq, Qabs_Qmult, (Qabs_pos (w p i)) by lra. lra. }
      assert (T2 : S * Qabs (val due - q * w p i) <= S * (4 * u * (Qabs (val qf) * w p i) + w p i * Qabs (val qf - q))) by (apply Qmult_le_l; [lra|lra]).
      eapply Qle_trans; [exact T2|].
      apply Qle_trans with (w p i * (4 * u * (S * Qabs (val qf)) + S * Qabs (val qf - q))); [apply Qle_lteq; right; ring|].
      apply Qmult_le_l; [lra|].
      assert (4 * u * (S * Qabs (val qf)) <= 4 * u * ((1003 # 1000) * kap)) by (apply Qmult_le_l; [reflexivity|auto]).
      lra.
    Qed.
    Lemma err_small_total : forall c R P, Permutation (R ++ P) (fans p c) -> sum P e + ((101 # 100) * n + 14) * (u * kap) + sum R e <= 4000 * u.
    Proof using He Hk1 Hsmall.
      intros c R P HP. destruct (part_sum p c R P e HP) as (S4 & S5 & S6); [intros; apply e_nonneg|]. pose proof e_total as Et.
      destruct share_numbers as (N1 & N2 & N3 & N4 & N5 & _). unfold step, share_step in Et.
      assert (0 <= n * (u * kap)) by (apply Qmult_le_0_compat; lra). lra.
    Qed.
    Lemma gap_int : forall x y M, (1 <= M)%Z -> (M * (2 * Z.of_nat K + 4) < 500000000000)%Z -> is_int ((y - x) * inject_Z M) -> x < y -> x + gap_for kap < y.
    Proof using.
      clear - kap. intros x y M HM Hg (m & Hm) Hlt.
      assert (HM0 : 0 < inject_Z M) by (change 0 with (inject_Z 0); rewrite <- Zlt_Qlt; lia).
      assert (Hp : 0 < (y - x) * inject_Z M) by (rewrite <- (Qmult_0_l (inject_Z M)); apply Qmult_lt_compat_r; [auto|lra]).
      assert (H1 : 1 <= (y - x) * inject_Z M). { rewrite Hm in *. change 0 with (inject_Z 0) in Hp. rewrite <- Zlt_Qlt in Hp. change 1 with (inject_Z 1). rewrite <- Zle_Qle. lia. }
      assert (H2 : (2 * kap + 2) * inject_Z M < 500000000000 # 1).
      { unfold kap, Qnat. change (500000000000 # 1) with (inject_Z 500000000000).
        setoid_replace ((2 * (inject_Z (Z.of_nat K) + 1) + 2) * inject_Z M) with (inject_Z (M * (2 * Z.of_nat K + 4))) by (rewrite inject_Z_mult, inject_Z_plus, inject_Z_mult; change (inject_Z 2) with 2; change (inject_Z 4) with 4; ring).
        rewrite <- Zlt_Qlt. exact Hg. }
      assert (H3 : gap_for kap * inject_Z M < 1).
      { unfold gap_for. assert (H4 : phragmen_margin * ((2 * kap + 2) * inject_Z M) < phragmen_margin * (500000000000 # 1)) by (apply Qmult_lt_l; [reflexivity|auto]).
        assert (phragmen_margin * (500000000000 # 1) == 1) by reflexivity. lra. }
      apply Qnot_le_lt. intros Hle. assert (H5 : (y - x) * inject_Z M <= gap_for kap * inject_Z M) by (apply Qmult_le_compat_r; [lra|apply Qlt_le_weak; auto]). lra.
    Qed.
    Lemma part_in : forall c R P i, Permutation (R ++ P) (fans p c) -> In i R \/ In i P -> (i < length (voters p))%nat.
    Proof using. clear. intros c R P i HP Hi. assert (H : In i (R ++ P)) by (apply in_app_iff; auto). apply (Permutation_in i HP) in H. apply in_fans in H. tauto. Qed.
    Lemma N_one : (1 <= Z.of_nat N)%Z.
    Proof using Hw HN Hv. apply (N_pos p N Hw HN Hv). Qed.
    Lemma price_int : forall c R P q, Permutation (R ++ P) (fans p c) -> q * sum R (w p) == 1 - sum P (nthQ a) -> is_int (q * sum R (w p) * inject_Z D).
    Proof using HDi.
      intros c R P q HP Hq. apply (is_int_ext (inject_Z D + inject_Z (-1) * sum P (fun i => inject_Z D * nthQ a i))).
      - rewrite Hq, sum_scal. change (inject_Z (-1)) with (- (1)). change (fun i => nthQ a i) with (nthQ a). ring.
      - apply is_int_plus; [eexists; reflexivity|]. apply is_int_mult; [eexists; reflexivity|]. apply is_int_sum. intros i Hi.
        apply (is_int_ext (nthQ a i * inject_Z D)); [ring|]. apply HDi. apply (part_in c R P i HP). auto.
    Qed.
    Lemma pay_gap : forall c R P q i, Permutation (R ++ P) (fans p c) -> R <> [] -> q * sum R (w p) == 1 - sum P (nthQ a) -> (i < length (voters p))%nat ->
      exists b : Z, (1 <= b <= Z.of_nat N)%Z /\ sum R (w p) == inject_Z b /\ is_int ((q * w p i - nthQ a i) * inject_Z (D * b)).
    Proof using Hw Hint HN HDi.
      intros c R P q i HP Hne Hq Hi. destruct (part_weight p N Hw Hint HN c R P HP Hne) as (b & Hb & Hb1 & _). exists b. split; auto. split; auto.
      apply (is_int_ext (w p i * (q * sum R (w p) * inject_Z D) + inject_Z (-1) * (nthQ a i * inject_Z D * inject_Z b))).
      - rewrite Hb, inject_Z_mult. change (inject_Z (-1)) with (- (1)). ring.
      - apply is_int_plus; [apply is_int_mult; [apply (w_int p Hint); auto|apply (price_int c R P); auto]|].
        apply is_int_mult; [eexists; reflexivity|]. apply is_int_mult; [apply HDi; auto|eexists; reflexivity].
    Qed.
    Lemma budget_le : forall i, (i < length (voters p))%nat -> Qabs (nthQ a i) <= kap /\ nthQ a i <= Qnat K.
    Proof using Ha0 HaK.
      intros i Hi. assert (H : nthQ a i <= Qnat K).
      { eapply Qle_trans; [|exact HaK]. apply (sum_one ids (nthQ a) i); [intros j Hj; apply Ha0, in_voter_ids, Hj|apply in_voter_ids; auto]. }
      split; auto. rewrite Qabs_pos by auto. unfold kap. lra.
    Qed.
    Lemma due_bounds : forall c R P q i, Permutation (R ++ P) (fans p c) -> q * sum R (w p) == 1 - sum P (nthQ a) -> In i R ->
      Qabs (val (nmul A (loop_q R P) (weight_num (the_voter p i))) - q * w p i) <= 4000 * u /\ Qabs (val (nth_num f i) - nthQ a i) <= 4000 * u /\
      Qabs (q * w p i) <= kap.
    Proof using HA Hw Hint HN Ha0 HaK He Hk1 Hsmall.
      intros c R P q i HP Hq Hin. assert (Hne : R <> []) by (intros ->; destruct Hin). assert (Hi := part_in c R P i HP (or_introl Hin)).
      pose proof (due_err c R P q i HP Hne Hq Hi) as H1. pose proof (err_small_total c R P HP) as H2. destruct (price_err c R P q HP Hne Hq) as [H3 _].
      destruct (part_weight p N Hw Hint HN c R P HP Hne) as (b & Hb & Hb1 & Hwi). destruct (Hwi i Hin) as [W1 W2].
      assert (HS : 1 <= sum R (w p)) by (rewrite Hb; change 1 with (inject_Z 1); rewrite <- Zle_Qle; lia). set (S := sum R (w p)) in *.
      destruct (part_sum p c R P e HP) as (S4 & S5 & S6); [intros; apply e_nonneg|].
      destruct share_numbers as (N1 & _ & N3 & _ & N5 & _). assert (N9 : 0 <= n * (u * kap)) by (apply Qmult_le_0_compat; lra).
      set (d0 := sum P e + ((101 # 100) * n + 14) * (u * kap)) in *. assert (Hd0 : 0 <= d0) by (unfold d0; lra).
      set (due := val (nmul A (loop_q R P) (weight_num (the_voter p i)))) in *.
      split; [|split].
      - apply Qmult_le_l with S; [lra|]. eapply Qle_trans; [exact H1|]. apply Qle_trans with (S * d0); [apply Qmult_le_compat_r; auto|]. apply Qmult_le_l; lra.
      - assert (e i <= sum R e) by (apply (sum_one R e i); auto; intros; apply e_nonneg). unfold e in *. lra.
      - rewrite Qabs_Qmult, (Qabs_pos (w p i)) by lra.
        apply Qle_trans with (Qabs q * S); [rewrite !(Qmult_comm (Qabs q)); apply Qmult_le_compat_r; [auto|apply Qabs_nonneg]|lra].
    Qed.
    Lemma poor_same : forall c R P q i, Permutation (R ++ P) (fans p c) -> q * sum R (w p) == 1 - sum P (nthQ a) -> In i R ->
      f_is_poor A f (loop_q R P) (i, the_voter p i) = Qltb (nthQ a i) (q * w p i).
    Proof using HA Hw Hint HN Ha0 HaK He Hk1 Hsmall HD1 HDg HDi Hv.
      intros c R P q i HP Hq Hin. assert (Hne : R <> []) by (intros ->; destruct Hin). assert (Hi := part_in c R P i HP (or_introl Hin)).
      destruct (due_bounds c R P q i HP Hq Hin) as (B1 & B2 & B3). destruct (budget_le i Hi) as [B4 _].
      destruct (pay_gap c R P q i HP Hne Hq Hi) as (b & Hb1 & Hb & HbI). pose proof N_one as HN1.
      destruct share_numbers as (N1 & _ & N3 & _ & N5 & _ & _ & N8 & _).
      unfold f_is_poor. cbn [fst snd]. set (due := nmul A (loop_q R P) (weight_num (the_voter p i))) in *.
      destruct (Qltb (nthQ a i) (q * w p i)) eqn:E.
      - apply Qltb_lt in E.
        assert (Hg : nthQ a i + gap_for kap < q * w p i) by (apply (gap_int _ _ (D * b)); auto; nia).
        destruct (far_apart A HA (nth_num f i) due (nthQ a i) (q * w p i) (4000 * u) kap) as (F1 & _ & F2); auto; [lra|].
        rewrite F1. unfold nlt. apply andb_true_iff. split; [apply Qltb_lt; auto|reflexivity].
      - apply Qltb_ge in E. unfold nlt. destruct (Qltb (val (nth_num f i)) (val due)) eqn:E2; [|reflexivity]. apply Qltb_lt in E2. cbn [andb]. apply negb_false_iff.
        apply (close_near A HA _ _ (nthQ a i) (4000 * u)); auto.
        + apply Qabs_bounds in B1, B2. apply Qabs_intro; lra.
        + assert (2 * u * Qabs (nthQ a i) <= 2 * u * kap) by (apply Qmult_le_l; [reflexivity|auto]). lra.
    Qed.
    Lemma filter_same : forall (X : Type) (g h : X -> bool) l, (forall x, In x l -> g x = h x) -> filter g l = filter h l.
    Proof using. clear. intros X g h l H. induction l as [|x l IH]; [reflexivity|]. simpl. rewrite (H x (or_introl eq_refl)), IH by (intros; apply H; right; auto). reflexivity. Qed.
    Lemma loop_same : forall c fuel R P q0, (length R <= fuel)%nat -> Permutation (R ++ P) (fans p c) ->
      (forall i, In i P -> nthQ a i <= q0 * w p i) -> q0 * sum R (w p) < 1 - sum P (nthQ a) ->
      (min_q_loop fuel a (pairs p R) (pairs p P) = Ok None /\ f_min_q_loop A fuel f (pairs p R) (pairs p P) = Ok None) \/
      exists q R' P', Permutation (R' ++ P') (fans p c) /\ R' <> [] /\ q * sum R' (w p) == 1 - sum P' (nthQ a) /\
        (forall i, In i R' -> q * w p i <= nthQ a i) /\ (forall i, In i P' -> nthQ a i < q * w p i) /\
        min_q_loop fuel a (pairs p R) (pairs p P) = Ok (Some q) /\ f_min_q_loop A fuel f (pairs p R) (pairs p P) = Ok (Some (loop_q R' P')).
    Proof using HA Hw Hint HN Ha0 HaK He Hk1 Hsmall HD1 HDg HDi Hv.
      intros c. induction fuel as [|fuel IH]; intros R P q0 Hlen HP Hpoor Hq0.
      { destruct R; [|simpl in Hlen; lia]. left. split; reflexivity. }
      destruct R as [|i0 R0]; [left; split; reflexivity|]. set (R := i0 :: R0) in *. assert (Hne : R <> []) by discriminate.
      assert (Eu : min_q_loop (S fuel) a (pairs p R) (pairs p P) =
        let q := ((1 - fold_left (fun s iv => s + nthQ a (fst iv)) (pairs p P) 0) / fold_left (fun s iv => s + weight (snd iv)) (pairs p R) 0) in
        let is_poor := fun iv : nat * voter => Qltb (nthQ a (fst iv)) (q * weight (snd iv)) in
        match filter is_poor (pairs p R) with
        | [] => Ok (Some q)
        | new_poor => min_q_loop fuel a (filter (fun iv => negb (is_poor iv)) (pairs p R)) (pairs p P ++ new_poor)
        end) by reflexivity.
      assert (Ef : f_min_q_loop A (S fuel) f (pairs p R) (pairs p P) =
        match filter (f_is_poor A f (loop_q R P)) (pairs p R) with
        | [] => Ok (Some (loop_q R P))
        | new_poor => f_min_q_loop A fuel f (filter (fun iv => negb (f_is_poor A f (loop_q R P) iv)) (pairs p R)) (pairs p P ++ new_poor)
        end) by reflexivity.
      rewrite Eu, Ef. clear Eu Ef.
      assert (HwR : 0 < sum R (w p)). { destruct (part_weight p N Hw Hint HN c R P HP Hne) as (b & Hb & Hb1 & _). rewrite Hb. change 0 with (inject_Z 0). rewrite <- Zlt_Qlt. lia. }
      set (q := (1 - fold_left (fun s iv => s + nthQ a (fst iv)) (pairs p P) 0) / fold_left (fun s iv => s + weight (snd iv)) (pairs p R) 0).
      assert (Eq : q * sum R (w p) == 1 - sum P (nthQ a)).
      { unfold q. rewrite (fold_pairs p (fun i v => nthQ a i)), (fold_pairs p (fun i v => weight v)).
        change (sum R (fun i => weight (the_voter p i))) with (sum R (w p)). change (sum P (fun i => nthQ a i)) with (sum P (nthQ a)). field. lra. }
      clearbody q. cbv zeta. unfold pairs. rewrite !filter_map_comm. cbn [fst snd].
      change (fun x => Qltb (nthQ a x) (q * weight (the_voter p x))) with (fun x => Qltb (nthQ a x) (q * w p x)).
      change (fun x => negb (Qltb (nthQ a x) (q * weight (the_voter p x)))) with (fun x => negb (Qltb (nthQ a x) (q * w p x))).
      set (isp := fun x => Qltb (nthQ a x) (q * w p x)).
      rewrite (filter_same _ (fun x => f_is_poor A f (loop_q R P) (x, the_voter p x)) isp R) by (intros x Hx; apply (poor_same c); auto).
      rewrite (filter_same _ (fun x => negb (f_is_poor A f (loop_q R P) (x, the_voter p x))) (fun x => negb (isp x)) R) by (intros x Hx; f_equal; apply (poor_same c); auto).
      change (fun x => negb (Qltb (nthQ a x) (q * w p x))) with (fun x => negb (isp x)).
      assert (Hq : q0 < q). { apply Qmult_lt_r with (sum R (w p)); [auto|]. lra. }
      assert (HPin : forall i, In i P -> 0 < w p i) by (intros i Hi; destruct (w_int p Hint i (part_in c R P i HP (or_intror Hi))); lra).
      destruct (filter isp R) as [|j NP] eqn:EN.
      - cbn [map]. right. exists q, R, P. split; auto. split; auto. split; auto. split; [|split; [|split; reflexivity]].
        + intros i Hi. destruct (isp i) eqn:Ei; [|unfold isp in Ei; apply Qltb_ge in Ei; lra].
          exfalso. assert (Hx : In i (filter isp R)) by (apply filter_In; auto). rewrite EN in Hx. destruct Hx.
        + intros i Hi. specialize (Hpoor i Hi). specialize (HPin i Hi). assert (q0 * w p i < q * w p i) by (apply Qmult_lt_compat_r; auto). lra.
      - cbn [map].
        replace (map (fun i => (i, the_voter p i)) (filter (fun x => negb (isp x)) R)) with (pairs p (filter (fun x => negb (isp x)) R)) by auto.
        replace ((j, the_voter p j) :: map (fun i => (i, the_voter p i)) NP) with (pairs p (j :: NP)) by auto.
        replace (map (fun i => (i, the_voter p i)) P ++ pairs p (j :: NP)) with (pairs p (P ++ j :: NP)) by (apply map_app).
        apply (IH _ _ q).
        + pose proof (filter_length_split isp R) as HL. rewrite EN in HL. change (length (j :: NP)) with (S (length NP)) in HL. lia.
        + etransitivity; [|exact HP]. rewrite <- EN. rewrite app_assoc, Permutation_app_comm, app_assoc. apply Permutation_app_tail. apply Permutation_sym, filter_split_perm.
        + intros i Hi. apply in_app_iff in Hi as [Hi|Hi].
          * specialize (Hpoor i Hi). specialize (HPin i Hi). assert (q0 * w p i < q * w p i) by (apply Qmult_lt_compat_r; auto). lra.
          * rewrite <- EN in Hi. apply filter_In in Hi as [_ Hi]. unfold isp in Hi. apply Qltb_lt in Hi. lra.
        + rewrite sum_app. pose proof (sum_split isp R (w p)) as HS. rewrite EN in HS.
          assert (HNl : sum (j :: NP) (nthQ a) < sum (j :: NP) (fun i => q * w p i)).
          { assert (HNP : forall i, In i (j :: NP) -> nthQ a i < q * w p i).
            { intros i Hi. rewrite <- EN in Hi. apply filter_In in Hi as [_ Hi]. unfold isp in Hi. apply Qltb_lt in Hi. auto. }
            apply (sum_lt_one _ _ _ j); [left; auto| |apply HNP; left; auto]. intros i Hi. specialize (HNP i Hi). lra. }
          rewrite sum_scal in HNl.
          set (x := sum (j :: NP) (nthQ a)) in *. set (y := sum (j :: NP) (w p)) in *.
          set (z := sum (filter (fun i => negb (isp i)) R) (w p)) in *.
          assert (q * z == q * sum R (w p) - q * y) by (rewrite HS; ring). lra.
    Qed.
    Lemma min_q_same : forall c,
      (min_q p a c = Ok None /\ f_min_q A p f c = Ok None) \/
      exists q R P, Permutation (R ++ P) (fans p c) /\ R <> [] /\ q * sum R (w p) == 1 - sum P (nthQ a) /\
        (forall i, In i R -> q * w p i <= nthQ a i) /\ (forall i, In i P -> nthQ a i < q * w p i) /\
        min_q p a c = Ok (Some q) /\ f_min_q A p f c = Ok (Some (loop_q R P)).
    Proof using HA Hw Hint HN Ha0 HaK He Hk1 Hsmall HD1 HDg HDi Hv.
      intros c. unfold min_q, f_min_q. rewrite pairs_fans. change (@nil (nat * voter)) with (pairs p []).
      apply (loop_same c _ _ _ 0).
      - unfold pairs. rewrite map_length. auto.
      - rewrite app_nil_r. auto.
      - intros i [].
      - unfold sum at 2. simpl. lra.
    Qed.
    (** the prices of two candidates are equal or far apart *)
    Lemma price_facts : forall c R P q, Permutation (R ++ P) (fans p c) -> R <> [] -> q * sum R (w p) == 1 - sum P (nthQ a) ->
      Qabs q <= kap /\ Qabs (val (loop_q R P) - q) <= 4000 * u.
    Proof using HA Hw Hint HN Ha0 HaK He Hk1 Hsmall.
      intros c R P q HP Hne Hq. destruct (price_err c R P q HP Hne Hq) as [H1 H2]. destruct (part_weight p N Hw Hint HN c R P HP Hne) as (b & Hb & Hb1 & _).
      assert (HS : 1 <= sum R (w p)) by (rewrite Hb; change 1 with (inject_Z 1); rewrite <- Zle_Qle; lia). set (S := sum R (w p)) in *.
      assert (G : forall x, 0 <= x -> x <= S * x) by (intros x Hx; assert (1 * x <= S * x) by (apply Qmult_le_compat_r; auto); lra).
      pose proof (G _ (Qabs_nonneg q)). pose proof (G _ (Qabs_nonneg (val (loop_q R P) - q))).
      pose proof (err_small_total c R P HP) as H3. destruct (part_sum p c R P e HP) as (S4 & S5 & S6); [intros; apply e_nonneg|].
      destruct share_numbers as (N1 & _ & N3 & _ & N5 & _). split; [lra|]. lra.
    Qed.
    Lemma prices_gap : forall c R P q c' R' P' q', Permutation (R ++ P) (fans p c) -> R <> [] -> q * sum R (w p) == 1 - sum P (nthQ a) ->
      Permutation (R' ++ P') (fans p c') -> R' <> [] -> q' * sum R' (w p) == 1 - sum P' (nthQ a) -> q < q' -> q + gap_for kap < q'.
    Proof using Hw Hint HN Hv HD1 HDg HDi Hk1.
      intros c R P q c' R' P' q' HP Hne Hq HP' Hne' Hq' Hlt.
      destruct (part_weight p N Hw Hint HN c R P HP Hne) as (b & Hb & Hb1 & _). destruct (part_weight p N Hw Hint HN c' R' P' HP' Hne') as (b' & Hb' & Hb1' & _).
      apply (gap_int _ _ (D * b * b')); auto; [nia| |].
      - apply Z.le_lt_trans with (D * Z.of_nat N * Z.of_nat N * (2 * Z.of_nat K + 4))%Z; auto. apply Z.mul_le_mono_nonneg_r; [lia|].
        apply Z.mul_le_mono_nonneg; nia.
      - apply (is_int_ext (inject_Z b * (q' * sum R' (w p) * inject_Z D) + inject_Z (-1) * (inject_Z b' * (q * sum R (w p) * inject_Z D)))).
        + rewrite Hb, Hb', !inject_Z_mult. change (inject_Z (-1)) with (- (1)). ring.
        + apply is_int_plus; [apply is_int_mult; [eexists; reflexivity|apply (price_int c' R' P'); auto]|].
          apply is_int_mult; [eexists; reflexivity|]. apply is_int_mult; [eexists; reflexivity|]. apply (price_int c R P); auto.
    Qed.
    (** the budgets after candidate [c] was bought *)
    Lemma sub_self : forall x, val (nsub A x x) == 0.
    Proof using HA.
      clear Hw Hint HN Hv Hk1 Hsmall Ha0 HaK He HD1 HDg HDi. intros x. unfold nsub, arith_op. destruct (join_kind (kind_of x) (kind_of x)); cbn [val]; try ring.
      pose proof (rnd_abs A HA (to_float A x - to_float A x)) as [_ H].
      assert (E : to_float A x - to_float A x == 0) by ring. rewrite E in H at 2. change (Qabs 0) with 0 in H.
      pose proof (Qabs_nonneg (rnd A (to_float A x - to_float A x))) as H2. rewrite Qmult_0_r in H.
      set (z := rnd A (to_float A x - to_float A x)) in *. clearbody z. pose proof (Qle_Qabs z). pose proof (Qle_Qabs (- z)) as H4. rewrite Qabs_opp in H4. lra.
    Qed.
    Lemma poor_pays_all : forall c R P q i, Permutation (R ++ P) (fans p c) -> R <> [] -> q * sum R (w p) == 1 - sum P (nthQ a) -> In i P -> nthQ a i < q * w p i ->
      val (nth_num f i) <= val (nmul A (loop_q R P) (weight_num (the_voter p i))).
    Proof using HA Hw Hint HN Ha0 HaK He Hk1 Hsmall HD1 HDg HDi Hv.
      intros c R P q i HP Hne Hq Hin Hlt. assert (Hi := part_in c R P i HP (or_intror Hin)).
      pose proof (due_err c R P q i HP Hne Hq Hi) as H1. pose proof (err_small_total c R P HP) as H2.
      destruct (pay_gap c R P q i HP Hne Hq Hi) as (b & Hb1 & Hb & (m & Hm)). pose proof N_one as HN1.
      destruct (part_sum p c R P e HP) as (S4 & S5 & S6); [intros; apply e_nonneg|].
      destruct (w_int p Hint i Hi) as [_ Hw1].
      assert (HwN : w p i <= inject_Z (Z.of_nat N)).
      { eapply Qle_trans; [|exact HN]. rewrite wsum_voter_ids. apply (sum_one ids (w p) i); [intros j Hj; apply (w_nonneg p Hw); auto|apply in_voter_ids; auto]. }
      set (due := val (nmul A (loop_q R P) (weight_num (the_voter p i)))) in *. set (d0 := sum P e + ((101 # 100) * n + 14) * (u * kap)) in *.
      assert (Hei : e i <= sum P e) by (apply (sum_one P e i); auto; intros; apply e_nonneg). pose proof (e_nonneg i) as He0.
      destruct share_numbers as (N1 & _ & N3 & _ & N5 & _). assert (N9 : 0 <= n * (u * kap)) by (apply Qmult_le_0_compat; lra).
      assert (Hd0 : 0 <= d0 /\ d0 <= 4000 * u) by (unfold d0 in *; lra).
      assert (Hei2 : e i <= 4000 * u) by (unfold d0 in *; lra).
      assert (HbQ : 1 <= inject_Z b /\ inject_Z b <= inject_Z (Z.of_nat N)) by (split; [change 1 with (inject_Z 1)|]; rewrite <- Zle_Qle; lia).
      assert (HDQ : 1 <= inject_Z D) by (change 1 with (inject_Z 1); rewrite <- Zle_Qle; auto).
      assert (HDN : inject_Z D * inject_Z (Z.of_nat N) <= 500000000000 # 1).
      { change (500000000000 # 1) with (inject_Z 500000000000). rewrite <- inject_Z_mult, <- Zle_Qle. nia. }
      rewrite Hb in H1.
      (* (q w - a) * D * b >= 1 *)
      assert (G1 : 1 <= (q * w p i - nthQ a i) * inject_Z (D * b)).
      { assert (Hp : 0 < (q * w p i - nthQ a i) * inject_Z (D * b)).
        { rewrite <- (Qmult_0_l (inject_Z (D * b))). apply Qmult_lt_compat_r; [|lra]. change 0 with (inject_Z 0). rewrite <- Zlt_Qlt. nia. }
        rewrite Hm in *. change 0 with (inject_Z 0) in Hp. rewrite <- Zlt_Qlt in Hp. change 1 with (inject_Z 1). rewrite <- Zle_Qle. lia. }
      rewrite inject_Z_mult in G1. set (b' := inject_Z b) in *. set (D' := inject_Z D) in *. set (M := inject_Z (Z.of_nat N)) in *.
      (* D * (b * |due - q w|) and D * b * e_i are small *)
      assert (G2 : D' * (b' * Qabs (due - q * w p i)) <= 2 # 5).
      { apply Qle_trans with (D' * (M * (4000 * u))).
        - apply Qmult_le_l; [lra|]. eapply Qle_trans; [exact H1|]. apply Qle_trans with (M * d0); [apply Qmult_le_compat_r; lra|]. apply Qmult_le_l; lra.
        - apply Qle_trans with ((500000000000 # 1) * (4000 * u)); [|qnum]. rewrite Qmult_assoc. apply Qmult_le_compat_r; [auto|discriminate]. }
      assert (G3 : D' * (b' * e i) <= 2 # 5).
      { apply Qle_trans with (D' * (M * (4000 * u))).
        - apply Qmult_le_l; [lra|]. apply Qle_trans with (M * e i); [apply Qmult_le_compat_r; lra|]. apply Qmult_le_l; lra.
        - apply Qle_trans with ((500000000000 # 1) * (4000 * u)); [|qnum]. rewrite Qmult_assoc. apply Qmult_le_compat_r; [auto|discriminate]. }
      apply Qnot_lt_le. intros Hc.
      assert (B1 := Qabs_bounds _ _ _ (Qle_refl (Qabs (due - q * w p i)))). assert (B2 := Qabs_bounds _ _ _ (Qle_refl (Qabs (val (nth_num f i) - nthQ a i)))).
      change (Qabs (val (nth_num f i) - nthQ a i)) with (e i) in B2.
      assert (G4 : (q * w p i - nthQ a i) * (D' * b') <= (Qabs (due - q * w p i) + e i) * (D' * b')).
      { apply Qmult_le_compat_r; [lra|]. apply Qmult_le_0_compat; lra. }
      lra.
    Qed.
    Lemma mes_next_nth : forall C c q i, min_q p a c = Ok (Some q) -> (i < length (voters p))%nat ->
      nthQ (mes_next p C a c) i = (if likes p i c then nthQ a i - (if Qltb (q * w p i) (nthQ a i) then q * w p i else nthQ a i) else nthQ a i).
    Proof using.
      clear. intros C c q i Hq Hi. unfold mes_next. rewrite Hq. rewrite nthQ_enum by auto. reflexivity.
    Qed.
    Lemma f_mes_next_nth : forall C c q i, f_min_q A p f c = Ok (Some q) -> (i < length (voters p))%nat ->
      nth_num (f_mes_next A p C f c) i = (if likes p i c then nsub A (nth_num f i) (nmin2 (nth_num f i) (nmul A q (weight_num (the_voter p i)))) else nth_num f i).
    Proof using.
      clear. intros C c q i Hq Hi. unfold f_mes_next. rewrite Hq. rewrite nth_num_enum by auto. reflexivity.
    Qed.
    Section Bought.
      Variables (C : list nat) (c : nat) (q : Q) (R P : list nat).
      Hypothesis HP : Permutation (R ++ P) (fans p c).
      Hypothesis Hne : R <> [].
      Hypothesis Hq : q * sum R (w p) == 1 - sum P (nthQ a).
      Hypothesis HR : forall i, In i R -> q * w p i <= nthQ a i.
      Hypothesis HPo : forall i, In i P -> nthQ a i < q * w p i.
      Hypothesis E1 : min_q p a c = Ok (Some q).
      Hypothesis E2 : f_min_q A p f c = Ok (Some (loop_q R P)).
      Let e' := fun i => Qabs (val (nth_num (f_mes_next A p C f c) i) - nthQ (mes_next p C a c) i).

      Lemma in_part : forall i, In i R \/ In i P -> (i < length (voters p))%nat /\ likes p i c = true.
      Proof using HP. clear - HP. intros i Hi. assert (H : In i (R ++ P)) by (apply in_app_iff; auto). apply (Permutation_in i HP) in H. apply in_fans in H. auto. Qed.
      Lemma after_R : forall i, In i R -> nthQ (mes_next p C a c) i == nthQ a i - q * w p i.
      Proof using HP HR E1.
        intros i Hi. destruct (in_part i (or_introl Hi)) as [H1 H2]. rewrite (mes_next_nth C c q i E1 H1), H2. specialize (HR i Hi).
        destruct (Qltb (q * w p i) (nthQ a i)) eqn:E; [reflexivity|]. apply Qltb_ge in E. lra.
      Qed.
      Lemma after_P : forall i, In i P -> nthQ (mes_next p C a c) i == 0.
      Proof using HP HPo E1.
        intros i Hi. destruct (in_part i (or_intror Hi)) as [H1 H2]. rewrite (mes_next_nth C c q i E1 H1), H2. specialize (HPo i Hi).
        destruct (Qltb (q * w p i) (nthQ a i)) eqn:E; [apply Qltb_lt in E; lra|]. ring.
      Qed.
      Lemma after_other : forall i, (i < length (voters p))%nat -> likes p i c = false -> nthQ (mes_next p C a c) i = nthQ a i /\ nth_num (f_mes_next A p C f c) i = nth_num f i.
      Proof using E1 E2. intros i H1 H2. rewrite (mes_next_nth C c q i E1 H1), (f_mes_next_nth C c _ i E2 H1), H2. auto. Qed.
      Lemma q_pos : 0 <= q.
      Proof using Hw Hint HN HP Hne Hq HPo Ha0 K.
        clear E1 E2 Hk1. destruct (part_weight p N Hw Hint HN c R P HP Hne) as (b & Hb & Hb1 & _).
        assert (HS : 1 <= sum R (w p)) by (rewrite Hb; change 1 with (inject_Z 1); rewrite <- Zle_Qle; lia).
        destruct P as [|i P0] eqn:EP.
        - unfold sum in Hq at 2. simpl in Hq. apply Qnot_lt_le. intros Hl.
          assert (q * sum R (w p) <= 0) by (rewrite <- (Qmult_0_l (sum R (w p))); apply Qmult_le_compat_r; lra). lra.
        - assert (Hi : In i (i :: P0)) by (left; auto). pose proof (HPo i Hi) as H. assert (Hl := part_in c R (i :: P0) i HP (or_intror Hi)).
          pose proof (Ha0 i Hl). destruct (w_int p Hint i Hl) as [_ H3]. apply Qnot_lt_le. intros Hl2.
          assert (q * w p i <= 0) by (rewrite <- (Qmult_0_l (w p i)); apply Qmult_le_compat_r; lra). lra.
      Qed.
      Lemma after_sum : sum ids (nthQ (mes_next p C a c)) <= Qnat K.
      Proof using Hw Hint HN HP Hne Hq HPo Ha0 HaK E1.
        eapply Qle_trans; [|exact HaK]. apply sum_le. intros i Hi. apply in_voter_ids in Hi. rewrite (mes_next_nth C c q i E1 Hi). pose proof q_pos as Hq0. pose proof (Ha0 i Hi).
        destruct (w_int p Hint i Hi) as [_ H3]. assert (0 <= q * w p i) by (apply Qmult_le_0_compat; lra).
        destruct (likes p i c); [|lra]. destruct (Qltb (q * w p i) (nthQ a i)); lra.
      Qed.
      Lemma after_int : exists b : Z, (1 <= b <= Z.of_nat N)%Z /\ forall i, (i < length (voters p))%nat -> is_int (nthQ (mes_next p C a c) i * inject_Z (D * b)).
      Proof using Hw Hint HN HDi HP Hne Hq HR HPo E1.
        destruct (part_weight p N Hw Hint HN c R P HP Hne) as (b & Hb & Hb1 & _). exists b. split; auto. intros i Hi.
        destruct (likes p i c) eqn:El.
        - assert (Hin : In i (R ++ P)) by (apply (Permutation_in i (Permutation_sym HP)); apply in_fans; auto). apply in_app_iff in Hin as [Hin|Hin].
          + destruct (pay_gap c R P q i HP Hne Hq Hi) as (b' & _ & Hb' & HI). rewrite Hb in Hb'. apply (proj1 (inject_Z_injective _ _)) in Hb'. subst b'.
            apply (is_int_ext (inject_Z (-1) * ((q * w p i - nthQ a i) * inject_Z (D * b)))).
            * rewrite (after_R i Hin). change (inject_Z (-1)) with (- (1)). ring.
            * apply is_int_mult; [eexists; reflexivity|exact HI].
          + exists 0%Z. rewrite (after_P i Hin). change (inject_Z 0) with 0. ring.
        - rewrite (mes_next_nth C c q i E1 Hi), El. apply (is_int_ext (nthQ a i * inject_Z D * inject_Z b)); [rewrite inject_Z_mult; ring|].
          apply is_int_mult; [apply HDi; auto|eexists; reflexivity].
      Qed.
      Lemma err_P : sum P e' == 0.
      Proof using HA Hw Hint HN Ha0 HaK He Hk1 Hsmall HD1 HDg HDi Hv HP Hne Hq HPo E1 E2.
        transitivity (sum P (fun _ => 0 * 0)); [|rewrite sum_scal; ring]. apply sum_ext. intros i Hi. unfold e'. rewrite (after_P i Hi).
        destruct (in_part i (or_intror Hi)) as [H1 H2]. rewrite (f_mes_next_nth C c _ i E2 H1), H2.
        pose proof (poor_pays_all c R P q i HP Hne Hq Hi (HPo i Hi)) as H3. unfold nmin2, nlt.
        destruct (Qltb (val (nmul A (loop_q R P) (weight_num (the_voter p i)))) (val (nth_num f i))) eqn:E; [apply Qltb_lt in E; lra|].
        rewrite sub_self. reflexivity.
      Qed.
      Let due i := val (nmul A (loop_q R P) (weight_num (the_voter p i))).
      Let dl i := Qabs (due i - q * w p i).
      Lemma err_R_one : forall i, In i R -> e' i <= e i + dl i + 3 * u * (nthQ a i + e i + (q * w p i + dl i)).
      Proof using HA Hw Hint HN Ha0 HP Hne Hq HR HPo E1 E2 K step kap.
        intros i Hi. unfold e'. rewrite (after_R i Hi). destruct (in_part i (or_introl Hi)) as [H1 H2]. rewrite (f_mes_next_nth C c _ i E2 H1), H2.
        unfold nmin2, nlt. fold (due i). set (b := nth_num f i) in *. pose proof (Ha0 i H1) as Hai. specialize (HR i Hi).
        pose proof q_pos as Hq0. destruct (w_int p Hint i H1) as [_ H3]. assert (Hqw : 0 <= q * w p i) by (apply Qmult_le_0_compat; lra).
        pose proof (e_nonneg i) as He0. assert (Hdl : 0 <= dl i) by apply Qabs_nonneg.
        assert (Be : Qabs (val b - nthQ a i) <= e i) by apply Qle_refl. assert (Bd : Qabs (due i - q * w p i) <= dl i) by apply Qle_refl.
        assert (B1 := Qabs_bounds _ _ _ Be). assert (B2 := Qabs_bounds _ _ _ Bd).
        assert (H0 : 0 <= 3 * u * (nthQ a i + e i + (q * w p i + dl i))) by (apply Qmult_le_0_compat; [discriminate|lra]).
        destruct (Qltb (due i) (val b)) eqn:E.
        - apply Qltb_lt in E. pose proof (FloatAbs.sub_err A HA b (nmul A (loop_q R P) (weight_num (the_voter p i)))) as Hs. fold (due i) in Hs.
          pose proof (Qabs_le_of _ _ _ Be) as L1. pose proof (Qabs_le_of _ _ _ Bd) as L2. rewrite (Qabs_pos (nthQ a i)) in L1 by auto. rewrite (Qabs_pos (q * w p i)) in L2 by auto.
          assert (Hs2 : 3 * u * (Qabs (val b) + Qabs (due i)) <= 3 * u * (nthQ a i + e i + (q * w p i + dl i))) by (apply Qmult_le_l; [reflexivity|lra]).
          set (z := val (nsub A b (nmul A (loop_q R P) (weight_num (the_voter p i))))) in *. apply Qabs_bounds in Hs. apply Qabs_intro; lra.
        - apply Qltb_ge in E. rewrite sub_self. apply Qabs_intro; lra.
      Qed.
      Lemma err_R : sum R e' <= sum R e + sum P e + ((101 # 100) * n + 21) * (u * kap).
      Proof using HA Hw Hint HN Ha0 HaK He Hk1 Hsmall HP Hne Hq HR HPo E1 E2.
        destruct (part_weight p N Hw Hint HN c R P HP Hne) as (b & Hb & Hb1 & Hwi).
        assert (HS : 1 <= sum R (w p)) by (rewrite Hb; change 1 with (inject_Z 1); rewrite <- Zle_Qle; lia).
        set (d0 := sum P e + ((101 # 100) * n + 14) * (u * kap)).
        assert (Hdl : sum R dl <= d0).
        { apply Qmult_le_l with (sum R (w p)); [lra|]. rewrite <- sum_scal.
          apply Qle_trans with (sum R (fun i => d0 * w p i)).
          - apply sum_le. intros i Hi. rewrite (Qmult_comm d0). apply (due_err c R P q i HP Hne Hq). apply in_part. auto.
          - rewrite sum_scal. apply Qle_lteq. right. apply Qmult_comm. }
        assert (Hq1 : sum R (fun i => q * w p i) <= kap).
        { rewrite sum_scal. destruct (price_err c R P q HP Hne Hq) as [H _]. rewrite (Qabs_pos q) in H by apply q_pos. change (fun i => w p i) with (w p). lra. }
        destruct (part_sum p c R P (nthQ a) HP Ha0) as (S1 & S2 & S3). destruct (part_sum p c R P e HP) as (S4 & S5 & S6); [intros; apply e_nonneg|].
        pose proof (err_small_total c R P HP) as H2. fold d0 in H2.
        destruct share_numbers as (N1 & _ & N3 & _ & N5 & _).
        eapply Qle_trans; [apply sum_le; exact err_R_one|].
        rewrite !sum_plus, sum_scal, !sum_plus. change (sum R (fun i => e i)) with (sum R e). change (sum R (fun i => dl i)) with (sum R dl). change (sum R (fun i => nthQ a i)) with (sum R (nthQ a)).
        assert (Hu4 : 4000 * u <= 1 # 1000) by qnum.
        assert (Hd0 : 0 <= d0) by (unfold d0; assert (0 <= n * (u * kap)) by (apply Qmult_le_0_compat; lra); lra).
        assert (T : 3 * u * (sum R (nthQ a) + sum R e + (sum R (fun i => q * w p i) + sum R dl)) <= 3 * u * ((21 # 10) * kap)).
        { apply Qmult_le_l; [reflexivity|]. assert (sum R (nthQ a) <= kap) by (unfold kap; lra). lra. }
        unfold d0 in *. lra.
      Qed.
      Lemma after_err : total_err p (f_mes_next A p C f c) (nthQ (mes_next p C a c)) <= total_err p f (nthQ a) + step.
      Proof using HA Hw Hint HN Ha0 HaK He Hk1 Hsmall HD1 HDg HDi Hv HP Hne Hq HR HPo E1 E2.
        change (total_err p (f_mes_next A p C f c) (nthQ (mes_next p C a c))) with (sum ids e'). change (total_err p f (nthQ a)) with (sum ids e).
        rewrite (sum_split (fun i => likes p i c) ids e'), (sum_split (fun i => likes p i c) ids e). fold (fans p c).
        rewrite <- !(sum_perm _ _ _ HP), !sum_app. rewrite err_P. pose proof err_R as HRr.
        rewrite (sum_ext (filter (fun i => negb (likes p i c)) ids) e' e).
        - destruct share_numbers as (N1 & _ & N3 & _ & N5 & _). assert (N9 : 0 <= n * (u * kap)) by (apply Qmult_le_0_compat; lra). unfold step, share_step. lra.
        - intros i Hi. apply filter_In in Hi as [Hi Hl]. apply in_voter_ids in Hi. apply negb_true_iff in Hl. destruct (after_other i Hi Hl) as [G1 G2]. unfold e', e. rewrite G1, G2. reflexivity.
      Qed.
    End Bought.
  End State.
End Price.
