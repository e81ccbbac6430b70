(** * Phragmén-Eneström with "float-fractions": the exact result if there are no near ties *)
From Coq Require Import String.
From Coq Require Import List Arith Bool ZArith QArith Qabs Lia Lqa Permutation Sorted.
From Verif Require Import Prelude Misc MiscProofs Preferences Scores Spec ScoresProofs Search RulesThiele
  Common ThieleProofs SpecRules SpecSeq RulesSeq SeqProofs PhragmenProofs EnestroemProofs MesProofs SameSeq Floats RulesFloat FloatSearch FloatStruct SpecFloat SpecFloatMore FloatBounds FloatPhragmen FloatMesRun FloatIncrement FloatExact FloatAbs FloatConsensus.
Import ListNotations.
Open Scope Q_scope.

Section MulDiv.
  Variable A : arith.
  Hypothesis HA : float_ok A.
  Lemma mul_err : forall x y, Qabs (val (nmul A x y) - val x * val y) <= 4 * u * (Qabs (val x) * Qabs (val y)).
  Proof using HA.
    intros x y. pose proof (Qabs_nonneg (val x)) as P1. pose proof (Qabs_nonneg (val y)) as P2.
    assert (P3 : 0 <= Qabs (val x) * Qabs (val y)) by (apply Qmult_le_0_compat; auto).
    assert (HE : forall k, Qabs (val (mkNum k (val x * val y)) - val x * val y) <= 4 * u * (Qabs (val x) * Qabs (val y))).
    { intros k. cbn [val]. setoid_replace (val x * val y - val x * val y) with 0 by ring. apply Qmult_le_0_compat; [discriminate|auto]. }
    unfold nmul, arith_op. destruct (join_kind (kind_of x) (kind_of y)); try apply HE. cbn [val].
    set (a := to_float A x) in *. set (b := to_float A y) in *.
    pose proof (to_float_err A HA x) as E1. pose proof (to_float_err A HA y) as E2. fold a in E1. fold b in E2.
    pose proof (rounding_error A HA (a * b)) as E3. rewrite Qabs_Qmult in E3.
    pose proof (Qabs_le_of _ _ _ E1) as E7. pose proof (Qabs_le_of _ _ _ E2) as E8.
    pose proof (Qabs_tri3 (rnd A (a * b)) (a * b) (val x * val y)) as T.
    assert (T2 : Qabs (a * b - val x * val y) <= Qabs (a - val x) * Qabs b + Qabs (val x) * Qabs (b - val y)).
    { rewrite <- !Qabs_Qmult. pose proof (Qabs_triangle ((a - val x) * b) (val x * (b - val y))) as T3.
      setoid_replace ((a - val x) * b + val x * (b - val y)) with (a * b - val x * val y) in T3 by ring. exact T3. }
    set (X := Qabs (val x)) in *. set (Y := Qabs (val y)) in *. set (Da := Qabs (a - val x)) in *. set (Db := Qabs (b - val y)) in *.
    pose proof (Qabs_nonneg a) as A0. pose proof (Qabs_nonneg b) as B0. set (a' := Qabs a) in *. set (b' := Qabs b) in *.
    assert (D1 : Da * b' <= u * X * b') by (apply Qmult_le_compat_r; auto).
    assert (D2 : u * X * b' <= u * X * ((1 + u) * Y)).
    { rewrite !(Qmult_comm (u * X)). apply Qmult_le_compat_r; [lra|]. apply Qmult_le_0_compat; [discriminate|auto]. }
    assert (D3 : X * Db <= X * (u * Y)) by (rewrite !(Qmult_comm X); apply Qmult_le_compat_r; auto).
    assert (D4 : a' * b' <= (1 + u) * X * b') by (apply Qmult_le_compat_r; [lra|auto]).
    assert (D5 : (1 + u) * X * b' <= (1 + u) * X * ((1 + u) * Y)).
    { rewrite !(Qmult_comm ((1 + u) * X)). apply Qmult_le_compat_r; [lra|]. apply Qmult_le_0_compat; [discriminate|auto]. }
    assert (D6 : u * (a' * b') <= u * ((1 + u) * X * ((1 + u) * Y))) by (apply Qmult_le_l; [reflexivity|lra]).
    assert (D7 : (u * (1 + u) + u + u * (1 + u) * (1 + u)) * (X * Y) <= 4 * u * (X * Y)) by (apply Qmult_le_compat_r; [qnum|auto]).
    lra.
  Qed.
  Lemma div_err : forall x y, 0 < val y -> Qabs (val (ndiv A x y) - val x / val y) <= 4 * u * Qabs (val x / val y).
  Proof using HA.
    intros x y Hy. set (q := val x / val y) in *. assert (P0 : 0 <= Qabs q) by apply Qabs_nonneg.
    assert (R1 : Qabs (rnd A q - q) <= 4 * u * Qabs q).
    { eapply Qle_trans; [apply (rounding_error A HA)|]. apply Qmult_le_compat_r; [discriminate|auto]. }
    assert (R0 : Qabs (q - q) <= 4 * u * Qabs q).
    { setoid_replace (q - q) with 0 by ring. apply Qmult_le_0_compat; [discriminate|auto]. }
    assert (R2 : Qabs (rnd A (to_float A x / to_float A y) - q) <= 4 * u * Qabs q).
    { pose proof (to_float_err A HA x) as E1. pose proof (to_float_err A HA y) as E2. rewrite (Qabs_pos (val y)) in E2 by (apply Qlt_le_weak; auto).
      set (a := to_float A x) in *. set (b := to_float A y) in *. apply Qabs_bounds in E2.
      assert (U1 : u * val y <= (1 # 1000) * val y) by (apply Qmult_le_compat_r; [discriminate|apply Qlt_le_weak; auto]).
      assert (Hb : 0 < b) by lra.
      assert (Hx : val x == q * val y) by (unfold q; field; lra).
      assert (Eq : a / b - q == ((a - val x) + q * (val y - b)) / b) by (rewrite Hx; field; lra).
      assert (D1 : Qabs ((a - val x) + q * (val y - b)) <= u * (Qabs q * val y) + Qabs q * (u * val y)).
      { eapply Qle_trans; [apply Qabs_triangle|]. rewrite Qabs_Qmult. apply Qplus_le_compat.
        - eapply Qle_trans; [exact E1|]. rewrite Hx, Qabs_Qmult, (Qabs_pos (val y)) by (apply Qlt_le_weak; auto). apply Qle_refl.
        - rewrite !(Qmult_comm (Qabs q)). apply Qmult_le_compat_r; auto. apply Qabs_intro; lra. }
      assert (D2 : Qabs (a / b - q) <= (21 # 10) * u * Qabs q).
      { rewrite Eq. unfold Qdiv. rewrite Qabs_Qmult. rewrite (Qabs_pos (/ b)) by (apply Qlt_le_weak, Qinv_lt_0_compat; auto).
        change (Qabs (a - val x + q * (val y - b)) / b <= (21 # 10) * u * Qabs q). apply Qle_shift_div_r; auto.
        assert (D3 : (21 # 10) * u * Qabs q * ((999 # 1000) * val y) <= (21 # 10) * u * Qabs q * b).
        { rewrite !(Qmult_comm ((21 # 10) * u * Qabs q)). apply Qmult_le_compat_r; [lra|]. apply Qmult_le_0_compat; [discriminate|auto]. }
        assert (D4 : 0 <= u * Qabs q * val y) by (apply Qmult_le_0_compat; [apply Qmult_le_0_compat; [discriminate|auto]|apply Qlt_le_weak; auto]). lra. }
      pose proof (rounding_error A HA (a / b)) as E3. pose proof (Qabs_le_of _ _ _ D2) as D5.
      pose proof (Qabs_tri3 (rnd A (a / b)) (a / b) q) as T.
      assert (D6 : u * Qabs (a / b) <= u * (Qabs q + (21 # 10) * u * Qabs q)) by (apply Qmult_le_l; [reflexivity|auto]).
      assert (D7 : (u * (21 # 10)) * (u * Qabs q) <= (1 # 1000) * (u * Qabs q)) by (apply Qmult_le_compat_r; [discriminate|apply Qmult_le_0_compat; [discriminate|auto]]).
      assert (D8 : 0 <= u * Qabs q) by (apply Qmult_le_0_compat; [discriminate|auto]). lra. }
    unfold ndiv, arith_op. destruct (kind_of x) eqn:Ex, (kind_of y) eqn:Ey; cbn [join_kind val]; auto.
  Qed.
End MulDiv.

(** the part of a budget that is left if the price [P] is charged to supporters with [S] in total *)
Definition left_over (P S : Q) : Q := if Qltb P S then (S - P) / S else 0.
Lemma left_over_bounds : forall P S, 0 <= P -> 0 <= left_over P S <= 1.
Proof.
  intros P S HP. unfold left_over. destruct (Qltb P S) eqn:E; [|split; discriminate]. apply Qltb_lt in E.
  split; [apply Qle_shift_div_l; lra|apply Qle_shift_div_r; lra].
Qed.
Lemma left_over_lipschitz : forall P P' S M d e, 0 <= P' -> 0 <= P -> 0 <= S -> Qabs (M - S) <= d -> Qabs (P' - P) <= e ->
  S * Qabs (left_over P' M - left_over P S) <= d + e.
Proof.
  intros P P' S M d e HP' HP HS Hd He.
  assert (Hd0 : 0 <= d) by (eapply Qle_trans; [apply Qabs_nonneg|exact Hd]). assert (He0 : 0 <= e) by (eapply Qle_trans; [apply Qabs_nonneg|exact He]).
  assert (Bd := Qabs_bounds _ _ _ Hd). assert (Be := Qabs_bounds _ _ _ He).
  unfold left_over. destruct (Qltb P' M) eqn:E1, (Qltb P S) eqn:E2;
    try (apply Qltb_lt in E1); try (apply Qltb_lt in E2); try (apply not_true_iff_false in E1; rewrite Qltb_lt in E1; apply Qnot_lt_le in E1);
    try (apply not_true_iff_false in E2; rewrite Qltb_lt in E2; apply Qnot_lt_le in E2).
  - rewrite <- (Qabs_pos S) at 1 by auto. rewrite <- Qabs_Qmult.
    assert (Eq : S * ((M - P') / M - (S - P) / S) == (P' / M) * (M - S) - (P' - P)) by (field; split; lra).
    rewrite Eq. assert (H1 : 0 <= P' / M <= 1) by (split; [apply Qle_shift_div_l; lra|apply Qle_shift_div_r; lra]).
    pose proof (Qabs_triangle ((P' / M) * (M - S)) (- (P' - P))) as T. rewrite Qabs_opp, Qabs_Qmult, (Qabs_pos (P' / M)) in T by tauto.
    assert ((P' / M) * Qabs (M - S) <= 1 * Qabs (M - S)) by (apply Qmult_le_compat_r; [tauto|apply Qabs_nonneg]).
    setoid_replace (P' / M * (M - S) - (P' - P)) with (P' / M * (M - S) + - (P' - P)) by ring. lra.
  - assert (H0 : 0 <= (M - P') / M) by (apply Qle_shift_div_l; lra).
    setoid_replace ((M - P') / M - 0) with ((M - P') / M) by ring. rewrite (Qabs_pos ((M - P') / M)) by exact H0.
    destruct (Qlt_le_dec M S) as [Hl|Hl].
    + assert (H1 : (M - P') / M <= 1) by (apply Qle_shift_div_r; lra).
      assert (Eq : S * ((M - P') / M) == (M - P') + (S - M) * ((M - P') / M)) by (field; lra). rewrite Eq.
      assert ((S - M) * ((M - P') / M) <= (S - M) * 1) by (apply Qmult_le_l; lra). lra.
    + assert (S * ((M - P') / M) <= M * ((M - P') / M)) by (apply Qmult_le_compat_r; auto).
      assert (Eq : M * ((M - P') / M) == M - P') by (field; lra). lra.
  - assert (H0 : 0 <= (S - P) / S) by (apply Qle_shift_div_l; lra).
    setoid_replace (0 - (S - P) / S) with (- ((S - P) / S)) by ring. rewrite Qabs_opp, (Qabs_pos ((S - P) / S)) by exact H0.
    assert (Eq : S * ((S - P) / S) == S - P) by (field; lra). lra.
  - setoid_replace (0 - 0) with 0 by ring. change (Qabs 0) with 0. lra.
Qed.

Section Enestroem.
  Variable A : arith.
  Hypothesis HA : float_ok A.
  Variables (p : profile) (k : nat).
  Hypothesis Hw : wf p.
  Hypothesis Hk1 : (1 <= k)%nat.
  Hypothesis Hsmall : small_purses p k.
  Let W := wsum (voters p).
  Let n := Qnat (length (voters p)).
  Let ids := voter_ids p.
  Let c0 := (21 # 10) * n + 20.
  Let P := W / Qnat k.
  Let price := ndiv A (total_num A p) (num_of_nat k).

  Lemma W0 : 0 <= W.
  Proof using Hw. apply (W_nonneg p Hw). Qed.
  Lemma P_bounds : 0 <= P <= W.
  Proof using Hw Hk1.
    pose proof W0 as HW. assert (1 <= Qnat k) by (change 1 with (Qnat 1); apply Qnat_le; auto). unfold P.
    split; [apply Qle_shift_div_l; lra|apply Qle_shift_div_r; [lra|]].
    assert (W * 1 <= W * Qnat k) by (rewrite !(Qmult_comm W); apply Qmult_le_compat_r; auto). lra.
  Qed.
  Lemma price_err : 0 <= val price /\ Qabs (val price - P) <= 4 * (u * W).
  Proof using HA Hw Hk1.
    assert (Hk0 : 0 < val (num_of_nat k)) by (apply Qnat_pos; lia).
    assert (Ev : val (total_num A p) / val (num_of_nat k) == P).
    { unfold P. rewrite (total_exact A p HA), total_weight_eq. reflexivity. }
    split.
    - apply (within_nonneg 3 _ P). apply (within_mono (0 + 0 + 3)); [lia|]. unfold P. apply (arith_div A HA); auto.
      + apply within_refl; [apply W0|]. rewrite (total_exact A p HA), total_weight_eq. reflexivity.
      + apply within_refl; [apply Qnat_nonneg|reflexivity].
    - pose proof (div_err A HA (total_num A p) (num_of_nat k) Hk0) as H. fold price in H. rewrite Ev in H. pose proof P_bounds as [P0 P1].
      rewrite (Qabs_pos P) in H by auto. assert (u * P <= u * W) by (apply Qmult_le_l; [reflexivity|auto]). lra.
  Qed.
  (** after [r] rounds *)
  Definition pgood (r : nat) (f : list num) (x : nat -> Q) : Prop :=
    (forall i, In i ids -> 0 <= x i) /\ sum ids x <= W /\ total_err p f x <= (Qnat (2 ^ r) - 1) * c0 * (u * W).

  Section Round.
    Variables (r : nat) (f : list num) (x : nat -> Q).
    Hypothesis (Hg : pgood r f x) (Hr : (r < k)%nat).
    Let E := total_err p f x.
    Let d := E + (203 # 100) * n * (u * W).
    Lemma pnumbers : 0 <= n /\ 1 <= Qnat (2 ^ r) /\ Qnat (2 ^ r) * c0 <= 4300 /\ Qnat (2 ^ r) * c0 * W <= 4300 /\ 0 <= u * W /\ 4300 * (u * W) <= (1 # 1000) * W.
    Proof using Hsmall Hr Hw Hk1.
      assert (Hn0 : 0 <= n) by apply Qnat_nonneg. split; auto.
      assert (Hpow : (1 <= 2 ^ r <= 2 ^ (k - 1))%nat) by (split; [pose proof (Nat.pow_nonzero 2 r); lia|apply Nat.pow_le_mono_r; lia]).
      assert (H1 : 1 <= Qnat (2 ^ r)) by (change 1 with (Qnat 1); apply Qnat_le; lia).
      assert (H2 : Qnat (2 ^ r) <= Qnat (2 ^ (k - 1))) by (apply Qnat_le; lia). split; auto.
      destruct Hsmall as [S1 S2]. fold n in S1, S2. fold c0 in S1, S2. fold W in S2.
      assert (Hc : 0 <= c0) by (unfold c0; lra). pose proof W0 as HW.
      assert (H3 : Qnat (2 ^ r) * c0 <= Qnat (2 ^ (k - 1)) * c0) by (apply Qmult_le_compat_r; auto).
      assert (H4 : Qnat (2 ^ r) * c0 * W <= Qnat (2 ^ (k - 1)) * c0 * W) by (apply Qmult_le_compat_r; auto).
      split; [eapply Qle_trans; eauto|]. split; [eapply Qle_trans; eauto|]. split; [apply Qmult_le_0_compat; [discriminate|auto]|].
      assert (4300 * u * W <= (1 # 1000) * W) by (apply Qmult_le_compat_r; [discriminate|auto]). lra.
    Qed.
    Lemma perr_small : E <= (1 # 1000) * W /\ 0 <= E.
    Proof using Hsmall Hr Hg Hw Hk1.
      destruct pnumbers as (N0 & N1 & N2 & _ & N4 & N5). destruct Hg as (_ & _ & He). split.
      - assert (Hc : 0 <= c0) by (unfold c0; lra).
        assert ((Qnat (2 ^ r) - 1) * c0 * (u * W) <= 4300 * (u * W)) by (apply Qmult_le_compat_r; [lra|auto]). unfold E. lra.
      - apply sum_nonneg. intros. apply Qabs_nonneg.
    Qed.
    (** voters with nothing left do not count *)
    Definition having (i : nat) : Q := if Qle_bool (val (nth_num f i)) 0 then 0 else val (nth_num f i).
    Lemma having_nonneg : forall i, 0 <= having i.
    Proof using. intros i. unfold having. destruct (Qle_bool (val (nth_num f i)) 0) eqn:Eb; [discriminate|]. apply Qle_bool_false in Eb. apply Qlt_le_weak; auto. Qed.
    Lemma having_err : forall i, In i ids -> Qabs (having i - x i) <= Qabs (val (nth_num f i) - x i).
    Proof using Hg.
      intros i Hi. unfold having. destruct (Qle_bool (val (nth_num f i)) 0) eqn:Eb; [|apply Qle_refl]. apply Qle_bool_iff in Eb.
      destruct Hg as (H0 & _). specialize (H0 i Hi). set (e := Qabs (val (nth_num f i) - x i)). assert (He := Qabs_bounds (val (nth_num f i)) (x i) e (Qle_refl _)).
      apply Qabs_intro; lra.
    Qed.
    Lemma fold_if : forall (c : nat) l s, fold_left (fun s iv => if nle (nth_num f (fst iv)) (num_of_nat 0) then s
                           else if mem c (approved (snd iv)) then nadd A s (nth_num f (fst iv)) else s) l s =
      fold_left (fun s iv => nadd A s (nth_num f (fst iv))) (filter (fun iv : nat * voter => mem c (approved (snd iv)) && negb (nle (nth_num f (fst iv)) (num_of_nat 0))) l) s.
    Proof using.
      intros c. induction l as [|iv l IH]; intros s; [reflexivity|]. cbn [fold_left filter].
      destruct (nle (nth_num f (fst iv)) (num_of_nat 0)); [rewrite andb_false_r; apply IH|]. rewrite andb_true_r. destruct (mem c (approved (snd iv))); apply IH.
    Qed.
    Lemma psupport_err : forall c, 0 <= val (f_pe_support A p f c) /\ Qabs (val (f_pe_support A p f c) - purse p x c) <= d.
    Proof using HA Hw Hsmall Hr Hg Hk1.
      intros c. unfold f_pe_support. rewrite fold_if. rewrite enum_voters_eq, filter_map_comm. cbn [fst snd].
      set (B := filter (fun i => mem c (approved (the_voter p i)) && negb (nle (nth_num f i) (num_of_nat 0))) (voter_ids p)).
      set (l := map (fun i => (i, the_voter p i)) B).
      assert (HB : forall i, In i B -> In i ids /\ val (nth_num f i) == having i).
      { intros i Hi. apply filter_In in Hi as [Hi Hb]. split; auto. apply andb_true_iff in Hb as [_ Hb]. apply negb_true_iff in Hb. unfold having.
        unfold nle in Hb. change (val (num_of_nat 0)) with 0 in Hb. rewrite Hb. reflexivity. }
      assert (Hpos : forall iv, In iv l -> 0 <= val (nth_num f (fst iv))).
      { intros iv Hiv. apply in_map_iff in Hiv as (i & <- & Hi). cbn [fst]. destruct (HB i Hi) as [_ ->]. apply having_nonneg. }
      pose proof (fold_add_within A HA _ (fun iv : nat * voter => nth_num f (fst iv)) l (num_of_nat 0) 0 0 Hpos) as F.
      assert (F0 : within 0 (val (num_of_nat 0)) 0) by (apply within_refl; [apply Qle_refl|reflexivity]). specialize (F F0).
      set (s := val (fold_left _ l _)) in *. unfold l in F. rewrite map_map, map_length in F. cbn [fst] in F.
      change (Qsum (map (fun i => val (nth_num f i)) B)) with (sum B (fun i => val (nth_num f i))) in F.
      assert (Ev : sum B (fun i => val (nth_num f i)) == sum (fans p c) having).
      { rewrite (sum_ext B _ having) by (intros i Hi; apply HB; auto). unfold B, fans. rewrite !sum_filter_ids. apply sum_ext. intros i _.
        change (likes p i c) with (mem c (approved (the_voter p i))). destruct (mem c (approved (the_voter p i))); cbn [andb]; [|reflexivity].
        unfold nle, having. change (val (num_of_nat 0)) with 0. destruct (Qle_bool (val (nth_num f i)) 0); reflexivity. }
      set (v := sum (fans p c) having) in *. apply (within_ext _ s s _ (0 + v)) in F; [|reflexivity|rewrite Ev; reflexivity].
      assert (Hlen : (length B <= length (voters p))%nat).
      { assert (Hfl : forall Q (m : list nat), (length (filter Q m) <= length m)%nat) by (intros Q m; induction m as [|z m IHm]; simpl; [lia|destruct (Q z); simpl; lia]).
        unfold B. etransitivity; [apply Hfl|]. unfold voter_ids. rewrite seq_length. lia. }
      apply (within_mono _ (2 * length (voters p))) in F; [|lia].
      split; [apply (within_nonneg _ _ _ F)|].
      assert (Hv : 0 <= v) by (apply sum_nonneg; intros i Hi; apply having_nonneg).
      assert (Hd : Qabs (v - purse p x c) <= E).
      { unfold purse. eapply Qle_trans; [apply sum_diff_abs|]. unfold E, total_err. fold ids.
        eapply Qle_trans; [|apply (sum_filter_le (fun i => likes p i c) ids); intros; apply Qabs_nonneg].
        apply sum_le. intros i Hi. apply having_err. apply filter_In in Hi. apply Hi. }
      assert (Hpx : purse p x c <= W).
      { destruct Hg as (G1 & G2 & _). eapply Qle_trans; [|exact G2]. apply (sum_filter_le (fun i => likes p i c) ids). exact G1. }
      destruct pnumbers as (N0 & N1 & N2 & _ & N4 & N5). destruct perr_small as [S1 S2].
      assert (Hc0 : (21 # 10) * n <= 4300).
      { assert (Hc : 0 <= c0) by (unfold c0; lra). assert (1 * c0 <= Qnat (2 ^ r) * c0) by (apply Qmult_le_compat_r; auto). unfold c0 in *. lra. }
      assert (Hv2 : v <= (1001 # 1000) * W) by (apply Qabs_bounds in Hd; lra).
      pose proof (within_abs _ _ _ F) as Ha.
      assert (Hn : (Z.of_nat (2 * length (voters p)) <= 1000000)%Z).
      { assert (Hn1 : n <= 4300) by lra. unfold n, Qnat in Hn1. change 4300 with (inject_Z 4300) in Hn1. rewrite <- Zle_Qle in Hn1. lia. }
      pose proof (grow_lin _ Hn) as Hgr.
      assert (Hq : Qnat (2 * length (voters p)) == 2 * n).
      { unfold n, Qnat. rewrite Nat2Z.inj_mul, inject_Z_mult. reflexivity. }
      rewrite Hq in Hgr.
      assert (K1 : (grow (2 * length (voters p)) - 1) * (0 + v) <= (101 # 100) * (2 * n) * u * (0 + v)) by (apply Qmult_le_compat_r; lra).
      assert (K2 : (101 # 100) * (2 * n) * u * v <= (101 # 100) * (2 * n) * u * ((1001 # 1000) * W)).
      { rewrite !(Qmult_comm ((101 # 100) * (2 * n) * u)). apply Qmult_le_compat_r; auto. repeat apply Qmult_le_0_compat; try discriminate; auto. }
      assert (K3 : 0 <= n * (u * W)) by (apply Qmult_le_0_compat; auto).
      pose proof (Qabs_tri3 s (0 + v) (purse p x c)) as T.
      setoid_replace (0 + v - purse p x c) with (v - purse p x c) in T by ring.
      unfold d. lra.
    Qed.
    Lemma psupport_small : forall c, 0 <= purse p x c /\ purse p x c <= W /\ d + 2 * u * purse p x c <= tiny.
    Proof using Hw Hsmall Hr Hg Hk1.
      intros c. destruct Hg as (G1 & G2 & G3). 
      assert (Hp0 : 0 <= purse p x c) by (apply sum_nonneg; intros i Hi; apply G1; apply filter_In in Hi; apply Hi).
      assert (Hpx : purse p x c <= W) by (eapply Qle_trans; [|exact G2]; apply (sum_filter_le (fun i => likes p i c) ids); exact G1).
      split; auto. split; auto. destruct pnumbers as (N0 & N1 & N2 & N3 & N4 & N5).
      assert (K1 : u * purse p x c <= u * W) by (apply Qmult_le_l; [reflexivity|auto]).
      assert (K2 : u * (Qnat (2 ^ r) * c0 * W) <= u * 4300) by (apply Qmult_le_l; [reflexivity|auto]). assert (K3 : u * 4300 <= tiny) by qnum.
      assert (K4 : 0 <= n * (u * W)) by (apply Qmult_le_0_compat; auto).
      unfold d, E. assert (Hc : c0 * (u * W) == (21 # 10) * (n * (u * W)) + 20 * (u * W)) by (unfold c0; ring).
      assert (G3' : total_err p f x <= Qnat (2 ^ r) * c0 * W * u - c0 * (u * W)) by lra. lra.
    Qed.
    (** the budgets after the round *)
    Lemma pnext_good : forall C c f' x' mx, nmax (map (f_pe_support A p f) (available p C)) = Ok mx -> Qabs (val mx - purse p x c) <= d ->
      f_pe_next A p price C f c = Ok f' -> (forall i, In i ids -> x' i == (if likes p i c then x i * left_over P (purse p x c) else x i)) -> pgood (S r) f' x'.
    Proof using HA Hw Hsmall Hr Hg Hk1.
      intros C c f' x' mx Em Hmx Ef Hx'. unfold f_pe_next in Ef. rewrite Em in Ef. cbn [rbind] in Ef. injection Ef as <-.
      set (mult := if nlt price mx then ndiv A (nsub A mx price) mx else num_of_nat 0) in *.
      set (S := purse p x c) in *. set (M := val mx) in *. set (P' := val price) in *.
      destruct (psupport_small c) as (S0 & SW & Sd). fold S in S0, SW, Sd. destruct price_err as [P'0 Pe]. fold P' in P'0, Pe.
      pose proof P_bounds as [P0 PW]. destruct pnumbers as (N0 & N1 & N2 & N3 & N4 & N5). destruct perr_small as [E1 E0]. destruct Hg as (G1 & G2 & G3).
      set (m := left_over P S) in *. pose proof (left_over_bounds P S P0) as [m0 m1]. fold m in m0, m1.
      (* the multiplier *)
      assert (Hm : Qabs (val mult - left_over P' M) <= 11 * u).
      { unfold mult, left_over. change (Qltb P' M) with (nlt price mx). pose proof (nlt_spec price mx) as Hl. destruct (nlt price mx); [|discriminate].
        fold M in Hl. fold P' in Hl. assert (HM : 0 < M) by lra.
        pose proof (sub_err A HA mx price) as Hs. fold M in Hs. fold P' in Hs. rewrite (Qabs_pos M), (Qabs_pos P') in Hs by lra.
        set (t := val (nsub A mx price)) in *.
        pose proof (div_err A HA (nsub A mx price) mx HM) as Hq. fold M in Hq. fold t in Hq.
        assert (H1 : Qabs (t / M - (M - P') / M) <= 6 * u).
        { assert (Eq : t / M - (M - P') / M == (t - (M - P')) / M) by (field; lra). rewrite Eq. unfold Qdiv. rewrite Qabs_Qmult.
          rewrite (Qabs_pos (/ M)) by (apply Qlt_le_weak, Qinv_lt_0_compat; auto). change (Qabs (t - (M - P')) / M <= 6 * u). apply Qle_shift_div_r; auto.
          assert (u * P' <= u * M) by (apply Qmult_le_l; [reflexivity|apply Qlt_le_weak; auto]). lra. }
        assert (H2 : 0 <= (M - P') / M <= 1) by (split; [apply Qle_shift_div_l; lra|apply Qle_shift_div_r; lra]).
        pose proof (Qabs_le_of _ _ _ H1) as H3. rewrite (Qabs_pos ((M - P') / M)) in H3 by tauto.
        pose proof (Qabs_tri3 (val (ndiv A (nsub A mx price) mx)) (t / M) ((M - P') / M)) as T.
        assert (H4 : u * Qabs (t / M) <= u * (1 + 6 * u)) by (apply Qmult_le_l; [reflexivity|lra]).
        assert (H5 : 4 * (u * (1 + 6 * u)) + 6 * u <= 11 * u) by qnum. lra. }
      pose proof (left_over_lipschitz P P' S M d (4 * (u * W)) P'0 P0 S0 Hmx Pe) as HL.
      assert (HSm : S * Qabs (val mult - m) <= d + 15 * (u * W)).
      { assert (T : Qabs (val mult - m) <= Qabs (val mult - left_over P' M) + Qabs (left_over P' M - m)) by apply Qabs_tri3.
        assert (S * Qabs (val mult - m) <= S * (11 * u + Qabs (left_over P' M - m))) by (rewrite !(Qmult_comm S); apply Qmult_le_compat_r; [lra|auto]).
        assert (u * S <= u * W) by (apply Qmult_le_l; [reflexivity|auto]). fold m in HL. lra. }
      assert (Hmm : Qabs (val mult) <= 1 + 11 * u).
      { pose proof (Qabs_le_of _ _ _ Hm) as H1. pose proof (left_over_bounds P' M P'0) as [H2 H3]. rewrite (Qabs_pos (left_over P' M)) in H1 by exact H2. lra. }
      split; [|split].
      - intros i Hi. rewrite (Hx' i Hi). specialize (G1 i Hi). destruct (likes p i c); auto. apply Qmult_le_0_compat; auto.
      - eapply Qle_trans; [|exact G2]. apply sum_le. intros i Hi. rewrite (Hx' i Hi). specialize (G1 i Hi). destruct (likes p i c); [|apply Qle_refl].
        assert (x i * m <= x i * 1) by (rewrite !(Qmult_comm (x i)); apply Qmult_le_compat_r; auto). lra.
      - set (e := fun i => Qabs (val (nth_num f i) - x i)).
        assert (He0 : forall i, 0 <= e i) by (intros; apply Qabs_nonneg).
        unfold total_err. eapply Qle_trans; [apply (sum_le _ _ (fun i => (1 + 16 * u) * e i + ((41 # 10) * u * x i + (if likes p i c then Qabs (val mult - m) * x i else 0))))|].
        + intros i Hi. assert (Hi' := Hi). apply in_voter_ids in Hi'. rewrite nth_num_enum by auto. cbn [fst snd]. rewrite (Hx' i Hi).
          change (mem c (approved (the_voter p i))) with (likes p i c). specialize (G1 i Hi).
          assert (K1 : 0 <= u * e i) by (apply Qmult_le_0_compat; [discriminate|auto]). assert (K2 : 0 <= u * x i) by (apply Qmult_le_0_compat; [discriminate|auto]).
          destruct (likes p i c); [|unfold e in *; lra].
          set (a := nth_num f i) in *. pose proof (mul_err A HA a mult) as Hu.
          assert (Ha : Qabs (val a) <= x i + e i). { rewrite <- (Qabs_pos (x i)) by auto. apply Qabs_le_of. apply Qle_refl. }
          assert (H1 : Qabs (val a) * Qabs (val mult) <= (x i + e i) * (1 + 11 * u)).
          { apply Qle_trans with ((x i + e i) * Qabs (val mult)); [apply Qmult_le_compat_r; [auto|apply Qabs_nonneg]|].
            rewrite !(Qmult_comm (x i + e i)). apply Qmult_le_compat_r; auto. specialize (He0 i). lra. }
          assert (H2 : 4 * u * (Qabs (val a) * Qabs (val mult)) <= 4 * u * ((x i + e i) * (1 + 11 * u))) by (apply Qmult_le_l; [reflexivity|auto]).
          assert (H3 : 4 * u * (1 + 11 * u) * (x i + e i) <= (41 # 10) * u * (x i + e i)) by (apply Qmult_le_compat_r; [qnum|specialize (He0 i); lra]).
          assert (H4 : Qabs (val a * val mult - x i * m) <= e i * (1 + 11 * u) + Qabs (val mult - m) * x i).
          { assert (T := Qabs_triangle ((val a - x i) * val mult) (x i * (val mult - m))).
            setoid_replace ((val a - x i) * val mult + x i * (val mult - m)) with (val a * val mult - x i * m) in T by ring.
            rewrite !Qabs_Qmult, (Qabs_pos (x i)) in T by auto. fold (e i) in T.
            assert (e i * Qabs (val mult) <= e i * (1 + 11 * u)) by (rewrite !(Qmult_comm (e i)); apply Qmult_le_compat_r; auto).
            change (Qabs (val a - x i)) with (e i) in T. lra. }
          pose proof (Qabs_tri3 (val (nmul A a mult)) (val a * val mult) (x i * m)) as T2. lra.
        + rewrite sum_plus, sum_scal, sum_plus, sum_scal.
          assert (Es : sum ids (fun i => if likes p i c then Qabs (val mult - m) * x i else 0) == S * Qabs (val mult - m)).
          { rewrite <- (sum_filter_ids (fun i => likes p i c) ids (fun i => Qabs (val mult - m) * x i)). rewrite sum_scal. unfold S, purse, fans. fold ids. ring. }
          unfold ids in Es. rewrite Es. change (sum (voter_ids p) e) with E.
          assert (K1 : u * E <= u * ((1 # 1000) * W)) by (apply Qmult_le_l; [reflexivity|auto]).
          assert (K2 : u * sum ids x <= u * W) by (apply Qmult_le_l; [reflexivity|auto]). unfold ids in K2. change (fun i => x i) with x.
          assert (Hpow : Qnat (2 ^ Datatypes.S r) == 2 * Qnat (2 ^ r)).
          { rewrite Nat.pow_succ_r'. unfold Qnat. rewrite Nat2Z.inj_mul, inject_Z_mult. reflexivity. }
          rewrite Hpow. assert (K3 : 0 <= n * (u * W)) by (apply Qmult_le_0_compat; auto).
          assert (Hc : c0 * (u * W) == (21 # 10) * (n * (u * W)) + 20 * (u * W)) by (unfold c0; ring).
          assert (G3' : E <= Qnat (2 ^ r) * (c0 * (u * W)) - c0 * (u * W)) by (unfold E; lra).
          unfold d in *. lra.
    Qed.
  End Round.

  Hypothesis Hk : (1 <= k <= num_cand p)%nat.
  Hypothesis Hclear : enestroem_no_near_ties p k.
  Definition pe_rel (C : list nat) (a : list Q) (f : list num) : Prop :=
    EGood p C a /\ pgood (length C) f (nthQ a) /\
    exists L x, runs_from p (richest_choice p) (enestroem_update p k) [] (w p) L x /\ Permutation L C /\ agree p x (nthQ a).
  Lemma update_left_over : forall C x c x', (forall i, In i ids -> 0 <= x i) -> enestroem_update p k C x c x' ->
    forall i, In i ids -> x' i == (if likes p i c then x i * left_over P (purse p x c) else x i).
  Proof using Hw Hk1.
    intros C x c x' Hx [H1 H2] i Hi. assert (Hi' := Hi). apply in_voter_ids in Hi'. fold W in H1, H2. fold P in H1, H2. unfold left_over.
    pose proof P_bounds as [P0 _]. destruct (Qltb P (purse p x c)) eqn:E.
    - apply Qltb_lt in E. rewrite (H1 E i Hi'). destruct (likes p i c); [|reflexivity]. field. lra.
    - apply not_true_iff_false in E. rewrite Qltb_lt in E. apply Qnot_lt_le in E. rewrite (H2 E i Hi'). destruct (likes p i c); [ring|reflexivity].
  Qed.
  Lemma pe_rel_step : forall C a f, pe_rel C a f -> (length C < k)%nat ->
    exists cs, pe_select p C a = Ok cs /\ f_pe_select A p C f = Ok cs /\
      forall c, In c cs -> exists f', f_pe_next A p price C f c = Ok f' /\ pe_rel (C ++ [c]) (pe_next p (total_weight p / Qnat k) C a c) f'.
  Proof using HA Hw Hk Hk1 Hsmall Hclear.
    intros C a f (HB & HG & L & x & H3 & H4 & H5) Hl.
    assert (Hset : set_same C L) by (intro z; split; apply Permutation_in; [apply Permutation_sym|]; auto).
    assert (Hset' : set_same L C) by (intro z; symmetry; apply Hset).
    assert (Hag : agree p (nthQ a) x) by (intros i Hi; symmetry; apply H5; auto).
    assert (Hl' : (length L < k)%nat) by (rewrite (Permutation_length H4); auto).
    destruct (pe_sel_ok p k Hw Hk C a HB Hl) as (cs & E & Hasc & Hin).
    assert (Hne : available p C <> []).
    { destruct HB as [[HN HF] _]. eapply available_nonempty; eauto. lia. }
    assert (Hps : forall c, pe_support p a c == purse p (nthQ a) c) by (intros c; apply pe_support_eq; apply HB).
    destruct (max_entries_same A HA (f_pe_support A p f) (pe_support p a) (total_err p f (nthQ a) + (203 # 100) * n * (u * W)) (available p C) Hne (available_asc p C)) as [Esel Emax].
    { intros c Hc. destruct (psupport_err (length C) f (nthQ a) HG Hl c) as [S1 S2]. destruct (psupport_small (length C) f (nthQ a) HG Hl c) as (S3 & _ & S4).
      rewrite !Hps. split; auto. }
    { intros c Hc Hn d Hd. apply available_In in Hc. assert (HL : richest_choice p L x c).
      { apply (Hclear L x c H3 Hl'); [eapply fresh_ext; eauto|]. intros d0 Hd0. assert (Hd1 : In d0 (available p C)) by (apply available_In; eapply fresh_ext; eauto).
        specialize (Hn d0 Hd1). unfold nearly_le in *. rewrite <- !(purse_ext p (nthQ a) x) by auto. rewrite <- !Hps. exact Hn. }
      rewrite !Hps. apply (richest_ext p L C x (nthQ a) c) in HL; auto. apply HL. apply available_In. auto. }
    exists cs. split; auto. split; [unfold f_pe_select; rewrite Esel; exact E|].
    intros c Hc. apply Hin in Hc. destruct (pe_next_ok p k Hw Hk C a c HB Hl Hc) as [Hu HB'].
    destruct (nmax_ok (map (f_pe_support A p f) (available p C))) as (mx & Em & _); [destruct (available p C); [congruence|discriminate]|].
    assert (Hnx : exists f', f_pe_next A p price C f c = Ok f') by (unfold f_pe_next; rewrite Em; cbn [rbind]; eauto).
    destruct Hnx as (f' & Ef'). exists f'. split; [exact Ef'|]. split; [exact HB'|]. split.
    - rewrite app_length, Nat.add_1_r. eapply (pnext_good (length C) f (nthQ a) HG Hl C c f' _ mx Em); [|exact Ef'|].
      + rewrite <- Hps. apply Emax; auto; [apply available_In; apply Hc|]. intros c' Hc'. rewrite !Hps. apply Hc. apply available_In. auto.
      + apply (update_left_over C (nthQ a) c); auto. intros i Hi. apply HB. apply in_voter_ids. auto.
    - exists (c :: L), (nthQ (pe_next p (total_weight p / Qnat k) C a c)). split; [|split; [|apply agree_refl]].
      + eapply run_step; [exact H3|apply (richest_ext p C L (nthQ a) x); auto|].
        assert (Ep : purse p x c == purse p (nthQ a) c) by (apply purse_ext; auto).
        destruct Hu as [Hu1 Hu2]. split; intros HP; rewrite Ep in HP; intros i Hi.
        * rewrite (Hu1 HP i Hi). destruct (likes p i c); rewrite (Hag i Hi), ?Ep; reflexivity.
        * rewrite (Hu2 HP i Hi). destruct (likes p i c); rewrite ?(Hag i Hi); reflexivity.
      + eapply Permutation_trans; [apply perm_skip; exact H4|]. apply Permutation_cons_append.
  Qed.
  Lemma pe_rel_start : pe_rel [] (map weight (voters p)) (map weight_num (voters p)).
  Proof using Hw.
    assert (Z : forall i, In i ids -> nthQ (map weight (voters p)) i = w p i) by (intros i Hi; apply weights_nth; apply in_voter_ids; auto).
    split; [apply E0; auto|]. split.
    - split; [|split].
      + intros i Hi. rewrite (Z i Hi). apply (w_nonneg p Hw i Hi).
      + unfold W. rewrite wsum_voter_ids. apply sum_le. intros i Hi. rewrite (Z i Hi). apply Qle_refl.
      + unfold total_err. rewrite (sum_ext _ _ (fun _ => 0 * 0)); [rewrite sum_scal; apply Qle_lteq; right; cbn [length Nat.pow]; change (Qnat 1) with 1; ring|].
        intros i Hi. rewrite (Z i Hi). apply in_voter_ids in Hi. rewrite nth_num_voters by auto. unfold w, weight_num. cbn [val].
        setoid_replace (weight (the_voter p i) - weight (the_voter p i)) with 0 by ring. reflexivity.
    - exists [], (w p). split; [constructor; apply agree_refl|]. split; auto. intros i Hi. rewrite Z by (apply in_voter_ids; auto). reflexivity.
  Qed.
  Theorem f_enestroem_exact : forall resolute maxn, f_phragmen_enestroem A p k resolute maxn = phragmen_enestroem p k resolute maxn.
  Proof using HA Hw Hk Hk1 Hsmall Hclear.
    intros resolute maxn. unfold f_phragmen_enestroem, phragmen_enestroem. fold price.
    rewrite (seq_dfs_sim k (pe_select p) (pe_next p (total_weight p / Qnat k)) (f_pe_select A p) (f_pe_next A p price) pe_rel pe_rel_step _ _ [] (map weight (voters p))); [reflexivity|apply pe_rel_start|simpl; lia].
  Qed.
End Enestroem.

(** ** Integer weights: purses are multiples of a known fraction *)
Section EnestroemInteger.
  Variables (p : profile) (N k : nat).
  Hypothesis Hw : wf p.
  Hypothesis Hint : integer_weights p.
  Hypothesis HN : wsum (voters p) <= Qnat N.
  Hypothesis Hv : voters p <> [].
  Hypothesis Hk1 : (1 <= k)%nat.
  Let B := (Z.of_nat k * Z.of_nat N)%Z.

  Lemma B_pos : (1 <= B)%Z.
  Proof using Hw HN Hv Hk1. pose proof (N_pos p N Hw HN Hv). unfold B. nia. Qed.
  Lemma two_pow : forall r, (1 <= 2 ^ Z.of_nat r)%Z.
  Proof using. intros r. clear. pose proof (Z.pow_pos_nonneg 2 (Z.of_nat r)). lia. Qed.
  Lemma purse_bounds : forall x c, (forall i, (i < length (voters p))%nat -> 0 <= x i) -> sum (voter_ids p) x <= wsum (voters p) -> 0 <= purse p x c <= Qnat N.
  Proof using HN.
    intros x c H0 Hs. split; [apply sum_nonneg; intros i Hi; apply H0; apply in_fans in Hi; apply Hi|].
    eapply Qle_trans; [|exact HN]. eapply Qle_trans; [|exact Hs]. apply (sum_filter_le (fun i => likes p i c) (voter_ids p)). intros i Hi. apply H0, in_voter_ids, Hi.
  Qed.
  Lemma purse_int : forall x c D, (forall i, (i < length (voters p))%nat -> is_int (x i * inject_Z D)) -> is_int (purse p x c * inject_Z D).
  Proof using.
    intros x c D Hx. apply (is_int_ext (sum (fans p c) (fun i => inject_Z D * x i))); [unfold purse; rewrite sum_scal; ring|].
    apply is_int_sum. intros i Hi. apply (is_int_ext (x i * inject_Z D)); [ring|]. apply Hx. apply in_fans in Hi. apply Hi.
  Qed.
  Lemma purses_int : forall L x, runs_from p (richest_choice p) (enestroem_update p k) [] (w p) L x ->
    (forall i, (i < length (voters p))%nat -> 0 <= x i) /\ sum (voter_ids p) x <= wsum (voters p) /\
    exists D : Z, (1 <= D <= B ^ (2 ^ Z.of_nat (length L) - 1))%Z /\ forall i, (i < length (voters p))%nat -> is_int (x i * inject_Z D).
  Proof using Hw Hint HN Hv Hk1.
    assert (WI : is_int (wsum (voters p))).
    { apply (is_int_ext (sum (voter_ids p) (w p))); [symmetry; apply wsum_voter_ids|]. apply is_int_sum. intros i Hi. apply (w_int p Hint). apply in_voter_ids. auto. }
    pose proof B_pos as HB.
    intros L x H. induction H as [x Hx|L x c x' H IH Hc Hu].
    - split; [|split].
      + intros i Hi. rewrite (Hx i Hi). apply (w_nonneg p Hw). apply in_voter_ids. auto.
      + rewrite wsum_voter_ids. apply sum_le. intros i Hi. apply in_voter_ids in Hi. rewrite (Hx i Hi). apply Qle_refl.
      + exists 1%Z. split; [simpl; lia|]. intros i Hi. apply (is_int_ext (w p i)); [rewrite (Hx i Hi); change (inject_Z 1) with 1; ring|]. apply (w_int p Hint i Hi).
    - destruct IH as (H0 & Hs & D & HD & Hx).
      pose proof (update_left_over p k Hw Hk1 L x c x' ltac:(intros i Hi; apply H0, in_voter_ids, Hi) Hu) as Hl.
      pose proof (left_over_bounds (wsum (voters p) / Qnat k) (purse p x c) (proj1 (P_bounds p k Hw Hk1))) as [m0 m1].
      set (m := left_over (wsum (voters p) / Qnat k) (purse p x c)) in *.
      split; [|split].
      + intros i Hi. rewrite Hl by (apply in_voter_ids; auto). specialize (H0 i Hi). destruct (likes p i c); auto. apply Qmult_le_0_compat; auto.
      + eapply Qle_trans; [|exact Hs]. apply sum_le. intros i Hi. rewrite Hl by auto. apply in_voter_ids in Hi. specialize (H0 i Hi). destruct (likes p i c); [|apply Qle_refl].
        assert (x i * m <= x i * 1) by (rewrite !(Qmult_comm (x i)); apply Qmult_le_compat_r; auto). lra.
      + cbn [length]. rewrite Nat2Z.inj_succ, Z.pow_succ_r by lia. pose proof (two_pow (length L)) as Ht. set (t := (2 ^ Z.of_nat (length L))%Z) in *.
        assert (Hpow : (B ^ (2 * t - 1) = B * (B ^ (t - 1) * B ^ (t - 1)))%Z).
        { rewrite <- Z.pow_add_r by lia. rewrite <- Z.pow_succ_r by lia. f_equal. lia. }
        destruct (purse_bounds x c H0 Hs) as [P0 PN]. set (S := purse p x c) in *.
        destruct (Qltb (wsum (voters p) / Qnat k) S) eqn:E.
        * apply Qltb_lt in E. assert (Hk0 : 0 < Qnat k) by (apply Qnat_pos; lia).
          pose proof (P_bounds p k Hw Hk1) as [Q0 _].
          assert (HS : 0 < S) by lra. destruct (purse_int x c D Hx) as (s & Hsz). fold S in Hsz.
          assert (HDp : 0 < inject_Z D) by (change 0 with (inject_Z 0); rewrite <- Zlt_Qlt; lia).
          assert (Hs1 : (1 <= s)%Z).
          { assert (Hp : 0 < S * inject_Z D) by (rewrite <- (Qmult_0_l (inject_Z D)); apply Qmult_lt_compat_r; auto).
            rewrite Hsz in Hp. change 0 with (inject_Z 0) in Hp. rewrite <- Zlt_Qlt in Hp. lia. }
          assert (Hs2 : (s <= Z.of_nat N * D)%Z).
          { assert (Hp : S * inject_Z D <= Qnat N * inject_Z D) by (apply Qmult_le_compat_r; [auto|apply Qlt_le_weak; auto]).
            rewrite Hsz in Hp. unfold Qnat in Hp. rewrite <- inject_Z_mult, <- Zle_Qle in Hp. exact Hp. }
          exists (D * Z.of_nat k * s)%Z. split.
          { split; [nia|]. rewrite Hpow. apply Z.le_trans with (D * Z.of_nat k * (Z.of_nat N * D))%Z; [apply Z.mul_le_mono_nonneg_l; nia|].
            apply Z.le_trans with (B * (D * D))%Z; [unfold B; lia|]. apply Z.mul_le_mono_nonneg_l; [lia|]. nia. }
          intros i Hi. assert (Hi' := Hi). apply in_voter_ids in Hi'. specialize (Hl i Hi').
          assert (Is : is_int (inject_Z (Z.of_nat k) * inject_Z s)) by (apply is_int_mult; eexists; reflexivity).
          destruct (likes p i c).
          -- apply (is_int_ext ((x i * inject_Z D) * (inject_Z (Z.of_nat k) * inject_Z s + inject_Z (-1) * (wsum (voters p) * inject_Z D)))).
             { rewrite Hl, !inject_Z_mult. unfold m, left_over. assert (Eb : Qltb (wsum (voters p) / Qnat k) S = true) by (apply Qltb_lt; auto). rewrite Eb.
               rewrite <- Hsz. change (inject_Z (Z.of_nat k)) with (Qnat k). change (inject_Z (-1)) with (- (1)). field. lra. }
             apply is_int_mult; auto. apply is_int_plus; auto. apply is_int_mult; [eexists; reflexivity|]. apply is_int_mult; auto. eexists; reflexivity.
          -- apply (is_int_ext ((x i * inject_Z D) * (inject_Z (Z.of_nat k) * inject_Z s))); [rewrite Hl, !inject_Z_mult; ring|]. apply is_int_mult; auto.
        * exists D. split; [split; [lia|]; rewrite Hpow; assert (1 <= B ^ (t - 1))%Z by lia; nia|].
          intros i Hi. assert (Hi' := Hi). apply in_voter_ids in Hi'. specialize (Hl i Hi'). unfold m, left_over in Hl. rewrite E in Hl.
          destruct (likes p i c); [exists 0%Z; rewrite Hl; change (inject_Z 0) with 0; ring|]. apply (is_int_ext (x i * inject_Z D)); auto. rewrite Hl. reflexivity.
  Qed.
  Theorem enestroem_integer_clear : (B ^ (2 ^ (Z.of_nat k - 1) - 1) * (Z.of_nat N + 1) < 500000000000)%Z -> enestroem_no_near_ties p k.
  Proof using Hw Hint HN Hv Hk1.
    intros Hb L x c Hrun Hl Hc Hn. destruct (purses_int L x Hrun) as (H0 & Hs & D & HD & Hx). split; auto. intros d Hd. specialize (Hn d Hd). unfold nearly_le in Hn.
    pose proof B_pos as HB. pose proof (two_pow (length L)) as Ht.
    assert (HDle : (D <= B ^ (2 ^ (Z.of_nat k - 1) - 1))%Z).
    { apply Z.le_trans with (1 := proj2 HD). apply Z.pow_le_mono_r; [lia|].
      assert (2 ^ Z.of_nat (length L) <= 2 ^ (Z.of_nat k - 1))%Z by (apply Z.pow_le_mono_r; lia). lia. }
    assert (HZ : (D * (Z.of_nat N + 1) < 500000000000)%Z) by nia.
    assert (HQ : (Qnat N + 1) * inject_Z D < 500000000000 # 1).
    { change (500000000000 # 1) with (inject_Z 500000000000). unfold Qnat. change 1 with (inject_Z 1). rewrite <- inject_Z_plus, <- inject_Z_mult, <- Zlt_Qlt. lia. }
    assert (HDp : 0 < inject_Z D) by (change 0 with (inject_Z 0); rewrite <- Zlt_Qlt; lia).
    destruct (purse_bounds x c H0 Hs) as [P0 PN]. set (sc := purse p x c) in *. set (sd := purse p x d) in *.
    destruct (Qlt_le_dec sc sd) as [Hlt|]; auto. exfalso.
    assert (H1 : 1 <= (sd - sc) * inject_Z D).
    { destruct (purse_int x c D Hx) as (a & Ha). destruct (purse_int x d D Hx) as (b & Hb'). fold sc in Ha. fold sd in Hb'.
      assert (Hp : 0 < (sd - sc) * inject_Z D) by (rewrite <- (Qmult_0_l (inject_Z D)); apply Qmult_lt_compat_r; [auto|lra]).
      assert (Eq : (sd - sc) * inject_Z D == inject_Z (b - a)) by (unfold Z.sub; rewrite inject_Z_plus, inject_Z_opp, <- Ha, <- Hb'; ring).
      rewrite Eq in *. change 0 with (inject_Z 0) in Hp. rewrite <- Zlt_Qlt in Hp. change 1 with (inject_Z 1). rewrite <- Zle_Qle. lia. }
    assert (H2 : (sd - sc) * inject_Z D <= phragmen_margin * ((Qnat N + 1) * inject_Z D)).
    { rewrite (Qmult_assoc phragmen_margin). apply Qmult_le_compat_r; [|apply Qlt_le_weak; auto].
      assert (phragmen_margin * sc <= phragmen_margin * Qnat N) by (apply Qmult_le_l; [reflexivity|auto]). lra. }
    assert (H3 : phragmen_margin * ((Qnat N + 1) * inject_Z D) < phragmen_margin * (500000000000 # 1)) by (apply Qmult_lt_l; [reflexivity|exact HQ]).
    assert (phragmen_margin * (500000000000 # 1) == 1) by reflexivity. lra.
  Qed.
End EnestroemInteger.
