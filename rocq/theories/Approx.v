(** * How much of the optimum the rules reach (C91) *)
From Coq Require Import String.
From Coq Require Import List Arith Bool ZArith QArith Lia Lqa Permutation Setoid.
From Verif Require Import Milp RulesSolver SpecLoads SolverCompute SolverLex RulesMonroe RulesMore SolverMore.
From Verif Require Import Prelude Misc Common MiscProofs Preferences Scores ScoresProofs Rule Spec SpecRules Compute SpecCompute SpecSeq SpecAxioms
  Checks ChecksProofs ComputeProofs ThieleProofs RevseqProofs BBProofs Guarantees ComputeAll SpecAll AllProofs SpecJR ThieleJR ThieleRules.
Import ListNotations.
Local Open Scope string_scope.
Open Scope nat_scope.
Local Open Scope list_scope.

(** ** The greedy algorithm *)
Lemma util_none : forall v, util v [] = 0.
Proof. intros v. unfold util, inter. induction (approved v); auto. Qed.
Section Greedy.
  Variables (f : nat -> Q) (p : profile).
  Hypothesis Hw : wf p.
  Hypothesis H0 : forall i, 1 <= i -> (0 <= f i)%Q.
  Hypothesis Hd : non_increasing f.

  Lemma Thiele_incl : forall W W', incl W W' -> (Thiele f p W <= Thiele f p W')%Q.
  Proof using Hw H0.
    intros W W' Hi. unfold Thiele. apply Qsum_map_le. intros v Hv. pose proof (weight_pos_in p v Hw Hv).
    assert (U : util v W <= util v W') by (apply util_mono; exact Hi).
    replace (util v W') with (util v W + (util v W' - util v W)) by lia. rewrite seq_app, map_app, Qsum_app.
    assert (0 <= Qsum (map f (seq (1 + util v W) (util v W' - util v W))))%Q; [|nra].
    apply Qsum_map_nonneg. intros i Hin. apply in_seq in Hin. apply H0. lia.
  Qed.
  Lemma add_nonneg : forall W c, (Thiele f p W <= Thiele f p (c :: W))%Q.
  Proof using Hw H0. intros. apply Thiele_incl. intros x Hx. right. exact Hx. Qed.

  Lemma one_step : forall L c O m, 1 <= m -> NoDup L -> best_addition f p L c -> NoDup O -> length O = m -> Forall (fun d => d < num_cand p) O ->
    (Thiele f p O - Thiele f p L <= Qnat m * (Thiele f p (c :: L) - Thiele f p L))%Q.
  Proof using Hw H0 Hd.
    intros L c O m Hm HL (Hc & Hn & Hb) HO El HB. set (t := filter (fun d => negb (mem d L)) O).
    assert (Ht : forall d, In d t <-> In d O /\ ~ In d L).
    { intros d. unfold t. rewrite filter_In, negb_true_iff. split; intros [A B]; split; auto.
      - intros HI. apply mem_In in HI. congruence.
      - destruct (mem d L) eqn:E; auto. apply mem_In in E. tauto. }
    assert (ND : NoDup (L ++ t)).
    { apply NoDup_app_intro; auto; [apply NoDup_filter; exact HO|]. intros x A B. apply Ht in B. tauto. }
    pose proof (Thiele_extend f p Hw Hd t L ND) as X.
    assert (I : (Thiele f p O <= Thiele f p (L ++ t))%Q).
    { apply Thiele_incl. intros d Hin. apply in_app_iff. destruct (in_dec Nat.eq_dec d L); auto. right. apply Ht. auto. }
    assert (G : (Qsum (map (gain f p L) t) <= Qnat (length t) * (Thiele f p (c :: L) - Thiele f p L))%Q).
    { rewrite Qmult_comm, <- Qsum_map_const. apply Qsum_map_le. intros d Hin. apply Ht in Hin as [A B].
      rewrite Forall_forall in HB. rewrite (gain_correct f p L d Hw B). pose proof (Hb d (HB d A) B). lra. }
    assert (Lt : (Qnat (length t) <= Qnat m)%Q).
    { apply Qnat_le. rewrite <- El. unfold t. clear. induction O as [|a O IH]; simpl; [lia|]. destruct (negb (mem a L)); simpl; lia. }
    pose proof (add_nonneg L c). nra.
  Qed.

  Lemma greedy_NoDup : forall L, greedy_run f p L -> NoDup L.
  Proof using. intros L H. induction H as [|W c HW IH (_ & Hn & _)]; constructor; auto. Qed.

  Lemma greedy_bound : forall O m L, 1 <= m -> NoDup O -> length O = m -> Forall (fun d => d < num_cand p) O -> greedy_run f p L ->
    (Thiele f p O - Thiele f p L <= Qpow (1 - 1 / Qnat m) (length L) * Thiele f p O)%Q.
  Proof using Hw H0 Hd.
    intros O m L Hm HO El HB HG. pose proof (Qnat_pos m ltac:(lia)) as Mp. assert (M1 : (1 <= Qnat m)%Q) by (change 1%Q with (Qnat 1); apply Qnat_le; lia).
    induction HG as [|W c HW IH Hb].
    - cbn [length Qpow]. pose proof (Thiele_incl [] O (fun x H => match H with end)) as T. unfold Thiele in T at 1. cbn in T.
      assert (Z : (0 <= Thiele f p [])%Q).
      { unfold Thiele. apply Qsum_map_nonneg. intros v Hv. pose proof (weight_pos_in p v Hw Hv). rewrite (util_none v). cbn. lra. }
      lra.
    - pose proof (one_step W c O m Hm (greedy_NoDup W HW) Hb HO El HB) as S1. cbn [length Qpow].
      set (r := (1 - 1 / Qnat m)%Q). assert (R : (0 <= r)%Q).
      { unfold r. assert (1 / Qnat m <= 1)%Q by (apply Qle_shift_div_r; lra). lra. }
      assert (S2 : ((Thiele f p O - Thiele f p W) / Qnat m <= Thiele f p (c :: W) - Thiele f p W)%Q) by (apply Qle_shift_div_r; lra).
      assert (E : (Thiele f p O - Thiele f p (c :: W) <= r * (Thiele f p O - Thiele f p W))%Q).
      { assert (E1 : (r * (Thiele f p O - Thiele f p W) == (Thiele f p O - Thiele f p W) - (Thiele f p O - Thiele f p W) / Qnat m)%Q) by (unfold r; field; lra). lra. }
      fold r in IH. nra.
  Qed.
End Greedy.

(** ** [(1 - 1/k)^k] is below 0.37 *)
Lemma Qpow_nonneg : forall b n, (0 <= b)%Q -> (0 <= Qpow b n)%Q.
Proof. induction n; intros; cbn [Qpow]; [lra|]. apply Qmult_le_0_compat; auto. Qed.
Lemma Qpow_le : forall a b n, (0 <= a)%Q -> (a <= b)%Q -> (Qpow a n <= Qpow b n)%Q.
Proof. induction n as [|n IH]; intros Ha Hb; cbn [Qpow]; [lra|]. specialize (IH Ha Hb). pose proof (Qpow_nonneg a n Ha). nra. Qed.
Lemma Qpow_mult : forall a b n, (Qpow (a * b) n == Qpow a n * Qpow b n)%Q.
Proof. induction n as [|n IH]; cbn [Qpow]; [lra|]. rewrite IH. ring. Qed.
Lemma Qpow_pow : forall a m n, (Qpow (Qpow a m) n == Qpow (Qpow a n) m)%Q.
Proof.
  intros a m n. induction n as [|n IH]; cbn [Qpow].
  - induction m as [|m IH]; cbn [Qpow]; [lra|]. rewrite <- IH. lra.
  - rewrite IH. symmetry. apply Qpow_mult.
Qed.
Lemma Qpow_eq : forall a b n, (a == b)%Q -> (Qpow a n == Qpow b n)%Q.
Proof. induction n as [|n IH]; intros E; cbn [Qpow]; [lra|]. rewrite (IH E), E. lra. Qed.
(** Bernoulli's inequality *)
Lemma bernoulli : forall x n, (-1 <= x)%Q -> (1 + Qnat n * x <= Qpow (1 + x) n)%Q.
Proof.
  induction n as [|n IH]; intros Hx; cbn [Qpow]; [change (Qnat 0) with 0%Q; lra|]. specialize (IH Hx). rewrite Qnat_S.
  pose proof (Qnat_nonneg n). assert ((1 + x) * (1 + Qnat n * x) <= (1 + x) * Qpow (1 + x) n)%Q by (rewrite !(Qmult_comm (1 + x)); apply Qmult_le_compat_r; lra). nra.
Qed.
Lemma pow_bound : forall k m, 1 <= k -> 1 <= m -> (Qpow (1 - 1 / Qnat k) k <= Qpow (Qnat m / Qnat (m + 1)) m)%Q.
Proof.
  intros k m Hk Hm. pose proof (Qnat_pos k ltac:(lia)) as Kp. pose proof (Qnat_pos m ltac:(lia)) as Mp.
  assert (M1 : (1 <= Qnat m)%Q) by (change 1%Q with (Qnat 1); apply Qnat_le; lia).
  assert (K1 : (1 <= Qnat k)%Q) by (change 1%Q with (Qnat 1); apply Qnat_le; lia).
  assert (M2 : (Qnat (m + 1) == Qnat m + 1)%Q) by (rewrite Qnat_plus; reflexivity).
  set (x := (1 / (Qnat m * Qnat k))%Q). assert (Mk : (1 <= Qnat m * Qnat k)%Q) by nra.
  assert (X0 : (0 < x)%Q) by (apply Qlt_shift_div_l; lra). assert (X1 : (x <= 1)%Q) by (apply Qle_shift_div_r; lra).
  assert (A1 : (1 - 1 / Qnat k <= Qpow (1 + - x) m)%Q).
  { pose proof (bernoulli (- x) m ltac:(lra)) as B. assert (E : (1 + Qnat m * - x == 1 - 1 / Qnat k)%Q) by (unfold x; field; lra). lra. }
  assert (R : (0 <= 1 - 1 / Qnat k)%Q) by (assert (1 / Qnat k <= 1)%Q by (apply Qle_shift_div_r; lra); lra).
  eapply Qle_trans; [apply Qpow_le; [exact R|exact A1]|]. rewrite Qpow_pow. apply Qpow_le; [apply Qpow_nonneg; lra|].
  apply Qle_shift_div_l; [lra|]. rewrite M2.
  (* (1-x)^k (m+1) <= m, since (1+x)^k >= 1 + 1/m and (1-x)(1+x) <= 1 *)
  pose proof (bernoulli x k ltac:(lra)) as B.
  assert (P : (Qpow (1 + - x) k * Qpow (1 + x) k <= 1)%Q).
  { rewrite <- Qpow_mult. eapply Qle_trans; [apply (Qpow_le _ 1); nra|]. clear. induction k; cbn [Qpow]; lra. }
  pose proof (Qpow_nonneg (1 + - x) k ltac:(lra)) as N.
  assert (E : (Qnat m * (1 + Qnat k * x) == Qnat m + 1)%Q) by (unfold x; field; lra).
  set (u := Qpow (1 + - x) k) in *. set (w := Qpow (1 + x) k) in *.
  assert (Z1 : (u * (1 + Qnat k * x) <= u * w)%Q) by (rewrite !(Qmult_comm u); apply Qmult_le_compat_r; lra).
  assert (Z2 : (Qnat m * (u * (1 + Qnat k * x)) <= Qnat m * 1)%Q) by (rewrite !(Qmult_comm (Qnat m)); apply Qmult_le_compat_r; lra).
  rewrite <- E. assert (E3 : (u * (Qnat m * (1 + Qnat k * x)) == Qnat m * (u * (1 + Qnat k * x)))%Q) by ring. rewrite E3. lra.
Qed.
Lemma pow_37 : forall k, 1 <= k -> (Qpow (1 - 1 / Qnat k) k <= 37 # 100)%Q.
Proof.
  intros k Hk. eapply Qle_trans; [apply (pow_bound k 100); lia|]. apply Qle_bool_iff. vm_compute. reflexivity.
Qed.

Theorem seq_guarantee : forall f p k W V, wf p -> (forall i, 1 <= i -> (0 <= f i)%Q) -> non_increasing f -> 1 <= k ->
  seq_thiele_winner f p k W -> is_committee p k V ->
  ((1 - Qpow (1 - 1 / Qnat k) k) * Thiele f p V <= Thiele f p W)%Q /\ ((63 # 100) * Thiele f p V <= Thiele f p W)%Q.
Proof.
  intros f p k W V Hw H0 Hd Hk (L & HG & El & ->) (HA & Ev & HB).
  pose proof (greedy_bound f p Hw H0 Hd V k L Hk (ascending_NoDup V HA) Ev HB HG) as G. rewrite El in G.
  assert (S1 : (Thiele f p (isort L) == Thiele f p L)%Q).
  { apply Thiele_set_same. intro d. split; apply Permutation_in; [apply Permutation_sym|]; apply isort_perm. }
  assert (T0 : (0 <= Thiele f p V)%Q).
  { unfold Thiele. apply Qsum_map_nonneg. intros v Hv. pose proof (weight_pos_in p v Hw Hv). apply Qmult_nonneg; [lra|].
    apply Qsum_map_nonneg. intros i Hi. apply in_seq in Hi. apply H0. lia. }
  pose proof (pow_37 k Hk) as P. rewrite S1. assert (E : ((1 - Qpow (1 - 1 / Qnat k) k) * Thiele f p V <= Thiele f p L)%Q) by lra. split; [exact E|nra].
Qed.

(** ** How many voters are represented *)
Definition covered (v : voter) (W : list nat) : bool := 1 <=? util v W.
Definition I (b : bool) : Q := if b then 1%Q else 0%Q.
Lemma filter_length_lt : forall (A : Type) (b : A -> bool) x l, In x l -> b x = false -> length (filter b l) < length l.
Proof.
  intros A b x l Hx Hb. assert (LE : forall l, length (filter b l) <= length l) by (clear; induction l as [|a l IH]; simpl; [lia|]; destruct (b a); simpl; lia).
  induction l as [|a l IH]; [destruct Hx|]. destruct Hx as [->|Hx]; simpl.
  - rewrite Hb. specialize (LE l). lia.
  - specialize (IH Hx). destruct (b a); simpl; lia.
Qed.
Section Represented.
  Variables (f : nat -> Q) (p : profile) (k : nat) (W : list nat).
  Hypothesis Hw : wf p.
  Hypothesis H0 : forall i, (0 <= f i)%Q.
  Hypothesis H1 : (0 < f 1)%Q.
  Hypothesis HJ : forall j, 1 <= j -> (Qnat j * f j <= f 1)%Q.
  Hypothesis HM : maximises (Thiele f p) p k W.
  Hypothesis Hk : 1 <= k.

  Let weightof (v : voter) : Q := (Qnat k * I (negb (covered v W)) + I (covered v W))%Q.

  Lemma util_le_size : forall v, In v (voters p) -> util v W <= k.
  Proof using Hw HM.
    intros v Hv. destruct HM as [(HA & El & _) _]. destruct (wf_voter_in p v Hw Hv) as (N & _). unfold util. rewrite <- inter_comm_length; auto.
    - rewrite <- El. unfold inter. clear. induction W as [|a l IH]; simpl; [lia|]. destruct (mem a (approved v)); simpl; lia.
    - apply ascending_NoDup. exact HA.
  Qed.
  Lemma excluded_candidate : forall c, c < num_cand p -> ~ In c W ->
    (Qsum (map (fun v => weight v * (I (approves v c) * weightof v)) (voters p)) <= Qsum (map (fun v => weight v * I (covered v W)) (voters p)))%Q.
  Proof using Hw H0 H1 HJ HM Hk.
    intros c Hc Hn. pose proof (exchange f p k W c Hw H0 HM Hc Hn) as X. apply (Qmult_le_l _ _ (f 1)); [exact H1|].
    unfold gain, supporters in X. rewrite Qsum_filter in X. rewrite <- !Qsum_map_scal. rewrite <- Qsum_map_scal in X.
    assert (Y : (Qsum (map (fun v => f 1%nat * (weight v * (I (approves v c) * weightof v))) (voters p)) <=
                 Qsum (map (fun v => Qnat k * (if approves v c then weight v * f (S (util v W)) else 0) +
                                     (f 1%nat * (weight v * I (covered v W)) - weight v * (Qnat (util v W) * f (util v (c :: W))))) (voters p)))%Q).
    { apply Qsum_map_le. intros v Hv. pose proof (weight_pos_in p v Hw Hv) as P. destruct (wf_voter_in p v Hw Hv) as (N & _).
      pose proof (util_le_size v Hv) as U. rewrite util_add by auto. unfold weightof, covered. clear X. destruct (approves v c); unfold I.
      - rewrite Nat.add_1_r. destruct (Nat.leb_spec 1 (util v W)) as [L|L]; cbn [negb].
        + assert (UQ : (Qnat (util v W) <= Qnat k)%Q) by (apply Qnat_le; lia). pose proof (H0 (S (util v W))) as F0.
          assert (Z : (Qnat (util v W) * (weight v * f (S (util v W))) <= Qnat k * (weight v * f (S (util v W))))%Q) by (apply Qmult_le_compat_r; [exact UQ|apply Qmult_nonneg; lra]).
          lra.
        + assert (E0 : util v W = 0) by lia. rewrite E0. change (Qnat 0) with 0%Q. lra.
      - rewrite Nat.add_0_r. destruct (Nat.leb_spec 1 (util v W)) as [L|L]; cbn [negb].
        + pose proof (HJ (util v W) L). nra.
        + assert (E0 : util v W = 0) by lia. rewrite E0. change (Qnat 0) with 0%Q. lra. }
    rewrite Qsum_map_plus in Y.
    assert (D : forall (g h : voter -> Q) l, (Qsum (map (fun x => g x - h x) l) == Qsum (map g l) - Qsum (map h l))%Q).
    { clear. intros g h l. induction l; simpl; [lra|]. rewrite IHl. lra. }
    rewrite D in Y. lra.
  Qed.

  Lemma represented_bound : forall V, is_committee p k V ->
    (Qnat k * Qsum (map (fun v => weight v * I (covered v V)) (voters p)) <=
     (2 * Qnat k - 1) * Qsum (map (fun v => weight v * I (covered v W)) (voters p)))%Q.
  Proof using Hw H0 H1 HJ HM Hk.
    intros V (HA & Ev & HB). set (t := filter (fun d => negb (mem d W)) V).
    assert (Ht : forall d, In d t <-> In d V /\ ~ In d W).
    { intros d. unfold t. rewrite filter_In, negb_true_iff. split; intros [A B]; split; auto.
      - intros HI. apply mem_In in HI. congruence.
      - destruct (mem d W) eqn:E; auto. apply mem_In in E. tauto. }
    assert (S1 : (Qsum (map (fun c => Qsum (map (fun v => weight v * (I (approves v c) * weightof v)) (voters p))) t) <=
                  Qnat (length t) * Qsum (map (fun v => weight v * I (covered v W)) (voters p)))%Q).
    { rewrite Qmult_comm, <- Qsum_map_const. apply Qsum_map_le. intros c Hc. apply Ht in Hc as [A B]. rewrite Forall_forall in HB.
      apply excluded_candidate; auto. }
    rewrite Qsum_swap in S1.
    assert (Lt : length t <= k).
    { rewrite <- Ev. unfold t. clear. induction V as [|a l IH]; simpl; [lia|]. destruct (negb (mem a W)); simpl; lia. }
    assert (S2 : (Qnat k * Qsum (map (fun v => weight v * I (covered v V)) (voters p)) <=
      Qsum (map (fun v => Qsum (map (fun c => weight v * (I (approves v c) * weightof v)) t) + (2 * Qnat k - 1 - Qnat (length t)) * (weight v * I (covered v W))) (voters p)))%Q).
    { rewrite <- Qsum_map_scal. apply Qsum_map_le. intros v Hv. pose proof (weight_pos_in p v Hw Hv) as P. destruct (wf_voter_in p v Hw Hv) as (N & _).
      assert (LQ : (Qnat (length t) <= Qnat k)%Q) by (apply Qnat_le; exact Lt).
      assert (TP : forall c, (0 <= weight v * (I (approves v c) * weightof v))%Q).
      { intros c. apply Qmult_nonneg; [lra|]. apply Qmult_nonneg; [unfold I; destruct (approves v c); lra|]. unfold weightof, I. pose proof (Qnat_nonneg k). destruct (covered v W); cbn [negb]; lra. }
      assert (SP : (0 <= Qsum (map (fun c => weight v * (I (approves v c) * weightof v)) t))%Q) by (apply Qsum_map_nonneg; auto).
      assert (ONE : covered v V = true -> (forall c, In c V -> approves v c = true -> In c t) -> (weight v * weightof v <= Qsum (map (fun c => weight v * (I (approves v c) * weightof v)) t))%Q).
      { intros Hcv Hall. unfold covered in Hcv. apply Nat.leb_le in Hcv. unfold util in Hcv.
        destruct (inter (approved v) V) as [|c l] eqn:Ei; [cbn in Hcv; lia|].
        assert (Hc : In c (inter (approved v) V)) by (rewrite Ei; left; reflexivity). apply filter_In in Hc as [A B]. apply mem_In in B.
        assert (Ac : approves v c = true) by (apply mem_In; exact A).
        pose proof (SolverPhragmen.Qsum_ge_member nat (fun c => weight v * (I (approves v c) * weightof v))%Q t c (fun d _ => TP d) (Hall c B Ac)) as G.
        cbv beta in G. rewrite Ac in G. unfold I at 1 in G. lra. }
      unfold I at 1. destruct (covered v V) eqn:Cv; [|].
      2:{ assert (0 <= (2 * Qnat k - 1 - Qnat (length t)) * (weight v * I (covered v W)))%Q; [|lra].
          apply Qmult_nonneg; [|apply Qmult_nonneg; [lra|unfold I; destruct (covered v W); lra]].
          assert (1 <= Qnat k)%Q by (change 1%Q with (Qnat 1); apply Qnat_le; lia). lra. }
      destruct (covered v W) eqn:Cw.
      - unfold weightof in *. rewrite Cw in *. cbn [negb I] in *.
        destruct (Nat.eq_dec (length t) k) as [El|Nl].
        + assert (HO : forall c, In c V -> approves v c = true -> In c t).
          { intros c Hc _. apply Ht. split; auto. intros HcW. assert (length t < length V); [|lia]. 
            unfold t. apply (filter_length_lt _ _ c); [exact Hc|]. rewrite negb_false_iff. apply mem_In. exact HcW. }
          specialize (ONE eq_refl HO). rewrite El. nra.
        + assert (KQ : (Qnat (length t) + 1 <= Qnat k)%Q) by (rewrite <- Qnat_S; apply Qnat_le; lia). nra.
      - unfold weightof in *. rewrite Cw in *. cbn [negb I] in *.
        assert (HO : forall c, In c V -> approves v c = true -> In c t).
        { intros c Hc Ha. apply Ht. split; auto. intros HcW. unfold covered in Cw. apply Nat.leb_gt in Cw.
          unfold util in Cw. assert (HI : In c (inter (approved v) W)) by (apply filter_In; split; [apply mem_In; exact Ha|apply mem_In; exact HcW]).
          destruct (inter (approved v) W); [destruct HI|cbn in Cw; lia]. }
        specialize (ONE eq_refl HO). nra. }
    rewrite Qsum_map_plus, Qsum_map_scal in S2. lra.
  Qed.
End Represented.
