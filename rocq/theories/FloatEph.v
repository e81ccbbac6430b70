(** * E Pluribus Hugo with "float-fractions": the exact result if there are no near ties *)
From Coq Require Import String.
From Coq Require Import List Arith Bool ZArith QArith Qabs Lia Lqa Permutation Sorted.
From Verif Require Import Prelude Misc MiscProofs Preferences Scores Spec ScoresProofs Search RulesThiele
  Common ThieleProofs SpecRules SpecSeq SpecMore RulesMore PhragmenProofs EnestroemProofs MesProofs EphProofs Floats RulesFloat FloatSearch FloatStruct SpecFloat SpecFloatMore FloatBounds.
Import ListNotations.
Open Scope nat_scope.

(** The order of numbers and the order of their values *)
Lemma sort_val : forall l, map val (sort_by nle l) = sort_by Qle_bool (map val l).
Proof.
  assert (I : forall x l, map val (insert_by nle x l) = insert_by Qle_bool (val x) (map val l)).
  { induction l as [|y l IH]; [reflexivity|]. cbn [map insert_by]. unfold nle at 1. destruct (Qle_bool (val x) (val y)); cbn [map]; [reflexivity|]. rewrite IH. reflexivity. }
  induction l as [|x l IH]; [reflexivity|]. cbn [sort_by map]. rewrite I, IH. reflexivity.
Qed.

(** Selecting up to the second smallest value, by numbers close to the exact ones *)
Lemma cutoff_same : forall A (f : nat -> num) (e : nat -> Q) R, NoDup R -> 2 <= length R ->
  (forall c d, In c R -> In d R -> (e c < e d)%Q -> (val (f c) < val (f d))%Q) ->
  (forall c d, In c R -> In d R -> isclose A (f c) (f d) = true -> (e c <= e d)%Q) ->
  (forall c d, In c R -> In d R -> (e c == e d)%Q -> isclose A (f c) (f d) = true) ->
  exists x q, nth_error (sort_by nle (map f R)) 1 = Some x /\ nth_error (sort_by Qle_bool (map e R)) 1 = Some q /\
    forall c, In c R -> (nle (f c) x || isclose A (f c) x) = Qle_bool (e c) q.
Proof.
  intros A f e R HN HR Hlt Hel Heq.
  destruct (second_smallest e R HN HR) as (q & Eq & (e0 & He0 & Ee0) & Hq).
  destruct (second_smallest (fun c => val (f c)) R HN HR) as (z & Ez & _ & Hz).
  assert (exists x, nth_error (sort_by nle (map f R)) 1 = Some x /\ val x = z) as (x & Ex & Vx).
  { rewrite <- (map_map f val) in Ez. rewrite <- sort_val in Ez. rewrite nth_error_map in Ez.
    destruct (nth_error (sort_by nle (map f R)) 1) as [x|]; [|discriminate]. exists x. split; auto. cbn in Ez. congruence. }
  exists x, q. split; auto. split; auto.
  assert (exists d0, In d0 R /\ f d0 = x) as (d0 & Hd0 & Ed0).
  { apply nth_error_In in Ex. apply sort_by_In in Ex. apply in_map_iff in Ex as (d0 & E & H). eauto. }
  assert (Hd0q : (e d0 == q)%Q).
  { assert (H1 : (e d0 <= q)%Q).
    { apply (Hq d0 Hd0). intros d d' Hd Hd' L1 L2. apply (proj1 (Hz d0 Hd0)); auto. rewrite Ed0, Vx. apply Qle_refl. }
    destruct (Qlt_le_dec (e d0) q) as [Hl|Hl]; [|apply Qle_antisym; auto]. exfalso.
    set (R' := filter (fun d => negb (d =? d0)) R).
    assert (HR' : forall d, In d R' <-> In d R /\ d <> d0).
    { intros d. unfold R'. rewrite filter_In, negb_true_iff, Nat.eqb_neq. tauto. }
    assert (Hne : R' <> []).
    { intros E0. destruct R as [|a [|b R0]]; [cbn in HR; lia|cbn in HR; lia|]. inversion HN as [|? ? Ha Hb]; subst.
      assert (a <> b) by (intros ->; apply Ha; left; auto).
      destruct (Nat.eq_dec a d0) as [->|Hn].
      - assert (In b R') by (apply HR'; split; [right; left; auto|auto]). rewrite E0 in H0. destruct H0.
      - assert (In a R') by (apply HR'; split; [left; auto|auto]). rewrite E0 in H0. destruct H0. }
    destruct (nmin_ok (map f R')) as (m & _ & Hmi & Hmin); [destruct R'; [congruence|discriminate]|].
    apply in_map_iff in Hmi as (d1 & E1 & Hd1). apply HR' in Hd1 as [Hd1 Hd1n].
    assert (Hle : (val (f d1) <= z)%Q).
    { apply (Hz d1 Hd1). intros d d' Hd Hd' L1 L2.
      assert (forall y, In y R -> (val (f y) < val (f d1))%Q -> y = d0) as K.
      { intros y Hy Ly. destruct (Nat.eq_dec y d0); auto. exfalso.
        assert (In (f y) (map f R')) as Hin by (apply in_map, HR'; auto). specialize (Hmin _ Hin). rewrite <- E1 in Hmin. lra. }
      rewrite (K d), (K d'); auto. }
    assert (He1 : (e d0 < e d1)%Q).
    { destruct (Qlt_le_dec (e d0) (e d1)) as [|Hge]; auto. exfalso.
      assert (d0 = d1); [|congruence]. apply (proj1 (Hq e0 He0)); auto; rewrite Ee0; try lra. }
    specialize (Hlt d0 d1 Hd0 Hd1 He1). rewrite Ed0, Vx in Hlt. lra. }
  intros c Hc. destruct (Qlt_le_dec q (e c)) as [Hl|Hl].
  - rewrite (proj2 (Qle_bool_false (e c) q)) by auto.
    assert (H0 : (e d0 < e c)%Q) by lra. apply orb_false_iff. split.
    + unfold nle. apply Qle_bool_false. rewrite <- Ed0. apply Hlt; auto.
    + destruct (isclose A (f c) x) eqn:E; auto. rewrite <- Ed0 in E. apply Hel in E; auto. lra.
  - rewrite (proj2 (Qle_bool_iff (e c) q)) by auto. apply orb_true_iff.
    destruct (Qlt_le_dec (e c) (e d0)) as [H0|H0].
    + left. unfold nle. apply Qle_bool_iff. rewrite <- Ed0. apply Qlt_le_weak, Hlt; auto.
    + right. rewrite <- Ed0. apply Heq; auto. lra.
Qed.

Section Eph.
  Variable A : arith.
  Hypothesis HA : float_ok A.
  Variables (p : profile) (k : nat).
  Hypothesis Hw : wf p.
  Hypothesis Hsize : (Z.of_nat (length (voters p)) <= 2100)%Z.

  Lemma weight_exact : forall v n, In v (voters p) -> within n (val (weight_num v)) (weight v).
  Proof using Hw.
    intros v n Hv. destruct Hw as [_ Hf]. rewrite Forall_forall in Hf. destruct (Hf v Hv) as (_ & _ & H0). apply within_refl; [apply Qlt_le_weak; exact H0|reflexivity].
  Qed.
  Lemma fold_within : forall R c l s x n, incl l (voters p) -> 3 <= n -> within n (val s) x ->
    within (n + 2 * length l)
      (val (fold_left (fun s v => let r := filter (fun c => mem c (approved v)) R in
              if mem c r then nadd A s (ndiv A (weight_num v) (num_of_nat (length r))) else s) l s))
      (fold_left (fun s v => let r := filter (fun c => mem c (approved v)) R in
              if mem c r then (s + weight v / Qnat (length r))%Q else s) l x).
  Proof using HA Hw.
    intros R c. induction l as [|v l IH]; intros s x n Hi Hn H; [cbn; rewrite Nat.add_0_r; auto|]. cbn [fold_left length].
    destruct (mem c (filter (fun c => mem c (approved v)) R)) eqn:Em.
    - replace (n + 2 * S (length l)) with (n + 2 + 2 * length l) by lia. apply IH; [intros y Hy; apply Hi; right; auto|lia|].
      apply (arith_add A HA); auto. apply within_mono with (n := 0 + 0 + 3); [lia|].
      apply (arith_div A HA); [apply weight_exact, Hi; left; auto|apply within_refl; [apply Qnat_nonneg|reflexivity]|].
      apply mem_In in Em. destruct (filter (fun c => mem c (approved v)) R) eqn:E; [destruct Em|]. apply Qnat_pos. cbn. lia.
    - apply within_mono with (n := n + 2 * length l); [lia|]. apply IH; auto. intros y Hy. apply Hi. right. auto.
  Qed.
  Definition err : nat := 3 + 2 * length (voters p).
  Lemma sdv_within : forall R c, within err (val (f_sdv_score A p R c)) (sdv_score p R c).
  Proof using HA Hw. intros R c. apply fold_within; [apply incl_refl|lia|]. apply within_refl; [apply Qle_refl|reflexivity]. Qed.
  Lemma fold_av : forall R c l s x, kind_of s <> KFloat -> (val s == x)%Q ->
    kind_of (fold_left (fun s v => let r := filter (fun c => mem c (approved v)) R in if mem c r then nadd A s (weight_num v) else s) l s) <> KFloat /\
    (val (fold_left (fun s v => let r := filter (fun c => mem c (approved v)) R in if mem c r then nadd A s (weight_num v) else s) l s) ==
     fold_left (fun s v => let r := filter (fun c => mem c (approved v)) R in if mem c r then (s + weight v)%Q else s) l x)%Q.
  Proof using.
    intros R c. induction l as [|v l IH]; intros s x Hk Hx; [cbn; auto|]. cbn [fold_left].
    destruct (mem c (filter (fun c => mem c (approved v)) R)); [|apply IH; auto].
    apply IH; unfold nadd, arith_op, weight_num; cbn [kind_of val]; destruct (kind_of s) eqn:E, (weight_is_int v); cbn; try congruence; rewrite Hx; reflexivity.
  Qed.
  Lemma av_exact : forall R c, (val (f_av_score A p R c) == eph_av_score p R c)%Q.
  Proof using. intros R c. apply fold_av; [discriminate|reflexivity]. Qed.

  Lemma err_small : (grow err <= 1 + (48 # 100000000000000))%Q.
  Proof using Hsize.
    eapply Qle_trans; [apply (grow_le err 4203); [unfold err; lia|reflexivity]|]. apply Qle_bool_iff. vm_compute. reflexivity.
  Qed.
  Lemma near_of_float : forall a b x y, within err a x -> within err b y -> (a <= (1 + margin) * b + margin)%Q -> nearly_le x y.
  Proof using Hsize.
    intros a b x y Ha Hb H. pose proof (within_nonneg _ _ _ Hb) as Hb0. destruct Ha as (Hx0 & Hx & _), Hb as (Hy0 & _ & Hb).
    pose proof err_small as Hg. pose proof (grow_ge1 err) as Hg1. set (g := grow err) in *. set (h := (1 + (48 # 100000000000000))%Q) in *. unfold nearly_le.
    assert (Hh : (0 <= h)%Q) by (unfold h; discriminate).
    assert (H1 : (x <= a * h)%Q). { assert (0 <= a)%Q. { destruct (Qlt_le_dec a 0) as [Hn|]; auto. assert (a * g <= 0)%Q by nra. exfalso.
        assert (x == 0)%Q by lra. assert (a * g < 0)%Q by nra. lra. } nra. }
    assert (H2 : (b <= y * h)%Q) by nra.
    assert (H3 : (a <= (1 + margin) * (y * h) + margin)%Q).
    { assert ((1 + margin) * b <= (1 + margin) * (y * h))%Q by (apply Qmult_le_l; [reflexivity|auto]). lra. }
    assert (H4 : (a * h <= ((1 + margin) * (y * h) + margin) * h)%Q) by (apply Qmult_le_compat_r; auto).
    assert (H5 : ((1 + margin) * h * h * y <= (1 + phragmen_margin) * y)%Q) by (apply Qmult_le_compat_r; [unfold h; discriminate|auto]).
    assert (H6 : (margin * h <= phragmen_margin)%Q) by (unfold h; discriminate). lra.
  Qed.

  Section Round.
    Variable R : list nat.
    Hypotheses (HN : NoDup R) (HR : 2 <= length R).
    Hypothesis Hclear : forall c d, In c R -> In d R -> nearly_le (points p R c) (points p R d) -> (points p R c <= points p R d)%Q.
    Lemma elimination_same : f_elimination A p R = elimination p R.
    Proof using HA Hw Hsize HN HR Hclear.
      assert (Hc' : forall c d, In c R -> In d R -> nearly_le (sdv_score p R c) (sdv_score p R d) -> (sdv_score p R c <= sdv_score p R d)%Q).
      { intros c d Hc Hd H. rewrite !sdv_points by auto. apply Hclear; auto. unfold nearly_le in *. rewrite <- !sdv_points by auto. exact H. }
      destruct (cutoff_same A (f_sdv_score A p R) (sdv_score p R) R HN HR) as (x & q & E1 & E2 & Hf).
      - intros c d Hc Hd Hlt. destruct (Qlt_le_dec (val (f_sdv_score A p R c)) (val (f_sdv_score A p R d))) as [|Hge]; auto. exfalso.
        assert (sdv_score p R d <= sdv_score p R c)%Q; [|lra]. apply Hc'; auto. eapply near_of_float; try apply sdv_within.
        pose proof (within_nonneg _ _ _ (sdv_within R c)) as H0. assert (0 <= margin * val (f_sdv_score A p R c))%Q by (apply Qmult_le_0_compat; [discriminate|auto]).
        assert (0 <= margin)%Q by discriminate. lra.
      - intros c d Hc Hd H. apply Hc'; auto. eapply near_of_float; try apply sdv_within. apply (close_elim A HA); auto; eapply within_nonneg; apply sdv_within.
      - intros c d Hc Hd H. apply (close_intro A HA) with (n := err + err); [unfold err; lia|].
        eapply within_trans; [apply sdv_within|]. apply within_sym. eapply within_ext; [reflexivity| |apply sdv_within]. symmetry. exact H.
      - unfold f_elimination, elimination. rewrite E1, E2. rewrite (filter_ext_in _ _ _ Hf).
        set (C := filter (fun c => Qle_bool (sdv_score p R c) q) R).
        destruct C as [|c0 C0] eqn:EC; [reflexivity|]. rewrite <- EC.
        destruct (nmin_ok (map (f_av_score A p R) C)) as (mn & -> & Hi1 & Hm1); [rewrite EC; discriminate|].
        destruct (py_min_In (map (eph_av_score p R) C)) as (mq & -> & Hi2 & Hm2); [rewrite EC; discriminate|]. cbn [rbind].
        assert (Hmm : (val mn == mq)%Q).
        { apply Qle_antisym.
          - apply in_map_iff in Hi2 as (c & <- & Hc). rewrite <- av_exact. apply Hm1. apply in_map. auto.
          - apply in_map_iff in Hi1 as (c & <- & Hc). rewrite av_exact. apply Hm2. apply in_map. auto. }
        f_equal. apply filter_ext. intros c. unfold nle. rewrite av_exact, Hmm. reflexivity.
    Qed.
  End Round.

  Hypothesis Hclear : eph_no_near_ties p k.
  Lemma eph_loop_same : forall maxn fuel R, 1 <= k -> eph_reaches p k R -> ascending R -> 2 <= length R ->
    f_eph_loop A p k maxn fuel R = eph_loop p k maxn fuel R.
  Proof using HA Hw Hsize Hclear.
    intros maxn. induction fuel as [|fuel IH]; intros R Hk Hr Ha H2; [reflexivity|]. cbn [f_eph_loop eph_loop].
    assert (HN := ascending_NoDup R Ha).
    rewrite elimination_same by (auto; intros c d; apply Hclear; auto).
    destruct (elimination_spec p R HN H2) as (E & -> & HE & Hne & HEi). cbn [rbind].
    destruct (Nat.leb_spec (length R - length E) k) as [|Hl]; [reflexivity|].
    assert (Hlen : length (diff R E) = length R - length E) by (apply diff_length; auto).
    assert (Hd : ascending (diff R E)) by (apply ascending_filter; auto).
    apply IH; auto; [|lia]. apply eph_round with (R := R); auto; [|lia].
    intros c. unfold diff. rewrite filter_In, negb_true_iff, <- not_true_iff_false, mem_In, HEi. tauto.
  Qed.
  Theorem f_eph_exact : forall resolute maxn, 1 <= k -> 2 <= num_cand p ->
    f_eph A p k resolute maxn = (do cs <- eph_algorithm p k resolute maxn; sorted_committees cs).
  Proof using HA Hw Hsize Hclear.
    intros resolute maxn Hk H2. unfold f_eph, eph_algorithm. rewrite eph_loop_same; auto; [constructor|apply ascending_seq|unfold candidates; rewrite seq_length; lia].
  Qed.
End Eph.

(** ** Integer weights: points are multiples of [1 / L] for a common multiple [L] of the possible ballot sizes *)
Lemma points_multiple : forall p R c (L : positive), integer_weights p -> In c R -> (length R <= num_cand p) ->
  (forall i, 1 <= i <= num_cand p -> Nat.divide i (Pos.to_nat L)) -> exists m : Z, (points p R c == m # L)%Q.
Proof.
  intros p R c L Hi Hc HR HL. unfold points, supporters.
  assert (H : forall l, incl l (voters p) -> exists m : Z, (Qsum (map (fun v => weight v / Qnat (length (inter R (approved v))))%Q (filter (fun v => approves v c) l)) == m # L)%Q).
  { induction l as [|v l IH]; intros Hl; [exists 0%Z; reflexivity|]. destruct IH as (m & Em); [intros x Hx; apply Hl; right; auto|]. cbn [filter].
    destruct (approves v c) eqn:Ea; [|exists m; exact Em]. destruct (Hi v (Hl v (or_introl eq_refl))) as (w & Hw1 & Ew).
    set (n := length (inter R (approved v))).
    assert (Hn : 1 <= n <= num_cand p).
    { unfold n. split.
      - assert (In c (inter R (approved v))) as Hin by (apply filter_In; split; auto). destruct (inter R (approved v)); [destruct Hin|cbn; lia].
      - assert (Hfl : forall (f : nat -> bool) l, length (filter f l) <= length l) by (clear; induction l as [|x l IH]; cbn; [lia|destruct (f x); cbn; lia]).
        specialize (Hfl (fun x => mem x (approved v)) R). unfold inter. lia. }
    destruct (HL n Hn) as (d & Hd). exists (Z.of_nat (w * d) + m)%Z. cbn [map].
    match goal with |- (Qsum (?a :: ?l) == _)%Q => change (Qsum (a :: l)) with (a + Qsum l)%Q end. fold n. rewrite Em, Ew.
    assert (Hnp : (0 < Qnat n)%Q) by (apply Qnat_pos; lia).
    assert (E1 : (Qnat w / Qnat n == Z.of_nat (w * d) # L)%Q).
    { apply (Qmult_inj_r _ _ (Qnat n)); [lra|]. unfold Qdiv. rewrite <- Qmult_assoc, (Qmult_comm (/ Qnat n)), Qmult_inv_r, Qmult_1_r by lra.
      unfold Qnat, inject_Z, Qeq. cbn. rewrite Pos.mul_1_r. assert (Zpos L = Z.of_nat (Pos.to_nat L)) as -> by lia. rewrite Hd. lia. }
    rewrite E1. unfold Qeq, Qplus. cbn. nia. }
  apply H. apply incl_refl.
Qed.

Lemma points_le_total : forall p R c, wf p -> In c R -> (0 <= points p R c <= wsum (voters p))%Q.
Proof.
  intros p R c [_ Hw] Hc. unfold points, supporters, wsum. rewrite Forall_forall in Hw.
  assert (H : forall l, incl l (voters p) -> (0 <= Qsum (map (fun v => weight v / Qnat (length (inter R (approved v))))%Q (filter (fun v => approves v c) l)) <= Qsum (map weight l))%Q).
  { induction l as [|v l IH]; intros Hl; [split; apply Qle_refl|]. specialize (IH (fun x Hx => Hl x (or_intror Hx))).
    destruct (Hw v (Hl v (or_introl eq_refl))) as (_ & _ & Hv). cbn [filter]. destruct (approves v c) eqn:Ea; cbn [map];
      repeat match goal with |- context [Qsum (?a :: ?l)] => change (Qsum (a :: l)) with (a + Qsum l)%Q end.
    - set (n := length (inter R (approved v))).
      assert (Hn : 1 <= n).
      { unfold n. assert (In c (inter R (approved v))) as Hin by (apply filter_In; split; auto). destruct (inter R (approved v)); [destruct Hin|cbn; lia]. }
      assert (Hq : (1 <= Qnat n)%Q) by (change 1%Q with (Qnat 1); apply Qnat_le; auto).
      assert (H1 : (0 <= weight v / Qnat n)%Q) by (apply Qle_shift_div_l; lra).
      assert (H2 : (weight v / Qnat n <= weight v)%Q) by (apply Qle_shift_div_r; [lra|]; nra).
      lra.
    - lra. }
  apply H. apply incl_refl.
Qed.
Lemma eph_reaches_length : forall p k R, eph_reaches p k R -> length R <= num_cand p /\ NoDup R.
Proof.
  intros p k R H. induction H as [|R R' H [IH IHn] Ha Hc Hl]; [rewrite seq_length; split; auto; apply seq_NoDup|].
  assert (NoDup R') by (apply ascending_NoDup; auto). split; auto. eapply Nat.le_trans; [|exact IH]. apply NoDup_incl_length; auto.
  intros x Hx. apply Hc in Hx. tauto.
Qed.
Theorem eph_integer_clear : forall p k N (L : positive), wf p -> integer_weights p -> (wsum (voters p) <= Qnat N)%Q ->
  (forall i, 1 <= i <= num_cand p -> Nat.divide i (Pos.to_nat L)) -> ((Z.of_nat N + 1) * Zpos L < 500000000000)%Z -> eph_no_near_ties p k.
Proof.
  intros p k N L Hw Hi HN HL Hb R c d HR Hc Hd H. destruct (Qlt_le_dec (points p R d) (points p R c)) as [Hlt|]; auto. exfalso.
  destruct (eph_reaches_length p k R HR) as [Hl _].
  destruct (points_multiple p R c L Hi Hc Hl HL) as (m & Em). destruct (points_multiple p R d L Hi Hd Hl HL) as (m' & Em').
  destruct (points_le_total p R d Hw Hd) as [H0 H1].
  assert (Hmm : (m' + 1 <= m)%Z). { rewrite Em, Em' in Hlt. unfold Qlt in Hlt. cbn in Hlt. nia. }
  assert (Hgap : (points p R d + (1 # L) <= points p R c)%Q).
  { rewrite Em, Em'. unfold Qle, Qplus. cbn. nia. }
  unfold nearly_le in H.
  assert (Hm : (phragmen_margin * (Qnat N + 1) < 1 # L)%Q).
  { unfold phragmen_margin, Qnat, Qlt, Qmult, Qplus, inject_Z. cbn [Qnum Qden]. rewrite ?Pos.mul_1_r, ?Z.mul_1_r. 
    change (Zpos 1000000000000) with (1000000000000)%Z. nia. }
  assert (phragmen_margin * points p R d <= phragmen_margin * Qnat N)%Q by (apply Qmult_le_l; [reflexivity|lra]). lra.
Qed.
