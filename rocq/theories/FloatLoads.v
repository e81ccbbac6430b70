(** * Method of Equal Shares with "float-fractions" and integer weights: the completion by sequential Phragmén *)
From Coq Require Import String.
From Coq Require Import List Arith Bool ZArith QArith Qabs Qround Lia Lqa Permutation Sorted.
From Verif Require Import Prelude Misc MiscProofs Preferences Scores Spec ScoresProofs Search RulesThiele
  Common ThieleProofs SpecRules SpecSeq RulesSeq RulesMes SeqProofs PhragmenProofs ComputeSeqProofs EnestroemProofs MesProofs MesFinal Floats RulesFloat FloatSearch FloatStruct SpecFloat SpecFloatMore FloatBounds FloatPhragmen FloatMesRun FloatIncrement FloatExact FloatAbs FloatConsensus FloatEnestroem FloatNear FloatMesQ FloatMesExact.
Import ListNotations.
Open Scope Q_scope.

Lemma sum_abs : forall l (g : nat -> Q), Qabs (sum l g) <= sum l (fun i => Qabs (g i)).
Proof.
  intros l g. pose proof (sum_diff_abs l g (fun _ => 0 * 0)) as H. rewrite sum_scal in H.
  assert (E : sum l g - 0 * sum l (fun _ => 0) == sum l g) by ring. rewrite E in H. eapply Qle_trans; [exact H|]. apply sum_le. intros i _.
  assert (E2 : g i - 0 * 0 == g i) by ring. rewrite E2. apply Qle_refl.
Qed.

Section Loads.
  Variable A : arith.
  Hypothesis HA : float_ok A.
  Variables (p : profile) (k N : nat).
  Hypothesis Hw : wf p.
  Hypothesis Hint : integer_weights p.
  Hypothesis HN : wsum (voters p) <= Qnat N.
  Hypothesis Hv : voters p <> [].
  Hypothesis Hk : (1 <= k <= num_cand p)%nat.
  Hypothesis Hsmall : small_shares p (2 * k + 2) k.
  Hypothesis Hclear : clear_shares k (2 * k) N.
  Local Notation ids := (voter_ids p).
  Local Notation step := (share_step p k).
  Local Notation n := (Qnat (length (voters p))).
  Local Notation kap := (Qnat k + 1).

  Lemma one_weight : forall v, In v (voters p) -> 1 <= weight v.
  Proof using Hk Hint. intros v Hi. destruct (Hint v Hi) as (m & Hm & E). rewrite E. change 1 with (Qnat 1). apply Qnat_le. auto. Qed.
  Lemma load_numbers : 0 <= n /\ n <= 1819 /\ 1 <= kap /\ kap <= 84 /\ 0 < u * kap /\ 0 <= step /\ (2 * Qnat k + 3) * step <= 4000 * u.
  Proof using Hk Hsmall.
    destruct (share_numbers p (2 * k + 2) k ltac:(lia) Hsmall) as (N1 & N2 & N3 & N4 & N5 & N6 & N7 & _).
    repeat split; auto. assert (E : Qnat (2 * k + 2) + 1 == 2 * Qnat k + 3).
    { unfold Qnat. rewrite Nat2Z.inj_add, Nat2Z.inj_mul, inject_Z_plus, inject_Z_mult. change (inject_Z (Z.of_nat 2)) with 2. ring. }
    rewrite <- E. exact N7.
  Qed.
  Lemma kap_small : kap <= 10.
  Proof using Hk Hsmall.
    destruct load_numbers as (N1 & _ & N3 & _). clear Hw Hint HN. unfold small_shares in Hsmall.
    assert (E : Qnat (2 * k + 2) + 1 == 2 * Qnat k + 3).
    { unfold Qnat. rewrite Nat2Z.inj_add, Nat2Z.inj_mul, inject_Z_plus, inject_Z_mult. change (inject_Z (Z.of_nat 2)) with 2. ring. }
    rewrite E in Hsmall. destruct (Qlt_le_dec 10 kap) as [H|H]; auto. exfalso.
    assert (H1 : 20 * 24 <= (2 * Qnat k + 3) * ((11 # 10) * n + 24)) by (apply Qmult_le_compat_nonneg; lra).
    assert (H2 : 20 * 24 * 10 <= (2 * Qnat k + 3) * ((11 # 10) * n + 24) * kap) by (apply Qmult_le_compat_nonneg; lra). lra.
  Qed.
  (** weighted sums over the voters *)
  Definition load_abs (l : list Q) (i : nat) : Q := w p i * Qabs (nthQ l i).
  Definition load_err (l : list Q) (f : list num) (i : nat) : Q := w p i * Qabs (val (nth_num f i) - nthQ l i).
  Lemma w_one_le : forall i, (i < length (voters p))%nat -> 1 <= w p i.
  Proof using Hk Hint. intros i Hi. apply (w_int p Hint). auto. Qed.
  Lemma load_abs_nonneg : forall l i, (i < length (voters p))%nat -> 0 <= load_abs l i.
  Proof using Hk Hint. intros l i Hi. pose proof (w_one_le i Hi). apply Qmult_le_0_compat; [lra|apply Qabs_nonneg]. Qed.
  Lemma load_err_nonneg : forall l f i, (i < length (voters p))%nat -> 0 <= load_err l f i.
  Proof using Hk Hint. intros l f i Hi. pose proof (w_one_le i Hi). apply Qmult_le_0_compat; [lra|apply Qabs_nonneg]. Qed.

  Definition loads_rel (C : list nat) (l : list Q) (f : list num) : Prop :=
    PGood p k C l /\ sum ids (load_abs l) <= Qnat k + Qnat (length C) /\ sum ids (load_err l f) <= (2 * Qnat (length C) + 3) * step /\
    exists D : Z, (1 <= D <= Z.of_nat N ^ (Z.of_nat (length C) + 1))%Z /\ forall i, (i < length (voters p))%nat -> is_int (w p i * nthQ l i * inject_Z D).

  Section One.
    Variables (C : list nat) (l : list Q) (f : list num).
    Hypothesis Hrel : loads_rel C l f.
    Hypothesis Hl : (length C < k)%nat.
    Lemma fans_part : forall c (g : nat -> Q), (forall i, (i < length (voters p))%nat -> 0 <= g i) -> 0 <= sum (fans p c) g /\ sum (fans p c) g <= sum ids g /\
      sum ids g == sum (fans p c) g + sum (filter (fun i => negb (likes p i c)) ids) g.
    Proof using.
      clear. intros c g Hg. destruct (part_sum p c (fans p c) [] g) as (H1 & _ & H2); [rewrite app_nil_r; auto|auto|]. unfold sum in H2 at 2. cbn in H2.
      split; auto. split; [lra|]. apply (sum_split (fun i => likes p i c)).
    Qed.
    Lemma totals : sum ids (load_abs l) + 1 <= 2 * kap /\ sum ids (load_err l f) + 2 * step <= 4000 * u.
    Proof using Hrel Hl Hk Hsmall.
      destruct Hrel as (_ & H1 & H2 & _). destruct load_numbers as (_ & _ & _ & _ & _ & N6 & N7). assert (H : Qnat (length C) + 1 <= Qnat k) by (rewrite <- Qnat_S; apply Qnat_le; lia).
      split; [lra|]. eapply Qle_trans; [|exact N7]. apply Qle_trans with ((2 * Qnat (length C) + 3) * step + 2 * step); [lra|].
      setoid_replace ((2 * Qnat (length C) + 3) * step + 2 * step) with ((2 * (Qnat (length C) + 1) + 3) * step) by ring. apply Qmult_le_compat_r; auto. lra.
    Qed.
    Lemma fan_i : forall c i, In i (fans p c) -> (i < length (voters p))%nat.
    Proof using. clear. intros c i Hi. apply in_fans in Hi. tauto. Qed.
    (** the new load of a supported candidate *)
    Lemma maxload_err : forall c, ~ In c C -> fans p c <> [] ->
      sum (fans p c) (w p) * Qabs (val (f_new_maxload A p k C f c) - new_load p (nthQ l) c) <= sum (fans p c) (load_err l f) + 2 * step.
    Proof using HA Hrel Hl Hk Hsmall Hw Hint HN.
      intros c Hc Hf. destruct (support_int p N Hw Hint HN c Hf) as (b & Hb & Hb1).
      assert (HS : 1 <= sum (fans p c) (w p)) by (rewrite Hb; change 1 with (inject_Z 1); rewrite <- Zle_Qle; lia).
      pose proof (f_weight_eq A HA p c) as HW. unfold f_new_maxload.
      destruct (mem c C) eqn:Em; [apply mem_In in Em; contradiction|].
      assert (Hlt : nlt (num_of_nat 0) (f_approvers_weight A p c) = true) by (unfold nlt; apply Qltb_lt; change (val (num_of_nat 0)) with 0; rewrite HW; lra). rewrite Hlt.
      destruct totals as [T1 T2]. destruct load_numbers as (N1 & N2 & N3 & N4 & N5 & N6 & _).
      destruct (fans_part c (load_abs l)) as (A1 & A2 & _); [apply load_abs_nonneg|]. destruct (fans_part c (load_err l f)) as (E1 & E2 & _); [apply load_err_nonneg|].
      assert (HlenF : (length (fans p c) <= length (voters p))%nat) by (unfold fans; etransitivity; [apply filter_length_le|]; unfold voter_ids; rewrite seq_length; lia).
      rewrite f_load_map. unfold new_load. set (F := fans p c) in *. set (W := sum F (w p)) in *. set (B := sum F (load_abs l)) in *. set (eF := sum F (load_err l f)) in *.
      set (t := sum F (fun i => w p i * nthQ l i)).
      set (g := fun i => nmul A (weight_num (the_voter p i)) (nth_num f i)).
      assert (Hu4 : 4000 * u <= 1 # 1000) by qnum. assert (HB0 : 0 <= B) by auto.
      (* the products *)
      assert (P1 : forall i, In i F -> Qabs (val (g i) - w p i * nthQ l i) <= load_err l f i + 4 * u * (load_abs l i + load_err l f i)).
      { intros i Hi. pose proof (w_one_le i (fan_i c i Hi)) as H1. pose proof (mul_err A HA (weight_num (the_voter p i)) (nth_num f i)) as Hm.
        change (val (weight_num (the_voter p i))) with (w p i) in Hm. rewrite (Qabs_pos (w p i)) in Hm by lra. fold (g i) in Hm.
        pose proof (Qabs_tri3 (val (g i)) (w p i * val (nth_num f i)) (w p i * nthQ l i)) as T.
        assert (Ee : Qabs (w p i * val (nth_num f i) - w p i * nthQ l i) == load_err l f i).
        { unfold load_err. setoid_replace (w p i * val (nth_num f i) - w p i * nthQ l i) with (w p i * (val (nth_num f i) - nthQ l i)) by ring. rewrite Qabs_Qmult, (Qabs_pos (w p i)) by lra. reflexivity. }
        assert (Hf2 : w p i * Qabs (val (nth_num f i)) <= load_abs l i + load_err l f i).
        { unfold load_abs, load_err. rewrite <- Qmult_plus_distr_r. apply Qmult_le_l; [lra|]. apply Qabs_le_of. apply Qle_refl. }
        assert (4 * u * (w p i * Qabs (val (nth_num f i))) <= 4 * u * (load_abs l i + load_err l f i)) by (apply Qmult_le_l; [reflexivity|auto]). lra. }
      assert (P2 : sum F (fun i => Qabs (val (g i) - w p i * nthQ l i)) <= eF + 4 * u * (B + eF)).
      { eapply Qle_trans; [apply sum_le; exact P1|]. rewrite sum_plus, sum_scal, sum_plus. apply Qle_refl. }
      assert (P3 : sum F (fun i => Qabs (val (g i))) <= (1001 # 1000) * (B + 1)).
      { apply Qle_trans with (sum F (fun i => load_abs l i + Qabs (val (g i) - w p i * nthQ l i))).
        - apply sum_le. intros i Hi. pose proof (w_one_le i (fan_i c i Hi)) as H1. pose proof (Qabs_le_of (val (g i)) (w p i * nthQ l i) _ (Qle_refl _)) as H.
          rewrite (Qabs_Qmult (w p i)), (Qabs_pos (w p i)) in H by lra. exact H.
        - rewrite sum_plus. change (sum F (fun i => load_abs l i)) with B. 
          assert (4 * u * (B + eF) <= 4 * u * (B + 1)) by (apply Qmult_le_l; [reflexivity|lra]). assert (4 * u * (B + 1) <= (1 # 1000000) * (B + 1)) by (apply Qmult_le_compat_r; [qnum|lra]). fold B. lra. }
      pose proof (sum_error A HA (map g F)) as H. rewrite map_length, !map_map in H.
      change (Qsum (map (fun x => val (g x)) F)) with (sum F (fun x => val (g x))) in H. change (Qsum (map (fun x => Qabs (val (g x))) F)) with (sum F (fun x => Qabs (val (g x)))) in H.
      set (ld := nsum A (map g F)) in *. set (be := u * (B + 1)). assert (Hbe : 0 <= be) by (apply Qmult_le_0_compat; [discriminate|lra]).
      assert (HG : grow (S (length F)) - 1 <= (101 # 100) * (n + 1) * u).
      { assert (Hbd : (Z.of_nat (S (length F)) <= 1000000)%Z).
        { assert (Hq : n <= 1819) by auto. unfold Qnat in Hq. change 1819 with (inject_Z 1819) in Hq. rewrite <- Zle_Qle in Hq. lia. }
        pose proof (grow_lin _ Hbd) as Hg. assert (Hq : Qnat (S (length F)) <= n + 1) by (rewrite <- Qnat_S; apply Qnat_le; lia).
        assert ((101 # 100) * u * Qnat (S (length F)) <= (101 # 100) * u * (n + 1)) by (apply Qmult_le_l; [reflexivity|auto]). lra. }
      assert (HG2 : (grow (S (length F)) - 1) * sum F (fun x => Qabs (val (g x))) <= (102 # 100) * (n + 1) * be).
      { assert (HP0 : 0 <= sum F (fun x => Qabs (val (g x)))) by (apply sum_nonneg; intros; apply Qabs_nonneg).
        apply Qle_trans with ((101 # 100) * (n + 1) * u * sum F (fun x => Qabs (val (g x)))); [apply Qmult_le_compat_r; auto|].
        assert (H0 : 0 <= (101 # 100) * (n + 1) * u) by (apply Qmult_le_0_compat; [lra|discriminate]).
        apply Qle_trans with ((101 # 100) * (n + 1) * u * ((1001 # 1000) * (B + 1))).
        - rewrite !(Qmult_comm ((101 # 100) * (n + 1) * u)). apply Qmult_le_compat_r; auto.
        - assert (H1 : 0 <= (n + 1) * be) by (apply Qmult_le_0_compat; lra). setoid_replace ((101 # 100) * (n + 1) * u * ((1001 # 1000) * (B + 1))) with ((101 # 100) * (1001 # 1000) * ((n + 1) * be)) by (unfold be; ring).
          rewrite <- (Qmult_assoc (102 # 100)). apply Qmult_le_compat_r; [discriminate|auto]. }
      assert (P4 : Qabs (sum F (fun x => val (g x)) - t) <= eF + 4 * u * (B + eF)) by (eapply Qle_trans; [apply (sum_diff_abs F (fun x => val (g x)) (fun i => w p i * nthQ l i))|exact P2]).
      assert (P5 : 4 * u * (B + eF) <= 4 * be) by (unfold be; rewrite <- !Qmult_assoc; apply Qmult_le_l; [reflexivity|]; apply Qmult_le_l; [reflexivity|lra]).
      assert (P6 : Qabs (val ld - t) <= eF + ((102 # 100) * n + (502 # 100)) * be).
      { pose proof (Qabs_tri3 (val ld) (sum F (fun x => val (g x))) t) as T. lra. }
      assert (Ht : Qabs t <= B). { unfold t, B. eapply Qle_trans; [apply (sum_abs F (fun i => w p i * nthQ l i))|]. apply sum_le. intros i Hi. pose proof (w_one_le i (fan_i c i Hi)). rewrite Qabs_Qmult, (Qabs_pos (w p i)) by lra. apply Qle_refl. }
      assert (Hnb : ((102 # 100) * n + (502 # 100)) * be <= (1 # 1000) * (B + 1)).
      { apply Qle_trans with (2000 * be); [apply Qmult_le_compat_r; lra|]. unfold be. rewrite Qmult_assoc. apply Qmult_le_compat_r; [qnum|lra]. }
      (* adding 1 and dividing *)
      pose proof (FloatAbs.add_err A HA ld (num_of_nat 1)) as Ha. change (val (num_of_nat 1)) with 1 in Ha. change (Qabs 1) with 1 in Ha. set (nu := nadd A ld (num_of_nat 1)) in *.
      pose proof (Qabs_le_of _ _ _ P6) as L1.
      assert (Ha2 : 3 * u * (Qabs (val ld) + 1) <= (302 # 100) * be).
      { apply Qle_trans with (3 * u * ((1003 # 1000) * (B + 1))); [apply Qmult_le_l; [reflexivity|lra]|]. unfold be. setoid_replace (3 * u * ((1003 # 1000) * (B + 1))) with (3 * (1003 # 1000) * (u * (B + 1))) by ring. apply Qmult_le_compat_r; [discriminate|exact Hbe]. }
      assert (P7 : Qabs (val nu - (1 + t)) <= eF + ((102 # 100) * n + (804 # 100)) * be).
      { pose proof (Qabs_tri3 (val nu) (val ld + 1) (1 + t)) as T. setoid_replace (val ld + 1 - (1 + t)) with (val ld - t) in T by ring. lra. }
      assert (L2 : Qabs (val nu) <= (1004 # 1000) * (B + 1)).
      { pose proof (Qabs_le_of _ _ _ P7) as L. assert (Qabs (1 + t) <= 1 + B) by (eapply Qle_trans; [apply Qabs_triangle|]; change (Qabs 1) with 1; lra).
        assert (3 * be <= (1 # 1000) * (B + 1)) by (unfold be; rewrite Qmult_assoc; apply Qmult_le_compat_r; [qnum|lra]).
        assert ((302 # 100) * be <= 4 * be) by (apply Qmult_le_compat_r; [discriminate|auto]). lra. }
      assert (Hrp : 0 < val (f_approvers_weight A p c)) by (rewrite HW; lra). pose proof (div_err A HA nu _ Hrp) as H5. rewrite HW in H5. fold W in H5.
      set (r := val (ndiv A nu (f_approvers_weight A p c))) in *.
      assert (H6 : W * Qabs (r - val nu / W) <= 4 * u * Qabs (val nu)).
      { assert (Eq : 4 * u * Qabs (val nu) == W * (4 * (u * Qabs (val nu / W)))).
        { unfold Qdiv. rewrite Qabs_Qmult, (Qabs_pos (/ W)) by (apply Qlt_le_weak, Qinv_lt_0_compat; lra). field. lra. }
        rewrite Eq. apply Qmult_le_l; [lra|]. lra. }
      assert (H7 : W * Qabs (val nu / W - (1 + t) / W) == Qabs (val nu - (1 + t))).
      { rewrite <- (Qabs_pos W) at 1 by lra. rewrite <- Qabs_Qmult. assert (Eq : W * (val nu / W - (1 + t) / W) == val nu - (1 + t)) by (field; lra). rewrite Eq. reflexivity. }
      assert (H8 : W * Qabs (r - (1 + t) / W) <= W * (Qabs (r - val nu / W) + Qabs (val nu / W - (1 + t) / W))) by (apply Qmult_le_l; [lra|apply Qabs_tri3]).
      assert (H9 : 4 * u * Qabs (val nu) <= (41 # 10) * be).
      { apply Qle_trans with (4 * u * ((1004 # 1000) * (B + 1))); [apply Qmult_le_l; [reflexivity|auto]|]. unfold be. setoid_replace (4 * u * ((1004 # 1000) * (B + 1))) with (4 * (1004 # 1000) * (u * (B + 1))) by ring. apply Qmult_le_compat_r; [discriminate|exact Hbe]. }
      assert (H10 : be <= 2 * (u * kap)) by (unfold be; setoid_replace (2 * (u * kap)) with (u * (2 * kap)) by ring; apply Qmult_le_l; [reflexivity|lra]).
      assert (H11 : ((102 # 100) * n + (1214 # 100)) * be <= ((102 # 100) * n + (1214 # 100)) * (2 * (u * kap))) by (apply Qmult_le_l; [lra|auto]).
      unfold share_step. assert (H12 : 0 <= n * (u * kap)) by (apply Qmult_le_0_compat; [auto|apply Qlt_le_weak; auto]). lra.
    Qed.
    Lemma new_load_abs : forall c, fans p c <> [] -> sum (fans p c) (w p) * Qabs (new_load p (nthQ l) c) <= sum (fans p c) (load_abs l) + 1.
    Proof using Hk Hw Hint HN Hl.
      intros c Hf. destruct (support_int p N Hw Hint HN c Hf) as (b & Hb & Hb1).
      assert (HS : 1 <= sum (fans p c) (w p)) by (rewrite Hb; change 1 with (inject_Z 1); rewrite <- Zle_Qle; lia).
      unfold new_load. set (W := sum (fans p c) (w p)) in *. set (t := sum (fans p c) (fun i => w p i * nthQ l i)).
      rewrite <- (Qabs_pos W) at 1 by lra. rewrite <- Qabs_Qmult. assert (E : W * ((1 + t) / W) == 1 + t) by (field; lra). rewrite E.
      eapply Qle_trans; [apply Qabs_triangle|]. change (Qabs 1) with 1.
      assert (Ht : Qabs t <= sum (fans p c) (load_abs l)).
      { unfold t. eapply Qle_trans; [apply (sum_abs (fans p c) (fun i => w p i * nthQ l i))|]. apply sum_le. intros i Hi. pose proof (w_one_le i (fan_i c i Hi)). rewrite Qabs_Qmult, (Qabs_pos (w p i)) by lra. apply Qle_refl. }
      lra.
    Qed.
    Lemma new_load_is_int : forall c D, fans p c <> [] -> (forall i, (i < length (voters p))%nat -> is_int (w p i * nthQ l i * inject_Z D)) ->
      is_int (new_load p (nthQ l) c * sum (fans p c) (w p) * inject_Z D).
    Proof using Hk Hw Hint HN Hl.
      intros c D Hf HI. destruct (support_int p N Hw Hint HN c Hf) as (b & Hb & Hb1).
      assert (HS : 1 <= sum (fans p c) (w p)) by (rewrite Hb; change 1 with (inject_Z 1); rewrite <- Zle_Qle; lia).
      apply (is_int_ext (inject_Z D + sum (fans p c) (fun i => inject_Z D * (w p i * nthQ l i)))).
      - rewrite sum_scal. unfold new_load. field. lra.
      - apply is_int_plus; [eexists; reflexivity|]. apply is_int_sum. intros i Hi. apply (is_int_ext (w p i * nthQ l i * inject_Z D)); [ring|]. apply HI. apply (fan_i c i Hi).
    Qed.
    (** every entry of the list of new loads *)
    Lemma entry_err : forall c, Qabs (val (f_new_maxload A p k C f c) - new_maxload p k C l c) <= 4000 * u.
    Proof using HA Hrel Hl Hk Hsmall Hw Hint HN.
      intros c. destruct (in_dec Nat.eq_dec c C) as [Hc|Hc].
      - rewrite (new_maxload_member p k C l c Hc). unfold f_new_maxload. destruct (mem c C) eqn:Em; [|apply mem_false in Em; contradiction].
        change (val (num_of_nat (k + 2))) with (Qnat (k + 2)). setoid_replace (Qnat (k + 2) - Qnat (k + 2)) with 0 by ring. discriminate.
      - destruct (fans p c) as [|i0 F0] eqn:Ef.
        + rewrite (new_maxload_unsupported p k C l c Hc Ef). unfold f_new_maxload. destruct (mem c C) eqn:Em; [apply mem_In in Em; contradiction|].
          pose proof (f_weight_eq A HA p c) as HW. rewrite Ef in HW. unfold sum in HW. cbn in HW.
          destruct (nlt (num_of_nat 0) (f_approvers_weight A p c)) eqn:E; [unfold nlt in E; apply Qltb_lt in E; change (val (num_of_nat 0)) with 0 in E; lra|].
          change (val (num_of_nat (k + 1))) with (Qnat (k + 1)). setoid_replace (Qnat (k + 1) - Qnat (k + 1)) with 0 by ring. discriminate.
        + assert (Hf : fans p c <> []) by (rewrite Ef; discriminate). rewrite (new_maxload_supported p k Hw C l c Hc Hf).
          pose proof (maxload_err c Hc Hf) as H. destruct totals as [_ T2]. destruct (fans_part c (load_err l f)) as (_ & E2 & _); [apply load_err_nonneg|].
          destruct (support_int p N Hw Hint HN c Hf) as (b & Hb & Hb1).
          assert (HS : 1 <= sum (fans p c) (w p)) by (rewrite Hb; change 1 with (inject_Z 1); rewrite <- Zle_Qle; lia).
          set (x := Qabs (val (f_new_maxload A p k C f c) - new_load p (nthQ l) c)) in *. assert (H0 : 0 <= x) by apply Qabs_nonneg.
          assert (1 * x <= sum (fans p c) (w p) * x) by (apply Qmult_le_compat_r; auto). lra.
    Qed.
    Lemma Qnat_2k : Qnat (2 * k) == 2 * Qnat k.
    Proof using. clear. unfold Qnat. rewrite Nat2Z.inj_mul, inject_Z_mult. reflexivity. Qed.
    Lemma entry_abs : forall c, Qabs (new_maxload p k C l c) <= Qnat (2 * k) + 1.
    Proof using Hrel Hl Hk Hw Hint HN.
      intros c. rewrite Qnat_2k. assert (Hk1 : 1 <= Qnat k) by (change 1 with (Qnat 1); apply Qnat_le; lia).
      destruct (in_dec Nat.eq_dec c C) as [Hc|Hc].
      - rewrite (new_maxload_member p k C l c Hc), Qabs_pos by apply Qnat_nonneg. replace (k + 2)%nat with (S (S k)) by lia. rewrite !Qnat_S. lra.
      - destruct (fans p c) as [|i0 F0] eqn:Ef.
        + rewrite (new_maxload_unsupported p k C l c Hc Ef), Qabs_pos by apply Qnat_nonneg. rewrite Nat.add_1_r, Qnat_S. lra.
        + assert (Hf : fans p c <> []) by (rewrite Ef; discriminate). rewrite (new_maxload_supported p k Hw C l c Hc Hf).
          pose proof (new_load_abs c Hf) as H. destruct (fans_part c (load_abs l)) as (_ & E2 & _); [apply load_abs_nonneg|].
          destruct (support_int p N Hw Hint HN c Hf) as (b & Hb & Hb1). destruct Hrel as (_ & HB & _).
          assert (H1 : Qnat (length C) + 1 <= Qnat k) by (rewrite <- Qnat_S; apply Qnat_le; lia).
          assert (HS : 1 <= sum (fans p c) (w p)) by (rewrite Hb; change 1 with (inject_Z 1); rewrite <- Zle_Qle; lia).
          set (x := Qabs (new_load p (nthQ l) c)) in *. assert (H0 : 0 <= x) by apply Qabs_nonneg.
          assert (1 * x <= sum (fans p c) (w p) * x) by (apply Qmult_le_compat_r; auto). lra.
    Qed.
    Lemma entry_int : forall c D, (forall i, (i < length (voters p))%nat -> is_int (w p i * nthQ l i * inject_Z D)) ->
      exists b, (1 <= b <= Z.of_nat N)%Z /\ is_int (new_maxload p k C l c * inject_Z (D * b)).
    Proof using Hk Hw Hint HN Hv Hl.
      intros c D HI. pose proof (N_pos p N Hw HN Hv) as HN1. destruct (in_dec Nat.eq_dec c C) as [Hc|Hc].
      - exists 1%Z. split; [lia|]. rewrite (new_maxload_member p k C l c Hc). apply is_int_mult; eexists; reflexivity.
      - destruct (fans p c) as [|i0 F0] eqn:Ef.
        + exists 1%Z. split; [lia|]. rewrite (new_maxload_unsupported p k C l c Hc Ef). apply is_int_mult; eexists; reflexivity.
        + assert (Hf : fans p c <> []) by (rewrite Ef; discriminate). destruct (support_int p N Hw Hint HN c Hf) as (b & Hb & Hb1). exists b. split; auto.
          apply (is_int_ext (new_load p (nthQ l) c * sum (fans p c) (w p) * inject_Z D)); [|apply new_load_is_int; auto].
          rewrite (new_maxload_supported p k Hw C l c Hc Hf), Hb, inject_Z_mult. ring.
    Qed.
    Lemma entry_gap : forall c d, new_maxload p k C l c < new_maxload p k C l d -> new_maxload p k C l c + gap_for (Qnat (2 * k) + 1) < new_maxload p k C l d.
    Proof using Hrel Hl Hk Hw Hint HN Hv Hclear.
      intros c d Hlt. destruct Hrel as (_ & _ & _ & D & HD & HI).
      destruct (entry_int c D HI) as (b & Hb & Ib). destruct (entry_int d D HI) as (b' & Hb' & Ib'). pose proof (N_pos p N Hw HN Hv) as HN1.
      apply (gap_int (2 * k) _ _ (D * b * b')); auto; [nia| |].
      - unfold clear_shares in Hclear. eapply Z.le_lt_trans; [|exact Hclear]. apply Z.mul_le_mono_nonneg_r; [lia|].
        transitivity (Z.of_nat N ^ (Z.of_nat (length C) + 1) * Z.of_nat N * Z.of_nat N)%Z; [apply Z.mul_le_mono_nonneg; nia|].
        transitivity (Z.of_nat N ^ (Z.of_nat (length C) + 3))%Z; [|apply Z.pow_le_mono_r; lia].
        replace (Z.of_nat (length C) + 3)%Z with (Z.succ (Z.succ (Z.of_nat (length C) + 1))) by lia. rewrite !Z.pow_succ_r by lia. lia.
      - apply (is_int_ext (inject_Z b * (new_maxload p k C l d * inject_Z (D * b')) + inject_Z (-1) * (inject_Z b' * (new_maxload p k C l c * inject_Z (D * b))))).
        + rewrite !inject_Z_mult. change (inject_Z (-1)) with (- (1)). ring.
        + apply is_int_plus; apply is_int_mult; try (eexists; reflexivity); auto. apply is_int_mult; [eexists; reflexivity|auto].
    Qed.
    Lemma cand_nthQ : forall (g : nat -> Q) c, In c (candidates p) -> nthQ (map g (candidates p)) c = g c.
    Proof using.
      clear. intros g c Hc. unfold candidates in *. apply in_seq in Hc. unfold nthQ.
      rewrite nth_indep with (d' := g 0%nat) by (rewrite map_length, seq_length; lia). rewrite map_nth, seq_nth by lia. reflexivity.
    Qed.
    Lemma phragmen_select_same : f_phragmen_select A p k C f = phragmen_select p k C l.
    Proof using HA Hrel Hl Hk Hsmall Hw Hint HN Hv Hclear.
      destruct load_numbers as (_ & _ & _ & N4 & N5 & _).
      destruct (min_entries_same A HA (4000 * u) (Qnat (2 * k) + 1) (map (fun c => (c, f_new_maxload A p k C f c)) (candidates p)) (map (fun c => (c, new_maxload p k C l c)) (candidates p)))
        as (mx & mn & E1 & E2 & _ & _ & Hmin & E3).
      - unfold candidates. destruct (num_cand p) eqn:E; [lia|discriminate].
      - clear - HA Hrel Hl Hk Hsmall Hw Hint HN. induction (candidates p) as [|c cs IH]; constructor; auto. split; [reflexivity|]. apply entry_err.
      - discriminate.
      - intros y Hy. apply in_map_iff in Hy as (c & <- & _). apply entry_abs.
      - rewrite Qnat_2k. pose proof kap_small. apply Qle_trans with (4000 * u + 2 * u * (2 * 10)); [|qnum]. apply Qplus_le_r. apply Qmult_le_l; [reflexivity|lra].
      - intros y z Hy Hz. apply in_map_iff in Hy as (c & <- & _). apply in_map_iff in Hz as (d & <- & _). apply entry_gap.
      - unfold f_phragmen_select, phragmen_select. cbv zeta. rewrite map_map in E1, E2. cbn [snd] in E1, E2.
        change (map (f_new_maxload A p k C f) (candidates p)) with (map (fun x => f_new_maxload A p k C f x) (candidates p)).
        change (map (new_maxload p k C l) (candidates p)) with (map (fun x => new_maxload p k C l x) (candidates p)). rewrite E1, E2. cbn [rbind]. f_equal.
        rewrite !filter_map_comm, !map_map in E3. cbn [fst snd] in E3. rewrite !map_id in E3.
        rewrite (filter_same _ _ (fun c => isclose A (f_new_maxload A p k C f c) mx)).
        2:{ intros c Hc. rewrite (nth_candidates p); auto. unfold candidates in Hc. apply in_seq in Hc. lia. }
        rewrite E3. apply filter_same. intros c Hc. rewrite cand_nthQ by auto.
        assert (Hle : mn <= new_maxload p k C l c) by (apply (Hmin (c, new_maxload p k C l c)); apply in_map_iff; exists c; auto).
        destruct (Qeq_bool (new_maxload p k C l c) mn) eqn:E4; symmetry.
        + apply Qeq_bool_iff in E4. apply Qle_bool_iff. lra.
        + destruct (Qle_bool (new_maxload p k C l c) mn) eqn:E5; auto. apply Qle_bool_iff in E5. assert (E6 : new_maxload p k C l c == mn) by lra. apply Qeq_bool_iff in E6. congruence.
    Qed.
    (** the loads of the next round *)
    Lemma next_entry : forall c i, (i < length (voters p))%nat -> nthQ (phragmen_next p k C l c) i = (if likes p i c then new_maxload p k C l c else nthQ l i).
    Proof using. clear. intros c i Hi. unfold phragmen_next. rewrite nthQ_enum by auto. reflexivity. Qed.
    Definition f_next (c : nat) : list num := map (fun iv => if mem c (approved (snd iv)) then f_new_maxload A p k C f c else nth_num f (fst iv)) (enum_voters p).
    Lemma f_next_entry : forall c i, (i < length (voters p))%nat -> nth_num (f_next c) i = (if likes p i c then f_new_maxload A p k C f c else nth_num f i).
    Proof using. clear. intros c i Hi. unfold f_next. rewrite nth_num_enum by auto. reflexivity. Qed.
    Lemma loads_next : forall c, phragmen_choice p C (nthQ l) c -> f_phragmen_next A p k C f c = Ok (f_next c) /\ loads_rel (C ++ [c]) (phragmen_next p k C l c) (f_next c).
    Proof using HA Hrel Hl Hk Hsmall Hw Hint HN Hv Hclear.
      intros c Hc. split; [reflexivity|]. pose proof (proj1 (heavy_enough p k Hw (proj1 Hk) one_weight)) as Hs.
      destruct (phragmen_next_ok p k Hw (proj2 Hk) Hs C l c (proj1 Hrel) Hl Hc) as [_ HG]. split; auto.
      destruct Hrel as (_ & G1 & G2 & D & HD & HI). destruct load_numbers as (_ & _ & _ & _ & _ & N6 & _). pose proof (N_pos p N Hw HN Hv) as HN1.
      assert (Hcl : ~ In c C) by (destruct Hc as [[_ Hc] _]; exact Hc).
      rewrite app_length, Nat.add_1_r, Qnat_S. set (m := length C) in *. set (l' := phragmen_next p k C l c). set (f' := f_next c).
      assert (HP : (Z.of_nat N ^ (Z.of_nat (S m) + 1) = Z.of_nat N * Z.of_nat N ^ (Z.of_nat m + 1))%Z).
      { replace (Z.of_nat (S m) + 1)%Z with (Z.succ (Z.of_nat m + 1)) by lia. apply Z.pow_succ_r. lia. }
      destruct (fans p c) as [|i0 F0] eqn:Ef.
      - assert (Hno : forall i, (i < length (voters p))%nat -> likes p i c = false).
        { intros i Hi. destruct (likes p i c) eqn:E; auto. assert (H : In i (fans p c)) by (apply in_fans; auto). rewrite Ef in H. destruct H. }
        split; [|split].
        + rewrite (sum_ext ids (load_abs l') (load_abs l)); [lra|]. intros i Hi. apply in_voter_ids in Hi. unfold load_abs, l'. rewrite next_entry, Hno by auto. reflexivity.
        + rewrite (sum_ext ids (load_err l' f') (load_err l f)).
          * setoid_replace ((2 * (Qnat m + 1) + 3) * step) with ((2 * Qnat m + 3) * step + 2 * step) by ring. lra.
          * intros i Hi. apply in_voter_ids in Hi. unfold load_err, l', f'. rewrite next_entry, f_next_entry, Hno by auto. reflexivity.
        + exists D. split; [nia|]. intros i Hi. unfold l'. rewrite next_entry, Hno by auto. apply HI. auto.
      - assert (Hf : fans p c <> []) by (rewrite Ef; discriminate). clear Ef i0 F0.
        pose proof (new_maxload_supported p k Hw C l c Hcl Hf) as EM. destruct (support_int p N Hw Hint HN c Hf) as (b & Hb & Hb1).
        set (M := new_maxload p k C l c) in *. set (fM := f_new_maxload A p k C f c) in *.
        assert (Hfan : forall i, In i (fans p c) -> nthQ l' i = M /\ nth_num f' i = fM /\ 1 <= w p i).
        { intros i Hi. apply in_fans in Hi as [Hi Hli]. unfold l', f'. rewrite next_entry, f_next_entry, Hli by auto. split; [reflexivity|]. split; [reflexivity|]. apply w_one_le; auto. }
        assert (Hnon : forall i, In i (filter (fun i => negb (likes p i c)) ids) -> nthQ l' i = nthQ l i /\ nth_num f' i = nth_num f i).
        { intros i Hi. apply filter_In in Hi as [Hi Hli]. apply in_voter_ids in Hi. apply negb_true_iff in Hli. unfold l', f'. rewrite next_entry, f_next_entry, Hli by auto. auto. }
        split; [|split].
        + destruct (fans_part c (load_abs l')) as (_ & _ & S1); [apply load_abs_nonneg|]. destruct (fans_part c (load_abs l)) as (_ & _ & S2); [apply load_abs_nonneg|].
          rewrite (sum_ext (filter _ ids) (load_abs l') (load_abs l)) in S1 by (intros i Hi; unfold load_abs; rewrite (proj1 (Hnon i Hi)); reflexivity).
          assert (S3 : sum (fans p c) (load_abs l') == sum (fans p c) (w p) * Qabs (new_load p (nthQ l) c)).
          { rewrite (sum_ext _ _ (fun i => Qabs M * w p i)); [rewrite sum_scal, EM; ring|]. intros i Hi. unfold load_abs. rewrite (proj1 (Hfan i Hi)). ring. }
          pose proof (new_load_abs c Hf) as S4. lra.
        + destruct (fans_part c (load_err l' f')) as (_ & _ & S1); [apply load_err_nonneg|]. destruct (fans_part c (load_err l f)) as (_ & _ & S2); [apply load_err_nonneg|].
          rewrite (sum_ext (filter _ ids) (load_err l' f') (load_err l f)) in S1 by (intros i Hi; unfold load_err; destruct (Hnon i Hi) as [-> ->]; reflexivity).
          assert (S3 : sum (fans p c) (load_err l' f') == sum (fans p c) (w p) * Qabs (val fM - new_load p (nthQ l) c)).
          { rewrite (sum_ext _ _ (fun i => Qabs (val fM - M) * w p i)); [rewrite sum_scal, EM; ring|]. intros i Hi. unfold load_err. destruct (Hfan i Hi) as (-> & -> & _). ring. }
          pose proof (maxload_err c Hcl Hf) as S4. fold fM in S4. setoid_replace ((2 * (Qnat m + 1) + 3) * step) with ((2 * Qnat m + 3) * step + 2 * step) by ring. lra.
        + exists (D * b)%Z. split; [nia|]. intros i Hi. destruct (w_int p Hint i Hi) as [Hwi _]. destruct (likes p i c) eqn:El.
          * assert (Hi2 : In i (fans p c)) by (apply in_fans; auto). rewrite (proj1 (Hfan i Hi2)).
            apply (is_int_ext (w p i * (new_load p (nthQ l) c * sum (fans p c) (w p) * inject_Z D))); [rewrite inject_Z_mult, EM, Hb; ring|].
            apply is_int_mult; auto. apply new_load_is_int; auto.
          * unfold l'. rewrite next_entry, El by auto. apply (is_int_ext (w p i * nthQ l i * inject_Z D * inject_Z b)); [rewrite inject_Z_mult; ring|].
            apply is_int_mult; [auto|eexists; reflexivity].
    Qed.
  End One.
  Lemma loads_perm : forall C C' l f, Permutation C C' -> loads_rel C l f -> loads_rel C' l f.
  Proof using.
    intros C C' l f HP (H1 & H2). split; [eapply PGood_perm; eauto|]. rewrite <- (Permutation_length HP). exact H2.
  Qed.
  Lemma loads_step : forall C l f, loads_rel C l f -> (length C < k)%nat -> exists cs, phragmen_select p k C l = Ok cs /\ f_phragmen_select A p k C f = Ok cs /\ cs <> [] /\
    forall c, In c cs -> exists f', f_phragmen_next A p k C f c = Ok f' /\ loads_rel (C ++ [c]) (phragmen_next p k C l c) f'.
  Proof using HA Hk Hsmall Hw Hint HN Hv Hclear.
    intros C l f HR Hl. pose proof (proj1 (heavy_enough p k Hw (proj1 Hk) one_weight)) as Hs.
    destruct (phragmen_sel_ok p k Hw (proj2 Hk) Hs C l (proj1 HR) Hl) as (sel & E & _ & Hin).
    exists sel. split; auto. split; [rewrite (phragmen_select_same C l f HR Hl); auto|]. split.
    - destruct (phragmen_progress p k Hw (proj2 Hk) C l (proj1 HR) Hl) as (c & Hc). apply Hin in Hc. intros ->. destruct Hc.
    - intros c Hc. apply Hin in Hc. exists (f_next C f c). apply (loads_next C l f HR Hl c Hc).
  Qed.
  Lemma loads_loop : forall r C l f, loads_rel C l f -> (length C + r <= k)%nat ->
    float_loop (f_phragmen_select A p k) (f_phragmen_next A p k) r C f = seq_loop (phragmen_select p k) (phragmen_next p k) r C l.
  Proof using HA Hk Hsmall Hw Hint HN Hv Hclear.
    induction r as [|r IH]; intros C l f HF Hl; [reflexivity|]. cbn [float_loop seq_loop].
    destruct (loads_step C l f HF ltac:(lia)) as (sel & -> & -> & Hne & Hnext). cbn [rbind].
    destruct sel as [|c sel]; [congruence|]. destruct (Hnext c (or_introl eq_refl)) as (f' & -> & HF'). cbn [rbind].
    apply IH; [|rewrite isort_length, app_length; simpl; lia]. eapply loads_perm; [|exact HF']. apply isort_perm.
  Qed.
  Lemma loads_dfs : forall maxn fuel C l f, loads_rel C l f -> (length C < k)%nat ->
    dfs (float_expand k (f_phragmen_select A p k) (f_phragmen_next A p k)) maxn fuel [(C, f)] [] = dfs (seq_expand k (phragmen_select p k) (phragmen_next p k)) maxn fuel [(C, l)] [].
  Proof using HA Hk Hsmall Hw Hint HN Hv Hclear.
    apply (seq_dfs_sim k (phragmen_select p k) (phragmen_next p k) (f_phragmen_select A p k) (f_phragmen_next A p k) loads_rel).
    intros C l f HR Hl. destruct (loads_step C l f HR Hl) as (cs & E1 & E2 & _ & H). exists cs. auto.
  Qed.
  (** the starting loads *)
  Lemma loads_start : forall C a f, shares_rel p k N C a f -> (length C < k)%nat ->
    loads_rel C (map (fun iv => - nthQ a (fst iv) / weight (snd iv)) (enum_voters p)) (map (fun iv => ndiv A (nneg (nth_num f (fst iv))) (weight_num (snd iv))) (enum_voters p)).
  Proof using HA Hk Hsmall Hw Hint HN Hv.
    intros C a f (HG & G1 & G2 & D & HD & HI) Hl. split; [apply loads_good; auto|].
    set (l := map _ _). set (g := map _ _).
    assert (El : forall i, (i < length (voters p))%nat -> nthQ l i = - nthQ a i / w p i) by (intros i Hi; unfold l; rewrite nthQ_enum by auto; reflexivity).
    assert (Eg : forall i, (i < length (voters p))%nat -> nth_num g i = ndiv A (nneg (nth_num f i)) (weight_num (the_voter p i))) by (intros i Hi; unfold g; rewrite nth_num_enum by auto; reflexivity).
    destruct HG as (_ & _ & HG). destruct load_numbers as (N1 & N2 & N3 & N4 & N5 & N6 & N7).
    assert (Eabs : forall i, (i < length (voters p))%nat -> load_abs l i == nthQ a i).
    { intros i Hi. pose proof (w_one_le i Hi) as H1. unfold load_abs. rewrite El by auto. rewrite <- (Qabs_pos (w p i)) at 1 by lra. rewrite <- Qabs_Qmult.
      assert (E : w p i * (- nthQ a i / w p i) == - nthQ a i) by (field; lra). rewrite E, Qabs_opp, Qabs_pos; [reflexivity|auto]. }
    split; [|split].
    - rewrite (sum_ext ids (load_abs l) (nthQ a)) by (intros i Hi; apply in_voter_ids in Hi; apply Eabs; auto). pose proof (Qnat_nonneg (length C)). lra.
    - assert (He : forall i, (i < length (voters p))%nat -> load_err l g i <= Qabs (val (nth_num f i) - nthQ a i) + 4 * u * (nthQ a i + Qabs (val (nth_num f i) - nthQ a i))).
      { intros i Hi. pose proof (w_one_le i Hi) as H1. unfold load_err. rewrite El, Eg by auto. assert (Hrp : 0 < val (weight_num (the_voter p i))) by (change (0 < w p i); lra).
        pose proof (div_err A HA (nneg (nth_num f i)) _ Hrp) as H5. change (val (weight_num (the_voter p i))) with (w p i) in H5. change (val (nneg (nth_num f i))) with (- val (nth_num f i)) in H5.
        set (r := val (ndiv A _ _)) in *. set (x := val (nth_num f i)) in *. set (y := nthQ a i) in *.
        pose proof (Qabs_tri3 r (- x / w p i) (- y / w p i)) as T.
        assert (T2 : w p i * Qabs (r - - y / w p i) <= w p i * Qabs (r - - x / w p i) + w p i * Qabs (- x / w p i - - y / w p i)) by (rewrite <- Qmult_plus_distr_r; apply Qmult_le_l; [lra|auto]).
        assert (E1 : w p i * Qabs (- x / w p i - - y / w p i) == Qabs (x - y)).
        { rewrite <- (Qabs_pos (w p i)) at 1 by lra. rewrite <- Qabs_Qmult. assert (E : w p i * (- x / w p i - - y / w p i) == - (x - y)) by (field; lra). rewrite E, Qabs_opp. reflexivity. }
        assert (E2 : w p i * Qabs (- x / w p i) == Qabs x).
        { rewrite <- (Qabs_pos (w p i)) at 1 by lra. rewrite <- Qabs_Qmult. assert (E : w p i * (- x / w p i) == - x) by (field; lra). rewrite E, Qabs_opp. reflexivity. }
        assert (T3 : w p i * Qabs (r - - x / w p i) <= w p i * (4 * (u * Qabs (- x / w p i)))) by (apply Qmult_le_l; [lra|lra]).
        assert (E3 : w p i * (4 * (u * Qabs (- x / w p i))) == 4 * u * Qabs x) by (rewrite <- E2; ring).
        assert (Hx : Qabs x <= y + Qabs (x - y)). { pose proof (Qabs_le_of x y _ (Qle_refl _)) as H. rewrite (Qabs_pos y) in H by (apply HG; auto). exact H. }
        assert (4 * u * Qabs x <= 4 * u * (y + Qabs (x - y))) by (apply Qmult_le_l; [reflexivity|auto]). lra. }
      apply Qle_trans with (sum ids (fun i => Qabs (val (nth_num f i) - nthQ a i) + 4 * u * (nthQ a i + Qabs (val (nth_num f i) - nthQ a i)))).
      { apply sum_le. intros i Hi. apply in_voter_ids in Hi. auto. }
      rewrite sum_plus, sum_scal, sum_plus. change (sum ids (fun i => Qabs (val (nth_num f i) - nthQ a i))) with (total_err p f (nthQ a)). change (sum ids (fun i => nthQ a i)) with (sum ids (nthQ a)).
      assert (HE : total_err p f (nthQ a) <= 1).
      { eapply Qle_trans; [exact G2|]. apply Qle_trans with ((2 * Qnat k + 3) * step); [apply Qmult_le_compat_r; auto|].
        - assert (Qnat (length C) + 1 <= Qnat k) by (rewrite <- Qnat_S; apply Qnat_le; lia). pose proof (Qnat_nonneg k). lra.
        - eapply Qle_trans; [exact N7|]. qnum. }
      assert (4 * u * (sum ids (nthQ a) + total_err p f (nthQ a)) <= 4 * u * kap) by (apply Qmult_le_l; [reflexivity|lra]).
      assert (4 * u * kap <= step). { unfold share_step. setoid_replace (4 * u * kap) with (4 * (u * kap)) by ring. apply Qmult_le_compat_r; lra. }
      pose proof (Qnat_nonneg (length C)) as HlC. assert (0 <= Qnat (length C) * step) by (apply Qmult_le_0_compat; auto).
      setoid_replace ((2 * Qnat (length C) + 3) * step) with ((Qnat (length C) + 1) * step + Qnat (length C) * step + 2 * step) by ring. lra.
    - exists D. split; auto. intros i Hi. pose proof (w_one_le i Hi) as H1. rewrite El by auto. apply (is_int_ext (inject_Z (-1) * (nthQ a i * inject_Z D))); [change (inject_Z (-1)) with (- (1)); field; lra|].
      apply is_int_mult; [eexists; reflexivity|auto].
  Qed.
  Lemma fill_phragmen_same : forall resolute C a f, shares_rel p k N C a f -> (length C < k)%nat -> f_fill_phragmen A p k resolute C f = fill_phragmen p k resolute C a.
  Proof using HA Hk Hsmall Hw Hint HN Hv Hclear.
    intros resolute C a f HR Hl. pose proof (loads_start C a f HR Hl) as HS. unfold f_fill_phragmen, fill_phragmen. cbv zeta. destruct resolute.
    - unfold f_seqphragmen_resolute, seqphragmen_resolute. erewrite loads_loop; [reflexivity|exact HS|lia].
    - unfold f_seqphragmen_irresolute, seqphragmen_irresolute. erewrite loads_dfs; [reflexivity|exact HS|exact Hl].
  Qed.
  Theorem f_mes_phragmen_exact : forall resolute maxn, f_equal_shares_rule A p k resolute maxn PhragmenCompletion = equal_shares_rule p k resolute maxn PhragmenCompletion.
  Proof using HA Hk Hsmall Hw Hint HN Hv Hclear.
    intros resolute maxn. unfold f_equal_shares_rule, equal_shares_rule.
    assert (Hs : small_shares p k k).
    { unfold small_shares in *. eapply Qle_trans; [|exact Hsmall]. pose proof (Qnat_nonneg k) as H0. pose proof (Qnat_nonneg (length (voters p))) as H1.
      apply Qmult_le_compat_r; [|lra]. apply Qmult_le_compat_r; [|lra]. assert (Qnat k <= Qnat (2 * k + 2)) by (apply Qnat_le; lia). lra. }
    assert (Hc : clear_shares k k N).
    { unfold clear_shares in *. eapply Z.le_lt_trans; [|exact Hclear]. apply Z.mul_le_mono_nonneg_l; [apply Z.pow_nonneg|]; lia. }
    rewrite (f_shares_exact A HA p k k N Hw Hint HN Hv (proj1 Hk) Hs Hc (f_fill_phragmen A p k resolute) (fill_phragmen p k resolute) resolute (fill_phragmen_same resolute) maxn _ (mes_start p k)); [reflexivity|].
    apply (mes_start_rel A HA p k k N); auto. apply Hk.
  Qed.
End Loads.
