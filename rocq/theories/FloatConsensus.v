(** * The consensus rule with "float-fractions": the exact result if there are no near ties *)
From Coq Require Import String.
From Coq Require Import List Arith Bool ZArith QArith Qabs Lia Lqa Permutation Sorted.
From Verif Require Import Prelude Misc MiscProofs Preferences Scores Spec ScoresProofs Search RulesThiele
  Common ThieleProofs SpecRules SpecSeq RulesSeq SeqProofs PhragmenProofs EnestroemProofs MesProofs SameSeq Floats RulesFloat FloatSearch FloatStruct SpecFloat SpecFloatMore FloatBounds FloatPhragmen FloatMesRun FloatIncrement FloatExact FloatAbs.
Import ListNotations.
Open Scope Q_scope.

Lemma sum_one : forall l f i, (forall j, In j l -> 0 <= f j) -> In i l -> f i <= sum l f.
Proof.
  induction l as [|j l IH]; intros f i H Hi; [destruct Hi|]. change (f i <= f j + sum l f).
  assert (0 <= sum l f) by (apply sum_nonneg; intros; apply H; right; auto). destruct Hi as [->|Hi]; [lra|].
  specialize (IH f i (fun j Hj => H j (or_intror Hj)) Hi). assert (0 <= f j) by (apply H; left; auto). lra.
Qed.

Section Consensus.
  Variable A : arith.
  Hypothesis HA : float_ok A.
  Variables (p : profile) (k : nat).
  Hypothesis Hw : wf p.
  Hypothesis Hsmall : small_budgets p k.
  Let W := wsum (voters p).
  Let n := Qnat (length (voters p)).
  Let ids := voter_ids p.

  Lemma W_nonneg : 0 <= W.
  Proof using Hw. unfold W. rewrite wsum_voter_ids. apply sum_nonneg. intros i Hi. apply in_voter_ids in Hi. apply Qlt_le_weak, w_pos; auto. Qed.
  Lemma w_nonneg : forall i, In i ids -> 0 <= w p i.
  Proof using Hw. intros i Hi. apply in_voter_ids in Hi. apply Qlt_le_weak, w_pos; auto. Qed.
  (** the payments of the backers *)
  Definition paid (x : nat -> Q) (c i : nat) : Q := if mem i (backers p x c) then w p i * (W / sum (backers p x c) (w p)) else 0.
  Lemma backers_filter : forall x c, filter (fun i => mem i (backers p x c)) ids = backers p x c.
  Proof using.
    intros x c. apply ascending_ext.
    - apply ascending_filter, ascending_seq.
    - unfold backers, fans. apply ascending_filter, ascending_filter, ascending_seq.
    - intros i. rewrite filter_In, mem_In. split; [intros [_ H]; exact H|]. intros H. split; auto. apply in_backers in H. apply in_voter_ids. apply H.
  Qed.
  Lemma backers_weight : forall x c, backers p x c <> [] -> 0 < sum (backers p x c) (w p).
  Proof using Hw.
    intros x c Hne. destruct (backers p x c) as [|i l] eqn:E; [congruence|].
    assert (Hin : forall j, In j (i :: l) -> (j < length (voters p))%nat) by (intros j Hj; rewrite <- E in Hj; apply in_backers in Hj; apply Hj).
    change (0 < w p i + sum l (w p)). assert (0 < w p i) by (apply w_pos; auto; apply Hin; left; auto).
    assert (0 <= sum l (w p)); [|lra]. apply sum_nonneg. intros j Hj. apply Qlt_le_weak, w_pos; auto. apply Hin. right. auto.
  Qed.
  Lemma paid_nonneg : forall x c i, In i ids -> 0 <= paid x c i.
  Proof using Hw.
    intros x c i Hi. unfold paid. destruct (mem i (backers p x c)) eqn:E; [|discriminate]. apply mem_In in E.
    assert (0 < sum (backers p x c) (w p)) by (apply backers_weight; intros Z; rewrite Z in E; destruct E).
    apply Qmult_le_0_compat; [apply w_nonneg; auto|]. apply Qle_shift_div_l; auto. pose proof W_nonneg. lra.
  Qed.
  Lemma paid_total : forall x c, sum ids (paid x c) <= W.
  Proof using Hw.
    intros x c. unfold paid. rewrite <- (sum_filter_ids (fun i => mem i (backers p x c)) ids (fun i => w p i * (W / sum (backers p x c) (w p)))).
    rewrite backers_filter. destruct (backers p x c) as [|i l] eqn:E; [apply W_nonneg|]. rewrite <- E.
    assert (0 < sum (backers p x c) (w p)) by (apply backers_weight; rewrite E; discriminate).
    set (s := sum (backers p x c) (w p)) in *.
    rewrite (sum_ext _ (fun i => w p i * (W / s)) (fun i => (W / s) * w p i)) by (intros; ring).
    rewrite sum_scal. fold s. setoid_replace (W / s * s) with W by (field; lra). apply Qle_refl.
  Qed.

  Definition total_abs (x : nat -> Q) : Q := sum ids (fun i => Qabs (x i)).
  Definition total_err (f : list num) (x : nat -> Q) : Q := sum ids (fun i => Qabs (val (nth_num f i) - x i)).
  (** after [r] rounds *)
  Definition good (r : nat) (f : list num) (x : nat -> Q) : Prop :=
    total_abs x <= 2 * Qnat r * W /\ total_err f x <= (6 * Qnat r * Qnat r + 11 * Qnat r) * (u * W).

  Section Round.
    Variables (r : nat) (f : list num) (x : nat -> Q).
    Hypothesis (Hg : good r f x) (Hr : (r < k)%nat).
    Let g := f_cr_earn A p f.
    Lemma numbers : let s := Qnat k * (6 * Qnat k + 9 + 5 * n) in
      0 <= Qnat r /\ 0 <= n /\ 6 * Qnat r * Qnat r + 21 * Qnat r + 6 + (404 # 100) * (n * Qnat r) + (205 # 100) * n <= s /\ s <= 4300 /\ s * W <= 4300.
    Proof using Hsmall Hr.
      intros s. pose proof (Qnat_nonneg r) as H0. assert (Hn0 : 0 <= n) by apply Qnat_nonneg.
      assert (H1 : Qnat r + 1 <= Qnat k) by (rewrite <- Qnat_S; apply Qnat_le; lia).
      split; auto. split; auto. split; [|exact Hsmall]. set (ρ := Qnat r) in *. set (κ := Qnat k) in *.
      assert (P1 : ρ * ρ <= (κ - 1) * (κ - 1)) by nra. assert (P2 : n * ρ <= n * (κ - 1)) by nra. assert (P3 : 0 <= n * κ) by nra. unfold s. nra.
    Qed.
    Lemma err_small : total_err f x <= (1 # 1000) * W /\ 0 <= u * W.
    Proof using Hsmall Hr Hg Hw.
      destruct numbers as (H0 & Hn & H1 & H2 & _). destruct Hg as [_ He]. pose proof W_nonneg as HW.
      assert (HU : 0 <= u * W) by (apply Qmult_le_0_compat; [discriminate|auto]). split; auto.
      assert (P : 0 <= n * Qnat r) by (apply Qmult_le_0_compat; auto).
      assert (P2 : 6 * Qnat r * Qnat r + 11 * Qnat r <= 4300) by lra.
      assert (P3 : (6 * Qnat r * Qnat r + 11 * Qnat r) * (u * W) <= 4300 * (u * W)) by (apply Qmult_le_compat_r; auto).
      assert (P4 : 4300 * u * W <= (1 # 1000) * W) by (apply Qmult_le_compat_r; [discriminate|auto]). lra.
    Qed.
    Lemma earn_err : forall i, In i ids -> Qabs (val (nth_num g i) - earned p x i) <=
      (1 + 3 * u) * Qabs (val (nth_num f i) - x i) + 3 * u * (Qabs (x i) + w p i).
    Proof using HA Hw.
      intros i Hi. unfold g, f_cr_earn. assert (Hi' := Hi). apply in_voter_ids in Hi'. rewrite nth_num_enum by auto. cbn [fst snd].
      set (a := nth_num f i). pose proof (add_err A HA a (weight_num (the_voter p i))) as E.
      change (val (weight_num (the_voter p i))) with (w p i) in E. rewrite (Qabs_pos (w p i)) in E by (apply w_nonneg; auto).
      set (s := nadd A a (weight_num (the_voter p i))) in *.
      pose proof (Qabs_tri3 (val s) (val a + w p i) (earned p x i)) as T. unfold earned in *.
      setoid_replace (val a + w p i - (x i + w p i)) with (val a - x i) in T by ring.
      assert (Ha : Qabs (val a) <= Qabs (x i) + Qabs (val a - x i)) by (apply Qabs_le_of, Qle_refl).
      assert (Hb : 3 * u * (Qabs (val a) + w p i) <= 3 * u * (Qabs (x i) + Qabs (val a - x i) + w p i)) by (apply Qmult_le_l; [reflexivity|lra]). lra.
    Qed.
    Let E1 := sum ids (fun i => Qabs (val (nth_num g i) - earned p x i)).
    Lemma earn_total : E1 <= total_err f x + (6 * Qnat r + (31 # 10)) * (u * W).
    Proof using HA Hw Hsmall Hr Hg.
      unfold E1. eapply Qle_trans; [apply sum_le; intros i Hi; apply (earn_err i Hi)|].
      rewrite sum_plus, !sum_scal, sum_plus. fold (total_err f x). fold (total_abs x). unfold ids. rewrite <- wsum_voter_ids. fold W.
      destruct err_small as [S1 S2]. destruct Hg as [G1 G2].
      assert (P1 : u * total_err f x <= u * ((1 # 1000) * W)) by (apply Qmult_le_l; [reflexivity|auto]).
      assert (P2 : u * total_abs x <= u * (2 * Qnat r * W)) by (apply Qmult_le_l; [reflexivity|auto]). lra.
    Qed.
    (** what voters are worth in total *)
    Lemma earned_total : sum ids (fun i => Qabs (earned p x i)) <= (2 * Qnat r + 1) * W.
    Proof using Hw Hg.
      eapply Qle_trans; [apply (sum_le ids _ (fun i => Qabs (x i) + w p i))|].
      - intros i Hi. unfold earned. eapply Qle_trans; [apply Qabs_triangle|]. rewrite (Qabs_pos (w p i)) by (apply w_nonneg; auto). lra.
      - rewrite sum_plus. unfold ids at 2. rewrite <- wsum_voter_ids. fold W. destruct Hg as [G1 _]. unfold total_abs in G1. lra.
    Qed.
    Lemma worth_total : sum ids (fun i => Qabs (val (nth_num g i))) <= (2 * Qnat r + (101 # 100)) * W.
    Proof using HA Hw Hsmall Hr Hg.
      eapply Qle_trans; [apply (sum_le ids _ (fun i => Qabs (earned p x i) + Qabs (val (nth_num g i) - earned p x i))); intros i Hi; apply Qabs_le_of, Qle_refl|].
      rewrite sum_plus. fold E1. pose proof earned_total as H1. pose proof earn_total as H2. destruct err_small as [H3 H4]. destruct numbers as (N0 & N1 & N2 & N3 & _).
      assert (0 <= n * Qnat r) by (apply Qmult_le_0_compat; auto). assert (0 <= Qnat r * Qnat r) by (apply Qmult_le_0_compat; auto).
      assert (P : (6 * Qnat r + (31 # 10)) * (u * W) <= 4300 * (u * W)) by (apply Qmult_le_compat_r; [lra|auto]).
      assert (P4 : 4300 * u * W <= (1 # 1000) * W) by (apply Qmult_le_compat_r; [discriminate|apply W_nonneg]). pose proof W_nonneg. lra.
    Qed.
    Lemma one_err : forall i, In i ids -> Qabs (val (nth_num g i) - earned p x i) <= tiny.
    Proof using HA Hw Hsmall Hr Hg.
      intros i Hi. eapply Qle_trans; [apply (sum_one ids (fun i => Qabs (val (nth_num g i) - earned p x i))); auto; intros; apply Qabs_nonneg|].
      fold E1. pose proof earn_total as H2. destruct Hg as [_ G2]. destruct err_small as [_ H4]. destruct numbers as (N0 & N1 & N2 & N3 & N4).
      assert (0 <= n * Qnat r) by (apply Qmult_le_0_compat; auto). set (s := Qnat k * (6 * Qnat k + 9 + 5 * n)) in *.
      assert (P : (6 * Qnat r * Qnat r + 11 * Qnat r + 6 * Qnat r + (31 # 10)) * (u * W) <= s * (u * W)) by (apply Qmult_le_compat_r; [lra|auto]).
      assert (P2 : u * (s * W) <= u * 4300) by (apply Qmult_le_l; [reflexivity|auto]). assert (P3 : u * 4300 <= tiny) by qnum. lra.
    Qed.

    Hypothesis Hclear : forall i, (i < length (voters p))%nat -> earned p x i <= phragmen_margin -> earned p x i <= 0.
    Lemma counts : forall i, In i ids ->
      negb (nle (nth_num g i) (num_of_nat 0) || isclose A (nth_num g i) (num_of_nat 0)) = Qltb 0 (earned p x i).
    Proof using HA Hw Hsmall Hr Hg Hclear.
      intros i Hi. pose proof (one_err i Hi) as He. set (a := nth_num g i) in *.
      destruct (Qltb 0 (earned p x i)) eqn:E.
      - apply Qltb_lt in E. apply negb_true_iff, orb_false_iff.
        assert (Hm : phragmen_margin < earned p x i).
        { destruct (Qlt_le_dec phragmen_margin (earned p x i)) as [|Hle]; auto. apply Hclear in Hle; [lra|apply in_voter_ids; auto]. }
        apply Qabs_bounds in He. assert (C1 : tiny < phragmen_margin - margin) by reflexivity. assert (C2 : 0 <= margin) by discriminate. split.
        + unfold nle. apply Qle_bool_false. cbn [val num_of_nat]. change (Qnat 0) with 0. lra.
        + destruct (isclose A a (num_of_nat 0)) eqn:Ec; auto. exfalso. apply (close_elim A HA) in Ec; [|lra|apply Qle_refl].
          cbn [val num_of_nat] in Ec. change (Qnat 0) with 0 in Ec. lra.
      - apply negb_false_iff, orb_true_iff. assert (H0 : earned p x i <= 0) by (unfold Qltb in E; apply negb_false_iff, Qle_bool_iff in E; auto).
        destruct (Qlt_le_dec 0 (val a)) as [Hp|Hn].
        + right. apply (close_abs A HA a (num_of_nat 0) 0 tiny); [|discriminate|apply Qle_refl|discriminate].
          apply Qabs_bounds in He. apply Qabs_intro; lra.
        + left. unfold nle. apply Qle_bool_iff. exact Hn.
    Qed.
    Lemma supporters_same : forall c, f_cr_supporters A p g c = map (fun i => (i, the_voter p i)) (backers p x c).
    Proof using HA Hw Hsmall Hr Hg Hclear.
      intros c. unfold f_cr_supporters. rewrite enum_voters_eq, filter_map_comm. f_equal.
      unfold backers, fans. cbn [fst snd]. fold ids.
      assert (G : forall l, incl l ids ->
        filter (fun i => negb (nle (nth_num g i) (num_of_nat 0) || isclose A (nth_num g i) (num_of_nat 0)) && mem c (approved (the_voter p i))) l =
        filter (fun i => Qltb 0 (earned p x i)) (filter (fun i => likes p i c) l)).
      { induction l as [|i l IH]; intros Hl; [reflexivity|]. cbn [filter].
        rewrite IH by (intros j Hj; apply Hl; right; auto). rewrite counts by (apply Hl; left; auto).
        change (likes p i c) with (mem c (approved (the_voter p i))).
        destruct (mem c (approved (the_voter p i))); [|rewrite andb_false_r; reflexivity]. rewrite andb_true_r. reflexivity. }
      apply G, incl_refl.
    Qed.
    Lemma backer_worth : forall c i, In i (backers p x c) -> 0 <= val (nth_num g i).
    Proof using HA Hw Hsmall Hr Hg Hclear.
      intros c i Hi. apply in_backers in Hi as (Hi & _ & H). assert (Hi' : In i ids) by (apply in_voter_ids; auto). pose proof (counts i Hi') as E.
      rewrite (proj2 (Qltb_lt _ _) H) in E. apply negb_true_iff, orb_false_iff in E as [E _]. unfold nle in E. apply Qle_bool_false in E.
      apply Qlt_le_weak. exact E.
    Qed.
    Definition sup_err : Q := E1 + (101 # 100) * (2 * n) * u * ((2 * Qnat r + (101 # 100)) * W).
    Lemma support_err : forall c, 0 <= val (f_cr_support A p g c) /\ Qabs (val (f_cr_support A p g c) - sum (backers p x c) (earned p x)) <= sup_err.
    Proof using HA Hw Hsmall Hr Hg Hclear.
      intros c. unfold f_cr_support. rewrite supporters_same.
      set (l := map (fun i => (i, the_voter p i)) (backers p x c)).
      assert (Hpos : forall iv, In iv l -> 0 <= val (nth_num g (fst iv))).
      { intros iv Hiv. apply in_map_iff in Hiv as (i & <- & Hi). cbn [fst]. eapply backer_worth; eauto. }
      pose proof (fold_add_within A HA _ (fun iv : nat * voter => nth_num g (fst iv)) l (num_of_nat 0) 0 0 Hpos) as F.
      assert (F0 : within 0 (val (num_of_nat 0)) 0) by (apply within_refl; [apply Qle_refl|reflexivity]). specialize (F F0).
      set (s := val (fold_left _ l _)) in *. unfold l in F. rewrite map_map, map_length in F. cbn [fst] in F.
      change (Qsum (map (fun i => val (nth_num g i)) (backers p x c))) with (sum (backers p x c) (fun i => val (nth_num g i))) in F.
      set (v := sum (backers p x c) (fun i => val (nth_num g i))) in *.
      assert (Hlen : (length (backers p x c) <= length (voters p))%nat).
      { rewrite <- (seq_length (length (voters p)) 0) at 1. change (seq 0 (length (voters p))) with ids. rewrite <- backers_filter.
        assert (Hfl : forall P (m : list nat), (length (filter P m) <= length m)%nat) by (intros P m; induction m as [|z m IHm]; simpl; [lia|destruct (P z); simpl; lia]).
        rewrite backers_filter at 1. rewrite <- (backers_filter x c). apply Hfl. }
      apply (within_mono _ (2 * length (voters p))) in F; [|lia].
      split; [apply (within_nonneg _ _ _ F)|].
      assert (Hv : 0 <= v) by (apply sum_nonneg; intros i Hi; eapply backer_worth; eauto).
      assert (Hv2 : v <= (2 * Qnat r + (101 # 100)) * W).
      { eapply Qle_trans; [|apply worth_total]. unfold v. rewrite <- (backers_filter x c).
        eapply Qle_trans; [|apply (sum_filter_le (fun i => mem i (backers p x c)) ids); intros; apply Qabs_nonneg].
        apply sum_le. intros i _. apply Qle_Qabs. }
      assert (Hd : Qabs (v - sum (backers p x c) (earned p x)) <= E1).
      { eapply Qle_trans; [apply sum_diff_abs|]. unfold E1. rewrite <- (backers_filter x c). apply sum_filter_le. intros. apply Qabs_nonneg. }
      pose proof (within_abs _ _ _ F) as Ha.
      assert (Hn : (Z.of_nat (2 * length (voters p)) <= 1000000)%Z).
      { destruct numbers as (N0 & N1 & N2 & N3 & _). assert (0 <= n * Qnat r) by (apply Qmult_le_0_compat; auto). assert (0 <= Qnat r * Qnat r) by (apply Qmult_le_0_compat; auto).
        assert (Hn1 : n <= 4300) by lra. unfold n, Qnat in Hn1. change 4300 with (inject_Z 4300) in Hn1. rewrite <- Zle_Qle in Hn1. lia. }
      pose proof (grow_lin _ Hn) as Hgr.
      assert (Hq : Qnat (2 * length (voters p)) == 2 * n).
      { unfold n, Qnat. rewrite Nat2Z.inj_mul, inject_Z_mult. reflexivity. }
      rewrite Hq in Hgr.
      assert (K1 : (grow (2 * length (voters p)) - 1) * (0 + v) <= (101 # 100) * (2 * n) * u * (0 + v)) by (apply Qmult_le_compat_r; lra).
      assert (K2 : (101 # 100) * (2 * n) * u * v <= (101 # 100) * (2 * n) * u * ((2 * Qnat r + (101 # 100)) * W)).
      { rewrite !(Qmult_comm ((101 # 100) * (2 * n) * u)). apply Qmult_le_compat_r; auto.
        destruct numbers as (_ & N1 & _). repeat apply Qmult_le_0_compat; try discriminate; auto. }
      pose proof (Qabs_tri3 s (0 + v) (sum (backers p x c) (earned p x))) as T.
      setoid_replace (0 + v - sum (backers p x c) (earned p x)) with (v - sum (backers p x c) (earned p x)) in T by ring.
      unfold sup_err. lra.
    Qed.
    Lemma support_small : forall c, 0 <= sum (backers p x c) (earned p x) /\ sup_err + 2 * u * sum (backers p x c) (earned p x) <= tiny.
    Proof using HA Hw Hsmall Hr Hg Hclear.
      intros c. split.
      { apply sum_nonneg. intros i Hi. apply in_backers in Hi. apply Qlt_le_weak. apply Hi. }
      assert (Hb : sum (backers p x c) (earned p x) <= (2 * Qnat r + 1) * W).
      { eapply Qle_trans; [|apply earned_total]. rewrite <- (backers_filter x c).
        eapply Qle_trans; [|apply (sum_filter_le (fun i => mem i (backers p x c)) ids); intros; apply Qabs_nonneg].
        apply sum_le. intros i _. apply Qle_Qabs. }
      assert (Hb2 : u * sum (backers p x c) (earned p x) <= u * ((2 * Qnat r + 1) * W)) by (apply Qmult_le_l; [reflexivity|auto]).
      unfold sup_err. pose proof earn_total as H2. destruct Hg as [_ G2]. destruct err_small as [_ H4]. destruct numbers as (N0 & N1 & N2 & N3 & N4).
      assert (0 <= n * Qnat r) by (apply Qmult_le_0_compat; auto). set (s := Qnat k * (6 * Qnat k + 9 + 5 * n)) in *.
      assert (P : (6 * Qnat r * Qnat r + 21 * Qnat r + (51 # 10) + (404 # 100) * (n * Qnat r) + (2041 # 1000) * n) * (u * W) <= s * (u * W)) by (apply Qmult_le_compat_r; [lra|auto]).
      assert (P2 : u * (s * W) <= u * 4300) by (apply Qmult_le_l; [reflexivity|auto]). assert (P3 : u * 4300 <= tiny) by qnum.
      assert (P5 : 0 <= n * (u * W)) by (apply Qmult_le_0_compat; auto). lra.
    Qed.
    (** the budgets after the round *)
    Lemma next_good : forall C c f' x', f_cr_next A p C f c = Ok f' -> consensus_update p C x c x' -> good (S r) f' x'.
    Proof using HA Hw Hsmall Hr Hg Hclear.
      intros C c f' x' Ef Hu. unfold f_cr_next in Ef. cbv zeta in Ef. fold g in Ef. injection Ef as <-. rewrite supporters_same.
      assert (Hx' : forall i, In i ids -> x' i == earned p x i - paid x c i).
      { intros i Hi. apply in_voter_ids in Hi. pose proof (Hu i Hi) as E. cbv beta in E. rewrite E. unfold paid, W. destruct (mem i (backers p x c)); ring. }
      destruct numbers as (N0 & N1 & N2 & N3 & _). pose proof W_nonneg as HW. destruct err_small as [S1 S2].
      split.
      - unfold total_abs. eapply Qle_trans; [apply (sum_le ids _ (fun i => Qabs (earned p x i) + paid x c i))|].
        + intros i Hi. rewrite (Hx' i Hi). pose proof (Qabs_triangle (earned p x i) (- paid x c i)) as T. rewrite Qabs_opp, (Qabs_pos (paid x c i)) in T by (apply paid_nonneg; auto). exact T.
        + rewrite sum_plus. pose proof earned_total. pose proof (paid_total x c). rewrite Qnat_S. lra.
      - unfold total_err. eapply Qle_trans; [apply (sum_le ids _ (fun i => Qabs (val (nth_num g i) - earned p x i) + 7 * u * paid x c i +
            3 * u * (Qabs (val (nth_num g i)) + (1 + 7 * u) * paid x c i)))|].
        + intros i Hi. assert (Hi' := Hi). apply in_voter_ids in Hi'. rewrite nth_num_enum by auto. cbn [fst snd]. rewrite map_map. cbn [fst]. rewrite map_id.
          rewrite (Hx' i Hi). pose proof (paid_nonneg x c i Hi) as Hp. unfold paid in *. destruct (mem i (backers p x c)) eqn:Em.
          * set (B := backers p x c) in *. rewrite map_map. cbn [snd].
            set (share := ndiv A (total_num A p) (nsum A (map (fun i => weight_num (the_voter p i)) B))).
            assert (HB : 0 < sum B (w p)) by (apply backers_weight; intros Z; unfold B in Em; rewrite Z in Em; discriminate).
            assert (Hsh : within 3 (val share) (W / sum B (w p))).
            { apply (within_mono (0 + 0 + 3)); [lia|]. apply (arith_div A HA); auto.
              - apply within_refl; auto. rewrite (total_exact A p HA). rewrite total_weight_eq. reflexivity.
              - apply within_refl; [apply Qlt_le_weak; auto|]. rewrite (sum_exact A HA).
                + rewrite map_map. reflexivity.
                + apply Forall_forall. intros y Hy. apply in_map_iff in Hy as (j & <- & _). unfold weight_num. destruct (weight_is_int (the_voter p j)); discriminate. }
            assert (Hamt : within 6 (val (nmul A (weight_num (the_voter p i)) share)) (w p i * (W / sum B (w p)))).
            { apply (within_mono (0 + 3 + 3)); [lia|]. apply (arith_mul A HA); auto. apply within_refl; [apply w_nonneg; auto|reflexivity]. }
            set (amt := nmul A (weight_num (the_voter p i)) share) in *. set (q := w p i * (W / sum B (w p))) in *.
            pose proof (within_abs _ _ _ Hamt) as Ha. pose proof (grow_lin 6 ltac:(lia)) as Hgl.
            assert (Hgl' : grow 6 - 1 <= 7 * u). { assert ((101 # 100) * Qnat 6 * u <= 7 * u) by qnum. lra. }
            assert (Ha2 : Qabs (val amt - q) <= 7 * u * q) by (eapply Qle_trans; [exact Ha|]; apply Qmult_le_compat_r; auto).
            pose proof (sub_err A HA (nth_num g i) amt) as Hs.
            pose proof (Qabs_le_of _ _ _ Ha2) as Ha3. rewrite (Qabs_pos q) in Ha3 by auto.
            assert (Hs2 : 3 * u * (Qabs (val (nth_num g i)) + Qabs (val amt)) <= 3 * u * (Qabs (val (nth_num g i)) + (1 + 7 * u) * q)) by (apply Qmult_le_l; [reflexivity|lra]).
            pose proof (Qabs_tri3 (val (nsub A (nth_num g i) amt)) (val (nth_num g i) - val amt) (earned p x i - q)) as T.
            assert (T2 : Qabs (val (nth_num g i) - val amt - (earned p x i - q)) <= Qabs (val (nth_num g i) - earned p x i) + Qabs (val amt - q)).
            { pose proof (Qabs_triangle (val (nth_num g i) - earned p x i) (- (val amt - q))) as T3. rewrite Qabs_opp in T3.
              setoid_replace (val (nth_num g i) - val amt - (earned p x i - q)) with (val (nth_num g i) - earned p x i + - (val amt - q)) by ring. exact T3. }
            lra.
          * setoid_replace (val (nth_num g i) - (earned p x i - 0)) with (val (nth_num g i) - earned p x i) by ring.
            assert (0 <= 3 * u * (Qabs (val (nth_num g i)) + (1 + 7 * u) * 0)) by (apply Qmult_le_0_compat; [discriminate|]; pose proof (Qabs_nonneg (val (nth_num g i))); lra). lra.
        + rewrite !sum_plus, !sum_scal, sum_plus, sum_scal. fold E1. pose proof earn_total as H1. pose proof worth_total as H2. pose proof (paid_total x c) as H3. destruct Hg as [_ G2].
          assert (P1 : u * sum ids (fun i => Qabs (val (nth_num g i))) <= u * ((2 * Qnat r + (101 # 100)) * W)) by (apply Qmult_le_l; [reflexivity|auto]).
          assert (P2 : u * sum ids (paid x c) <= u * W) by (apply Qmult_le_l; [reflexivity|auto]).
          assert (P3 : u * (u * sum ids (paid x c)) <= u * (u * W)) by (apply Qmult_le_l; [reflexivity|auto]).
          assert (P4 : u * (u * W) <= (1 # 1000) * (u * W)) by (apply Qmult_le_compat_r; [discriminate|auto]).
          change (fun i => paid x c i) with (paid x c) in *. rewrite Qnat_S. lra.
    Qed.
  End Round.

  Hypothesis Hk : (1 <= k <= num_cand p)%nat.
  Hypothesis Hclear : consensus_no_near_ties p k.
  Definition cr_rel (C : list nat) (a : list Q) (f : list num) : Prop :=
    BGood p C a /\ good (length C) f (nthQ a) /\
    exists L x, runs_from p (consensus_choice p) (consensus_update p) [] (fun _ => 0%Q) L x /\ Permutation L C /\ agree p x (nthQ a).
  Lemma cr_rel_step : forall C a f, cr_rel C a f -> (length C < k)%nat ->
    exists cs, cr_select p C a = Ok cs /\ f_cr_select A p C f = Ok cs /\
      forall c, In c cs -> exists f', f_cr_next A p C f c = Ok f' /\ cr_rel (C ++ [c]) (cr_next p C a c) f'.
  Proof using HA Hw Hk Hsmall Hclear.
    intros C a f (HB & HG & L & x & H3 & H4 & H5) Hl.
    assert (Hset : set_same C L) by (intro z; split; apply Permutation_in; [apply Permutation_sym|]; auto).
    assert (Hset' : set_same L C) by (intro z; symmetry; apply Hset).
    assert (Hag : agree p (nthQ a) x) by (intros i Hi; symmetry; apply H5; auto).
    assert (Hl' : (length L < k)%nat) by (rewrite (Permutation_length H4); auto).
    destruct (Hclear L x H3 Hl') as [Hc1 Hc2].
    assert (Hc1' : forall i, (i < length (voters p))%nat -> earned p (nthQ a) i <= phragmen_margin -> earned p (nthQ a) i <= 0).
    { intros i Hi. rewrite (earned_ext p _ _ Hag i Hi). apply Hc1; auto. }
    destruct (cr_sel_ok p k Hk C a HB Hl) as (cs & E & Hasc & Hin).
    assert (Hne : available p C <> []).
    { destruct HB as [HN HF]. eapply available_nonempty; eauto. lia. }
    destruct (max_entries_same A HA (f_cr_support A p (f_cr_earn A p f)) (cr_support p (cr_earn p a)) (sup_err (length C) f (nthQ a)) (available p C) Hne (available_asc p C)) as [Esel _].
    { intros c Hc. destruct (support_err (length C) f (nthQ a) HG Hl Hc1' c) as [S1 S2]. destruct (support_small (length C) f (nthQ a) HG Hl Hc1' c) as [S3 S4].
      rewrite !cr_support_eq. split; auto. }
    { intros c Hc Hn d Hd. apply available_In in Hc. assert (HL : consensus_choice p L x c).
      { apply Hc2; [eapply fresh_ext; eauto|]. intros d0 Hd0. assert (Hd1 : In d0 (available p C)) by (apply available_In; eapply fresh_ext; eauto).
        specialize (Hn d0 Hd1). unfold nearly_le in *. rewrite <- !(backing_ext p (nthQ a) x) by auto. rewrite <- !cr_support_eq. exact Hn. }
      rewrite !cr_support_eq. apply (consensus_ext p L C x (nthQ a) c) in HL; auto. apply HL. apply available_In. auto. }
    exists cs. split; auto. split; [unfold f_cr_select; rewrite Esel; exact E|].
    intros c Hc. apply Hin in Hc. destruct (cr_next_ok p k C a c HB Hl Hc) as [Hu HB'].
    eexists. split; [reflexivity|]. split; [exact HB'|]. split.
    - rewrite app_length, Nat.add_1_r. eapply (next_good (length C) f (nthQ a) HG Hl Hc1'); [reflexivity|exact Hu].
    - exists (c :: L), (nthQ (cr_next p C a c)). split; [|split; [|apply agree_refl]].
      + eapply run_step; [exact H3|apply (consensus_ext p C L (nthQ a) x); auto|].
        intros i Hi. rewrite (Hu i Hi). rewrite (backers_ext p (nthQ a) x c Hag). pose proof (earned_ext p _ _ Hag i Hi) as Ee.
        destruct (mem i (backers p x c)); rewrite Ee; reflexivity.
      + eapply Permutation_trans; [apply perm_skip; exact H4|]. apply Permutation_cons_append.
  Qed.
  Lemma cr_rel_start : cr_rel [] (repeat 0 (length (voters p))) (repeat (num_of_nat 0) (length (voters p))).
  Proof using Hw.
    assert (Z : forall i, nthQ (repeat 0 (length (voters p))) i = 0).
    { intros i. unfold nthQ. destruct (Nat.lt_ge_cases i (length (voters p))); [apply nth_repeat|apply nth_overflow; rewrite repeat_length; auto]. }
    split; [apply C0good|]. split.
    - split; [|].
      + unfold total_abs. rewrite (sum_ext _ _ (fun _ => 0 * 0)); [rewrite sum_scal; apply Qle_lteq; right; cbn [length]; change (Qnat 0) with 0; ring|].
        intros i _. rewrite Z. reflexivity.
      + unfold total_err. rewrite (sum_ext _ _ (fun _ => 0 * 0)); [rewrite sum_scal; apply Qle_lteq; right; cbn [length]; change (Qnat 0) with 0; ring|].
        intros i Hi. apply in_voter_ids in Hi. rewrite Z. unfold nth_num.
        assert (E : nth i (repeat (num_of_nat 0) (length (voters p))) (mkNum KInt 0) = num_of_nat 0) by apply nth_repeat. rewrite E. reflexivity.
    - exists [], (fun _ => 0). split; [constructor; apply agree_refl|]. split; auto. intros i Hi. rewrite Z. reflexivity.
  Qed.
  Theorem f_consensus_exact : forall resolute maxn, f_consensus_rule A p k resolute maxn = consensus_rule p k resolute maxn.
  Proof using HA Hw Hk Hsmall Hclear.
    intros resolute maxn. unfold f_consensus_rule, consensus_rule.
    rewrite (seq_dfs_sim k (cr_select p) (cr_next p) (f_cr_select A p) (f_cr_next A p) cr_rel cr_rel_step _ _ [] (repeat 0 (length (voters p)))); [reflexivity|apply cr_rel_start|simpl; lia].
  Qed.
End Consensus.

(** ** Integer weights: budgets are multiples of a known fraction *)
Section ConsensusInteger.
  Variables (p : profile) (N : nat).
  Hypothesis Hw : wf p.
  Hypothesis Hint : integer_weights p.
  Hypothesis HN : wsum (voters p) <= Qnat N.
  Hypothesis Hv : voters p <> [].

  Lemma abs_step : forall C x c x', consensus_update p C x c x' ->
    sum (voter_ids p) (fun i => Qabs (x' i)) <= sum (voter_ids p) (fun i => Qabs (x i)) + 2 * wsum (voters p).
  Proof using Hw.
    intros C x c x' Hu. eapply Qle_trans; [apply (sum_le _ _ (fun i => Qabs (x i) + w p i + paid p x c i))|].
    - intros i Hi. assert (Hi' := Hi). apply in_voter_ids in Hi'.
      assert (E : x' i == x i + w p i + - paid p x c i).
      { pose proof (Hu i Hi') as E. cbv beta in E. rewrite E. unfold paid, earned. destruct (mem i (backers p x c)); ring. }
      rewrite E. pose proof (Qabs_triangle (x i + w p i) (- paid p x c i)) as T1. pose proof (Qabs_triangle (x i) (w p i)) as T2.
      rewrite Qabs_opp, (Qabs_pos (paid p x c i)) in T1 by (apply paid_nonneg; auto). rewrite (Qabs_pos (w p i)) in T2 by (apply (w_nonneg p); auto). lra.
    - rewrite !sum_plus. rewrite <- wsum_voter_ids. pose proof (paid_total p Hw x c) as H. change (fun i => paid p x c i) with (paid p x c) in *. lra.
  Qed.
  Lemma abs_runs : forall L x, runs_from p (consensus_choice p) (consensus_update p) [] (fun _ => 0) L x ->
    sum (voter_ids p) (fun i => Qabs (x i)) <= 2 * Qnat (length L) * wsum (voters p).
  Proof using Hw.
    intros L x H. induction H as [x Hx|L x c x' H IH Hc Hu].
    - rewrite (sum_ext _ _ (fun _ => 0 * 0)); [rewrite sum_scal; apply Qle_lteq; right; cbn [length]; change (Qnat 0) with 0; ring|].
      intros i Hi. apply in_voter_ids in Hi. rewrite (Hx i Hi). reflexivity.
    - pose proof (abs_step L x c x' Hu). cbn [length]. rewrite Qnat_S. lra.
  Qed.
  Lemma backers_int : forall x c, backers p x c <> [] -> exists b : Z, sum (backers p x c) (w p) == inject_Z b /\ (1 <= b <= Z.of_nat N)%Z.
  Proof using Hw Hint HN.
    intros x c Hne.
    assert (Hi : is_int (sum (backers p x c) (w p))) by (apply is_int_sum; intros i Hi; apply (w_int p Hint); apply in_backers in Hi; apply Hi).
    destruct Hi as (b & Hb). exists b. split; auto. pose proof (backers_weight p Hw x c Hne) as Hp.
    assert (Hle : sum (backers p x c) (w p) <= Qnat N).
    { eapply Qle_trans; [|exact HN]. rewrite wsum_voter_ids, <- (backers_filter p x c). apply sum_filter_le. intros i Hi. apply (w_nonneg p Hw i Hi). }
    rewrite Hb in Hle, Hp. unfold Qnat in Hle. rewrite <- Zle_Qle in Hle. change 0 with (inject_Z 0) in Hp. rewrite <- Zlt_Qlt in Hp. lia.
  Qed.
  Lemma budgets_int : forall L x, runs_from p (consensus_choice p) (consensus_update p) [] (fun _ => 0) L x ->
    exists D : Z, (1 <= D <= Z.of_nat N ^ Z.of_nat (length L))%Z /\ forall i, (i < length (voters p))%nat -> is_int (x i * inject_Z D).
  Proof using Hw Hint HN Hv.
    assert (WI : is_int (wsum (voters p))).
    { apply (is_int_ext (sum (voter_ids p) (w p))); [symmetry; apply wsum_voter_ids|]. apply is_int_sum. intros i Hi. apply (w_int p Hint). apply in_voter_ids. auto. }
    intros L x H. induction H as [x Hx|L x c x' H IH Hc Hu].
    - exists 1%Z. split; [simpl; lia|]. intros i Hi. exists 0%Z. rewrite (Hx i Hi). reflexivity.
    - destruct IH as (D & HD & Hx). cbn [length]. rewrite Nat2Z.inj_succ, Z.pow_succ_r by lia.
      pose proof (N_pos p N Hw HN Hv) as HNp.
      destruct (backers p x c) as [|i0 l0] eqn:Eb.
      + exists D. split; [nia|]. intros i Hi. pose proof (Hu i Hi) as E. cbv beta in E. rewrite Eb in E. cbn in E.
        apply (is_int_ext (x i * inject_Z D + w p i * inject_Z D)); [rewrite E; unfold earned; ring|].
        apply is_int_plus; auto. apply is_int_mult; [apply (w_int p Hint); auto|exists D; reflexivity].
      + assert (Hne : backers p x c <> []) by (rewrite Eb; discriminate). destruct (backers_int x c Hne) as (b & Hb & Hb1 & HbN).
        exists (D * b)%Z. split; [nia|]. intros i Hi. pose proof (Hu i Hi) as E. cbv beta in E.
        assert (Hbp : 1 <= inject_Z b) by (change 1 with (inject_Z 1); rewrite <- Zle_Qle; auto).
        assert (Ie : is_int ((x i + w p i) * inject_Z D * inject_Z b)).
        { apply is_int_mult; [|exists b; reflexivity]. apply (is_int_ext (x i * inject_Z D + w p i * inject_Z D)); [ring|].
          apply is_int_plus; auto. apply is_int_mult; [apply (w_int p Hint); auto|exists D; reflexivity]. }
        destruct (mem i (backers p x c)).
        * apply (is_int_ext ((x i + w p i) * inject_Z D * inject_Z b + (inject_Z (-1) * w p i) * (wsum (voters p) * inject_Z D))).
          { rewrite E, Hb, inject_Z_mult. unfold earned. change (inject_Z (-1)) with (- (1)). field. lra. }
          apply is_int_plus; auto. apply is_int_mult; [apply is_int_mult; [exists (-1)%Z; reflexivity|apply (w_int p Hint); auto]|].
          apply is_int_mult; auto. exists D. reflexivity.
        * apply (is_int_ext ((x i + w p i) * inject_Z D * inject_Z b)); auto. rewrite E, inject_Z_mult. unfold earned. ring.
  Qed.
  Theorem consensus_integer_clear : forall k, (Z.of_nat N ^ Z.of_nat k * (2 * Z.of_nat k) < 500000000000)%Z -> consensus_no_near_ties p k.
  Proof using Hw Hint HN Hv.
    intros k Hb L x Hrun Hl. destruct (budgets_int L x Hrun) as (D & HD & Hx). pose proof (N_pos p N Hw HN Hv) as HNp.
    assert (HE : forall i, (i < length (voters p))%nat -> is_int (earned p x i * inject_Z D)).
    { intros i Hi. unfold earned. apply (is_int_ext (x i * inject_Z D + w p i * inject_Z D)); [ring|].
      apply is_int_plus; auto. apply is_int_mult; [apply (w_int p Hint); auto|exists D; reflexivity]. }
    assert (HD0 : 0 < inject_Z D) by (change 0 with (inject_Z 0); rewrite <- Zlt_Qlt; lia).
    assert (Hgap : forall y, is_int (y * inject_Z D) -> 0 < y -> 1 <= y * inject_Z D).
    { intros y (m & Hm) Hy. assert (0 < y * inject_Z D) as H by (rewrite <- (Qmult_0_l (inject_Z D)); apply Qmult_lt_compat_r; auto).
      rewrite Hm in *. change 0 with (inject_Z 0) in H. rewrite <- Zlt_Qlt in H. change 1 with (inject_Z 1). rewrite <- Zle_Qle. lia. }
    assert (Hpow : (D * Z.of_nat N <= Z.of_nat N ^ Z.of_nat k)%Z).
    { transitivity (Z.of_nat N ^ Z.of_nat (length L) * Z.of_nat N)%Z; [nia|].
      transitivity (Z.of_nat N ^ (Z.of_nat (length L) + 1))%Z; [rewrite Z.pow_add_r, Z.pow_1_r by lia; lia|]. apply Z.pow_le_mono_r; lia. }
    assert (HZ : (D * (Z.of_nat N * (2 * Z.of_nat k)) < 500000000000)%Z) by nia.
    assert (HQ : inject_Z D * (Qnat N * (2 * Qnat k)) < 500000000000 # 1).
    { change (500000000000 # 1) with (inject_Z 500000000000). unfold Qnat. change 2 with (inject_Z 2). rewrite <- !inject_Z_mult, <- Zlt_Qlt. exact HZ. }
    assert (HN1 : 1 <= Qnat N) by (unfold Qnat; change 1 with (inject_Z 1); rewrite <- Zle_Qle; auto).
    assert (HLk : Qnat (length L) + 1 <= Qnat k) by (rewrite <- Qnat_S; apply Qnat_le; lia). pose proof (Qnat_nonneg (length L)) as HL0.
    assert (Hmar : forall y, 0 <= y -> y <= 2 * Qnat k * Qnat N -> phragmen_margin * y * inject_Z D < 1).
    { intros y Hy0 Hy. assert (y * inject_Z D <= 2 * Qnat k * Qnat N * inject_Z D) by (apply Qmult_le_compat_r; [auto|apply Qlt_le_weak; auto]).
      assert (H2 : phragmen_margin * (y * inject_Z D) < phragmen_margin * (500000000000 # 1)) by (apply Qmult_lt_l; [reflexivity|lra]).
      assert (phragmen_margin * (500000000000 # 1) == 1) by reflexivity. lra. }
    split.
    - intros i Hi Hle. destruct (Qlt_le_dec 0 (earned p x i)) as [Hp|]; auto. exfalso.
      pose proof (Hgap _ (HE i Hi) Hp) as H1. assert (H2 : earned p x i * inject_Z D <= phragmen_margin * inject_Z D) by (apply Qmult_le_compat_r; [auto|apply Qlt_le_weak; auto]).
      assert (Hk1 : 1 <= 2 * Qnat k * Qnat N). { assert (Qnat k * 1 <= Qnat k * Qnat N) by (rewrite !(Qmult_comm (Qnat k)); apply Qmult_le_compat_r; lra). lra. }
      pose proof (Hmar 1 ltac:(discriminate) Hk1) as H3. lra.
    - intros c Hc Hn. split; auto. intros d Hd. specialize (Hn d Hd). unfold nearly_le in Hn.
      set (sc := sum (backers p x c) (earned p x)) in *. set (sd := sum (backers p x d) (earned p x)) in *.
      assert (HI : forall c, is_int (sum (backers p x c) (earned p x) * inject_Z D)).
      { intros c0. apply (is_int_ext (sum (backers p x c0) (fun i => inject_Z D * earned p x i))); [rewrite sum_scal; ring|].
        apply is_int_sum. intros i Hi. apply (is_int_ext (earned p x i * inject_Z D)); [ring|]. apply HE. apply in_backers in Hi. apply Hi. }
      assert (Hs0 : 0 <= sc) by (apply sum_nonneg; intros i Hi; apply in_backers in Hi; apply Qlt_le_weak; apply Hi).
      assert (Hs1 : sc + 1 <= 2 * Qnat k * Qnat N).
      { assert (B1 : sc <= sum (voter_ids p) (fun i => Qabs (x i) + w p i)).
        { unfold sc. rewrite <- (backers_filter p x c) at 1. eapply Qle_trans; [|apply (sum_filter_le (fun i => mem i (backers p x c)))].
          - apply sum_le. intros i Hi. unfold earned. pose proof (Qle_Qabs (x i)). lra.
          - intros i Hi. pose proof (Qabs_nonneg (x i)). pose proof (w_nonneg p Hw i Hi). lra. }
        rewrite sum_plus, <- wsum_voter_ids in B1. pose proof (abs_runs L x Hrun) as B2.
        assert (B3 : (2 * Qnat (length L) + 1) * wsum (voters p) <= (2 * Qnat (length L) + 1) * Qnat N) by (apply Qmult_le_l; [lra|exact HN]).
        assert (B4 : (2 * Qnat (length L) + 2) * Qnat N <= 2 * Qnat k * Qnat N) by (apply Qmult_le_compat_r; lra). lra. }
      destruct (Qlt_le_dec sc sd) as [Hlt|]; auto. exfalso.
      assert (H1 : 1 <= (sd - sc) * inject_Z D).
      { apply Hgap; [|lra]. apply (is_int_ext (sd * inject_Z D + inject_Z (-1) * (sc * inject_Z D))); [change (inject_Z (-1)) with (- (1)); ring|].
        apply is_int_plus; [apply HI|]. apply is_int_mult; [exists (-1)%Z; reflexivity|apply HI]. }
      assert (H2 : (sd - sc) * inject_Z D <= phragmen_margin * (sc + 1) * inject_Z D) by (apply Qmult_le_compat_r; [lra|apply Qlt_le_weak; auto]).
      pose proof (Hmar (sc + 1) ltac:(lra) Hs1). lra.
  Qed.
End ConsensusInteger.
