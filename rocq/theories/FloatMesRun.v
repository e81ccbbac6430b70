(** * The Method of Equal Shares with floats and Phragmén completion: runs *)
From Coq Require Import String.
From Coq Require Import List Arith Bool ZArith QArith Qabs Lia Lqa Permutation Sorted.
From Verif Require Import Prelude Misc MiscProofs Preferences Scores Spec ScoresProofs Search RulesThiele
  Common ThieleProofs SpecRules SpecSeq RulesSeq SeqProofs PhragmenProofs Floats RulesFloat FloatSearch FloatStruct SpecFloat FloatBounds FloatPhragmen FloatMes.
Import ListNotations.
Open Scope nat_scope.
Local Open Scope Q_scope.

Lemma nth_num_voters : forall p (g : voter -> num) i, (i < length (voters p))%nat ->
  nth_num (map g (voters p)) i = g (the_voter p i).
Proof.
  intros p g i Hi. rewrite (voters_the_voter p), map_map. unfold nth_num.
  rewrite nth_indep with (d' := (fun j => g (the_voter p j)) 0%nat).
  - rewrite (map_nth (fun j => g (the_voter p j))). unfold voter_ids. rewrite seq_nth; auto.
  - rewrite map_length. unfold voter_ids. rewrite seq_length. auto.
Qed.
Lemma in_enum : forall p iv, In iv (enum_voters p) -> (fst iv < length (voters p))%nat /\ snd iv = the_voter p (fst iv).
Proof.
  intros p iv H. rewrite enum_voters_eq in H. apply in_map_iff in H as (i & <- & Hi). unfold voter_ids in Hi. apply in_seq in Hi. simpl. split; auto. lia.
Qed.

Lemma filter_length_le : forall (X : Type) (f : X -> bool) l, (length (filter f l) <= length l)%nat.
Proof. intros X f l. induction l as [|y l IH]; auto. simpl. destruct (f y); simpl; lia. Qed.

Section Run.
  Variable A : arith.
  Hypothesis HA : float_ok A.
  Variables (p : profile) (k : nat).
  Hypothesis Hw : wf p.
  Hypothesis Hk : (1 <= k <= num_cand p)%nat.
  Hypothesis Hone : forall v, In v (voters p) -> 1 <= weight v.
  Hypothesis Hsize : (Z.of_nat (k * (length (voters p) + 9)) <= 4400)%Z.

  Definition budgets_ok (C : list nat) (b : list num) : Prop := forall i, (i < length (voters p))%nat ->
    wfn A (nth_num b i) /\ 0 <= val (nth_num b i) /\ val (nth_num b i) <= w p i * (Qnat k + 1 + 4 * Qnat (length C)).

  Lemma w_one : forall i, (i < length (voters p))%nat -> 1 <= w p i.
  Proof using Hone. intros i Hi. apply Hone, the_voter_In. auto. Qed.

  Lemma next_budgets : forall C b c sel, budgets_ok C b -> NoDup C -> Forall (fun c => (c < num_cand p)%nat) C -> (length C < k)%nat ->
    f_mes_select A p C b = Ok sel -> In c sel -> budgets_ok (C ++ [c]) (f_mes_next A p C b c).
  Proof using HA Hk Hone Hsize.
    intros C b c sel Hb _ _ Hl _ _ i Hi. rewrite app_length, Nat.add_1_r.
    assert (HS : Qnat (S (length C)) == Qnat (length C) + 1) by apply Qnat_S.
    assert (HCk : Qnat (length C) <= Qnat k) by (apply Qnat_le; lia). pose proof (k_small p k Hk Hsize) as Hk4. pose proof (Qnat_nonneg k) as Hk0.
    pose proof (Qnat_nonneg (length C)) as HC0. pose proof (w_one i Hi) as Hw1.
    destruct (Hb i Hi) as (B1 & B2 & B3).
    assert (Hmono : w p i * (Qnat k + 1 + 4 * Qnat (length C)) <= w p i * (Qnat k + 1 + 4 * Qnat (S (length C)))) by (apply Qmult_le_l; lra).
    unfold f_mes_next. destruct (f_min_q_ok A p b c) as (oq & Eq). rewrite Eq.
    destruct oq as [q|]; [|split; auto; split; auto; lra].
    rewrite nth_num_enum by auto. simpl fst; simpl snd.
    destruct (mem c (approved (the_voter p i))); [|split; auto; split; auto; lra].
    assert (Hq : - (2) <= val q).
    { unfold f_min_q in Eq. eapply (min_q_lower A HA p k Hk Hsize); [| | |exact Eq].
      - intros iv [Hiv|[]]. apply filter_In in Hiv as [Hiv _]. apply in_enum in Hiv as [H1 H2]. rewrite H2. split; [apply (w_one (fst iv)); auto|].
        unfold bud. apply (Hb (fst iv)). auto.
      - simpl. rewrite Nat.add_0_r. eapply Nat.le_trans; [apply filter_length_le|]. rewrite enum_voters_eq, map_length. unfold voter_ids. rewrite seq_length. auto.
      - discriminate. }
    set (bi := nth_num b i) in *. set (due := nmul A q (weight_num (the_voter p i))).
    assert (Hdue : - (3) * w p i <= val due).
    { pose proof (mul_rel A HA q (weight_num (the_voter p i))) as Hm. fold due in Hm. rewrite weight_num_val in Hm. change (weight (the_voter p i)) with (w p i) in Hm.
      destruct (Qlt_le_dec 0 (val q)) as [Hp|Hn].
      - assert (0 <= val q * w p i) by (apply Qmult_le_0_compat; lra). apply (rel_lower eps) in Hm; auto; [lra|reflexivity].
      - apply rel_abs in Hm.
        assert (Ha : Qabs (val q * w p i) <= 2 * w p i).
        { rewrite Qabs_Qmult, (Qabs_pos (w p i)) by lra. apply Qmult_le_compat_r; [|lra]. apply Qabs_Qle_condition. lra. }
        assert (Hqw : - (2) * w p i <= val q * w p i) by (apply Qmult_le_compat_r; lra).
        apply Qabs_Qle_condition in Hm as [Hm _].
        assert (eps * Qabs (val q * w p i) <= eps * (2 * w p i)) by (apply Qmult_le_l; [reflexivity|auto]).
        assert (eps * 2 * w p i <= 1 * w p i) by (apply Qmult_le_compat_r; [discriminate|lra]). lra. }
    assert (Hmin : wfn A (nmin2 bi due) /\ val (nmin2 bi due) <= val bi /\ - (3) * w p i <= val (nmin2 bi due)).
    { unfold nmin2. pose proof (nlt_spec due bi) as Hs. destruct (nlt due bi).
      - split; [apply arith_op_wfn; auto|]. split; [lra|auto].
      - split; auto. split; lra. }
    destruct Hmin as (M1 & M2 & M3). set (m := nmin2 bi due) in *.
    split; [apply arith_op_wfn; auto|]. split; [apply nsub_nonneg; auto|].
    pose proof (sub_err A HA bi m) as He. apply Qabs_Qle_condition in He as [_ He].
    rewrite (Qabs_pos (val bi)) in He by auto.
    assert (Hma : Qabs (val m) <= val bi + 3 * w p i) by (apply Qabs_Qle_condition; split; lra).
    assert (He2 : eps * (val bi + Qabs (val m)) <= eps * (2 * val bi + 3 * w p i)) by (apply Qmult_le_l; [reflexivity|lra]).
    assert (Hbb : val bi <= w p i * 2441).
    { eapply Qle_trans; [exact B3|]. apply Qmult_le_l; [lra|]. lra. }
    assert (He3 : eps * (2 * val bi + 3 * w p i) <= eps * (5000 * w p i)) by (apply Qmult_le_l; [reflexivity|lra]).
    assert (He4 : eps * 5000 * w p i <= 1 * w p i) by (apply Qmult_le_compat_r; [discriminate|lra]).
    rewrite HS. lra.
  Qed.

  Lemma start_budgets : budgets_ok [] (f_mes_start A p k).
  Proof using HA Hw Hk Hone Hsize.
    intros i Hi. unfold f_mes_start. rewrite nth_num_voters by auto. split; [apply ndiv_wfn; auto|].
    pose proof (w_one i Hi) as Hw1. pose proof (Qnat_nonneg k) as Hk0. pose proof (k_small p k Hk Hsize) as Hk4.
    assert (Ht : w p i <= val (total_num A p)).
    { unfold total_num. rewrite (sum_exact A HA).
      - rewrite map_map. assert (Hin : In (the_voter p i) (voters p)) by (apply the_voter_In; auto).
        assert (Hpos : forall v, In v (voters p) -> 0 <= weight v) by (intros v Hv; pose proof (Hone v Hv); lra).
        change (w p i) with (weight (the_voter p i)). revert Hin Hpos. generalize (the_voter p i). clear. induction (voters p) as [|x l IH]; [intros _ []|].
        intros v Hv Hpos. simpl. unfold Qsum in *. simpl.
        assert (H0 : 0 <= fold_right Qplus 0 (map (fun v : voter => weight v) l)).
        { clear - Hpos. induction l as [|y l IH]; [apply Qle_refl|]. simpl. pose proof (Hpos y (or_intror (or_introl eq_refl))).
          assert (0 <= fold_right Qplus 0 (map (fun v : voter => weight v) l)) by (apply IH; intros z [Hz|Hz]; apply Hpos; [left|right; right]; auto). lra. }
        destruct Hv as [<-|Hv]; [simpl; lra|].
        pose proof (IH v Hv (fun z Hz => Hpos z (or_intror Hz))) as H. pose proof (Hpos x (or_introl eq_refl)). simpl in *. lra.
      - apply Forall_forall. intros x Hx. apply in_map_iff in Hx as (v & <- & _). apply weight_num_kind. }
    assert (Htp : 0 < val (total_num A p)) by lra.
    pose proof (div_rel A HA (nmul A (weight_num (the_voter p i)) (num_of_nat k)) (total_num A p) Htp) as Hd.
    pose proof (mul_rel A HA (weight_num (the_voter p i)) (num_of_nat k)) as Hm. rewrite weight_num_val in Hm. change (weight (the_voter p i)) with (w p i) in Hm.
    change (val (num_of_nat k)) with (Qnat k) in Hm.
    assert (H0 : 0 <= w p i * Qnat k) by (apply Qmult_le_0_compat; lra).
    assert (Hm0 : 0 <= val (nmul A (weight_num (the_voter p i)) (num_of_nat k))) by (apply (rel_lower eps) in Hm; [exact Hm|reflexivity|auto]).
    apply rel_upper in Hm; auto.
    set (num := val (nmul A (weight_num (the_voter p i)) (num_of_nat k))) in *. set (t := val (total_num A p)) in *.
    assert (Hdn : 0 <= num / t) by (apply Qle_shift_div_l; [auto|lra]).
    split; [apply (rel_lower eps) in Hd; [exact Hd|reflexivity|auto]|].
    apply rel_upper in Hd; auto.
    assert (Hd2 : num / t <= num) by (apply Qle_shift_div_r; [auto|]; rewrite <- (Qmult_1_r num) at 1; rewrite !(Qmult_comm num); apply Qmult_le_compat_r; lra).
    assert (H3 : num / t * (1 + eps) <= w p i * Qnat k * (1 + eps) * (1 + eps)) by (apply Qmult_le_compat_r; [lra|discriminate]).
    assert (H4 : w p i * ((1 + eps) * (1 + eps) - 1) * Qnat k <= w p i * ((1 + eps) * (1 + eps) - 1) * 488).
    { rewrite !(Qmult_comm (w p i * _)). apply Qmult_le_compat_r; auto. apply Qmult_le_0_compat; [lra|discriminate]. }
    assert (H5 : ((1 + eps) * (1 + eps) - 1) * 488 * w p i <= 1 * w p i) by (apply Qmult_le_compat_r; [discriminate|lra]).
    change (Qnat (length [])) with 0. lra.
  Qed.

  (** ** The Phragmén phase *)
  Definition tiny : Q := 1 # 1000000.
  Lemma new_load_range : forall C a c lo up, (forall i, (i < length (voters p))%nat -> lo <= val (nth_num a i) /\ val (nth_num a i) <= up) ->
    - (3000) <= lo -> up <= 3000 -> ~ In c C -> fans p c <> [] ->
    lo - tiny <= val (f_new_maxload A p k C a c) /\ val (f_new_maxload A p k C a c) <= up + 1 + tiny.
  Proof using HA Hw Hk Hone Hsize.
    intros C a c lo up Ha Hlo Hup Hc Hf. pose proof (fans_weight_one p Hw Hone c Hf) as HW1. unfold f_new_maxload. apply mem_false in Hc. rewrite Hc.
    assert (HW : val (f_approvers_weight A p c) == sum (fans p c) (w p)) by (apply f_weight_eq; auto).
    pose proof (nlt_spec (num_of_nat 0) (f_approvers_weight A p c)) as Hlt. change (val (num_of_nat 0)) with 0 in Hlt.
    destruct (nlt (num_of_nat 0) (f_approvers_weight A p c)); [|exfalso; lra].
    set (W := sum (fans p c) (w p)) in *. set (wn := f_approvers_weight A p c) in *.
    rewrite f_load_map. set (g := fun i => nmul A (weight_num (the_voter p i)) (nth_num a i)).
    set (X := sum (fans p c) (fun i => w p i * val (nth_num a i))).
    assert (Hi : forall i, In i (fans p c) -> 1 <= w p i /\ Qabs (val (g i) - w p i * val (nth_num a i)) <= (1 # 1000000000) * w p i /\ Qabs (val (g i)) <= 3001 * w p i /\
      w p i * lo <= w p i * val (nth_num a i) /\ w p i * val (nth_num a i) <= w p i * up).
    { intros i Hin. apply in_fans in Hin as [Hin _]. pose proof (w_one i Hin) as H1. destruct (Ha i Hin) as [A1 A2].
      pose proof (mul_rel A HA (weight_num (the_voter p i)) (nth_num a i)) as Hm. fold (g i) in Hm. rewrite weight_num_val in Hm. change (weight (the_voter p i)) with (w p i) in Hm.
      apply rel_abs in Hm.
      assert (Hx : Qabs (w p i * val (nth_num a i)) <= 3000 * w p i).
      { rewrite Qabs_Qmult, (Qabs_pos (w p i)), Qmult_comm by lra. apply Qmult_le_compat_r; [|lra]. apply Qabs_Qle_condition. lra. }
      assert (He : eps * Qabs (w p i * val (nth_num a i)) <= eps * (3000 * w p i)) by (apply Qmult_le_l; [reflexivity|auto]).
      assert (He2 : eps * 3000 * w p i <= (1 # 1000000000) * w p i) by (apply Qmult_le_compat_r; [discriminate|lra]).
      split; auto. split; [lra|]. split.
      - setoid_replace (val (g i)) with ((val (g i) - w p i * val (nth_num a i)) + w p i * val (nth_num a i)) by ring.
        eapply Qle_trans; [apply Qabs_triangle|]. lra.
      - split; apply Qmult_le_l; lra. }
    assert (HX : W * lo <= X /\ X <= W * up /\ Qabs (Qsum (map val (map g (fans p c))) - X) <= (1 # 1000000000) * W /\
       Qsum (map (fun x => Qabs (val x)) (map g (fans p c))) <= 3001 * W).
    { unfold X, W. rewrite !map_map. clear - Hi. clearbody g. induction (fans p c) as [|i l IH]; unfold sum, Qsum in *; cbn [map fold_right].
      - setoid_replace (0 - 0) with 0 by ring. change (Qabs 0) with 0. repeat split; lra.
      - destruct IH as (I1 & I2 & I3 & I4); [intros; apply Hi; right; auto|].
        destruct (Hi i (or_introl eq_refl)) as (J0 & J1 & J2 & J3 & J4). repeat split; try lra.
        set (S1 := fold_right Qplus 0 (map (fun x : nat => val (g x)) l)) in *. set (S2 := fold_right Qplus 0 (map (fun i : nat => w p i * val (nth_num a i)) l)) in *.
        setoid_replace (val (g i) + S1 - (w p i * val (nth_num a i) + S2)) with ((val (g i) - w p i * val (nth_num a i)) + (S1 - S2)) by ring.
        eapply Qle_trans; [apply Qabs_triangle|]. lra. }
    destruct HX as (X1 & X2 & X3 & X4).
    pose proof (sum_error A HA (map g (fans p c))) as Hs. rewrite map_length in Hs.
    set (ld := nsum A (map g (fans p c))) in *.
    assert (Hs' : Qabs (val ld - Qsum (map val (map g (fans p c)))) <= (1 # 100000000) * W).
    { eapply Qle_trans; [exact Hs|]. pose proof (n_grow p k Hk Hsize (length (fans p c)) (fans_length p c)) as Hg.
      pose proof (grow_ge1 (S (length (fans p c)))) as Hg1.
      apply Qle_trans with ((grow (S (length (fans p c))) - 1) * (3001 * W)).
      - rewrite !(Qmult_comm (_ - 1)). apply Qmult_le_compat_r; lra.
      - apply Qle_trans with ((1 # 1000000000000) * (3001 * W)); [apply Qmult_le_compat_r; lra|].
        assert ((1 # 1000000000000) * 3001 * W <= (1 # 100000000) * W) by (apply Qmult_le_compat_r; [discriminate|lra]). lra. }
    assert (Hld : Qabs (val ld - X) <= (2 # 100000000) * W).
    { setoid_replace (val ld - X) with ((val ld - Qsum (map val (map g (fans p c)))) + (Qsum (map val (map g (fans p c))) - X)) by ring.
      eapply Qle_trans; [apply Qabs_triangle|]. lra. }
    apply Qabs_Qle_condition in Hld as [L1 L2].
    assert (Wlo : - (3000) * W <= W * lo) by (rewrite (Qmult_comm W); apply Qmult_le_compat_r; lra).
    assert (Wup : W * up <= 3000 * W) by (rewrite (Qmult_comm W); apply Qmult_le_compat_r; lra).
    assert (Hlda : Qabs (val ld) <= 3001 * W) by (apply Qabs_Qle_condition; split; lra).
    pose proof (add_err A HA ld (num_of_nat 1)) as Hadd. change (val (num_of_nat 1)) with 1 in Hadd. change (Qabs 1) with 1 in Hadd.
    set (nu := nadd A ld (num_of_nat 1)) in *.
    assert (Hadd' : eps * (Qabs (val ld) + 1) <= eps * (3002 * W)) by (apply Qmult_le_l; [reflexivity|lra]).
    assert (Hadd2 : eps * 3002 * W <= (1 # 100000000) * W) by (apply Qmult_le_compat_r; [discriminate|lra]).
    apply Qabs_Qle_condition in Hadd as [N1 N2].
    assert (P1 : W * (lo - (4 # 100000000)) <= val nu) by lra. assert (P2 : val nu <= W * (up + 1 + (4 # 100000000))) by lra.
    assert (Hwn : 0 < val wn) by lra. pose proof (div_rel A HA nu wn Hwn) as Hd. apply rel_abs in Hd.
    assert (D1 : lo - (4 # 100000000) <= val nu / val wn) by (rewrite HW; apply Qle_shift_div_l; lra).
    assert (D2 : val nu / val wn <= up + 1 + (4 # 100000000)) by (rewrite HW; apply Qle_shift_div_r; lra).
    assert (D3 : Qabs (val nu / val wn) <= 3002) by (apply Qabs_Qle_condition; split; lra).
    assert (D4 : eps * Qabs (val nu / val wn) <= eps * 3002) by (apply Qmult_le_l; [reflexivity|auto]).
    assert (D5 : eps * 3002 <= 1 # 10000000) by discriminate.
    apply Qabs_Qle_condition in Hd as [E1 E2]. unfold tiny. split; lra.
  Qed.

  Definition loads_ok (C : list nat) (a : list num) : Prop := forall i, (i < length (voters p))%nat ->
    - (2445 + Qnat (length C)) <= val (nth_num a i) /\ val (nth_num a i) <= Qnat (length C) * (1 + 2 * tiny).
  Lemma loads_step : forall C a, loads_ok C a -> NoDup C -> Forall (fun c => (c < num_cand p)%nat) C -> (length C < k)%nat ->
    exists sel, f_phragmen_select A p k C a = Ok sel /\ sel <> [] /\ ascending sel /\
      forall c, In c sel -> fresh p C c /\ exists a', f_phragmen_next A p k C a c = Ok a' /\ loads_ok (C ++ [c]) a'.
  Proof using HA Hw Hk Hone Hsize.
    intros C a HL HN HF Hl. unfold f_phragmen_select. set (f := f_new_maxload A p k C a).
    destruct (nmin_ok (map f (candidates p))) as (opt & Eopt & Hin & Hle).
    { unfold candidates. destruct (num_cand p) eqn:E; [lia|discriminate]. }
    rewrite Eopt. cbn [rbind]. eexists. split; [reflexivity|].
    assert (Hfil : forall c, In c (filter (fun c => isclose A (nth_num (map f (candidates p)) c) opt) (candidates p)) <->
      (c < num_cand p)%nat /\ isclose A (f c) opt = true).
    { intros c. rewrite filter_In. unfold candidates at 1. rewrite in_seq. split.
      - intros [H1 H2]. split; [lia|]. rewrite nth_candidates in H2 by lia. auto.
      - intros [H1 H2]. split; [lia|]. rewrite nth_candidates by lia. auto. }
    apply in_map_iff in Hin as (d0 & Ed0 & Hd0). unfold candidates in Hd0. apply in_seq in Hd0.
    assert (Hmin : forall c, (c < num_cand p)%nat -> val opt <= val (f c)).
    { intros c Hc. apply Hle. apply in_map. unfold candidates. apply in_seq. lia. }
    assert (Hk1 : Qnat (k + 1) == Qnat k + 1) by (rewrite Nat.add_1_r; apply Qnat_S).
    assert (Hk2 : Qnat (k + 2) == Qnat k + 2) by (replace (k + 2)%nat with (S (S k)) by lia; rewrite !Qnat_S; lra).
    pose proof (k_small p k Hk Hsize) as Hk4. pose proof (Qnat_nonneg k) as Hk0. pose proof (Qnat_nonneg (length C)) as HC0.
    assert (HCk : Qnat (length C) + 1 <= Qnat k) by (rewrite <- Qnat_S; apply Qnat_le; lia).
    set (lo := - (2445 + Qnat (length C))) in *. set (up := Qnat (length C) * (1 + 2 * tiny)) in *.
    assert (Hup : up <= Qnat (length C) + (1 # 100)) by (unfold up, tiny; lra).
    assert (Hlo : - (2934) <= lo) by (unfold lo; lra). assert (Hlo2 : lo <= - (2445)) by (unfold lo; lra).
    assert (Hsup : forall c, fresh p C c -> fans p c <> [] -> lo - tiny <= val (f c) /\ val (f c) <= up + 1 + tiny).
    { intros c [_ Hn] Hf. apply new_load_range; auto; lra. }
    assert (Hmem : forall c, In c C -> val (f c) == Qnat k + 2).
    { intros c Hi. unfold f. rewrite f_new_member by auto. exact Hk2. }
    assert (Huns : forall c, ~ In c C -> fans p c = [] -> val (f c) == Qnat k + 1).
    { intros c Hi Hf. unfold f. rewrite f_new_unsupported by auto. exact Hk1. }
    assert (Hall : forall c, (c < num_cand p)%nat -> lo - tiny <= val (f c) /\ val (f c) <= Qnat k + 2).
    { intros c Hc. destruct (in_dec Nat.eq_dec c C) as [Hi|Hi]; [pose proof (Hmem c Hi); unfold tiny; lra|].
      destruct (fans p c) eqn:Ef; [pose proof (Huns c Hi Ef); unfold tiny; lra|].
      destruct (Hsup c); [split; auto|congruence|]. unfold tiny in *. lra. }
    assert (Hopt : lo - tiny <= val opt /\ val opt <= Qnat k + 2) by (rewrite <- Ed0; apply Hall; lia).
    assert (Hcl : forall c, (c < num_cand p)%nat -> isclose A (f c) opt = true -> val (f c) <= val opt + (1 # 10) * tiny).
    { intros c Hc Hi. apply (close_abs A HA) in Hi. destruct (Hall c Hc) as [H1 H2].
      assert (Q1 : Qabs (val (f c)) <= 3000) by (apply Qabs_Qle_condition; unfold tiny in *; split; lra).
      assert (Q2 : Qabs (val opt) <= 3000) by (apply Qabs_Qle_condition; unfold tiny in *; split; lra).
      apply Qabs_Qle_condition in Hi as [_ Hi]. unfold tiny. lra. }
    destruct (fresh_exists p C HN ltac:(lia)) as (c1 & Hc1).
    split; [|split].
    - intros E0. assert (Hin0 : In d0 (filter (fun c => isclose A (nth_num (map f (candidates p)) c) opt) (candidates p))).
      { apply Hfil. split; [lia|]. rewrite Ed0. apply isclose_refl. }
      rewrite E0 in Hin0. destruct Hin0.
    - apply ascending_filter. apply ascending_seq.
    - intros c Hc. apply Hfil in Hc as [Hc Hi]. specialize (Hcl c Hc Hi).
      assert (Hni : ~ In c C).
      { intros Hx. pose proof (Hmem c Hx) as Hm. pose proof (Hmin c1 (proj1 Hc1)) as H1. destruct (fans p c1) eqn:Ef.
        - pose proof (Huns c1 (proj2 Hc1) Ef). unfold tiny in *. lra.
        - destruct (Hsup c1 Hc1); [congruence|]. unfold tiny in *. lra. }
      split; [split; auto|]. eexists. split; [reflexivity|]. intros i Hin. rewrite app_length, Nat.add_1_r. rewrite nth_num_enum by auto. simpl fst; simpl snd.
      pose proof (Qnat_S (length C)) as HS. destruct (HL i Hin) as [L1 L2].
      destruct (mem c (approved (the_voter p i))) eqn:Em.
      + assert (Hf : fans p c <> []).
        { intros E0. assert (Hx : In i (fans p c)) by (apply in_fans; split; auto). rewrite E0 in Hx. destruct Hx. }
        destruct (Hsup c (conj Hc Hni) Hf) as [H1 H2]. fold f. unfold lo, up, tiny in *. rewrite HS. split; lra.
      + unfold lo, up, tiny in *. rewrite HS. split; lra.
  Qed.

  Lemma start_loads : forall C b, budgets_ok C b -> (length C < k)%nat ->
    loads_ok C (map (fun iv => ndiv A (nneg (nth_num b (fst iv))) (weight_num (snd iv))) (enum_voters p)).
  Proof using HA Hw Hk Hone Hsize.
    intros C b Hb Hl i Hi. rewrite nth_num_enum by auto. simpl fst; simpl snd. destruct (Hb i Hi) as (B1 & B2 & B3). pose proof (w_one i Hi) as Hw1.
    pose proof (k_small p k Hk Hsize) as Hk4. pose proof (Qnat_nonneg k) as Hk0. pose proof (Qnat_nonneg (length C)) as HC0.
    assert (HCk : Qnat (length C) <= Qnat k) by (apply Qnat_le; lia).
    assert (Hwp : 0 < val (weight_num (the_voter p i))) by (rewrite weight_num_val; change (weight (the_voter p i)) with (w p i); lra).
    pose proof (div_rel A HA (nneg (nth_num b i)) (weight_num (the_voter p i)) Hwp) as Hd. rewrite weight_num_val in *. change (weight (the_voter p i)) with (w p i) in *.
    change (val (nneg (nth_num b i))) with (- val (nth_num b i)) in Hd.
    assert (Hneg : - val (nth_num b i) / w p i <= 0) by (apply Qle_shift_div_r; lra).
    assert (Hlow : - (2441) <= - val (nth_num b i) / w p i).
    { apply Qle_shift_div_l; [lra|]. assert (w p i * (Qnat k + 1 + 4 * Qnat (length C)) <= w p i * 2441) by (apply Qmult_le_l; lra). lra. }
    split.
    - apply rel_abs in Hd. assert (Habs : Qabs (- val (nth_num b i) / w p i) <= 2441) by (apply Qabs_Qle_condition; lra).
      assert (eps * Qabs (- val (nth_num b i) / w p i) <= eps * 2441) by (apply Qmult_le_l; [reflexivity|auto]).
      assert (eps * 2441 <= 1) by discriminate. apply Qabs_Qle_condition in Hd as [Hd _]. lra.
    - apply (rel_sign eps) in Hd; [|reflexivity|auto]. assert (0 <= Qnat (length C) * (1 + 2 * tiny)) by (apply Qmult_le_0_compat; [auto|discriminate]). lra.
  Qed.

  Theorem f_mes_phragmen_determined : exists P : list nat -> Prop, (forall W, P W -> is_committee p k W) /\
    forall resolute maxn, valid_max maxn -> answers P resolute maxn (f_equal_shares A p k resolute maxn (f_fill_phragmen A p k resolute) (f_mes_start A p k)).
  Proof using HA Hw Hk Hone Hsize.
    apply (fmes_determined A p k Hk budgets_ok (fun r => f_fill_phragmen A p k r) (is_committee p k)); auto.
    - intros W (Ha & _). auto.
    - exact next_budgets.
    - intros C a HG HN HF Hl _. unfold f_fill_phragmen. set (l0 := map _ (enum_voters p)).
      assert (HS : FGood p loads_ok C l0) by (split; [apply start_loads; auto|split; auto]).
      destruct (float_loop_correct p k _ _ loads_ok loads_step C l0 HS (f_phragmen_perm A p k) Hl) as (W & EW & HW).
      pose proof (float_dfs_correct p k _ _ loads_ok loads_step C l0 HS None Hl I) as HD.
      unfold f_seqphragmen_irresolute, f_seqphragmen_resolute. rewrite EW. cbn [rbind].
      destruct HD as (ws & Ews & HD). rewrite Ews. exists ws, [W]. split; auto. split; auto.
      assert (Hcom : forall V, fwinner k (f_phragmen_select A p k) (f_phragmen_next A p k) C l0 V -> is_committee p k V).
      { intros V HV. eapply fwinner_committee; [exact loads_step|exact HS|exact HV]. }
      destruct HD as (_ & _ & Hin & Hcompl).
      assert (HWin : In W ws) by (apply Hcompl; auto).
      split; [intros E0; rewrite E0 in HWin; destruct HWin|]. split; [discriminate|]. split.
      + intros V HV. simpl in HV. destruct HV as [<-|[]]. apply in_map_iff. exists W. auto.
      + intros V HV. apply in_map_iff in HV as (U & <- & HU). pose proof (Hcom U (Hin U HU)) as HU'. rewrite isort_id; [exact HU'|apply HU'].
    - exact start_budgets.
  Qed.
End Run.
