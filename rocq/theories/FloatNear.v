(** * "float-fractions": numbers whose exact values are equal or far apart *)
From Coq Require Import String.
From Coq Require Import List Arith Bool ZArith QArith Qabs Lia Lqa Permutation Sorted.
From Verif Require Import Prelude Misc MiscProofs Preferences Scores Spec ScoresProofs Search RulesThiele
  Common ThieleProofs SpecRules SpecSeq RulesSeq SeqProofs PhragmenProofs EnestroemProofs MesProofs Floats RulesFloat FloatSearch FloatStruct SpecFloat SpecFloatMore FloatBounds FloatExact.
From Verif Require Import FloatMes.
From Verif Require Import FloatAbs.
Import ListNotations.
Open Scope Q_scope.

Section Near.
  Variable A : arith.
  Hypothesis HA : float_ok A.

  Lemma close_near : forall x y z d, Qabs (val x - z) <= d -> Qabs (val y - z) <= d -> d + 2 * u * Qabs z <= tiny -> isclose A x y = true.
  Proof using HA.
    intros x y z d Hx Hy Hd. unfold isclose. cbv zeta. pose proof (Qabs_nonneg z) as Hz.
    pose proof (to_float_err A HA x) as E1. pose proof (to_float_err A HA y) as E2. pose proof (Qabs_le_of _ _ _ Hx) as E3. pose proof (Qabs_le_of _ _ _ Hy) as E4.
    assert (Hd0 : 0 <= d) by (eapply Qle_trans; [apply Qabs_nonneg|exact Hx]). set (Z := Qabs z) in *.
    assert (B1 : u * Qabs (val x) <= u * (Z + d)) by (apply Qmult_le_l; [reflexivity|auto]).
    assert (B2 : u * Qabs (val y) <= u * (Z + d)) by (apply Qmult_le_l; [reflexivity|auto]).
    set (a := to_float A x) in *. set (b := to_float A y) in *. clearbody a b.
    destruct (Qeq_bool a b); auto. apply orb_true_iff. right. apply Qle_bool_iff.
    pose proof (rnd_abs A HA (b - a)) as [_ R].
    assert (HT : tol * (1 - u) <= TOLERANCE A) by (apply (rnd_bounds A HA); discriminate).
    pose proof (Qabs_bounds _ _ _ Hx) as [G1 G2]. pose proof (Qabs_bounds _ _ _ Hy) as [G3 G4]. pose proof (Qabs_bounds _ _ _ E1) as [G5 G6]. pose proof (Qabs_bounds _ _ _ E2) as [G7 G8].
    assert (K : u * d <= u * tiny). { apply Qmult_le_l; [reflexivity|]. assert (0 <= 2 * u * Z) by (apply Qmult_le_0_compat; [discriminate|auto]). lra. }
    assert (D : Qabs (b - a) <= 2 * tiny + 2 * (u * tiny)).
    { assert (0 <= u * Z) by (apply Qmult_le_0_compat; [discriminate|auto]). apply Qabs_Qle_condition. split; lra. }
    assert (D2 : (1 + u) * Qabs (b - a) <= (1 + u) * (2 * tiny + 2 * (u * tiny))) by (apply Qmult_le_l; [reflexivity|auto]).
    assert (D3 : (1 + u) * (2 * tiny + 2 * (u * tiny)) <= tol * (1 - u)) by qnum. lra.
  Qed.

  (** the exact values are at most [M] in absolute value, and two different ones differ by more than this *)
  Definition gap_for (M : Q) : Q := phragmen_margin * (2 * M + 2).
  Lemma far_apart : forall x y a b d M, Qabs (val x - a) <= d -> Qabs (val y - b) <= d -> d <= tiny -> Qabs a <= M -> Qabs b <= M -> a + gap_for M < b ->
    isclose A x y = false /\ isclose A y x = false /\ val x < val y.
  Proof using HA.
    intros x y a b d M Hx Hy Hd Ha Hb Hg. unfold gap_for, phragmen_margin in Hg. unfold tiny in Hd.
    pose proof (Qabs_le_of _ _ _ Hx) as X. pose proof (Qabs_le_of _ _ _ Hy) as Y.
    assert (X1 := Qabs_bounds _ _ _ Hx). assert (Y1 := Qabs_bounds _ _ _ Hy). assert (HM := Qabs_nonneg a).
    assert (F : forall s t, Qabs (val s) + Qabs (val t) == Qabs (val x) + Qabs (val y) -> val y - val x <= Qabs (val s - val t) -> isclose A s t = false).
    { intros s t E1 E2. destruct (isclose A s t) eqn:E; auto. exfalso. pose proof (FloatMes.close_abs A HA s t E) as H. lra. }
    split; [|split].
    - apply F; [reflexivity|]. pose proof (Qle_Qabs (- (val x - val y))) as H. rewrite Qabs_opp in H. lra.
    - apply F; [ring|]. apply Qle_Qabs.
    - lra.
  Qed.

  (** the smallest values are the same ones *)
  Definition approximates (d : Q) (x : nat * num) (y : nat * Q) : Prop := fst x = fst y /\ Qabs (val (snd x) - snd y) <= d.
  Lemma approx_In : forall d l m, Forall2 (approximates d) l m -> forall x, In x l -> exists y, In y m /\ approximates d x y.
  Proof using. intros d l m H. induction H as [|x y l m Hxy H IH]; intros z []; [subst; exists y; split; [left|]; auto|]. destruct (IH z H0) as (t & Ht & H2). exists t. split; [right|]; auto. Qed.
  Lemma approx_In_r : forall d l m, Forall2 (approximates d) l m -> forall y, In y m -> exists x, In x l /\ approximates d x y.
  Proof using. intros d l m H. induction H as [|x y l m Hxy H IH]; intros z []; [subst; exists x; split; [left|]; auto|]. destruct (IH z H0) as (t & Ht & H2). exists t. split; [right|]; auto. Qed.
  Lemma min_entries_same : forall d M (l : list (nat * num)) (m : list (nat * Q)), l <> [] -> Forall2 (approximates d) l m -> 0 <= d ->
    (forall y, In y m -> Qabs (snd y) <= M) -> d + 2 * u * M <= tiny ->
    (forall y z, In y m -> In z m -> snd y < snd z -> snd y + gap_for M < snd z) ->
    exists mx mn, nmin (map snd l) = Ok mx /\ py_min (map snd m) = Ok mn /\ Qabs (val mx - mn) <= d /\ In mn (map snd m) /\ (forall z, In z m -> mn <= snd z) /\
      map fst (filter (fun x => isclose A (snd x) mx) l) = map fst (filter (fun y => Qeq_bool (snd y) mn) m).
  Proof using HA.
    intros d M l m Hne H2 Hd0 HM Ht Hgap.
    destruct (nmin_ok (map snd l)) as (mx & Em & Hin & Hle); [destruct l; [congruence|discriminate]|].
    assert (Hme : map snd m <> []) by (destruct H2; [congruence|discriminate]).
    destruct (py_min_In (map snd m) Hme) as (mn & En & Hin' & Hle').
    assert (Hm : forall z, In z m -> mn <= snd z) by (intros z Hz; apply Hle'; apply in_map; auto).
    assert (HM0 : 0 <= M). { apply in_map_iff in Hin' as (y & _ & Hy). eapply Qle_trans; [apply Qabs_nonneg|apply (HM y Hy)]. }
    assert (Hu0 : 0 <= 2 * u * M) by (apply Qmult_le_0_compat; [discriminate|auto]).
    assert (Hdt : d <= tiny) by lra.
    assert (Hg2 : 2 * d < gap_for M). { unfold gap_for, phragmen_margin. unfold tiny in Hdt. lra. }
    apply in_map_iff in Hin as (x0 & <- & Hx0). destruct (approx_In d l m H2 x0 Hx0) as (y0 & Hy0 & _ & A0).
    assert (Hin'' := Hin'). apply in_map_iff in Hin'' as (y1 & E1 & Hy1). destruct (approx_In_r d l m H2 y1 Hy1) as (x1 & Hx1 & _ & A1).
    assert (Ey0 : snd y0 == mn).
    { apply Qle_antisym; [|auto]. apply Qnot_lt_le. intros Hlt.
      assert (Hl1 : val (snd x0) <= val (snd x1)) by (apply Hle; apply in_map; auto).
      assert (Hg : snd y1 + gap_for M < snd y0) by (apply Hgap; auto; rewrite E1; auto).
      apply Qabs_bounds in A0, A1. lra. }
    exists (snd x0), mn. split; auto. split; auto. split; [rewrite <- Ey0; exact A0|]. split; auto. split; auto.
    assert (Hmn : Qabs mn <= M) by (rewrite <- E1; auto).
    rewrite Ey0 in A0. clear Hne Em En Hle Hle' Hme.
    assert (Hall : forall y, In y m -> mn <= snd y /\ Qabs (snd y) <= M /\ (mn < snd y -> mn + gap_for M < snd y)).
    { intros y Hy. split; auto. split; auto. intros Hlt. rewrite <- E1. apply Hgap; auto. rewrite E1. auto. }
    clear Hgap HM Hm Hx0 Hy0 Hy1 Hx1 Hin'. induction H2 as [|x y l m [Hf Hv] H2 IH]; [reflexivity|].
    assert (IH' : map fst (filter (fun x => isclose A (snd x) (snd x0)) l) = map fst (filter (fun y => Qeq_bool (snd y) mn) m)) by (apply IH; intros z Hz; apply Hall; right; auto).
    destruct (Hall y (or_introl eq_refl)) as (B1 & B2 & B3). cbn [filter].
    assert (Heq : isclose A (snd x) (snd x0) = Qeq_bool (snd y) mn).
    { destruct (Qeq_bool (snd y) mn) eqn:E.
      - apply Qeq_bool_iff in E. apply (close_near _ _ mn d); auto; [rewrite <- E; auto|]. assert (2 * u * Qabs mn <= 2 * u * M) by (apply Qmult_le_l; [reflexivity|auto]). lra.
      - apply Qeq_bool_neq in E. assert (Hlt : mn < snd y) by (destruct (Qlt_le_dec mn (snd y)); auto; exfalso; apply E; apply Qle_antisym; auto).
        apply (far_apart (snd x0) (snd x) mn (snd y) d M); auto. }
    rewrite Heq. destruct (Qeq_bool (snd y) mn); cbn [map]; [rewrite Hf; f_equal|]; exact IH'.
  Qed.
End Near.
