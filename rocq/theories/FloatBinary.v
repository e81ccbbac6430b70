(** * binary64 satisfies the contract [float_ok] *)
From Coq Require Import List Arith Bool ZArith QArith Qabs Qround Qpower Lia Lqa.
From Verif Require Import Prelude Misc MiscProofs Preferences Spec SpecSeq Floats SpecFloat FloatBounds.
Import ListNotations.
Open Scope Q_scope.

Lemma tp_pos : forall e, 0 < two_power e.
Proof. intros. apply Qpower_0_lt. reflexivity. Qed.
Lemma tp_plus : forall a b, two_power (a + b) == two_power a * two_power b.
Proof. intros. apply Qpower_plus. discriminate. Qed.
Lemma tp_Z : forall z, (0 <= z)%Z -> two_power z == inject_Z (2 ^ z).
Proof. intros. unfold two_power. rewrite Zpower_Qpower by auto. reflexivity. Qed.
Lemma tp_le : forall a b, (a <= b)%Z -> two_power a <= two_power b.
Proof. intros. apply Qpower_le_compat_l; auto. discriminate. Qed.
Lemma tp_le_inv : forall a b, two_power a <= two_power b -> (a <= b)%Z.
Proof. intros a b H. apply (Qpower_le_compat_l_inv 2 a b); auto. reflexivity. Qed.
Lemma tp_lt_inv : forall a b, two_power a < two_power b -> (a < b)%Z.
Proof. intros a b H. apply (Qpower_lt_compat_l_inv 2 a b); auto. reflexivity. Qed.

(** ** rounding to an integer *)
Lemma Qltb_spec : forall x y, if Qltb x y then x < y else y <= x.
Proof.
  intros. unfold Qltb. destruct (Qle_bool y x) eqn:E; simpl.
  - apply Qle_bool_iff. auto.
  - apply Qnot_le_lt. intros H. apply Qle_bool_iff in H. congruence.
Qed.
Lemma half_even_error : forall x, Qabs (inject_Z (half_even x) - x) <= 1 # 2.
Proof.
  intros x. unfold half_even. pose proof (Qfloor_le x) as H1. pose proof (Qlt_floor x) as H2. rewrite inject_Z_plus in H2.
  set (f := Qfloor x) in *. change (inject_Z 1) with 1 in H2. apply Qabs_Qle_condition.
  pose proof (Qltb_spec (x - inject_Z f) (1 # 2)) as S1. destruct (Qltb (x - inject_Z f) (1 # 2)); [split; lra|].
  pose proof (Qltb_spec (1 # 2) (x - inject_Z f)) as S2. destruct (Qltb (1 # 2) (x - inject_Z f)).
  - rewrite inject_Z_plus. change (inject_Z 1) with 1. split; lra.
  - destruct (Z.even f); [split; lra|]. rewrite inject_Z_plus. change (inject_Z 1) with 1. split; lra.
Qed.
Lemma Qltb_comp : forall x y x' y', x == x' -> y == y' -> Qltb x y = Qltb x' y'.
Proof.
  intros x y x' y' H1 H2. pose proof (Qltb_spec x y). pose proof (Qltb_spec x' y'). destruct (Qltb x y), (Qltb x' y'); auto; exfalso; lra.
Qed.
Lemma half_even_comp : forall x y, x == y -> half_even x = half_even y.
Proof.
  intros x y H. unfold half_even. rewrite (Qfloor_comp x y H).
  rewrite (Qltb_comp (x - inject_Z (Qfloor y)) (1 # 2) (y - inject_Z (Qfloor y)) (1 # 2)) by (try reflexivity; rewrite H; reflexivity).
  rewrite (Qltb_comp (1 # 2) (x - inject_Z (Qfloor y)) (1 # 2) (y - inject_Z (Qfloor y))) by (try reflexivity; rewrite H; reflexivity). reflexivity.
Qed.
Lemma half_even_Z : forall z, half_even (inject_Z z) = z.
Proof.
  intros. unfold half_even. rewrite Qfloor_Z. pose proof (Qltb_spec (inject_Z z - inject_Z z) (1 # 2)) as H.
  destruct (Qltb (inject_Z z - inject_Z z) (1 # 2)); auto. exfalso. lra.
Qed.
Lemma half_even_range : forall x, half_even x = Qfloor x \/ half_even x = (Qfloor x + 1)%Z.
Proof. intros. unfold half_even. destruct (Qltb _ _); auto. destruct (Qltb _ _); auto. destruct (Z.even _); auto. Qed.
Lemma half_even_mono : forall x y, x <= y -> (half_even x <= half_even y)%Z.
Proof.
  intros x y H. pose proof (Qfloor_resp_le x y H) as Hf. pose proof (half_even_range x) as Hx. pose proof (half_even_range y) as Hy.
  destruct (Z_lt_le_dec (Qfloor x) (Qfloor y)) as [Hl|Hl]; [lia|].
  assert (E : Qfloor x = Qfloor y) by lia. clear Hf Hl Hx Hy. unfold half_even. rewrite E. set (f := Qfloor y).
  pose proof (Qltb_spec (x - inject_Z f) (1 # 2)) as S1. pose proof (Qltb_spec (y - inject_Z f) (1 # 2)) as S2.
  pose proof (Qltb_spec (1 # 2) (x - inject_Z f)) as S3. pose proof (Qltb_spec (1 # 2) (y - inject_Z f)) as S4.
  destruct (Qltb (x - inject_Z f) (1 # 2)), (Qltb (y - inject_Z f) (1 # 2)), (Qltb (1 # 2) (x - inject_Z f)), (Qltb (1 # 2) (y - inject_Z f)), (Z.even f);
    try lia; exfalso; lra.
Qed.

(** ** the binade *)
Definition binade (x : Q) (e : Z) : Prop := two_power (e + 52) <= x /\ x < two_power (e + 53).
Lemma binade_unique : forall x y e e', x <= y -> binade x e -> binade y e' -> (e <= e')%Z.
Proof.
  intros x y e e' H [H1 _] [_ H2]. assert (H3 : two_power (e + 52) < two_power (e' + 53)) by lra. apply tp_lt_inv in H3. lia.
Qed.
Lemma last_bit_binade : forall x, 0 < x -> binade x (last_bit x).
Proof.
  intros [a b] Hx. unfold last_bit. simpl Qnum; simpl Qden. assert (Ha : (0 < a)%Z) by (unfold Qlt in Hx; simpl in Hx; lia).
  pose proof (Z.log2_spec a Ha) as [A1 A2]. pose proof (Z.log2_spec (Zpos b) ltac:(lia)) as [B1 B2].
  pose proof (Z.log2_nonneg a) as A0. pose proof (Z.log2_nonneg (Zpos b)) as B0.
  set (la := Z.log2 a) in *. set (lb := Z.log2 (Zpos b)) in *.
  assert (Ex : a # b == inject_Z a / inject_Z (Zpos b)) by (rewrite Qmake_Qdiv; reflexivity).
  assert (QA1 : two_power la <= inject_Z a) by (rewrite tp_Z by lia; rewrite <- Zle_Qle; auto).
  assert (QA2 : inject_Z a < two_power (la + 1)) by (rewrite tp_Z by lia; rewrite <- Zlt_Qlt; rewrite <- Z.add_1_r in A2; auto).
  assert (QB1 : two_power lb <= inject_Z (Zpos b)) by (rewrite tp_Z by lia; rewrite <- Zle_Qle; auto).
  assert (QB2 : inject_Z (Zpos b) < two_power (lb + 1)) by (rewrite tp_Z by lia; rewrite <- Zlt_Qlt; rewrite <- Z.add_1_r in B2; auto).
  assert (Bp : 0 < inject_Z (Zpos b)) by reflexivity.
  assert (Hhi : a # b < two_power (la - lb + 1)).
  { rewrite Ex. apply Qlt_shift_div_r; auto. apply Qlt_le_trans with (two_power (la + 1)); auto.
    replace (la + 1)%Z with (la - lb + 1 + lb)%Z by lia. rewrite (tp_plus (la - lb + 1) lb). apply Qmult_le_l; [apply tp_pos|auto]. }
  assert (Hlo : two_power (la - lb - 1) <= a # b).
  { rewrite Ex. apply Qle_shift_div_l; auto. apply Qle_trans with (two_power la); auto.
    replace la with (la - lb - 1 + (lb + 1))%Z at 2 by lia. rewrite (tp_plus (la - lb - 1) (lb + 1)). apply Qmult_le_l; [apply tp_pos|lra]. }
  destruct (Qle_bool (two_power (la - lb)) (a # b)) eqn:E.
  - apply Qle_bool_iff in E. split.
    + replace (la - lb - 52 + 52)%Z with (la - lb)%Z by lia. auto.
    + replace (la - lb - 52 + 53)%Z with (la - lb + 1)%Z by lia. auto.
  - assert (H : a # b < two_power (la - lb)) by (apply Qnot_le_lt; intros H; apply Qle_bool_iff in H; congruence). split.
    + replace (la - lb - 53 + 52)%Z with (la - lb - 1)%Z by lia. auto.
    + replace (la - lb - 53 + 53)%Z with (la - lb)%Z by lia. auto.
Qed.

Notation M52 := (4503599627370496)%Z.
Notation M53 := (9007199254740992)%Z.
Lemma tp52 : two_power 52 == inject_Z M52. Proof. reflexivity. Qed.
Lemma tp53 : two_power 53 == inject_Z M53. Proof. reflexivity. Qed.
Lemma scaled : forall x e, binade x e -> inject_Z M52 <= x / two_power e /\ x / two_power e < inject_Z M53.
Proof.
  intros x e [H1 H2]. rewrite tp_plus, Qmult_comm in H1, H2. rewrite tp52 in H1. rewrite tp53 in H2. pose proof (tp_pos e). split.
  - apply Qle_shift_div_l; auto.
  - apply Qlt_shift_div_r; auto.
Qed.
Lemma mantissa_range : forall x e, binade x e -> (M52 <= half_even (x / two_power e) <= M53)%Z.
Proof.
  intros x e H. destruct (scaled x e H) as [H1 H2]. split.
  - rewrite <- (half_even_Z M52). apply half_even_mono. auto.
  - rewrite <- (half_even_Z M53). apply half_even_mono. lra.
Qed.
Lemma round_positive_range : forall x, 0 < x -> two_power (last_bit x + 52) <= round_positive x /\ round_positive x <= two_power (last_bit x + 53).
Proof.
  intros x Hx. unfold round_positive. pose proof (mantissa_range x _ (last_bit_binade x Hx)) as [H1 H2]. rewrite !tp_plus, tp52, tp53.
  rewrite !(Qmult_comm (two_power (last_bit x))). pose proof (tp_pos (last_bit x)). split; (apply Qmult_le_compat_r; [rewrite <- Zle_Qle; auto|lra]).
Qed.
Lemma round_positive_pos : forall x, 0 < x -> 0 < round_positive x.
Proof. intros x Hx. destruct (round_positive_range x Hx) as [H _]. pose proof (tp_pos (last_bit x + 52)). lra. Qed.
Lemma round_positive_error : forall x, 0 < x -> Qabs (round_positive x - x) <= unit_roundoff * x.
Proof.
  intros x Hx. unfold round_positive. pose proof (last_bit_binade x Hx) as [Hb _]. set (e := last_bit x) in *. pose proof (tp_pos e) as He.
  assert (E : inject_Z (half_even (x / two_power e)) * two_power e - x == (inject_Z (half_even (x / two_power e)) - x / two_power e) * two_power e) by (field; lra).
  rewrite E, Qabs_Qmult, (Qabs_pos (two_power e)) by lra.
  apply Qle_trans with ((1 # 2) * two_power e).
  - apply Qmult_le_compat_r; [apply half_even_error|lra].
  - rewrite tp_plus, tp52 in Hb. change unit_roundoff with (1 # 9007199254740992).
    assert (two_power e * 4503599627370496 <= x) by exact Hb. lra.
Qed.
Lemma round_positive_mono : forall x y, 0 < x -> x <= y -> round_positive x <= round_positive y.
Proof.
  intros x y Hx Hy. assert (Hy0 : 0 < y) by lra. pose proof (last_bit_binade x Hx) as Bx. pose proof (last_bit_binade y Hy0) as By.
  pose proof (binade_unique x y _ _ Hy Bx By) as Hle. destruct (Z_le_lt_eq_dec _ _ Hle) as [Hl|He].
  - destruct (round_positive_range x Hx) as [_ H1]. destruct (round_positive_range y Hy0) as [H2 _].
    assert (H3 : two_power (last_bit x + 53) <= two_power (last_bit y + 52)) by (apply tp_le; lia). lra.
  - unfold round_positive. rewrite He. pose proof (tp_pos (last_bit y)) as Hp. apply Qmult_le_compat_r; [|lra]. rewrite <- Zle_Qle. apply half_even_mono.
    unfold Qdiv. apply Qmult_le_compat_r; auto. apply Qlt_le_weak, Qinv_lt_0_compat; auto.
Qed.
Lemma round_positive_float : forall x m e, x == inject_Z m * two_power e -> (0 < m <= M53)%Z -> round_positive x == x.
Proof.
  assert (H : forall x m e, x == inject_Z m * two_power e -> (0 < m < M53)%Z -> round_positive x == x).
  { intros x m e E [Hm1 Hm2]. pose proof (tp_pos e) as He.
    assert (Hx : 0 < x). { rewrite E. apply Qmult_lt_0_compat; auto. change 0 with (inject_Z 0). rewrite <- Zlt_Qlt. auto. }
    pose proof (last_bit_binade x Hx) as [B1 B2]. unfold round_positive. set (b := last_bit x) in *.
    assert (Hbe : (b <= e)%Z).
    { assert (H : two_power (b + 52) < two_power (e + 53)).
      { eapply Qle_lt_trans; [exact B1|]. rewrite E, tp_plus, tp53, Qmult_comm. apply Qmult_lt_l; auto. rewrite <- Zlt_Qlt. auto. }
      apply tp_lt_inv in H. lia. }
    pose proof (tp_pos b) as Hb0.
    assert (Eb : x / two_power b == inject_Z (m * 2 ^ (e - b))).
    { rewrite inject_Z_mult, <- tp_Z by lia. rewrite E. replace e with (b + (e - b))%Z at 1 by lia. rewrite tp_plus. field. lra. }
    rewrite (half_even_comp _ _ Eb), half_even_Z, <- Eb. field. lra. }
  intros x m e E Hm. destruct (Z.eq_dec m M53) as [->|Hne].
  - apply (H x M52 (e + 1)%Z); [|lia]. rewrite E, tp_plus. change (two_power 1) with 2. change (inject_Z M53) with 9007199254740992. change (inject_Z M52) with 4503599627370496. ring.
  - apply (H x m e); auto. lia.
Qed.

(** ** [round64] *)
Definition round_any (x : Q) : Q := if Qltb 0 x then round_positive x else if Qltb x 0 then - round_positive (- x) else 0.
Lemma round64_eq : forall x, round64 x == round_any x.
Proof. intros. unfold round64, round_any. apply Qred_correct. Qed.
Inductive sign_of (x : Q) : Q -> Prop :=
| SPos : 0 < x -> sign_of x (round_positive x)
| SNeg : x < 0 -> sign_of x (- round_positive (- x))
| SZero : x == 0 -> sign_of x 0.
Lemma round_any_cases : forall x, sign_of x (round_any x).
Proof.
  intros x. unfold round_any. pose proof (Qltb_spec 0 x). destruct (Qltb 0 x); [constructor; auto|].
  pose proof (Qltb_spec x 0). destruct (Qltb x 0); [constructor; auto|]. constructor. lra.
Qed.

Lemma round64_error : forall x, Qabs (round64 x - x) <= unit_roundoff * Qabs x.
Proof.
  intros x. rewrite round64_eq. destruct (round_any_cases x) as [H|H|H].
  - rewrite (Qabs_pos x) by lra. apply round_positive_error; auto.
  - rewrite <- (Qabs_opp x), (Qabs_pos (- x)) by lra. rewrite <- Qabs_opp.
    assert (E : - (- round_positive (- x) - x) == round_positive (- x) - (- x)) by ring. rewrite E. apply round_positive_error. lra.
  - rewrite H. discriminate.
Qed.
Lemma round64_mono : forall x y, x <= y -> round64 x <= round64 y.
Proof.
  intros x y H. rewrite !round64_eq. destruct (round_any_cases x) as [Hx|Hx|Hx], (round_any_cases y) as [Hy|Hy|Hy]; try (exfalso; lra).
  - apply round_positive_mono; auto.
  - pose proof (round_positive_pos (- x) ltac:(lra)). pose proof (round_positive_pos y Hy). lra.
  - apply Qopp_le_compat. apply round_positive_mono; lra.
  - pose proof (round_positive_pos (- x) ltac:(lra)). lra.
  - pose proof (round_positive_pos y Hy). lra.
  - lra.
Qed.
Lemma round_positive_idem : forall x, 0 < x -> forall y, y == round_positive x -> round_positive y == y.
Proof.
  intros x Hx y Hy. apply (round_positive_float y (half_even (x / two_power (last_bit x))) (last_bit x)).
  - rewrite Hy. reflexivity.
  - pose proof (mantissa_range x _ (last_bit_binade x Hx)). lia.
Qed.
Lemma round64_idem : forall x, round64 (round64 x) == round64 x.
Proof.
  intros x. rewrite (round64_eq (round64 x)). pose proof (round64_eq x) as E.
  destruct (round_any_cases x) as [Hx|Hx|Hx].
  - pose proof (round_positive_pos x Hx). destruct (round_any_cases (round64 x)) as [H1|H1|H1]; try (exfalso; lra). apply (round_positive_idem x); auto.
  - pose proof (round_positive_pos (- x) ltac:(lra)). destruct (round_any_cases (round64 x)) as [H1|H1|H1]; try (exfalso; lra).
    rewrite (round_positive_idem (- x) ltac:(lra) (- round64 x)); [ring|]. rewrite E. ring.
  - destruct (round_any_cases (round64 x)) as [H1|H1|H1]; try (exfalso; lra). lra.
Qed.
Lemma round64_Z : forall z, (0 <= z <= M53)%Z -> round64 (inject_Z z) == inject_Z z.
Proof.
  intros z Hz. rewrite round64_eq. destruct (round_any_cases (inject_Z z)) as [H|H|H].
  - apply (round_positive_float _ z 0); [|split; [|lia]].
    + change (two_power 0) with 1. ring.
    + change 0 with (inject_Z 0) in H. rewrite <- Zlt_Qlt in H. auto.
  - exfalso. change 0 with (inject_Z 0) in H. rewrite <- Zlt_Qlt in H. lia.
  - lra.
Qed.

(** ** [sum64] *)
Definition A0 := mkArith round64 (fun _ => mkNum KInt 0%Q).
Lemma rnd64_bounds : forall x, 0 <= x -> x * (1 - u) <= round64 x /\ round64 x <= x * (1 + u).
Proof.
  intros x Hx. pose proof (round64_error x) as H. rewrite (Qabs_pos x) in H by auto. fold u in H.
  apply Qabs_Qle_condition in H as [H1 H2]. lra.
Qed.
Lemma rnd64_within : forall n x a, within n a x -> within (n + 1) (round64 a) x.
Proof.
  intros n y x Hn. pose proof (within_nonneg _ _ _ Hn) as Hx. rewrite Nat.add_comm. eapply within_trans; [|exact Hn].
  destruct (rnd64_bounds x Hx) as [H1 H2]. pose proof G_eq. pose proof G_ge. pose proof G_pos. pose proof u_pos. split; auto.
  change (grow 1) with (1 * G). split.
  - apply Qle_trans with (x * (1 - u) * (1 * G)).
    + setoid_replace (x * (1 - u) * (1 * G)) with (x * (G * (1 - u))) by ring. rewrite H. lra.
    + apply Qmult_le_compat_r; [auto|lra].
  - apply Qle_trans with (x * (1 + u)); auto. rewrite Qmult_comm, (Qmult_comm x). apply Qmult_le_compat_r; [lra|auto].
Qed.
Lemma nadd_kind : forall a b, kind_of (nadd A0 a b) = join_kind (kind_of a) (kind_of b).
Proof. intros. unfold nadd, arith_op. destruct (join_kind (kind_of a) (kind_of b)); auto. Qed.
Lemma nadd_exact : forall a b, kind_of a <> KFloat -> kind_of b <> KFloat -> val (nadd A0 a b) = val a + val b /\ kind_of (nadd A0 a b) <> KFloat.
Proof.
  intros a b Ha Hb. unfold nadd, arith_op. destruct (kind_of a), (kind_of b); try congruence; simpl; split; auto; discriminate.
Qed.

Lemma sum64_exact : forall l, Forall (fun x => kind_of x <> KFloat) l -> val (sum64 l) == Qsum (map val l).
Proof.
  intros l. unfold sum64. fold A0.
  assert (H : forall l a, kind_of a <> KFloat -> Forall (fun x => kind_of x <> KFloat) l -> val (fold_left (nadd A0) l a) == val a + Qsum (map val l)).
  { clear. induction l as [|x l IH]; intros a Ha Hl; simpl; [ring|]. inversion Hl; subst. destruct (nadd_exact a x Ha) as [E1 E2]; auto.
    rewrite IH by auto. rewrite E1. ring. }
  intros Hl. rewrite H by (auto; discriminate). simpl val. ring.
Qed.

(** nonnegative summands *)
Lemma sum64_within : forall l, Forall (fun x => 0 <= val x) l -> within (S (length l)) (val (sum64 l)) (Qsum (map val l)).
Proof.
  intros l. unfold sum64. fold A0.
  assert (H : forall l n a y, within n (val a) y -> (kind_of a <> KFloat -> n = 0%nat) -> Forall (fun x => 0 <= val x) l ->
     within (Nat.max n 1 + length l) (val (fold_left (nadd A0) l a)) (y + Qsum (map val l))).
  { clear. induction l as [|x l IH]; intros n a y Ha Hk Hl; cbn [fold_left map length]; unfold Qsum; cbn [fold_right]; repeat match goal with |- context [fold_right Qplus 0 ?l] => change (fold_right Qplus 0 l) with (Qsum l) end.
    - eapply within_ext; [reflexivity| |eapply within_mono; [|exact Ha]]; [ring|lia].
    - inversion Hl as [|? ? Hx Hl']; subst. clear Hl.
      assert (HF : join_kind (kind_of a) (kind_of x) = KFloat -> within (Nat.max n 1 + 1) (val (nadd A0 a x)) (y + val x)).
      { intros E. unfold nadd, arith_op. rewrite E. simpl val. apply rnd64_within. apply within_add.
        - unfold to_float. destruct (kind_of a) eqn:Ea; try (rewrite (Hk ltac:(discriminate)) in *; apply (rnd64_within 0); auto). eapply within_mono; [|exact Ha]. lia.
        - unfold to_float. destruct (kind_of x) eqn:Ex.
          1,2: eapply within_mono; [|apply (rnd64_within 0)]; [lia|apply within_refl; [auto|reflexivity]].
          apply within_refl; [auto|reflexivity]. }
      assert (Hcase : (kind_of a <> KFloat /\ kind_of x <> KFloat) \/ join_kind (kind_of a) (kind_of x) = KFloat).
      { destruct (kind_of a), (kind_of x); simpl; auto; left; split; discriminate. }
      destruct Hcase as [[Ka Kx]|K].
      + destruct (nadd_exact a x Ka Kx) as [E1 E2]. rewrite (Hk Ka) in *.
        eapply within_ext; [reflexivity| |eapply within_mono; [|apply (IH 0%nat (nadd A0 a x) (y + val x))]]; auto.
        * ring.
        * rewrite E1. apply within_add; auto. apply within_refl; [auto|reflexivity].
      + specialize (HF K). destruct n as [|n].
        * (* the first float *)
          eapply within_ext; [reflexivity| |eapply within_mono; [|apply (IH 2%nat (nadd A0 a x) (y + val x))]]; auto.
          -- ring.
          -- intros Hne. exfalso. apply Hne. rewrite nadd_kind. auto.
        * eapply within_ext; [reflexivity| |eapply within_mono; [|apply (IH (S n + 1)%nat (nadd A0 a x) (y + val x))]]; auto.
          -- ring.
          -- lia.
          -- eapply within_mono; [|exact HF]. lia.
          -- intros Hne. exfalso. apply Hne. rewrite nadd_kind. auto. }
  intros Hl. eapply within_ext; [reflexivity| |eapply within_mono; [|apply (H l 0%nat (mkNum KInt 0) 0)]]; auto; simpl.
  - ring.
  - apply within_refl; [discriminate|reflexivity].
Qed.

Lemma round64_sub : forall x y, Qabs (round64 x - y) <= Qabs (x - y) + u * Qabs x.
Proof.
  intros. assert (E : round64 x - y == (round64 x - x) + (x - y)) by ring. rewrite E. eapply Qle_trans; [apply Qabs_triangle|].
  pose proof (round64_error x). fold u in H. lra.
Qed.
(** arbitrary summands *)
Lemma grow1 : grow 1 == G. Proof. change (grow 1) with (1 * G). ring. Qed.
Lemma sum64_error : forall l, Qabs (val (sum64 l) - Qsum (map val l)) <= (grow (S (length l)) - 1) * Qsum (map (fun x => Qabs (val x)) l).
Proof.
  intros l. unfold sum64. fold A0.
  assert (H : forall l n a y t, Qabs (val a - y) <= (grow n - 1) * t -> Qabs y <= t -> (kind_of a <> KFloat -> n = 0%nat) ->
     Qabs (val (fold_left (nadd A0) l a) - (y + Qsum (map val l))) <= (grow (Nat.max n 1 + length l) - 1) * (t + Qsum (map (fun x => Qabs (val x)) l))).
  { clear. induction l as [|x l IH]; intros n a y t Ha Hy Hk; cbn [fold_left map length]; unfold Qsum; cbn [fold_right]; repeat match goal with |- context [fold_right Qplus 0 ?l] => change (fold_right Qplus 0 l) with (Qsum l) end.
    - assert (Et : t + 0 == t) by ring. assert (Ey : val a - (y + 0) == val a - y) by ring. rewrite Et, Ey. eapply Qle_trans; [exact Ha|].
      apply Qmult_le_compat_r; [|pose proof (Qabs_nonneg y); lra]. pose proof (grow_mono n (Nat.max n 1 + 0) ltac:(lia)). lra.
    - assert (Ht : 0 <= t) by (pose proof (Qabs_nonneg y); lra). pose proof (Qabs_nonneg (val x)) as Hx0.
      assert (Hy' : Qabs (y + val x) <= t + Qabs (val x)) by (eapply Qle_trans; [apply Qabs_triangle|lra]).
      assert (Hcase : (kind_of a <> KFloat /\ kind_of x <> KFloat) \/ join_kind (kind_of a) (kind_of x) = KFloat).
      { destruct (kind_of a), (kind_of x); simpl; auto; left; split; discriminate. }
      assert (ES : forall z, z - (y + (val x + Qsum (map val l))) == z - (y + val x + Qsum (map val l))) by (intros; ring).
      assert (ET : t + (Qabs (val x) + Qsum (map (fun x => Qabs (val x)) l)) == t + Qabs (val x) + Qsum (map (fun x => Qabs (val x)) l)) by ring.
      assert (HT : 0 <= t + Qabs (val x) + Qsum (map (fun x => Qabs (val x)) l)).
      { assert (0 <= Qsum (map (fun x => Qabs (val x)) l)); [|lra]. clear. induction l as [|z l IH]; simpl; [lra|]. pose proof (Qabs_nonneg (val z)). lra. }
      rewrite ES, ET.
      destruct Hcase as [[Ka Kx]|K].
      + destruct (nadd_exact a x Ka Kx) as [E1 E2]. rewrite (Hk Ka) in *.
        eapply Qle_trans; [apply (IH 0%nat (nadd A0 a x) (y + val x) (t + Qabs (val x))); auto|].
        * assert (Ev : val (nadd A0 a x) - (y + val x) == val a - y) by (rewrite E1; ring). rewrite Ev. rewrite grow_0 in *. lra.
        * apply Qmult_le_compat_r; auto. pose proof (grow_mono (Nat.max 0 1 + length l) (Nat.max 0 1 + S (length l)) ltac:(lia)). lra.
      + (* a rounded addition *)
        set (mx := Nat.max n 1).
        assert (Hta : Qabs (to_float A0 a - y) <= (grow mx - 1) * t).
        { unfold to_float. destruct (kind_of a) eqn:Ea.
          1,2: rewrite (Hk ltac:(discriminate)) in *; rewrite grow_0 in Ha; assert (Ha' : Qabs (val a - y) <= 0) by lra;
            assert (Eq : val a == y) by (pose proof (Qabs_nonneg (val a - y)); assert (Q0 : Qabs (val a - y) == 0) by lra;
              apply Qabs_Qle_condition in Ha' as [? ?]; lra);
            simpl rnd; eapply Qle_trans; [apply round64_sub|]; rewrite Eq; pose proof (grow_mono 1 mx ltac:(lia)) as HN; rewrite grow1 in HN;
            assert (Z0 : Qabs (y - y) == 0) by (setoid_replace (y - y) with 0 by ring; reflexivity); rewrite Z0;
            pose proof G_ge; pose proof (Qabs_nonneg y); pose proof u_pos;
            apply Qle_trans with (u * t); [rewrite !(Qmult_comm u); assert (Qabs y * u <= t * u) by (apply Qmult_le_compat_r; lra); lra|];
            apply Qmult_le_compat_r; lra.
          eapply Qle_trans; [exact Ha|]. apply Qmult_le_compat_r; auto. pose proof (grow_mono n mx ltac:(lia)). lra. }
        assert (Htx : Qabs (to_float A0 x - val x) <= (grow mx - 1) * Qabs (val x)).
        { pose proof (grow_mono 1 mx ltac:(lia)) as HN. rewrite grow1 in HN. pose proof G_ge as HG.
          unfold to_float. destruct (kind_of x).
          1,2: simpl rnd; eapply Qle_trans; [apply round64_error|]; apply Qmult_le_compat_r; auto; lra.
          setoid_replace (val x - val x) with 0 by ring. change (Qabs 0) with 0. apply Qmult_le_0_compat; auto. pose proof u_pos. lra. }
        assert (Hs : Qabs (to_float A0 a + to_float A0 x - (y + val x)) <= (grow mx - 1) * (t + Qabs (val x))).
        { setoid_replace (to_float A0 a + to_float A0 x - (y + val x)) with ((to_float A0 a - y) + (to_float A0 x - val x)) by ring.
          eapply Qle_trans; [apply Qabs_triangle|]. lra. }
        assert (Hab : Qabs (to_float A0 a + to_float A0 x) <= grow mx * (t + Qabs (val x))).
        { setoid_replace (to_float A0 a + to_float A0 x) with ((to_float A0 a + to_float A0 x - (y + val x)) + (y + val x)) by ring.
          eapply Qle_trans; [apply Qabs_triangle|]. lra. }
        assert (Hr : Qabs (val (nadd A0 a x) - (y + val x)) <= (grow (mx + 1) - 1) * (t + Qabs (val x))).
        { unfold nadd, arith_op. rewrite K. simpl val. simpl rnd. eapply Qle_trans; [apply round64_sub|].
          assert (H1 : u * Qabs (to_float A0 a + to_float A0 x) <= u * (grow mx * (t + Qabs (val x)))) by (apply Qmult_le_l; [apply u_pos|auto]).
          rewrite grow_add, grow1. pose proof (grow_pos mx) as Hp. pose proof G_ge as HG.
          assert (H2 : grow mx * (1 + u) <= grow mx * G) by (apply Qmult_le_l; auto).
          assert (H3 : grow mx * (1 + u) * (t + Qabs (val x)) <= grow mx * G * (t + Qabs (val x))) by (apply Qmult_le_compat_r; [auto|lra]).
          lra. }
        eapply Qle_trans; [apply (IH (mx + 1)%nat (nadd A0 a x) (y + val x) (t + Qabs (val x))); auto|].
        * intros Hne. exfalso. apply Hne. rewrite nadd_kind. auto.
        * apply Qmult_le_compat_r; auto. pose proof (grow_mono (Nat.max (mx + 1) 1 + length l) (mx + S (length l)) ltac:(lia)). lra. }
  specialize (H l 0%nat (mkNum KInt 0) 0 0). simpl val in H. simpl Nat.max in H.
  assert (E1 : forall z, z - (0 + Qsum (map val l)) == z - Qsum (map val l)) by (intros; ring). rewrite E1 in H.
  assert (E2 : 0 + Qsum (map (fun x => Qabs (val x)) l) == Qsum (map (fun x => Qabs (val x)) l)) by ring. rewrite E2 in H. apply H.
  - discriminate.
  - discriminate.
  - auto.
Qed.

Lemma sum64_kind : forall l, kind_of (sum64 l) = KFloat -> round64 (val (sum64 l)) == val (sum64 l).
Proof.
  intros l. unfold sum64. fold A0.
  assert (H : forall l a, (kind_of a = KFloat -> round64 (val a) == val a) -> kind_of (fold_left (nadd A0) l a) = KFloat ->
    round64 (val (fold_left (nadd A0) l a)) == val (fold_left (nadd A0) l a)).
  { clear. induction l as [|x l IH]; intros a Ha Hk; simpl in *; [auto|]. apply IH; auto.
    intros K. unfold nadd, arith_op in *. destruct (join_kind (kind_of a) (kind_of x)); simpl in *; try discriminate. apply round64_idem. }
  apply H. discriminate.
Qed.

Theorem binary64_ok : float_ok binary64.
Proof.
  constructor.
  - apply round64_error.
  - apply round64_mono.
  - apply round64_idem.
  - intros n Hn. apply round64_Z. lia.
  - apply sum64_exact.
  - apply sum64_within.
  - apply sum64_error.
  - intros l _. apply sum64_kind.
Qed.
