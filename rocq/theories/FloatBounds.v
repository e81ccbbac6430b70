(** * Error bounds for Python's numbers (Floats.v) *)
From Coq Require Import List Arith Bool ZArith QArith Qabs Lia Lqa Setoid.
From Verif Require Import Prelude Misc MiscProofs Preferences Spec SpecSeq Floats SpecFloat.
Import ListNotations.
Open Scope nat_scope.
Local Open Scope Q_scope.

Notation u := unit_roundoff.
Definition G : Q := / (1 - u).
Lemma u_pos : 0 < u. Proof. reflexivity. Qed.
Lemma u_small : u <= 1 # 1000000000000000. Proof. discriminate. Qed.
Lemma G_eq : G * (1 - u) == 1. Proof. reflexivity. Qed.
Lemma G_pos : 0 < G. Proof. reflexivity. Qed.
Lemma G_ge : 1 + u <= G. Proof. discriminate. Qed.
Lemma G_ge1 : 1 <= G. Proof. discriminate. Qed.
Global Opaque G.
Lemma grow_S : forall n, grow (S n) = grow n * G. Proof. reflexivity. Qed.
Lemma grow_0 : grow 0 = 1. Proof. reflexivity. Qed.
Lemma grow_ge1 : forall n, 1 <= grow n.
Proof.
  induction n; [apply Qle_refl|]. rewrite grow_S. pose proof G_ge1. apply Qle_trans with (1 * 1); [lra|].
  apply Qmult_le_compat_nonneg; lra.
Qed.
Lemma grow_pos : forall n, 0 < grow n.
Proof. intros. pose proof (grow_ge1 n). lra. Qed.
Lemma grow_add : forall n m, grow (n + m) == grow n * grow m.
Proof.
  induction n; intros m; [rewrite grow_0; simpl Nat.add; lra|].
  simpl Nat.add. rewrite !grow_S, IHn. ring.
Qed.
Lemma grow_mono : forall n m, (n <= m)%nat -> grow n <= grow m.
Proof.
  intros n m H. replace m with (n + (m - n))%nat by lia. rewrite grow_add. pose proof (grow_ge1 (m - n)). pose proof (grow_pos n).
  rewrite <- (Qmult_1_r (grow n)) at 1. apply Qmult_le_l; auto.
Qed.
(** Bernoulli *)
Lemma grow_bound : forall n, grow n * (1 - Qnat n * u) <= 1.
Proof.
  induction n as [|n IH]; [vm_compute; discriminate|].
  rewrite grow_S. replace (Qnat (S n)) with (inject_Z (Z.of_nat (S n))) by reflexivity.
  assert (E : inject_Z (Z.of_nat (S n)) == Qnat n + 1). { unfold Qnat. rewrite Nat2Z.inj_succ, <- Z.add_1_r, inject_Z_plus. reflexivity. }
  rewrite E. pose proof (grow_pos n) as Hg. pose proof G_eq as HG. pose proof G_pos. pose proof u_pos as Hu.
  assert (Hn : 0 <= Qnat n). { unfold Qnat. change 0 with (inject_Z 0). rewrite <- Zle_Qle. lia. }
  (* (1 - (n+1)u) <= (1 - n u)(1 - u) *)
  assert (H1 : 1 - (Qnat n + 1) * u <= (1 - Qnat n * u) * (1 - u)).
  { assert (0 <= Qnat n * (u * u)) by (apply Qmult_le_0_compat; [auto|apply Qmult_le_0_compat; lra]). lra. }
  apply Qle_trans with (grow n * G * ((1 - Qnat n * u) * (1 - u))).
  - apply Qmult_le_l; auto. apply Qmult_lt_0_compat; auto.
  - setoid_replace (grow n * G * ((1 - Qnat n * u) * (1 - u))) with (grow n * (1 - Qnat n * u) * (G * (1 - u))) by ring.
    rewrite HG. lra.
Qed.
Lemma grow_le : forall n N, (Z.of_nat n <= N)%Z -> (0 < 1 - inject_Z N * u) -> grow n <= / (1 - inject_Z N * u).
Proof.
  intros n N H HN. pose proof (grow_bound n) as Hb. apply Qmult_le_r with (1 - inject_Z N * u); auto.
  rewrite (Qmult_comm (/ _)), Qmult_inv_r by lra. apply Qle_trans with (grow n * (1 - Qnat n * u)); auto.
  apply Qmult_le_l; [apply grow_pos|]. assert (Hn : Qnat n <= inject_Z N) by (unfold Qnat; rewrite <- Zle_Qle; auto).
  assert (Qnat n * u <= inject_Z N * u) by (apply Qmult_le_compat_r; [auto|discriminate]). lra.
Qed.

Lemma within_nonneg : forall n a x, within n a x -> 0 <= a.
Proof.
  intros n a x (H & H1 & H2). pose proof (grow_pos n) as Hg. apply Qnot_lt_le. intros Ha.
  assert (a * grow n < 0). { setoid_replace 0 with (0 * grow n) by ring. apply Qmult_lt_r; auto. } lra.
Qed.
Lemma within_refl : forall n a x, 0 <= x -> a == x -> within n a x.
Proof.
  intros n a x H E. pose proof (grow_ge1 n). split; auto. rewrite E.
  assert (x * 1 <= x * grow n) by (rewrite Qmult_comm, (Qmult_comm x (grow n)); apply Qmult_le_compat_r; auto). lra.
Qed.
Lemma within_ext : forall n a b x y, a == b -> x == y -> within n a x -> within n b y.
Proof. intros n a b x y E F (H & H1 & H2). unfold within. rewrite <- E, <- F. auto. Qed.
Lemma within_sym : forall n a x, within n a x -> within n x a.
Proof. intros n a x H. pose proof (within_nonneg _ _ _ H). destruct H as (A & B & C). split; auto. Qed.
Lemma within_trans : forall n m a b c, within n a b -> within m b c -> within (n + m) a c.
Proof.
  intros n m a b c (A & B & C) (D & E & F). pose proof (grow_pos n). pose proof (grow_pos m). split; auto. rewrite grow_add. split.
  - apply Qle_trans with (b * grow m); auto. rewrite Qmult_assoc. apply Qmult_le_compat_r; auto. apply Qlt_le_weak; auto.
  - apply Qle_trans with (b * grow n); auto. rewrite (Qmult_comm (grow n)), Qmult_assoc. apply Qmult_le_compat_r; auto. apply Qlt_le_weak; auto.
Qed.
Lemma within_mono : forall n m a x, (n <= m)%nat -> within n a x -> within m a x.
Proof.
  intros n m a x H W. replace m with (n + (m - n))%nat by lia. apply within_trans with x; auto.
  apply within_refl; [apply W|reflexivity].
Qed.
Lemma within_add : forall n a b x y, within n a x -> within n b y -> within n (a + b) (x + y).
Proof. intros n a b x y (A & B & C) (D & E & F). split; [lra|]. rewrite !Qmult_plus_distr_l. lra. Qed.
Lemma within_mul : forall n m a b x y, within n a x -> within m b y -> within (n + m) (a * b) (x * y).
Proof.
  intros n m a b x y Ha Hb. pose proof (within_nonneg _ _ _ Ha). pose proof (within_nonneg _ _ _ Hb).
  destruct Ha as (A & B & C), Hb as (D & E & F). pose proof (grow_pos n). pose proof (grow_pos m).
  split; [apply Qmult_le_0_compat; auto|]. rewrite grow_add. split.
  - setoid_replace (a * b * (grow n * grow m)) with ((a * grow n) * (b * grow m)) by ring. apply Qmult_le_compat_nonneg; auto.
  - setoid_replace (x * y * (grow n * grow m)) with ((x * grow n) * (y * grow m)) by ring. apply Qmult_le_compat_nonneg; auto.
Qed.
Lemma within_pos : forall n a x, within n a x -> 0 < x -> 0 < a.
Proof.
  intros n a x (A & B & C) Hx. pose proof (grow_pos n). apply Qnot_le_lt. intros Ha.
  assert (a * grow n <= 0 * grow n) by (apply Qmult_le_compat_r; lra). lra.
Qed.
Lemma within_inv : forall n a x, within n a x -> 0 < x -> within n (/ a) (/ x).
Proof.
  intros n a x H Hx. pose proof (within_pos _ _ _ H Hx) as Ha. destruct H as (A & B & C). pose proof (grow_pos n).
  split; [apply Qlt_le_weak, Qinv_lt_0_compat; auto|]. split.
  - apply Qmult_le_r with (a * x); [apply Qmult_lt_0_compat; auto|].
    setoid_replace (/ x * (a * x)) with (a * (/ x * x)) by ring. setoid_replace (/ a * grow n * (a * x)) with (x * grow n * (/ a * a)) by ring.
    rewrite !(Qmult_comm (/ _)), !Qmult_inv_r by lra. lra.
  - apply Qmult_le_r with (a * x); [apply Qmult_lt_0_compat; auto|].
    setoid_replace (/ a * (a * x)) with (x * (/ a * a)) by ring. setoid_replace (/ x * grow n * (a * x)) with (a * grow n * (/ x * x)) by ring.
    rewrite !(Qmult_comm (/ _)), !Qmult_inv_r by lra. lra.
Qed.
Lemma within_div : forall n m a b x y, within n a x -> within m b y -> 0 < y -> within (n + m) (a / b) (x / y).
Proof. intros. unfold Qdiv. apply within_mul; auto. apply within_inv; auto. Qed.
Lemma within_sum : forall (X : Type) n (f g : X -> Q) l, (forall i, In i l -> within n (f i) (g i)) -> within n (Qsum (map f l)) (Qsum (map g l)).
Proof.
  intros X n f g l. induction l as [|i l IH]; intros H; simpl.
  - apply within_refl; [apply Qle_refl|reflexivity].
  - apply within_add; [apply H; left; auto|apply IH; intros; apply H; right; auto].
Qed.

Section Ops.
  Variable A : arith.
  Hypothesis HA : float_ok A.

  Lemma rnd_bounds : forall x, 0 <= x -> x * (1 - u) <= rnd A x /\ rnd A x <= x * (1 + u).
  Proof using HA.
    intros x Hx. pose proof (rounding_error A HA x) as H. rewrite (Qabs_pos x) in H by auto.
    apply Qabs_diff_Qle_condition in H as [H1 H2] || apply Qabs_Qle_condition in H as [H1 H2]. lra.
  Qed.
  Lemma rnd_within : forall x, 0 <= x -> within 1 (rnd A x) x.
  Proof using HA.
    intros x Hx. destruct (rnd_bounds x Hx) as [H1 H2]. pose proof G_eq. pose proof G_ge. pose proof G_pos. pose proof u_pos. split; auto.
    change (grow 1) with (1 * G). split.
    - apply Qle_trans with (x * (1 - u) * (1 * G)).
      + setoid_replace (x * (1 - u) * (1 * G)) with (x * (G * (1 - u))) by ring. rewrite H. lra.
      + apply Qmult_le_compat_r; [auto|lra].
    - apply Qle_trans with (x * (1 + u)); auto. rewrite Qmult_comm, (Qmult_comm x). apply Qmult_le_compat_r; [lra|auto].
  Qed.
  Lemma to_float_within : forall x, 0 <= val x -> within 1 (to_float A x) (val x).
  Proof using HA.
    intros x Hx. unfold to_float. destruct (kind_of x); try (apply rnd_within; auto). apply within_refl; [auto|reflexivity].
  Qed.
  Lemma arith_add : forall n a b x y, within n (val a) x -> within n (val b) y -> within (n + 2) (val (nadd A a b)) (x + y).
  Proof using HA.
    intros n a b x y Ha Hb. pose proof (within_nonneg _ _ _ Ha). pose proof (within_nonneg _ _ _ Hb).
    unfold nadd, arith_op. destruct (join_kind (kind_of a) (kind_of b)); simpl.
    1,2: apply within_mono with n; [lia|]; apply within_add; auto.
    replace (n + 2)%nat with (1 + (n + 1))%nat by lia. apply within_trans with (to_float A a + to_float A b).
    - apply rnd_within. pose proof (within_nonneg _ _ _ (to_float_within a H)). pose proof (within_nonneg _ _ _ (to_float_within b H0)). lra.
    - replace (n + 1)%nat with (1 + n)%nat by lia. apply within_add; (eapply within_trans; [apply to_float_within; auto|auto]).
  Qed.
  Lemma arith_mul : forall n m a b x y, within n (val a) x -> within m (val b) y -> within (n + m + 3) (val (nmul A a b)) (x * y).
  Proof using HA.
    intros n m a b x y Ha Hb. pose proof (within_nonneg _ _ _ Ha). pose proof (within_nonneg _ _ _ Hb).
    unfold nmul, arith_op. destruct (join_kind (kind_of a) (kind_of b)); simpl.
    1,2: apply within_mono with (n + m)%nat; [lia|]; apply within_mul; auto.
    replace (n + m + 3)%nat with (1 + ((1 + n) + (1 + m)))%nat by lia. apply within_trans with (to_float A a * to_float A b).
    - apply rnd_within. apply Qmult_le_0_compat; [apply (within_nonneg _ _ _ (to_float_within a H))|apply (within_nonneg _ _ _ (to_float_within b H0))].
    - apply within_mul; (eapply within_trans; [apply to_float_within; auto|auto]).
  Qed.
  Lemma arith_div : forall n m a b x y, within n (val a) x -> within m (val b) y -> 0 < y -> within (n + m + 3) (val (ndiv A a b)) (x / y).
  Proof using HA.
    intros n m a b x y Ha Hb Hy. pose proof (within_nonneg _ _ _ Ha). pose proof (within_nonneg _ _ _ Hb) as H0. pose proof (within_pos _ _ _ Hb Hy) as Hb0.
    assert (Hop : within (n + m + 3) (val (arith_op A Qdiv a b)) (x / y)).
    { unfold arith_op. destruct (join_kind (kind_of a) (kind_of b)); simpl.
      1,2: apply within_mono with (n + m)%nat; [lia|]; apply within_div; auto.
      replace (n + m + 3)%nat with (1 + ((1 + n) + (1 + m)))%nat by lia. apply within_trans with (to_float A a / to_float A b).
      - apply rnd_within. apply Qmult_le_0_compat; [apply (within_nonneg _ _ _ (to_float_within a H))|].
        apply Qlt_le_weak, Qinv_lt_0_compat. eapply within_pos; [apply to_float_within|]; auto.
      - apply within_div; auto; (eapply within_trans; [apply to_float_within; auto|auto]). }
    unfold ndiv. destruct (kind_of a), (kind_of b); auto. simpl.
    apply within_mono with (1 + (n + m))%nat; [lia|]. eapply within_trans; [|apply within_div; eauto]. apply rnd_within.
    apply Qmult_le_0_compat; auto. apply Qlt_le_weak, Qinv_lt_0_compat; auto.
  Qed.
  Lemma arith_sum : forall (X : Type) n (f : X -> num) (g : X -> Q) l, (forall i, In i l -> within n (val (f i)) (g i)) ->
    within (n + S (length l)) (val (nsum A (map f l))) (Qsum (map g l)).
  Proof using HA.
    intros X n f g l H. replace (n + S (length l))%nat with (S (length (map f l)) + n)%nat by (rewrite map_length; lia).
    apply within_trans with (Qsum (map val (map f l))).
    - apply sum_within; auto. apply Forall_forall. intros y Hy. apply in_map_iff in Hy as (i & <- & Hi). eapply within_nonneg; eauto.
    - rewrite map_map. apply within_sum. auto.
  Qed.

  (** ** [isclose] *)
  Definition tol : Q := 1 # 1000000000000.
  Lemma TOL_within : within 1 (TOLERANCE A) tol.
  Proof using HA. apply rnd_within. discriminate. Qed.
  Lemma TOL_pos : 0 < TOLERANCE A.
  Proof using HA. eapply within_pos; [apply TOL_within|reflexivity]. Qed.
  Lemma rnd_abs : forall x, (1 - u) * Qabs x <= Qabs (rnd A x) /\ Qabs (rnd A x) <= (1 + u) * Qabs x.
  Proof using HA.
    intros x. pose proof (rounding_error A HA x) as H.
    pose proof (Qabs_triangle_reverse x (x - rnd A x)) as T1. pose proof (Qabs_triangle (rnd A x - x) x) as T2.
    setoid_replace (x - (x - rnd A x)) with (rnd A x) in T1 by ring. setoid_replace (rnd A x - x + x) with (rnd A x) in T2 by ring.
    rewrite (Qabs_Qminus x (rnd A x)) in T1. lra.
  Qed.
  (** numbers that differ only by rounding are close *)
  Lemma close_intro : forall n x y, (Z.of_nat n <= 8800)%Z -> within n (val x) (val y) -> isclose A x y = true.
  Proof using HA.
    intros n x y Hn H. pose proof (within_nonneg _ _ _ H) as Hx. assert (Hy : 0 <= val y) by apply H.
    assert (Ha := to_float_within x Hx). assert (Hb := to_float_within y Hy).
    assert (Hab : within (1 + (n + 1)) (to_float A x) (to_float A y)).
    { apply within_trans with (val x); auto. apply within_trans with (val y); auto. apply within_sym; auto. }
    unfold isclose. cbv zeta. set (a := to_float A x) in *. set (b := to_float A y) in *. clearbody a b.
    destruct (Qeq_bool a b) eqn:E; auto.
    assert (Hgoal : Qle_bool (Qabs (rnd A (b - a))) (Qabs (rnd A (TOLERANCE A * b))) = true).
    2:{ rewrite Hgoal. reflexivity. }
    apply Qle_bool_iff. pose proof (rnd_abs (b - a)) as [_ R1]. pose proof (rnd_abs (TOLERANCE A * b)) as [R2 _].
    destruct Hab as (Hb0 & H1 & H2). pose proof (within_nonneg _ _ _ Ha) as Ha0.
    assert (Hg : grow (1 + (n + 1)) <= / (1 - inject_Z 8802 * u)) by (apply grow_le; [lia|reflexivity]).
    set (g := grow (1 + (n + 1))) in *. clearbody g.
    assert (Hg' : / (1 - inject_Z 8802 * u) <= 1 + (9773 # 10000000000000000)) by discriminate.
    set (e := 9773 # 10000000000000000) in *.
    assert (Hge : g <= 1 + e) by (eapply Qle_trans; eauto). clear Hg Hg'.
    (* |b - a| <= e * b *)
    assert (Hd : Qabs (b - a) <= e * b).
    { apply Qabs_Qle_condition. split.
      - assert (b * g <= b * (1 + e)) by (rewrite !(Qmult_comm b); apply Qmult_le_compat_r; auto). lra.
      - assert (a * g <= a * (1 + e)) by (rewrite !(Qmult_comm a); apply Qmult_le_compat_r; auto).
        destruct (Qlt_le_dec b a); [|assert (a * e <= b * e) by (apply Qmult_le_compat_r; [auto|discriminate]); lra].
        assert (0 <= e * b) by (apply Qmult_le_0_compat; [discriminate|auto]). lra. }
    rewrite (Qabs_pos (TOLERANCE A * b)) in R2 by (apply Qmult_le_0_compat; [apply Qlt_le_weak, TOL_pos|auto]).
    assert (HT : tol * (1 - u) <= TOLERANCE A) by (apply rnd_bounds; discriminate).
    assert (R3 : (1 - u) * (tol * (1 - u) * b) <= (1 - u) * (TOLERANCE A * b)).
    { apply Qmult_le_l; [reflexivity|]. apply Qmult_le_compat_r; auto. }
    assert (R4 : (1 + u) * Qabs (b - a) <= (1 + u) * (e * b)) by (apply Qmult_le_l; [reflexivity|auto]).
    assert (R5 : (1 + u) * e * b <= (1 - u) * (tol * (1 - u)) * b) by (apply Qmult_le_compat_r; [discriminate|auto]).
    lra.
  Qed.
  (** close numbers are close *)
  Definition margin : Q := 101 # 100000000000000.
  Lemma close_elim : forall x y, 0 <= val x -> 0 <= val y -> isclose A x y = true -> val x <= (1 + margin) * val y + margin.
  Proof using HA.
    intros x y Hx Hy. assert (Ha := to_float_within x Hx). assert (Hb := to_float_within y Hy). unfold isclose. cbv zeta.
    pose proof (within_nonneg _ _ _ Ha) as Ha0. pose proof (within_nonneg _ _ _ Hb) as Hb0.
    set (a := to_float A x) in *. set (b := to_float A y) in *. clearbody a b. intros H.
    assert (HT : TOLERANCE A <= tol * (1 + u)) by (apply rnd_bounds; discriminate).
    pose proof TOL_pos as HT0.
    set (t := 10001 # 10000000000000000).
    assert (Hd : a <= (1 + t) * b + t).
    { destruct (Qeq_bool a b) eqn:E.
      { apply Qeq_bool_iff in E. rewrite E. assert (0 <= t * b) by (apply Qmult_le_0_compat; [discriminate|auto]). assert (0 <= t) by discriminate. lra. }
      pose proof (rnd_abs (b - a)) as [R1 _].
      assert (Hab : a <= b + Qabs (b - a)). { pose proof (Qle_Qabs (- (b - a))) as Q1. rewrite Qabs_opp in Q1. lra. }
      assert (Hbb : 0 <= t * b) by (apply Qmult_le_0_compat; [discriminate|auto]).
      assert (Hcase : forall z, 0 <= z -> Qabs (rnd A (b - a)) <= Qabs (rnd A (TOLERANCE A * z)) -> Qabs (b - a) <= (100005 # 100000000000000000) * z).
      { intros z Hz Hle. pose proof (rnd_abs (TOLERANCE A * z)) as [_ R2].
        rewrite (Qabs_pos (TOLERANCE A * z)) in R2 by (apply Qmult_le_0_compat; [apply Qlt_le_weak; auto|auto]).
        assert (R3 : TOLERANCE A * z <= tol * (1 + u) * z) by (apply Qmult_le_compat_r; auto).
        assert (R4 : (1 + u) * (TOLERANCE A * z) <= (1 + u) * (tol * (1 + u) * z)) by (apply Qmult_le_l; [reflexivity|auto]).
        assert (R5 : (1 + u) * (tol * (1 + u)) * z <= (1 - u) * (100005 # 100000000000000000) * z) by (apply Qmult_le_compat_r; [discriminate|auto]).
        apply Qmult_le_l with (1 - u); [reflexivity|]. lra. }
      apply orb_true_iff in H as [H|H]; [apply orb_true_iff in H as [H|H]|]; apply Qle_bool_iff in H.
      - specialize (Hcase b Hb0 H). assert ((100005 # 100000000000000000) * b <= t * b) by (apply Qmult_le_compat_r; [discriminate|auto]).
        assert (0 <= t) by discriminate. lra.
      - specialize (Hcase a Ha0 H).
        assert (H3 : a * (1 - (100005 # 100000000000000000)) <= b) by lra.
        assert (H4 : a * 1 <= a * ((1 - (100005 # 100000000000000000)) * (1 + t))).
        { rewrite !(Qmult_comm a). apply Qmult_le_compat_r; [discriminate|auto]. }
        assert (H5 : a * (1 - (100005 # 100000000000000000)) * (1 + t) <= b * (1 + t)) by (apply Qmult_le_compat_r; [auto|discriminate]).
        assert (0 <= t) by discriminate. lra.
      - assert (R3 : (1 - u) * Qabs (b - a) <= tol * (1 + u)) by lra.
        assert (R4 : tol * (1 + u) <= (1 - u) * t) by discriminate.
        assert (Qabs (b - a) <= t) by (apply Qmult_le_l with (1 - u); [reflexivity|lra]). lra. }
    (* back to the values *)
    destruct Ha as (_ & A1 & A2), Hb as (_ & B1 & B2).
    assert (Hg : grow 1 <= 1 + (112 # 1000000000000000000)) by discriminate. pose proof (grow_pos 1) as Hg0.
    set (g := grow 1) in *. clearbody g. set (e := 112 # 1000000000000000000) in *.
    assert (H1 : val x <= a * (1 + e)) by (apply Qle_trans with (a * g); [destruct (Qlt_le_dec 0 a); lra|rewrite !(Qmult_comm a); apply Qmult_le_compat_r; auto]).
    assert (H2 : b <= val y * (1 + e)) by (apply Qle_trans with (val y * g); [auto|rewrite !(Qmult_comm (val y)); apply Qmult_le_compat_r; auto]).
    assert (H3 : (1 + t) * b <= (1 + t) * (val y * (1 + e))) by (apply Qmult_le_l; [reflexivity|auto]).
    assert (H4 : a * (1 + e) <= ((1 + t) * (val y * (1 + e)) + t) * (1 + e)) by (apply Qmult_le_compat_r; [lra|discriminate]).
    assert (H5 : (1 + t) * (1 + e) * (1 + e) * val y <= (1 + margin) * val y) by (apply Qmult_le_compat_r; [discriminate|auto]).
    assert (H6 : t * (1 + e) <= margin) by discriminate.
    lra.
  Qed.
End Ops.
