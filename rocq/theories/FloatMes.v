(** * The Method of Equal Shares with floats and Phragmén completion: the computed budgets and loads stay in a range in which
    every choice is a candidate outside the committee *)
From Coq Require Import String.
From Coq Require Import List Arith Bool ZArith QArith Qabs Lia Lqa Permutation Sorted.
From Verif Require Import Prelude Misc MiscProofs Preferences Scores Spec ScoresProofs Search RulesThiele
  Common ThieleProofs SpecRules SpecSeq RulesSeq SeqProofs PhragmenProofs Floats RulesFloat FloatSearch FloatStruct SpecFloat FloatBounds FloatPhragmen.
Import ListNotations.
Open Scope nat_scope.
Local Open Scope Q_scope.

(** ** relative errors of numbers of any sign *)
Definition rel (e a x : Q) : Prop := exists t, Qabs t <= e /\ a == x * (1 + t).
Lemma rel_abs : forall e a x, rel e a x -> Qabs (a - x) <= e * Qabs x.
Proof.
  intros e a x (t & Ht & E). setoid_replace (a - x) with (t * x) by (rewrite E; ring). rewrite Qabs_Qmult.
  apply Qmult_le_compat_r; [auto|apply Qabs_nonneg].
Qed.
Lemma rel_of_abs : forall e a x, 0 <= e -> Qabs (a - x) <= e * Qabs x -> rel e a x.
Proof.
  intros e a x He H. destruct (Qeq_dec x 0) as [Ez|Ez].
  - exists 0. split; [exact He|]. rewrite Ez in *. change (Qabs 0) with 0 in H.
    assert (H' : Qabs (a - 0) <= 0) by lra. apply Qabs_Qle_condition in H' as [? ?]. lra.
  - exists ((a - x) / x). split.
    + unfold Qdiv. rewrite Qabs_Qmult.
      assert (Hp : 0 < Qabs x). { destruct (Qlt_le_dec 0 (Qabs x)); auto. exfalso. apply Ez. apply Qabs_Qle_condition in q as [? ?]. lra. }
      assert (Ei : Qabs (/ x) == / Qabs x).
      { assert (E1 : Qabs (/ x) * Qabs x == 1) by (rewrite <- Qabs_Qmult, Qmult_comm, Qmult_inv_r by auto; reflexivity).
        apply (Qmult_inj_r _ _ (Qabs x)); [lra|]. rewrite E1, Qmult_comm, Qmult_inv_r; [reflexivity|lra]. }
      rewrite Ei. apply Qle_shift_div_r; auto.
    + field. auto.
Qed.
Lemma rel_refl : forall e x, 0 <= e -> rel e x x.
Proof. intros e x He. exists 0. split; [exact He|ring]. Qed.
Lemma rel_mono : forall e e' a x, e <= e' -> rel e a x -> rel e' a x.
Proof. intros e e' a x He (t & Ht & E). exists t. split; [lra|auto]. Qed.
Lemma rel_mul2 : forall t1 t2 e1 e2, Qabs t1 <= e1 -> Qabs t2 <= e2 -> Qabs (t1 + t2 + t1 * t2) <= e1 + e2 + e1 * e2.
Proof.
  intros t1 t2 e1 e2 H1 H2. eapply Qle_trans; [apply Qabs_triangle|]. rewrite Qabs_Qmult.
  assert (Qabs (t1 + t2) <= e1 + e2) by (eapply Qle_trans; [apply Qabs_triangle|lra]).
  pose proof (Qabs_nonneg t1). pose proof (Qabs_nonneg t2).
  assert (Qabs t1 * Qabs t2 <= e1 * e2) by (apply Qmult_le_compat_nonneg; lra). lra.
Qed.
Lemma rel_trans : forall e1 e2 a b c, rel e1 a b -> rel e2 b c -> rel (e1 + e2 + e1 * e2) a c.
Proof.
  intros e1 e2 a b c (t1 & H1 & E1) (t2 & H2 & E2). exists (t1 + t2 + t1 * t2). split; [apply rel_mul2; auto|]. rewrite E1, E2. ring.
Qed.
Lemma rel_mult : forall e1 e2 a b x y, rel e1 a x -> rel e2 b y -> rel (e1 + e2 + e1 * e2) (a * b) (x * y).
Proof.
  intros e1 e2 a b x y (t1 & H1 & E1) (t2 & H2 & E2). exists (t1 + t2 + t1 * t2). split; [apply rel_mul2; auto|]. rewrite E1, E2. ring.
Qed.
Lemma rel_inv : forall e a x, e < 1 -> 0 < x -> rel e a x -> rel (e / (1 - e)) (/ a) (/ x).
Proof.
  intros e a x He Hx (t & Ht & E). apply Qabs_Qle_condition in Ht as Ht'. destruct Ht' as [T1 T2]. assert (H0 : 0 <= e) by lra.
  exists (- t / (1 + t)). split.
  - apply Qabs_Qle_condition. assert (P1 : 0 < 1 - e) by lra. assert (P2 : 0 < 1 + t) by lra.
    assert (K : e <= e / (1 - e)). { apply Qle_shift_div_l; auto. assert (0 <= e * e) by (apply Qmult_le_0_compat; auto). lra. }
    assert (K2 : e / (1 - e) * (1 - e) == e) by (field; lra).
    assert (K3 : e / (1 - e) * (1 - e) <= e / (1 - e) * (1 + t)).
    { rewrite !(Qmult_comm (e / (1 - e))). apply Qmult_le_compat_r; lra. }
    split; [apply Qle_shift_div_l; auto|apply Qle_shift_div_r; auto]; lra.
  - rewrite E. field. split; lra.
Qed.
Lemma rel_sign : forall e a x, e < 1 -> rel e a x -> x <= 0 -> a <= 0.
Proof.
  intros e a x He (t & Ht & E) Hx. apply Qabs_Qle_condition in Ht as [T1 T2]. rewrite E.
  assert (0 <= (- x) * (1 + t)) by (apply Qmult_le_0_compat; lra). lra.
Qed.
Lemma rel_upper : forall e a x, rel e a x -> 0 <= x -> a <= x * (1 + e).
Proof.
  intros e a x (t & Ht & E) Hx. apply Qabs_Qle_condition in Ht as [T1 T2]. rewrite E. rewrite !(Qmult_comm x). apply Qmult_le_compat_r; lra.
Qed.

Definition eps : Q := 1 # 1000000000000000.
Section Ops.
  Variable A : arith.
  Hypothesis HA : float_ok A.
  Lemma rnd_rel : forall x, rel u (rnd A x) x.
  Proof using HA. intros x. apply rel_of_abs; [discriminate|]. apply (rounding_error A HA). Qed.
  Lemma tf_rel : forall x, rel u (to_float A x) (val x).
  Proof using HA. intros x. unfold to_float. destruct (kind_of x); try apply rnd_rel. apply rel_refl. discriminate. Qed.
  Lemma mul_rel : forall a b, rel eps (val (nmul A a b)) (val a * val b).
  Proof using HA.
    intros a b. unfold nmul, arith_op. destruct (join_kind (kind_of a) (kind_of b)); simpl val; try (apply rel_refl; discriminate).
    eapply rel_mono; [|eapply rel_trans; [apply rnd_rel|apply rel_mult; apply tf_rel]]. discriminate.
  Qed.
  Lemma div_rel : forall a b, 0 < val b -> rel eps (val (ndiv A a b)) (val a / val b).
  Proof using HA.
    intros a b Hb.
    assert (HF : rel eps (rnd A (to_float A a / to_float A b)) (val a / val b)).
    { eapply rel_mono; [|eapply rel_trans; [apply rnd_rel|apply rel_mult; [apply tf_rel|apply rel_inv; [|auto|apply tf_rel]]]].
      - apply Qle_bool_iff. vm_compute. reflexivity.
      - reflexivity. }
    unfold ndiv, arith_op. destruct (kind_of a), (kind_of b); simpl; auto; try (apply rel_refl; discriminate).
    eapply rel_mono; [|apply rnd_rel]. discriminate.
  Qed.
  Lemma add_op_err : forall (f : Q -> Q -> Q), (forall x y x' y', Qabs (f x y - f x' y') <= Qabs (x - x') + Qabs (y - y')) ->
    (forall x y, Qabs (f x y) <= Qabs x + Qabs y) ->
    forall a b, Qabs (val (arith_op A f a b) - f (val a) (val b)) <= eps * (Qabs (val a) + Qabs (val b)).
  Proof using HA.
    intros f Hf Hf2 a b. pose proof (Qabs_nonneg (val a)) as Ha. pose proof (Qabs_nonneg (val b)) as Hb.
    assert (Hs0 : 0 <= eps * (Qabs (val a) + Qabs (val b))) by (apply Qmult_le_0_compat; [discriminate|lra]).
    assert (HF : Qabs (rnd A (f (to_float A a) (to_float A b)) - f (val a) (val b)) <= eps * (Qabs (val a) + Qabs (val b))).
    { pose proof (rel_abs _ _ _ (tf_rel a)) as H1. pose proof (rel_abs _ _ _ (tf_rel b)) as H2.
      set (x := to_float A a) in *. set (y := to_float A b) in *.
      assert (Hx : Qabs x <= (1 + u) * Qabs (val a)).
      { setoid_replace x with ((x - val a) + val a) by ring. eapply Qle_trans; [apply Qabs_triangle|]. lra. }
      assert (Hy : Qabs y <= (1 + u) * Qabs (val b)).
      { setoid_replace y with ((y - val b) + val b) by ring. eapply Qle_trans; [apply Qabs_triangle|]. lra. }
      setoid_replace (rnd A (f x y) - f (val a) (val b)) with ((rnd A (f x y) - f x y) + (f x y - f (val a) (val b))) by ring.
      eapply Qle_trans; [apply Qabs_triangle|]. pose proof (rounding_error A HA (f x y)) as H3. pose proof (Hf x y (val a) (val b)) as H4. pose proof (Hf2 x y) as H5.
      assert (H6 : u * Qabs (f x y) <= u * ((1 + u) * (Qabs (val a) + Qabs (val b)))) by (apply Qmult_le_l; [reflexivity|lra]).
      assert (H7 : (u * (1 + u) + u) * (Qabs (val a) + Qabs (val b)) <= eps * (Qabs (val a) + Qabs (val b))) by (apply Qmult_le_compat_r; [discriminate|lra]).
      lra. }
    unfold arith_op. destruct (join_kind (kind_of a) (kind_of b)); simpl val; auto.
    1,2: setoid_replace (f (val a) (val b) - f (val a) (val b)) with 0 by ring; exact Hs0.
  Qed.
  Lemma add_err : forall a b, Qabs (val (nadd A a b) - (val a + val b)) <= eps * (Qabs (val a) + Qabs (val b)).
  Proof using HA.
    intros a b. apply (add_op_err Qplus).
    - intros. setoid_replace (x + y - (x' + y')) with ((x - x') + (y - y')) by ring. apply Qabs_triangle.
    - intros. apply Qabs_triangle.
  Qed.
  Lemma sub_err : forall a b, Qabs (val (nsub A a b) - (val a - val b)) <= eps * (Qabs (val a) + Qabs (val b)).
  Proof using HA.
    intros a b. apply (add_op_err Qminus).
    - intros. setoid_replace (x - y - (x' - y')) with ((x - x') + - (y - y')) by ring. eapply Qle_trans; [apply Qabs_triangle|]. rewrite Qabs_opp. lra.
    - intros. unfold Qminus. eapply Qle_trans; [apply Qabs_triangle|]. rewrite Qabs_opp. lra.
  Qed.
  Lemma rnd_nonneg : forall x, 0 <= x -> 0 <= rnd A x.
  Proof using HA. intros x Hx. pose proof (rnd_bounds A HA x Hx) as [H _]. assert (0 <= x * (1 - u)) by (apply Qmult_le_0_compat; [auto|discriminate]). lra. Qed.

  (** floats are fixed by rounding *)
  Definition wfn (x : num) : Prop := kind_of x = KFloat -> rnd A (val x) == val x.
  Lemma arith_op_wfn : forall f a b, wfn (arith_op A f a b).
  Proof using HA.
    intros f a b. unfold wfn, arith_op. destruct (join_kind (kind_of a) (kind_of b)); simpl; try discriminate. intros _. apply (rounding_idempotent A HA).
  Qed.
  Lemma ndiv_wfn : forall a b, wfn (ndiv A a b).
  Proof using HA.
    intros a b. unfold ndiv. destruct (kind_of a), (kind_of b); try apply arith_op_wfn. unfold wfn. simpl. intros _. apply (rounding_idempotent A HA).
  Qed.
  Lemma to_float_mono : forall a b, wfn a -> wfn b -> val a <= val b -> to_float A a <= to_float A b.
  Proof using HA.
    intros a b Ha Hb H. unfold wfn, to_float in *. pose proof (rounding_monotone A HA _ _ H) as HM.
    destruct (kind_of a), (kind_of b); auto; try (rewrite <- (Hb eq_refl); auto); try (rewrite <- (Ha eq_refl); auto).
    all: try (rewrite <- (Ha eq_refl), <- (Hb eq_refl); auto).
  Qed.
  Lemma nsub_nonneg : forall a b, wfn a -> wfn b -> val b <= val a -> 0 <= val (nsub A a b).
  Proof using HA.
    intros a b Ha Hb H. pose proof (to_float_mono b a Hb Ha H) as HM. unfold nsub, arith_op.
    destruct (join_kind (kind_of a) (kind_of b)); simpl val; try lra. apply rnd_nonneg. lra.
  Qed.
  (** close numbers, of any sign *)
  Lemma close_abs : forall x y, isclose A x y = true -> Qabs (val x - val y) <= (1 # 500000000000) * (1 + Qabs (val x) + Qabs (val y)).
  Proof using HA.
    intros x y H. pose proof (rel_abs _ _ _ (tf_rel x)) as H1. pose proof (rel_abs _ _ _ (tf_rel y)) as H2. unfold isclose in H. cbv zeta in H.
    set (a := to_float A x) in *. set (b := to_float A y) in *. clearbody a b.
    assert (HT : TOLERANCE A <= tol * (1 + u)) by (apply (rnd_bounds A HA); discriminate).
    pose proof (TOL_pos A HA) as HT0. pose proof (Qabs_nonneg (val x)) as Nx. pose proof (Qabs_nonneg (val y)) as Ny.
    pose proof (Qabs_nonneg a) as Na. pose proof (Qabs_nonneg b) as Nb.
    assert (Hx : Qabs a <= (1 + u) * Qabs (val x)).
    { setoid_replace a with ((a - val x) + val x) by ring. eapply Qle_trans; [apply Qabs_triangle|]. lra. }
    assert (Hy : Qabs b <= (1 + u) * Qabs (val y)).
    { setoid_replace b with ((b - val y) + val y) by ring. eapply Qle_trans; [apply Qabs_triangle|]. lra. }
    set (t := 10001 # 10000000000000000).
    assert (Hd : Qabs (b - a) <= t * (1 + Qabs a + Qabs b)).
    { assert (Ht0 : 0 <= t * (1 + Qabs a + Qabs b)) by (apply Qmult_le_0_compat; [discriminate|lra]).
      destruct (Qeq_bool a b) eqn:E.
      { apply Qeq_bool_iff in E. setoid_replace (b - a) with 0 by (rewrite E; ring). exact Ht0. }
      pose proof (rnd_abs A HA (b - a)) as [R1 _].
      assert (Hcase : forall z, Qabs z <= 1 + Qabs a + Qabs b -> Qabs (rnd A (b - a)) <= Qabs (rnd A (TOLERANCE A * z)) -> Qabs (b - a) <= t * (1 + Qabs a + Qabs b)).
      { intros z Hz Hle. pose proof (rnd_abs A HA (TOLERANCE A * z)) as [_ R2]. rewrite Qabs_Qmult, (Qabs_pos (TOLERANCE A)) in R2 by lra.
        pose proof (Qabs_nonneg z) as Nz.
        assert (R3 : TOLERANCE A * Qabs z <= tol * (1 + u) * (1 + Qabs a + Qabs b)) by (apply Qmult_le_compat_nonneg; lra).
        assert (R4 : (1 + u) * (TOLERANCE A * Qabs z) <= (1 + u) * (tol * (1 + u) * (1 + Qabs a + Qabs b))) by (apply Qmult_le_l; [reflexivity|auto]).
        assert (R5 : (1 + u) * (tol * (1 + u)) * (1 + Qabs a + Qabs b) <= (1 - u) * t * (1 + Qabs a + Qabs b)) by (apply Qmult_le_compat_r; [apply Qle_bool_iff; vm_compute; reflexivity|lra]).
        apply Qmult_le_l with (1 - u); [reflexivity|]. lra. }
      apply orb_true_iff in H as [H|H]; [apply orb_true_iff in H as [H|H]|]; apply Qle_bool_iff in H.
      - apply (Hcase b); [lra|auto].
      - apply (Hcase a); [lra|auto].
      - assert (R5 : tol * (1 + u) <= (1 - u) * t) by (apply Qle_bool_iff; vm_compute; reflexivity).
        assert (R6 : (1 - u) * Qabs (b - a) <= (1 - u) * t) by lra. apply Qmult_le_l in R6; [|reflexivity].
        assert (0 <= t * (Qabs a + Qabs b)) by (apply Qmult_le_0_compat; [discriminate|lra]). lra. }
    setoid_replace (val x - val y) with (- (a - val x) + (- (b - a) + (b - val y))) by ring.
    eapply Qle_trans; [apply Qabs_triangle|]. rewrite Qabs_opp.
    assert (Q1 : Qabs (- (b - a) + (b - val y)) <= Qabs (b - a) + Qabs (b - val y)) by (eapply Qle_trans; [apply Qabs_triangle|]; rewrite Qabs_opp; lra).
    assert (Q2 : t * (1 + Qabs a + Qabs b) <= t * ((1 + u) * (1 + Qabs (val x) + Qabs (val y)))) by (apply Qmult_le_l; [reflexivity|pose proof u_pos; lra]).
    assert (Q3 : (t * (1 + u) + u) * (1 + Qabs (val x) + Qabs (val y)) <= (1 # 500000000000) * (1 + Qabs (val x) + Qabs (val y))) by (apply Qmult_le_compat_r; [discriminate|lra]).
    pose proof u_pos. lra.
  Qed.
End Ops.

Lemma rel_lower : forall e a x, e < 1 -> rel e a x -> 0 <= x -> 0 <= a.
Proof.
  intros e a x He (t & Ht & E) Hx. apply Qabs_Qle_condition in Ht as [T1 T2]. rewrite E. apply Qmult_le_0_compat; lra.
Qed.
Lemma Qsum_app : forall l l', Qsum (l ++ l') == Qsum l + Qsum l'.
Proof. induction l as [|x l IH]; intros; simpl; [ring|]. unfold Qsum in *. simpl. rewrite IH. ring. Qed.
Lemma Qsum_filter_le : forall (X : Type) (f : X -> Q) (t : X -> bool) l, (forall x, In x l -> 0 <= f x) ->
  Qsum (map f (filter t l)) <= Qsum (map f l).
Proof.
  intros X f t l. induction l as [|x l IH]; intros H; [apply Qle_refl|]. simpl.
  assert (IH' := IH (fun y Hy => H y (or_intror Hy))). pose proof (H x (or_introl eq_refl)).
  destruct (t x); simpl; unfold Qsum in *; simpl; lra.
Qed.

Lemma filter_split_length : forall (X : Type) (f : X -> bool) l, (length (filter f l) + length (filter (fun x => negb (f x)) l) = length l)%nat.
Proof. intros X f l. induction l as [|y l IH]; auto. simpl. destruct (f y); simpl; lia. Qed.

Section FloatMes.
  Variable A : arith.
  Hypothesis HA : float_ok A.
  Variables (p : profile) (k : nat).
  Hypothesis Hw : wf p.
  Hypothesis Hk : (1 <= k <= num_cand p)%nat.
  Hypothesis Hone : forall v, In v (voters p) -> 1 <= weight v.
  Hypothesis Hsize : (Z.of_nat (k * (length (voters p) + 9)) <= 4400)%Z.

  Lemma k_small : Qnat k <= 488.
  Proof using Hk Hsize. unfold Qnat. change 488 with (inject_Z 488). rewrite <- Zle_Qle. nia. Qed.
  Lemma n_grow : forall m, (m <= length (voters p))%nat -> grow (S m) - 1 <= 1 # 1000000000000.
  Proof using Hk Hsize.
    intros m Hm. assert (H : grow (S m) <= 1 + (4886 # 10000000000000000)).
    { eapply Qle_trans; [apply (grow_le _ 4400); [nia|reflexivity]|discriminate]. }
    assert ((4886 # 10000000000000000) <= 1 # 1000000000000) by discriminate. lra.
  Qed.
  Lemma weights_sum : forall l : list (nat * voter), val (nsum A (map (fun iv => weight_num (snd iv)) l)) == Qsum (map (fun iv => weight (snd iv)) l).
  Proof using HA.
    intros l. rewrite (sum_exact A HA).
    - rewrite map_map. reflexivity.
    - apply Forall_forall. intros x Hx. apply in_map_iff in Hx as (v & <- & _). apply weight_num_kind.
  Qed.

  (** the price per unit of weight is not much below 0 *)
  Definition bud (b : list num) (iv : nat * voter) : Q := val (nth_num b (fst iv)).
  Lemma min_q_lower : forall fuel b rich poor q,
    (forall iv, In iv rich \/ In iv poor -> 1 <= weight (snd iv) /\ 0 <= bud b iv) ->
    (length rich + length poor <= length (voters p))%nat ->
    Qsum (map (bud b) poor) <= 2 ->
    f_min_q_loop A fuel b rich poor = Ok (Some q) -> - (2) <= val q.
  Proof using HA Hk Hsize.
    induction fuel as [|fuel IH]; intros b rich poor q Hiv Hlen HS E.
    - destruct rich; discriminate.
    - destruct rich as [|v0 rich0]; [discriminate|]. cbn [f_min_q_loop] in E. remember (v0 :: rich0) as rich eqn:Er.
      set (pb := nsum A (map (fun iv => nth_num b (fst iv)) poor)) in *.
      set (wr := nsum A (map (fun iv => weight_num (snd iv)) rich)) in *.
      set (nu := nsub A (num_of_nat 1) pb) in *. set (q0 := ndiv A nu wr) in *.
      set (S := Qsum (map (bud b) poor)) in *. set (W := Qsum (map (fun iv => weight (snd iv)) rich)).
      assert (HSn : 0 <= S).
      { unfold S. clear - Hiv. induction poor as [|x l IHl]; [apply Qle_refl|]. simpl. pose proof (proj2 (Hiv x (or_intror (or_introl eq_refl)))).
        assert (0 <= Qsum (map (bud b) l)); [|unfold Qsum in *; simpl; lra]. apply IHl. intros iv [H1|H1]; apply Hiv; auto. right. right. auto. }
      assert (HW1 : 1 <= W).
      { unfold W. rewrite Er. simpl. assert (H0 : 1 <= weight (snd v0)) by (apply Hiv; left; rewrite Er; left; auto).
        assert (0 <= Qsum (map (fun iv : nat * voter => weight (snd iv)) rich0)); [|unfold Qsum in *; simpl; lra].
        assert (Hr : forall iv, In iv rich0 -> 1 <= weight (snd iv)) by (intros iv Hi; apply Hiv; left; rewrite Er; right; auto).
        clear - Hr. induction rich0 as [|x l IHl]; [apply Qle_refl|]. simpl. pose proof (Hr x (or_introl eq_refl)).
        assert (0 <= Qsum (map (fun iv : nat * voter => weight (snd iv)) l)); [|unfold Qsum in *; simpl; lra]. apply IHl. intros; apply Hr; right; auto. }
      assert (EW : val wr == W) by apply weights_sum.
      assert (Hpb : Qabs (val pb - S) <= (1 # 1000000000000) * S).
      { pose proof (sum_error A HA (map (fun iv => nth_num b (fst iv)) poor)) as He. fold pb in He. rewrite !map_map in He. rewrite map_length in He.
        assert (Ea : Qsum (map (fun x : nat * voter => Qabs (val (nth_num b (fst x)))) poor) == S).
        { unfold S. clear - Hiv. induction poor as [|x l IHl]; [reflexivity|]. simpl. unfold Qsum in *. simpl.
          rewrite IHl by (intros iv [H1|H1]; apply Hiv; auto; right; right; auto). unfold bud at 1.
          rewrite Qabs_pos; [reflexivity|]. apply (Hiv x). right. left. auto. }
        rewrite Ea in He. eapply Qle_trans; [exact He|]. apply Qmult_le_compat_r; auto. apply n_grow. lia. }
      apply Qabs_Qle_condition in Hpb as [Hpb1 Hpb2].
      assert (Hnu : Qabs (val nu - (1 - val pb)) <= eps * (1 + Qabs (val pb))).
      { pose proof (sub_err A HA (num_of_nat 1) pb) as He. change (val (num_of_nat 1)) with 1 in He. change (Qabs 1) with 1 in He. exact He. }
      assert (Hpbn : 0 <= val pb).
      { assert ((1 # 1000000000000) * S <= 1 * S) by (apply Qmult_le_compat_r; [discriminate|auto]). lra. }
      rewrite (Qabs_pos (val pb)) in Hnu by auto. apply Qabs_Qle_condition in Hnu as [Hnu1 Hnu2].
      assert (Hne : eps * (1 + val pb) <= eps * 4) by (apply Qmult_le_l; [reflexivity|lra]).
      assert (He4 : eps * 4 <= 1 # 100000000000) by discriminate.
      set (d := 1 # 1000000000).
      assert (Hn1 : 1 - S - (1 # 10) * d <= val nu) by (unfold d; lra). assert (Hn2 : val nu <= 1 - S + (1 # 10) * d) by (unfold d; lra).
      assert (Hwp : 0 < val wr) by lra.
      pose proof (div_rel A HA nu wr Hwp) as Hq. fold q0 in Hq. apply rel_abs in Hq.
      assert (Hqa : Qabs (val nu / val wr) * W == Qabs (val nu)).
      { unfold Qdiv. rewrite Qabs_Qmult. assert (Ei : Qabs (/ val wr) == / W) by (rewrite EW; apply Qabs_pos; apply Qlt_le_weak, Qinv_lt_0_compat; lra).
        rewrite Ei. field. lra. }
      assert (HqW : Qabs (val q0 * W - val nu) <= eps * Qabs (val nu)).
      { setoid_replace (val q0 * W - val nu) with ((val q0 - val nu / val wr) * W) by (rewrite EW; field; lra).
        rewrite Qabs_Qmult, (Qabs_pos W) by lra. rewrite <- Hqa, Qmult_assoc. apply Qmult_le_compat_r; [auto|lra]. }
      assert (Hna : Qabs (val nu) <= 4) by (apply Qabs_Qle_condition; unfold d in *; split; lra).
      assert (Hne2 : eps * Qabs (val nu) <= eps * 4) by (apply Qmult_le_l; [reflexivity|auto]).
      apply Qabs_Qle_condition in HqW as [HqW1 HqW2].
      assert (Hq1 : 1 - S - d <= val q0 * W) by (unfold d in *; lra). assert (Hq2 : val q0 * W <= 1 - S + d) by (unfold d in *; lra).
      destruct (filter (f_is_poor A b q0) rich) as [|x0 new0] eqn:Ef.
      + inversion E; subst q.
        destruct (Qlt_le_dec (val q0) (- (2))) as [Hl|]; auto. exfalso.
        assert (val q0 * W <= - (2) * W) by (apply Qmult_le_compat_r; lra). unfold d in *. lra.
      + set (new := x0 :: new0) in *. rewrite <- Ef in E.
        assert (Hpoor : forall iv, In iv new -> In iv rich /\ bud b iv < val (nmul A q0 (weight_num (snd iv)))).
        { intros iv Hi. rewrite <- Ef in Hi. apply filter_In in Hi as [Hi Hp]. split; auto. unfold f_is_poor in Hp. cbv zeta in Hp.
          apply andb_true_iff in Hp as [Hp _]. pose proof (nlt_spec (nth_num b (fst iv)) (nmul A q0 (weight_num (snd iv)))) as Hs. rewrite Hp in Hs. exact Hs. }
        assert (Hq0 : 0 < val q0).
        { destruct (Qlt_le_dec 0 (val q0)) as [|Hle]; auto. exfalso. destruct (Hpoor x0 (or_introl eq_refl)) as [Hi Hb].
          destruct (Hiv x0 (or_introl Hi)) as [H1 H2]. pose proof (mul_rel A HA q0 (weight_num (snd x0))) as Hm. rewrite weight_num_val in Hm.
          assert (Hz : val q0 * weight (snd x0) <= 0).
          { assert (val q0 * weight (snd x0) <= 0 * weight (snd x0)) by (apply Qmult_le_compat_r; lra). lra. }
          pose proof (rel_sign eps _ _ ltac:(reflexivity) Hm Hz). lra. }
        assert (Hnew : Qsum (map (bud b) new) <= val q0 * (1 + eps) * W).
        { apply Qle_trans with (val q0 * (1 + eps) * Qsum (map (fun iv => weight (snd iv)) new)).
          - assert (Hall : forall iv, In iv new -> bud b iv <= val q0 * (1 + eps) * weight (snd iv)).
            { intros iv Hi. destruct (Hpoor iv Hi) as [Hir Hb]. destruct (Hiv iv (or_introl Hir)) as [H1 H2].
              pose proof (mul_rel A HA q0 (weight_num (snd iv))) as Hm. rewrite weight_num_val in Hm. apply rel_upper in Hm; [lra|]. apply Qmult_le_0_compat; lra. }
            clear - Hall. induction new as [|x l IHl]; [rewrite Qmult_0_r; apply Qle_refl|]. simpl. pose proof (Hall x (or_introl eq_refl)) as Hx.
            assert (IHl' := IHl (fun y Hy => Hall y (or_intror Hy))). unfold Qsum in *. simpl. lra.
          - rewrite !(Qmult_comm (val q0 * (1 + eps))). apply Qmult_le_compat_r.
            + unfold W. rewrite <- Ef. apply Qsum_filter_le. intros iv Hi. destruct (Hiv iv (or_introl Hi)). lra.
            + apply Qmult_le_0_compat; [lra|discriminate]. }
        eapply IH; [| | |exact E].
        * intros iv [Hi|Hi].
          -- apply filter_In in Hi as [Hi _]. apply Hiv. auto.
          -- rewrite Ef in Hi. apply in_app_iff in Hi as [Hi|Hi]; apply Hiv; [auto|left; apply Hpoor; exact Hi].
        * rewrite app_length.
          assert (Hs' : (length (filter (f_is_poor A b q0) rich) + length (filter (fun iv => negb (f_is_poor A b q0 iv)) rich) = length rich)%nat).
          { apply filter_split_length. }
          lia.
        * rewrite Ef, map_app, Qsum_app. fold S.
          assert (Hx : val q0 * (1 + eps) * W <= (1 + eps) * (1 - S + d)).
          { setoid_replace (val q0 * (1 + eps) * W) with ((1 + eps) * (val q0 * W)) by ring. apply Qmult_le_l; [reflexivity|auto]. }
          assert (Hes : 0 <= eps * S) by (apply Qmult_le_0_compat; [discriminate|auto]).
          assert ((1 + eps) * (1 + d) <= 2) by discriminate. lra.
  Qed.
End FloatMes.
