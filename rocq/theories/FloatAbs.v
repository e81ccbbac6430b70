(** * "float-fractions": absolute errors, and the choice of the largest value *)
From Coq Require Import String.
From Coq Require Import List Arith Bool ZArith QArith Qabs Lia Lqa Permutation Sorted.
From Verif Require Import Prelude Misc MiscProofs Preferences Scores Spec ScoresProofs Search RulesThiele
  Common ThieleProofs SpecRules SpecSeq RulesSeq SeqProofs PhragmenProofs EnestroemProofs MesProofs Floats RulesFloat FloatSearch FloatStruct SpecFloat SpecFloatMore FloatBounds FloatExact.
Import ListNotations.
Open Scope Q_scope.
Ltac qnum := apply Qle_bool_iff; vm_compute; reflexivity.

Lemma Qabs_tri3 : forall a b c, Qabs (a - c) <= Qabs (a - b) + Qabs (b - c).
Proof. intros a b c. pose proof (Qabs_triangle (a - b) (b - c)) as H. setoid_replace (a - b + (b - c)) with (a - c) in H by ring. exact H. Qed.
Lemma Qabs_le_of : forall a x e, Qabs (a - x) <= e -> Qabs a <= Qabs x + e.
Proof. intros a x e H. pose proof (Qabs_triangle (a - x) x) as T. setoid_replace (a - x + x) with a in T by ring. lra. Qed.
Lemma Qabs_bounds : forall a x e, Qabs (a - x) <= e -> a <= x + e /\ x <= a + e.
Proof. intros a x e H. apply Qabs_Qle_condition in H. lra. Qed.
Lemma Qabs_intro : forall a x e, a <= x + e -> x <= a + e -> Qabs (a - x) <= e.
Proof. intros a x e H1 H2. apply Qabs_Qle_condition. lra. Qed.
Lemma sum_diff_abs : forall l f g, Qabs (sum l f - sum l g) <= sum l (fun i => Qabs (f i - g i)).
Proof.
  induction l as [|i l IH]; intros f g; [discriminate|].
  change (Qabs (f i + sum l f - (g i + sum l g)) <= Qabs (f i - g i) + sum l (fun i => Qabs (f i - g i))).
  specialize (IH f g). pose proof (Qabs_triangle (f i - g i) (sum l f - sum l g)) as T.
  setoid_replace (f i + sum l f - (g i + sum l g)) with (f i - g i + (sum l f - sum l g)) by ring. lra.
Qed.
Lemma sum_filter_le : forall P l f, (forall i, In i l -> 0 <= f i) -> sum (filter P l) f <= sum l f.
Proof.
  intros P l f H. rewrite (sum_split P l f). assert (0 <= sum (filter (fun i => negb (P i)) l) f); [|lra].
  apply sum_nonneg. intros i Hi. apply filter_In in Hi. apply H. tauto.
Qed.
Lemma grow_lin : forall n, (Z.of_nat n <= 1000000)%Z -> grow n <= 1 + (101 # 100) * Qnat n * u.
Proof.
  intros n Hn. pose proof (grow_bound n) as Hb. pose proof (grow_pos n) as Hp. pose proof (Qnat_nonneg n) as H0.
  assert (Hq : Qnat n <= 1000000 # 1). { unfold Qnat. change (1000000 # 1) with (inject_Z 1000000). rewrite <- Zle_Qle. auto. }
  set (t := Qnat n * u) in *.
  assert (Ht : 0 <= t <= 1 # 1000000000).
  { unfold t. split; [apply Qmult_le_0_compat; [auto|discriminate]|]. apply Qle_trans with ((1000000 # 1) * u); [apply Qmult_le_compat_r; [auto|discriminate]|discriminate]. }
  setoid_replace ((101 # 100) * Qnat n * u) with ((101 # 100) * t) by (unfold t; ring).
  destruct (Qlt_le_dec (1 + (101 # 100) * t) (grow n)) as [Hl|]; auto. exfalso.
  assert (H1 : (1 + (101 # 100) * t) * (1 - t) < grow n * (1 - t)) by (apply Qmult_lt_r; lra).
  assert (H2 : (101 # 100) * t * t <= (101 # 100) * t * (1 # 1000000000)) by (apply Qmult_le_l_nonneg || (rewrite !(Qmult_comm ((101 # 100) * t)); apply Qmult_le_compat_r; lra)).
  lra.
Qed.
Lemma within_abs : forall n a x, within n a x -> Qabs (a - x) <= (grow n - 1) * x.
Proof.
  intros n a x H. pose proof (within_nonneg _ _ _ H) as Ha. destruct H as (Hx & H1 & H2). pose proof (grow_ge1 n) as Hg. apply Qabs_intro; [lra|].
  destruct (Qlt_le_dec x a) as [Hl|Hl]; [assert (0 <= (grow n - 1) * x) by (apply Qmult_le_0_compat; lra); lra|].
  assert (a * (grow n - 1) <= x * (grow n - 1)) by (apply Qmult_le_compat_r; lra). lra.
Qed.

Section Abs.
  Variable A : arith.
  Hypothesis HA : float_ok A.

  Lemma to_float_err : forall x, Qabs (to_float A x - val x) <= u * Qabs (val x).
  Proof using HA.
    intros x. unfold to_float. destruct (kind_of x); try apply (rounding_error A HA).
    setoid_replace (val x - val x) with 0 by ring. apply Qmult_le_0_compat; [discriminate|apply Qabs_nonneg].
  Qed.
  Lemma rnd_nonneg : forall x, 0 <= x -> 0 <= rnd A x.
  Proof using HA. intros x Hx. pose proof (rnd_bounds A HA x Hx) as [H _]. assert (0 <= x * (1 - u)) by (apply Qmult_le_0_compat; [auto|discriminate]). lra. Qed.
  Lemma op_err : forall op x y, (forall a b, Qabs (op a b) <= Qabs a + Qabs b) -> (forall a b a' b', Qabs (op a b - op a' b') <= Qabs (a - a') + Qabs (b - b')) ->
    Qabs (val (arith_op A op x y) - op (val x) (val y)) <= 3 * u * (Qabs (val x) + Qabs (val y)).
  Proof using HA.
    intros op x y H1 H2. pose proof (Qabs_nonneg (val x)) as P1. pose proof (Qabs_nonneg (val y)) as P2.
    assert (P3 : 0 <= 3 * u * (Qabs (val x) + Qabs (val y))) by (apply Qmult_le_0_compat; [discriminate|lra]).
    unfold arith_op. assert (forall k, Qabs (val (mkNum k (op (val x) (val y))) - op (val x) (val y)) <= 3 * u * (Qabs (val x) + Qabs (val y))) as HE.
    { intros k. cbn [val]. setoid_replace (op (val x) (val y) - op (val x) (val y)) with 0 by ring. exact P3. }
    destruct (join_kind (kind_of x) (kind_of y)); try apply HE. cbn [val].
    set (a := to_float A x) in *. set (b := to_float A y) in *.
    pose proof (to_float_err x) as E1. pose proof (to_float_err y) as E2. fold a in E1. fold b in E2.
    pose proof (rounding_error A HA (op a b)) as E3. pose proof (H1 a b) as E4. pose proof (H2 a b (val x) (val y)) as E5.
    pose proof (Qabs_tri3 (rnd A (op a b)) (op a b) (op (val x) (val y))) as E6.
    pose proof (Qabs_le_of _ _ _ E1) as E7. pose proof (Qabs_le_of _ _ _ E2) as E8.
    set (X := Qabs (val x)) in *. set (Y := Qabs (val y)) in *.
    assert (E9 : u * Qabs (op a b) <= u * (X + u * X + (Y + u * Y))) by (apply Qmult_le_l; [reflexivity|lra]).
    assert (E10 : u * u * (X + Y) <= u * (X + Y)) by (apply Qmult_le_compat_r; [discriminate|lra]).
    lra.
  Qed.
  Lemma add_err : forall x y, Qabs (val (nadd A x y) - (val x + val y)) <= 3 * u * (Qabs (val x) + Qabs (val y)).
  Proof using HA.
    intros x y. apply op_err; [intros; apply Qabs_triangle|]. intros a b a' b'.
    pose proof (Qabs_triangle (a - a') (b - b')) as T. setoid_replace (a + b - (a' + b')) with (a - a' + (b - b')) by ring. exact T.
  Qed.
  Lemma sub_err : forall x y, Qabs (val (nsub A x y) - (val x - val y)) <= 3 * u * (Qabs (val x) + Qabs (val y)).
  Proof using HA.
    intros x y. apply op_err.
    - intros a b. pose proof (Qabs_triangle a (- b)) as T. rewrite Qabs_opp in T. exact T.
    - intros a b a' b'. pose proof (Qabs_triangle (a - a') (- (b - b'))) as T. rewrite Qabs_opp in T.
      setoid_replace (a - b - (a' - b')) with (a - a' + - (b - b')) by ring. exact T.
  Qed.

  (** *** numbers close to the same number are close *)
  Definition tiny : Q := 48 # 100000000000000.
  Lemma close_abs : forall x y z d, Qabs (val x - z) <= d -> Qabs (val y - z) <= d -> 0 <= z -> d + 2 * u * z <= tiny -> isclose A x y = true.
  Proof using HA.
    intros x y z d Hx Hy Hz Hd. unfold isclose. cbv zeta.
    pose proof (to_float_err x) as E1. pose proof (to_float_err y) as E2. pose proof (Qabs_le_of _ _ _ Hx) as E3. pose proof (Qabs_le_of _ _ _ Hy) as E4.
    rewrite (Qabs_pos z) in E3, E4 by auto.
    assert (Hd0 : 0 <= d) by (eapply Qle_trans; [apply Qabs_nonneg|exact Hx]).
    assert (B1 : u * Qabs (val x) <= u * (z + d)) by (apply Qmult_le_l; [reflexivity|auto]).
    assert (B2 : u * Qabs (val y) <= u * (z + d)) by (apply Qmult_le_l; [reflexivity|auto]).
    set (a := to_float A x) in *. set (b := to_float A y) in *. clearbody a b.
    destruct (Qeq_bool a b); auto. apply orb_true_iff. right. apply Qle_bool_iff.
    pose proof (rnd_abs A HA (b - a)) as [_ R].
    assert (HT : tol * (1 - u) <= TOLERANCE A) by (apply (rnd_bounds A HA); discriminate).
    pose proof (Qabs_bounds _ _ _ Hx) as [G1 G2]. pose proof (Qabs_bounds _ _ _ Hy) as [G3 G4]. pose proof (Qabs_bounds _ _ _ E1) as [G5 G6]. pose proof (Qabs_bounds _ _ _ E2) as [G7 G8].
    assert (K : u * d <= u * tiny). { apply Qmult_le_l; [reflexivity|]. assert (0 <= 2 * u * z) by (apply Qmult_le_0_compat; [discriminate|auto]). lra. }
    assert (D : Qabs (b - a) <= 2 * tiny + 2 * (u * tiny)).
    { assert (0 <= u * z) by (apply Qmult_le_0_compat; [discriminate|auto]). apply Qabs_Qle_condition. split; lra. }
    assert (D2 : (1 + u) * Qabs (b - a) <= (1 + u) * (2 * tiny + 2 * (u * tiny))) by (apply Qmult_le_l; [reflexivity|auto]).
    assert (D3 : (1 + u) * (2 * tiny + 2 * (u * tiny)) <= tol * (1 - u)) by qnum. lra.
  Qed.
  Lemma close_elim_r : forall x y, 0 <= val x -> 0 <= val y -> isclose A x y = true -> val y <= (1 + margin) * val x + margin.
  Proof using HA.
    intros x y Hx Hy. assert (Ha := to_float_within A HA x Hx). assert (Hb := to_float_within A HA y Hy). unfold isclose. cbv zeta.
    pose proof (within_nonneg _ _ _ Ha) as Ha0. pose proof (within_nonneg _ _ _ Hb) as Hb0.
    set (a := to_float A x) in *. set (b := to_float A y) in *. clearbody a b. intros H.
    assert (HT : TOLERANCE A <= tol * (1 + u)) by (apply (rnd_bounds A HA); discriminate).
    pose proof (TOL_pos A HA) as HT0.
    set (t := 10001 # 10000000000000000).
    assert (Hd : b <= (1 + t) * a + t).
    { destruct (Qeq_bool a b) eqn:E.
      { apply Qeq_bool_iff in E. rewrite E. assert (0 <= t * b) by (apply Qmult_le_0_compat; [discriminate|auto]). assert (0 <= t) by discriminate. lra. }
      pose proof (rnd_abs A HA (b - a)) as [R1 _].
      assert (Hab : b <= a + Qabs (b - a)). { pose proof (Qle_Qabs (b - a)) as Q1. lra. }
      assert (Hbb : 0 <= t * a) by (apply Qmult_le_0_compat; [discriminate|auto]).
      assert (Hcase : forall z, 0 <= z -> Qabs (rnd A (b - a)) <= Qabs (rnd A (TOLERANCE A * z)) -> Qabs (b - a) <= (100005 # 100000000000000000) * z).
      { intros z Hz Hle. pose proof (rnd_abs A HA (TOLERANCE A * z)) as [_ R2].
        rewrite (Qabs_pos (TOLERANCE A * z)) in R2 by (apply Qmult_le_0_compat; [apply Qlt_le_weak; auto|auto]).
        assert (R3 : TOLERANCE A * z <= tol * (1 + u) * z) by (apply Qmult_le_compat_r; auto).
        assert (R4 : (1 + u) * (TOLERANCE A * z) <= (1 + u) * (tol * (1 + u) * z)) by (apply Qmult_le_l; [reflexivity|auto]).
        assert (R5 : (1 + u) * (tol * (1 + u)) * z <= (1 - u) * (100005 # 100000000000000000) * z) by (apply Qmult_le_compat_r; [qnum|auto]).
        apply Qmult_le_l with (1 - u); [reflexivity|]. lra. }
      apply orb_true_iff in H as [H|H]; [apply orb_true_iff in H as [H|H]|]; apply Qle_bool_iff in H.
      - specialize (Hcase b Hb0 H).
        assert (H3 : b * (1 - (100005 # 100000000000000000)) <= a) by lra.
        assert (H4 : b * 1 <= b * ((1 - (100005 # 100000000000000000)) * (1 + t))).
        { rewrite !(Qmult_comm b). apply Qmult_le_compat_r; [discriminate|auto]. }
        assert (H5 : b * (1 - (100005 # 100000000000000000)) * (1 + t) <= a * (1 + t)) by (apply Qmult_le_compat_r; [auto|discriminate]).
        assert (0 <= t) by discriminate. lra.
      - specialize (Hcase a Ha0 H). assert ((100005 # 100000000000000000) * a <= t * a) by (apply Qmult_le_compat_r; [discriminate|auto]).
        assert (0 <= t) by discriminate. lra.
      - assert (Hz : Qabs (b - a) <= t).
        { apply Qmult_le_l with (1 - u); [reflexivity|]. assert (tol * (1 + u) <= (1 - u) * t) by qnum. lra. }
        lra. }
    destruct Ha as (_ & Ha1 & Ha2), Hb as (_ & Hb1 & Hb2).
    assert (Hg : grow 1 <= 1 + (12 # 100000000000000000)) by (apply Qle_bool_iff; vm_compute; reflexivity). set (g := grow 1) in *.
    set (h := 1 + (12 # 100000000000000000)) in *.
    assert (H1 : val y <= b * h). { eapply Qle_trans; [exact Hb1|]. rewrite !(Qmult_comm b). apply Qmult_le_compat_r; auto. }
    assert (H2 : a <= val x * h). { eapply Qle_trans; [exact Ha2|]. rewrite !(Qmult_comm (val x)). apply Qmult_le_compat_r; auto. }
    assert (H3 : b * h <= ((1 + t) * a + t) * h) by (apply Qmult_le_compat_r; [auto|discriminate]).
    assert (H4 : (1 + t) * h * a <= (1 + t) * h * (val x * h)) by (apply Qmult_le_l; [reflexivity|auto]).
    assert (H5 : (1 + t) * h * h * val x <= (1 + margin) * val x) by (apply Qmult_le_compat_r; [qnum|auto]).
    assert (H6 : t * h <= margin) by discriminate. lra.
  Qed.

  (** *** the candidates with the largest value *)
  Lemma nmax_le : forall l x, nmax l = Ok x -> forall y, In y l -> val y <= val x.
  Proof using.
    assert (G : forall l x y, In y (x :: l) -> val y <= val (nmaxl x l)).
    { induction l as [|z l IH]; intros x y Hy; [destruct Hy as [->|[]]; apply Qle_refl|]. cbn [nmaxl]. pose proof (nlt_spec x z) as Hs. destruct (nlt x z).
      - destruct Hy as [<-|Hy]; [|apply IH; auto]. apply Qle_trans with (val z); [apply Qlt_le_weak; auto|apply IH; left; auto].
      - destruct Hy as [<-|[<-|Hy]]; [apply IH; left; auto| |apply IH; right; auto]. apply Qle_trans with (val x); auto. apply IH. left; auto. }
    intros [|x l] y E z Hz; [discriminate|]. injection E as <-. apply G. auto.
  Qed.
  Lemma max_entries_same : forall (f : nat -> num) (e : nat -> Q) (d : Q) cands, cands <> [] -> ascending cands ->
    (forall c, In c cands -> 0 <= val (f c) /\ 0 <= e c /\ Qabs (val (f c) - e c) <= d /\ d + 2 * u * e c <= tiny) ->
    (forall c, In c cands -> (forall c', In c' cands -> nearly_le (e c') (e c)) -> forall c', In c' cands -> e c' <= e c) ->
    f_max_entries A f cands = max_entries e cands /\
    forall mx c, nmax (map f cands) = Ok mx -> In c cands -> (forall c', In c' cands -> e c' <= e c) -> Qabs (val mx - e c) <= d.
  Proof using HA.
    intros f e d cands Hne Hasc He Hclear.
    assert (Hne' : map f cands <> []) by (destruct cands; [congruence|discriminate]).
    destruct (nmax_ok (map f cands) Hne') as (mx & Em & Hi).
    assert (Hmx : forall c, In c cands -> (forall c', In c' cands -> e c' <= e c) -> Qabs (val mx - e c) <= d).
    { intros c Hc Hmax. apply in_map_iff in Hi as (c0 & E0 & Hc0). destruct (He c0 Hc0) as (_ & _ & H0 & _). destruct (He c Hc) as (_ & _ & H1 & _).
      pose proof (nmax_le _ _ Em (f c) (in_map f _ _ Hc)) as H2. specialize (Hmax c0 Hc0). rewrite E0 in H0.
      apply Qabs_bounds in H0, H1. apply Qabs_intro; lra. }
    split; [|intros mx' c E; rewrite Em in E; injection E as <-; apply Hmx].
    destruct (max_entries_spec e cands Hne) as (sel & Es & _ & Hsub & Hin). rewrite Es. unfold f_max_entries. rewrite Em. cbn [rbind]. f_equal.
    apply ascending_ext; [apply ascending_filter; auto|eapply sublist_ascending; eauto|].
    intros c. rewrite filter_In, Hin. split.
    - intros [Hc Hcl]. split; auto. apply Hclear; auto. intros c' Hc'.
      assert (Hmx0 : 0 <= val mx). { apply in_map_iff in Hi as (c0 & <- & Hc0). apply He; auto. }
      destruct (He c Hc) as (P1 & P2 & P3 & P4). pose proof (close_elim_r _ _ P1 Hmx0 Hcl) as H1.
      pose proof (nmax_le _ _ Em (f c') (in_map f _ _ Hc')) as H2. destruct (He c' Hc') as (Q1 & Q2 & Q3 & Q4).
      apply Qabs_bounds in P3, Q3. unfold nearly_le.
      assert (Hd : d <= tiny) by (assert (0 <= 2 * u * e c) by (apply Qmult_le_0_compat; [discriminate|auto]); lra).
      assert (H3 : (1 + margin) * val (f c) <= (1 + margin) * (e c + d)) by (apply Qmult_le_l; [reflexivity|lra]).
      assert (H4 : (2 + margin) * d <= (2 + margin) * tiny) by (apply Qmult_le_l; [reflexivity|auto]).
      assert (H5 : margin + (2 + margin) * tiny <= phragmen_margin) by qnum.
      assert (H6 : (1 + margin) * e c <= (1 + phragmen_margin) * e c) by (apply Qmult_le_compat_r; [discriminate|auto]). lra.
    - intros [Hc Hmax]. split; auto. destruct (He c Hc) as (P1 & P2 & P3 & P4). apply (close_abs (f c) mx (e c) d); auto.
  Qed.
  (** *** sums of nonnegative numbers, added one by one *)
  Lemma fold_add_within : forall (X : Type) (g : X -> num) (l : list X) s x n, (forall i, In i l -> 0 <= val (g i)) -> within n (val s) x ->
    within (n + 2 * length l) (val (fold_left (fun s i => nadd A s (g i)) l s)) (x + Qsum (map (fun i => val (g i)) l)).
  Proof using HA.
    intros X g. induction l as [|i l IH]; intros s x n Hp H; cbn [fold_left length map].
    - rewrite Nat.mul_0_r, Nat.add_0_r. eapply within_ext; [reflexivity| |exact H]. unfold Qsum. simpl. ring.
    - replace (n + 2 * S (length l))%nat with (n + 2 + 2 * length l)%nat by lia.
      eapply within_ext; [reflexivity| |apply IH; [intros j Hj; apply Hp; right; auto|apply (arith_add A HA); [exact H|apply within_refl; [apply Hp; left; auto|reflexivity]]]]. unfold Qsum. simpl. ring.
  Qed.
End Abs.

(** ** Two depth-first searches over committees with budgets *)
Section SeqSim.
  Variables (p : profile) (k : nat).
  Variables (sel : list nat -> list Q -> result (list nat)) (next : list nat -> list Q -> nat -> list Q).
  Variables (fsel : list nat -> list num -> result (list nat)) (fnext : list nat -> list num -> nat -> result (list num)).
  Variable R : list nat -> list Q -> list num -> Prop.
  Hypothesis step : forall C a f, R C a f -> (length C < k)%nat ->
    exists cs, sel C a = Ok cs /\ fsel C f = Ok cs /\ forall c, In c cs -> exists f', fnext C f c = Ok f' /\ R (C ++ [c]) (next C a c) f'.
  Let Rel (s : list nat * list Q) (t : list nat * list num) := fst s = fst t /\ (length (fst s) < k)%nat /\ R (fst s) (snd s) (snd t).
  Lemma seq_expand_sim : forall s t, Rel s t -> exists cs ds, seq_expand k sel next s = Ok cs /\ float_expand k fsel fnext t = Ok ds /\ Forall2 (same_child Rel) cs ds.
  Proof using step.
    intros [C a] [C' f] (E & Hl & HF). simpl in E, Hl, HF. subst C'.
    destruct (step C a f HF Hl) as (cs & E1 & E2 & Hnext). unfold seq_expand, float_expand. rewrite E1, E2. cbn [rbind].
    eexists. assert (HX : exists ds, rmapM (fun c => let nc := C ++ [c] in if (length nc =? k)%nat then Ok (Leaf (isort nc))
                  else do a' <- fnext C f c; Ok (Partial (nc, a'))) cs = Ok ds /\
        Forall2 (same_child Rel) (map (fun c => let nc := C ++ [c] in if (length nc =? k)%nat then Leaf (isort nc) else Partial (nc, next C a c)) cs) ds).
    { clear E1 E2. induction cs as [|c cs IH]; [exists []; split; [reflexivity|constructor]|].
      destruct IH as (ds & Ed & HD); [intros d Hd; apply Hnext; right; auto|]. cbn [rmapM map]. cbv zeta in *.
      destruct (Hnext c (or_introl eq_refl)) as (f' & Ef & HF').
      destruct (Nat.eqb_spec (length (C ++ [c])) k) as [Hlen|Hlen].
      - cbn [rbind]. rewrite Ed. cbn [rbind]. eexists. split; [reflexivity|]. constructor; auto. constructor.
      - rewrite Ef. cbn [rbind]. rewrite Ed. cbn [rbind]. eexists. split; [reflexivity|]. constructor; auto. constructor.
        split; auto. split; auto. simpl. rewrite app_length in *. simpl in *. lia. }
    destruct HX as (ds & Ed & HD). exists ds. split; [reflexivity|]. split; [exact Ed|exact HD].
  Qed.
  Theorem seq_dfs_sim : forall maxn fuel C a f, R C a f -> (length C < k)%nat ->
    dfs (float_expand k fsel fnext) maxn fuel [(C, f)] [] = dfs (seq_expand k sel next) maxn fuel [(C, a)] [].
  Proof using step.
    intros maxn fuel C a f H Hl. symmetry. apply (dfs_sim Rel _ _ seq_expand_sim). constructor; [|constructor]. split; [reflexivity|]. split; auto.
  Qed.
End SeqSim.
