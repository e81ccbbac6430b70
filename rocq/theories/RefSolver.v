(** * A reference solver

    The theorems about the solver modules assume solvers that answer correctly.  This file shows that
    the assumption can be met: it defines a (slow) solver - Fourier-Motzkin elimination for the continuous
    variables, enumeration for the integer ones - and proves it correct for every program whose integer
    variables are bounded.  It models no code of the repository. *)
From Coq Require Import String.
From Coq Require Import List Arith Bool ZArith QArith Qround Lia Lqa.
From Verif Require Import Prelude Misc MiscProofs Preferences Spec Common Milp MilpProofs.
Import ListNotations.
Open Scope nat_scope.

(** ** Systems of inequalities [a x + b <= 0] *)
Section FM.
  Variable V : Type.
  Variable V_dec : forall a b : V, {a = b} + {a <> b}.
  Definition gen : Type := list (Q * V) * Q.
  Definition gev (x : V -> Q) (l : gen) : Q := (Qsum (map (fun t => fst t * x (snd t)) (fst l)) + snd l)%Q.
  Definition sat (x : V -> Q) (cs : list gen) : Prop := Forall (fun l => gev x l <= 0)%Q cs.
  Definition vars_of (l : gen) : list V := map snd (fst l).
  Definition upd (x : V -> Q) (v : V) (q : Q) (u : V) : Q := if V_dec u v then q else x u.

  Definition is_v (v : V) (t : Q * V) : bool := if V_dec (snd t) v then true else false.
  Definition coef (v : V) (l : gen) : Q := Qsum (map fst (filter (is_v v) (fst l))).
  Definition rest (v : V) (l : gen) : gen := (filter (fun t => negb (is_v v t)) (fst l), snd l).
  Definition gscale (q : Q) (l : gen) : gen := (map (fun t => ((q * fst t)%Q, snd t)) (fst l), (q * snd l)%Q).
  Definition gadd (a b : gen) : gen := (fst a ++ fst b, (snd a + snd b)%Q).

  Lemma gev_scale : forall x q l, (gev x (gscale q l) == q * gev x l)%Q.
  Proof.
    intros. unfold gev, gscale. cbn [fst snd]. rewrite map_map. cbn [fst snd].
    rewrite (Qsum_map_ext _ _ (fun t => q * (fst t * x (snd t)))%Q) by (intros; lra). rewrite Qsum_map_scal. lra.
  Qed.
  Lemma gev_add : forall x a b, (gev x (gadd a b) == gev x a + gev x b)%Q.
  Proof. intros. unfold gev, gadd. cbn [fst snd]. rewrite map_app, Qsum_app. lra. Qed.
  Lemma gev_split : forall x v l, (gev x l == coef v l * x v + gev x (rest v l))%Q.
  Proof.
    intros x v (ts, b). unfold gev, coef, rest. cbn [fst snd]. induction ts as [|(q, u) ts IH]; [cbn; lra|].
    cbn [filter map fst snd]. assert (Ev : is_v v (q, u) = true -> u = v) by (unfold is_v; cbn [snd]; destruct (V_dec u v); [auto|discriminate]).
    destruct (is_v v (q, u)); [rewrite (Ev eq_refl)|]; cbn [negb map fst snd] in *; unfold Qsum in *; cbn [fold_right] in *; lra.
  Qed.
  Lemma rest_vars : forall v l u, In u (vars_of (rest v l)) -> u <> v /\ In u (vars_of l).
  Proof.
    intros v (ts, b) u H. unfold vars_of, rest in *. cbn [fst] in *. apply in_map_iff in H as ((q, w) & <- & H). apply filter_In in H as [H E].
    cbn [snd]. split; [|apply in_map_iff; exists (q, w); auto]. unfold is_v in E. cbn [snd] in E. destruct (V_dec w v); [discriminate|auto].
  Qed.
  Lemma gev_ext : forall x y l, (forall u, In u (vars_of l) -> (x u == y u)%Q) -> (gev x l == gev y l)%Q.
  Proof.
    intros x y (ts, b) H. unfold gev, vars_of in *. cbn [fst snd] in *. rewrite (Qsum_map_ext _ (fun t => fst t * x (snd t)) (fun t => fst t * y (snd t)))%Q; [lra|].
    intros t Ht. rewrite (H (snd t)); [lra|]. apply in_map. auto.
  Qed.
  Lemma rest_upd : forall x v q l, (gev (upd x v q) (rest v l) == gev x (rest v l))%Q.
  Proof.
    intros. apply gev_ext. intros u Hu. apply rest_vars in Hu as [Hu _]. unfold upd. destruct (V_dec u v); [congruence|reflexivity].
  Qed.

  (** upper bounds, lower bounds and constraints without [v] *)
  Definition uppers (v : V) (cs : list gen) : list gen := map (fun l => gscale (- / coef v l) (rest v l)) (filter (fun l => Qltb 0 (coef v l)) cs).
  Definition lowers (v : V) (cs : list gen) : list gen := map (fun l => gscale (- / coef v l) (rest v l)) (filter (fun l => Qltb (coef v l) 0) cs).
  Definition others (v : V) (cs : list gen) : list gen := map (rest v) (filter (fun l => Qeq_bool (coef v l) 0) cs).
  Definition elim (v : V) (cs : list gen) : list gen :=
    others v cs ++ flat_map (fun lo => map (fun up => gadd lo (gscale (-1) up)) (uppers v cs)) (lowers v cs).

  Lemma Qltb_iff : forall a b, Qltb a b = true <-> (a < b)%Q.
  Proof. intros a b. unfold Qltb. rewrite negb_true_iff. destruct (Qle_bool b a) eqn:E; split; intros H; try discriminate; auto.
    - apply Qle_bool_iff in E. lra.
    - destruct (Qlt_le_dec a b) as [|K]; auto. apply Qle_bool_iff in K. congruence.
  Qed.

  Lemma div_le : forall a b c : Q, (0 < a)%Q -> (a * b + c <= 0)%Q <-> (b <= - / a * c)%Q.
  Proof.
    intros a b c Ha. assert (Hi : (0 < / a)%Q) by (apply Qinv_lt_0_compat; auto). assert (E : (a * / a == 1)%Q) by (apply Qmult_inv_r; lra). split; intros H.
    - assert (0 <= / a * (- (a * b + c)))%Q by (apply Qmult_le_0_compat; lra). assert (/ a * (- (a * b + c)) == - (a * / a) * b + - / a * c)%Q by ring. rewrite E in *. lra.
    - assert (0 <= a * (- / a * c - b))%Q by (apply Qmult_le_0_compat; lra). assert (a * (- / a * c - b) == - (a * / a) * c - a * b)%Q by ring. rewrite E in *. lra.
  Qed.
  Lemma div_ge : forall a b c : Q, (a < 0)%Q -> (a * b + c <= 0)%Q <-> (- / a * c <= b)%Q.
  Proof.
    intros a b c Ha. assert (Hi : (0 < / - a)%Q) by (apply Qinv_lt_0_compat; lra). assert (E : (- a * / - a == 1)%Q) by (apply Qmult_inv_r; lra).
    assert (Eo : (/ - a == - / a)%Q).
    { assert (K : (a * / a == 1)%Q) by (apply Qmult_inv_r; lra). setoid_replace (/ - a)%Q with (/ - a * (a * / a))%Q by (rewrite K; ring).
      setoid_replace (/ - a * (a * / a))%Q with (- (- a * / - a) * / a)%Q by ring. rewrite E. ring. }
    split; intros H.
    - rewrite <- Eo. assert (0 <= / - a * (- (a * b + c)))%Q by (apply Qmult_le_0_compat; lra). assert (/ - a * (- (a * b + c)) == (- a * / - a) * b - / - a * c)%Q by ring. rewrite E in *. lra.
    - rewrite <- Eo in H. assert (0 <= - a * (b - / - a * c))%Q by (apply Qmult_le_0_compat; lra). assert (- a * (b - / - a * c) == - a * b - (- a * / - a) * c)%Q by ring. rewrite E in *. lra.
  Qed.

  Lemma sat_iff : forall x v cs, sat x cs <->
    sat x (others v cs) /\ Forall (fun l => x v <= gev x l)%Q (uppers v cs) /\ Forall (fun l => gev x l <= x v)%Q (lowers v cs).
  Proof.
    intros x v cs. unfold sat, others, uppers, lowers. rewrite !Forall_forall. split.
    - intros H. split; [|split]; intros l Hl; apply in_map_iff in Hl as (l0 & <- & Hl0); apply filter_In in Hl0 as [Hl0 E]; specialize (H l0 Hl0); rewrite (gev_split x v l0) in H.
      + apply Qeq_bool_iff in E. rewrite E in H. lra.
      + apply Qltb_iff in E. rewrite gev_scale. apply div_le; auto.
      + apply Qltb_iff in E. rewrite gev_scale. apply div_ge; auto.
    - intros (A & B & C) l Hl. rewrite (gev_split x v l). destruct (Q_dec (coef v l) 0) as [[H|H]|H].
      + apply div_ge; auto. rewrite <- gev_scale. apply C. apply in_map_iff. exists l. split; auto. apply filter_In. split; auto. apply Qltb_iff. auto.
      + apply div_le; auto. rewrite <- gev_scale. apply B. apply in_map_iff. exists l. split; auto. apply filter_In. split; auto. apply Qltb_iff. auto.
      + rewrite H. assert (gev x (rest v l) <= 0)%Q; [|lra]. apply A. apply in_map_iff. exists l. split; auto. apply filter_In. split; auto. apply Qeq_bool_iff. auto.
  Qed.

  Lemma scale_vars : forall q l, vars_of (gscale q l) = vars_of l.
  Proof. intros q (ts, b). unfold vars_of, gscale. cbn [fst]. rewrite map_map. apply map_ext. auto. Qed.
  Lemma add_vars : forall a b, vars_of (gadd a b) = vars_of a ++ vars_of b.
  Proof. intros. unfold vars_of, gadd. cbn [fst]. apply map_app. Qed.
  Lemma bounds_vars : forall v cs l u, (In l (uppers v cs) \/ In l (lowers v cs) \/ In l (others v cs)) -> In u (vars_of l) -> u <> v /\ exists l0, In l0 cs /\ In u (vars_of l0).
  Proof.
    intros v cs l u [H|[H|H]] Hu; apply in_map_iff in H as (l0 & <- & H); apply filter_In in H as [H _]; rewrite ?scale_vars in Hu; apply rest_vars in Hu as [Hu Hu']; split; eauto.
  Qed.
  Lemma elim_vars : forall v cs l u, In l (elim v cs) -> In u (vars_of l) -> u <> v /\ exists l0, In l0 cs /\ In u (vars_of l0).
  Proof.
    intros v cs l u H Hu. apply in_app_or in H as [H|H]; [apply (bounds_vars v cs l u); auto|]. apply in_flat_map in H as (lo & Hlo & H). apply in_map_iff in H as (up & <- & Hup).
    rewrite add_vars, scale_vars in Hu. apply in_app_or in Hu as [Hu|Hu]; [apply (bounds_vars v cs lo u)|apply (bounds_vars v cs up u)]; auto.
  Qed.

  Lemma elim_sound : forall x v cs, sat x cs -> sat x (elim v cs).
  Proof.
    intros x v cs H. apply (sat_iff x v) in H as (A & B & C). apply Forall_app. split; auto. rewrite Forall_forall in *. intros l Hl.
    apply in_flat_map in Hl as (lo & Hlo & Hl). apply in_map_iff in Hl as (up & <- & Hup). rewrite gev_add, gev_scale. specialize (B up Hup). specialize (C lo Hlo). lra.
  Qed.

  Definition Qmin2 (a b : Q) : Q := if Qle_bool a b then a else b.
  Definition Qmax2 (a b : Q) : Q := if Qle_bool a b then b else a.
  Definition minq (a : Q) (l : list Q) : Q := fold_right Qmin2 a l.
  Definition maxq (a : Q) (l : list Q) : Q := fold_right Qmax2 a l.
  Lemma minq_spec : forall a l, In (minq a l) (a :: l) /\ forall b, In b (a :: l) -> (minq a l <= b)%Q.
  Proof.
    intros a l. induction l as [|b l [IH1 IH2]]; [cbn; split; auto; intros b [->|[]]; lra|].
    cbn [minq fold_right]. fold (minq a l). unfold Qmin2. destruct (Qle_bool b (minq a l)) eqn:E.
    - apply Qle_bool_iff in E. split; [right; left; auto|]. intros c [->|[->|H]]; [|lra|]; [specialize (IH2 c (or_introl eq_refl))|specialize (IH2 c (or_intror H))]; lra.
    - assert (minq a l < b)%Q by (apply Qnot_le_lt; intros K; apply Qle_bool_iff in K; congruence). split; [destruct IH1; [left|right; right]; auto|].
      intros c [->|[->|K]]; [apply IH2; left; auto|lra|apply IH2; right; auto].
  Qed.
  Lemma maxq_spec : forall a l, In (maxq a l) (a :: l) /\ forall b, In b (a :: l) -> (b <= maxq a l)%Q.
  Proof.
    intros a l. induction l as [|b l [IH1 IH2]]; [cbn; split; auto; intros b [->|[]]; lra|].
    cbn [maxq fold_right]. fold (maxq a l). unfold Qmax2. destruct (Qle_bool b (maxq a l)) eqn:E.
    - apply Qle_bool_iff in E. split; [destruct IH1; [left|right; right]; auto|]. intros c [->|[->|H]]; [apply IH2; left; auto|lra|apply IH2; right; auto].
    - assert (maxq a l < b)%Q by (apply Qnot_le_lt; intros K; apply Qle_bool_iff in K; congruence). split; [right; left; auto|].
      intros c [->|[->|K]]; [|lra|]; [specialize (IH2 c (or_introl eq_refl))|specialize (IH2 c (or_intror K))]; lra.
  Qed.

  (** a value for [v]: the smallest upper bound if there is one *)
  Definition pick (x : V -> Q) (v : V) (cs : list gen) : Q :=
    match map (gev x) (uppers v cs) with
    | a :: l => minq a l
    | [] => match map (gev x) (lowers v cs) with a :: l => maxq a l | [] => 0%Q end
    end.
  Lemma bounds_upd : forall x v q cs l, (In l (uppers v cs) \/ In l (lowers v cs) \/ In l (others v cs)) -> (gev (upd x v q) l == gev x l)%Q.
  Proof.
    intros x v q cs l H. apply gev_ext. intros u Hu. destruct (bounds_vars v cs l u H Hu) as [Hn _]. unfold upd. destruct (V_dec u v); [congruence|reflexivity].
  Qed.
  Lemma upd_same : forall x v q, upd x v q v = q.
  Proof. intros. unfold upd. destruct (V_dec v v); [auto|congruence]. Qed.

  Lemma elim_complete : forall x v cs, sat x (elim v cs) -> sat (upd x v (pick x v cs)) cs.
  Proof.
    intros x v cs H. apply Forall_app in H as [A B]. rewrite Forall_forall in A, B. apply (sat_iff _ v). rewrite upd_same.
    assert (HB : forall lo up, In lo (lowers v cs) -> In up (uppers v cs) -> (gev x lo <= gev x up)%Q).
    { intros lo up Hlo Hup. specialize (B (gadd lo (gscale (-1) up))). rewrite gev_add, gev_scale in B. assert (gev x lo + -1 * gev x up <= 0)%Q; [|lra].
      apply B. apply in_flat_map. exists lo. split; auto. apply in_map_iff. exists up. auto. }
    split; [|split]; apply Forall_forall; intros l Hl; rewrite (bounds_upd x v _ cs l) by auto.
    - apply A. auto.
    - unfold pick. destruct (map (gev x) (uppers v cs)) as [|a r] eqn:E; [apply map_eq_nil in E; rewrite E in Hl; destruct Hl|].
      apply minq_spec. rewrite <- E. apply in_map. auto.
    - unfold pick. destruct (map (gev x) (uppers v cs)) as [|a r] eqn:E.
      + destruct (map (gev x) (lowers v cs)) as [|a r] eqn:E'; [apply map_eq_nil in E'; rewrite E' in Hl; destruct Hl|].
        apply maxq_spec. rewrite <- E'. apply in_map. auto.
      + destruct (minq_spec a r) as [Hin _]. rewrite <- E in Hin. apply in_map_iff in Hin as (up & <- & Hup). apply HB; auto.
  Qed.

  (** eliminate all of [vs]; the values of a solution *)
  Fixpoint elim_all (vs : list V) (cs : list gen) : list gen := match vs with [] => cs | v :: vs => elim_all vs (elim v cs) end.
  Fixpoint back (vs : list V) (cs : list gen) (x : V -> Q) : V -> Q :=
    match vs with [] => x | v :: vs => let y := back vs (elim v cs) x in upd y v (pick y v cs) end.
  Lemma elim_all_sound : forall vs cs x, sat x cs -> sat x (elim_all vs cs).
  Proof. induction vs as [|v vs IH]; intros cs x H; auto. apply IH, elim_sound. auto. Qed.
  Lemma back_sat : forall vs cs x, sat x (elim_all vs cs) -> sat (back vs cs x) cs.
  Proof. induction vs as [|v vs IH]; intros cs x H; auto. cbn. apply elim_complete. apply IH. auto. Qed.
  Lemma back_other : forall vs cs x u, ~ In u vs -> back vs cs x u = x u.
  Proof.
    induction vs as [|v vs IH]; intros cs x u H; auto. cbn. unfold upd. destruct (V_dec u v) as [->|]; [exfalso; apply H; left; auto|]. apply IH. intros K. apply H. right; auto.
  Qed.
  Lemma elim_all_vars : forall vs cs l u, In l (elim_all vs cs) -> In u (vars_of l) -> ~ In u vs /\ exists l0, In l0 cs /\ In u (vars_of l0).
  Proof.
    induction vs as [|v vs IH]; intros cs l u Hl Hu; [split; eauto|]. cbn in Hl. destruct (IH _ _ _ Hl Hu) as (A & l0 & Hl0 & Hu0).
    destruct (elim_vars _ _ _ _ Hl0 Hu0) as (B & C). split; auto. intros [E|E]; [congruence|auto].
  Qed.
End FM.

(** ** Linear programs: maximise one variable *)
Section LP.
  Variable V : Type.
  Variable V_dec : forall a b : V, {a = b} + {a <> b}.
  Variable t : V.
  Inductive lp_result := LpBest (x : V -> Q) | LpNone | LpUnbounded.
  Definition lp_vars (cs : list (gen V)) : list V := filter (fun u => if V_dec u t then false else true) (flat_map (vars_of V) cs).
  Definition lp (cs : list (gen V)) : lp_result :=
    let left := elim_all V V_dec (lp_vars cs) cs in
    let zero := fun _ : V => 0%Q in
    let x := upd V V_dec zero t (pick V V_dec zero t left) in
    if forallb (fun l => Qle_bool (gev V x l) 0) left
    then match uppers V V_dec t left with [] => LpUnbounded | _ => LpBest (back V V_dec (lp_vars cs) cs x) end
    else LpNone.

  Lemma left_vars : forall cs l u, In l (elim_all V V_dec (lp_vars cs) cs) -> In u (vars_of V l) -> u = t.
  Proof.
    intros cs l u Hl Hu. destruct (elim_all_vars V V_dec _ _ _ _ Hl Hu) as (Hn & l0 & Hl0 & Hu0).
    destruct (V_dec u t) as [|n]; auto. exfalso. apply Hn. apply filter_In. split; [apply in_flat_map; eauto|]. destruct (V_dec u t); [congruence|auto].
  Qed.
  Lemma lp_correct : forall cs, match lp cs with
    | LpBest x => sat V x cs /\ forall y, sat V y cs -> (y t <= x t)%Q
    | LpNone => forall y, ~ sat V y cs
    | LpUnbounded => forall q, exists y, sat V y cs /\ (q < y t)%Q
    end.
  Proof.
    intros cs. unfold lp. set (left := elim_all V V_dec (lp_vars cs) cs). set (zero := fun _ : V => 0%Q).
    set (x := upd V V_dec zero t (pick V V_dec zero t left)).
    assert (Hgev : forall y z l, In l left -> (y t == z t)%Q -> (gev V y l == gev V z l)%Q).
    { intros y z l Hl E. apply gev_ext. intros u Hu. rewrite (left_vars cs l u Hl Hu). auto. }
    assert (Hb : forall y z l, (In l (uppers V V_dec t left) \/ In l (lowers V V_dec t left)) -> (gev V y l == gev V z l)%Q).
    { intros y z l Hl. apply gev_ext. intros u Hu. exfalso. assert (H : u <> t /\ exists l0, In l0 left /\ In u (vars_of V l0)) by (apply (bounds_vars V V_dec t left l u); [destruct Hl; auto|exact Hu]).
      destruct H as (Hn & l0 & Hl0 & Hu0). apply Hn. eapply left_vars; eauto. }
    assert (Ht : ~ In t (lp_vars cs)) by (unfold lp_vars; intros H; apply filter_In in H as [_ H]; destruct (V_dec t t); congruence).
    assert (Hx : forall y, sat V y cs -> sat V x left).
    { intros y Hy. assert (Hl : sat V y left) by (apply elim_all_sound; auto). unfold x. apply elim_complete.
      assert (He : sat V y (elim V V_dec t left)) by (apply elim_sound; auto). unfold sat in *. rewrite Forall_forall in *. intros l Hin. specialize (He l Hin).
      rewrite (gev_ext V zero y l); auto. intros u Hu. exfalso. destruct (elim_vars V V_dec t left l u Hin Hu) as (Hn & l0 & Hl0 & Hu0). apply Hn. eapply left_vars; eauto. }
    destruct (forallb (fun l => Qle_bool (gev V x l) 0) left) eqn:E.
    - assert (Hsx : sat V x left). { unfold sat. rewrite Forall_forall. rewrite forallb_forall in E. intros l Hl. apply Qle_bool_iff. apply E. auto. }
      assert (Hback : forall y, sat V y left -> sat V (back V V_dec (lp_vars cs) cs y) cs /\ back V V_dec (lp_vars cs) cs y t = y t).
      { intros y Hy. split; [apply back_sat; auto|apply back_other; auto]. }
      destruct (uppers V V_dec t left) as [|up0 ups] eqn:Eu.
      + intros q. set (big := Qmax2 (q + 1) (x t)). assert (Hbig : (q < big)%Q /\ (x t <= big)%Q).
        { unfold big, Qmax2. destruct (Qle_bool (q + 1) (x t)) eqn:K; [apply Qle_bool_iff in K; lra|].
          assert (x t < q + 1)%Q by (apply Qnot_le_lt; intros H; apply Qle_bool_iff in H; congruence). lra. }
        assert (Hs : sat V (upd V V_dec x t big) left).
        { apply (sat_iff V V_dec _ t). rewrite upd_same. apply (sat_iff V V_dec x t) in Hsx as (A & _ & C). rewrite Eu. split; [|split; [constructor|]]; unfold sat in *; rewrite Forall_forall in *.
          - intros l Hl. rewrite (bounds_upd V V_dec x t big left l) by auto. auto.
          - intros l Hl. rewrite (bounds_upd V V_dec x t big left l) by auto. specialize (C l Hl). lra. }
        destruct (Hback _ Hs) as [H1 H2]. eexists. split; [exact H1|]. rewrite H2, upd_same. lra.
      + destruct (Hback _ Hsx) as [H1 H2]. split; auto. intros y Hy. rewrite H2.
        assert (Hl : sat V y left) by (apply elim_all_sound; auto). apply (sat_iff V V_dec y t) in Hl as (_ & B & _). rewrite Eu in B.
        unfold x. rewrite upd_same. unfold pick. rewrite Eu. cbn [map]. destruct (minq_spec (gev V zero up0) (map (gev V zero) ups)) as [Hin _].
        change (gev V zero up0 :: map (gev V zero) ups) with (map (gev V zero) (up0 :: ups)) in Hin. apply in_map_iff in Hin as (up & <- & Hup).
        rewrite Forall_forall in B. specialize (B up Hup). rewrite (Hb zero y up); auto.
    - intros y Hy. specialize (Hx y Hy). assert (forallb (fun l => Qle_bool (gev V x l) 0) left = true); [|congruence].
      apply forallb_forall. intros l Hl. apply Qle_bool_iff. unfold sat in Hx. rewrite Forall_forall in Hx. auto.
  Qed.
End LP.

(** ** Mixed-integer programs *)
Definition var_dec : forall a b : option var, {a = b} + {a <> b}.
Proof. repeat decide equality. Defined.

Definition up (l : lin) : gen (option var) := (map (fun q => (fst q, Some (snd q))) (fst l), snd l).
Definition le0 (a b : lin) : gen (option var) := up (lsub a b).
Definition extend (x : assignment) (q : Q) (v : option var) : Q := match v with Some u => x u | None => q end.
Definition restrict (y : option var -> Q) : assignment := fun v => y (Some v).

Lemma gev_up : forall y l, (gev _ y (up l) == ev (restrict y) l)%Q.
Proof. intros y (ts, b). unfold gev, ev, up. cbn [fst snd]. rewrite map_map. cbn [fst snd]. reflexivity. Qed.
Lemma le0_iff : forall y a b, (gev _ y (le0 a b) <= 0)%Q <-> (ev (restrict y) a <= ev (restrict y) b)%Q.
Proof. intros. unfold le0. rewrite gev_up, ev_sub. lra. Qed.

(** [fixed]: the values chosen for the integer variables *)
Fixpoint con_system (fixed : var -> Z) (c : con) : list (gen (option var)) :=
  match c with
  | CLe a b => [le0 a b]
  | CGe a b => [le0 b a]
  | CEq a b => [le0 a b; le0 b a]
  | COnlyIf v c => if (fixed v =? 1)%Z then con_system fixed c else []
  end.
Definition decl_system (fixed : var -> Z) (d : decl) : list (gen (option var)) :=
  match dlow d with Some q => [le0 (lconst q) (lvar (dvar d))] | None => [] end ++
  match dhigh d with Some q => [le0 (lvar (dvar d)) (lconst q)] | None => [] end ++
  (if is_int d then [le0 (lvar (dvar d)) (lconst (inject_Z (fixed (dvar d)))); le0 (lconst (inject_Z (fixed (dvar d)))) (lvar (dvar d))] else []).
Definition objective_system (o : lin) : gen (option var) := gadd _ ([(1%Q, None)], 0%Q) (gscale _ (-1) (up o)).
Definition milp_system (fixed : var -> Z) (m : milp) : list (gen (option var)) :=
  flat_map (decl_system fixed) (decls m) ++ flat_map (con_system fixed) (cons m) ++ [objective_system (objective m)].

Definition binary_ok (fixed : var -> Z) (m : milp) : bool :=
  forallb (fun d => match dtype d with Binary => (fixed (dvar d) =? 0)%Z || (fixed (dvar d) =? 1)%Z | _ => true end) (decls m).

Definition agrees (m : milp) (fixed : var -> Z) (x : assignment) : Prop := forall v, In v (int_vars m) -> (x v == inject_Z (fixed v))%Q.

Lemma con_system_ok : forall fixed y c, (forall v, In v (guards c) -> (y (Some v) == inject_Z (fixed v))%Q) ->
  (sat _ y (con_system fixed c) <-> holds (restrict y) c).
Proof.
  intros fixed y c. induction c as [a b|a b|a b|v c IH]; intros Hg; cbn [con_system holds].
  - unfold sat. rewrite Forall_cons_iff, le0_iff. split; [tauto|intros; split; auto].
  - unfold sat. rewrite Forall_cons_iff, le0_iff. split; [tauto|intros; split; auto].
  - unfold sat. rewrite !Forall_cons_iff, !le0_iff. split; [intros (A & B & _); apply Qle_antisym; auto|]. intros E. repeat split; try constructor; rewrite E; apply Qle_refl.
  - assert (Hv : (restrict y v == inject_Z (fixed v))%Q) by (apply Hg; left; auto). destruct (Z.eqb_spec (fixed v) 1) as [E|E].
    + rewrite IH by (intros; apply Hg; right; auto). rewrite Hv, E. split; [auto|intros H; apply H; reflexivity].
    + split; [|intros; constructor]. intros _ H. exfalso. apply E. rewrite Hv in H. apply inject_Z_injective. exact H.
Qed.

Lemma milp_system_ok : forall m fixed y, guarded m -> binary_ok fixed m = true ->
  (sat _ y (milp_system fixed m) <-> feasible m (restrict y) /\ agrees m fixed (restrict y) /\ (y None <= ev (restrict y) (objective m))%Q).
Proof.
  intros m fixed y Hg Hb.
  assert (Hobj : (gev _ y (objective_system (objective m)) <= 0)%Q <-> (y None <= ev (restrict y) (objective m))%Q).
  { unfold objective_system. rewrite gev_add, gev_scale, gev_up. unfold gev at 1, Qsum. cbn [map fold_right fst snd]. lra. }
  assert (Hflat : forall (A : Type) (f : A -> list (gen (option var))) l, sat _ y (flat_map f l) <-> forall a, In a l -> sat _ y (f a)).
  { intros A f l. unfold sat. rewrite Forall_flat_map, Forall_forall. tauto. }
  assert (Hagree : (forall d, In d (decls m) -> sat _ y (decl_system fixed d)) <-> Forall (in_domain (restrict y)) (decls m) /\ agrees m fixed (restrict y)).
  { split.
    - intros H. split.
      + apply Forall_forall. intros d Hd. specialize (H d Hd). unfold decl_system, sat in H. apply Forall_app in H as [A H]. apply Forall_app in H as [B H]. split; [|split].
        * unfold binary_ok in Hb. rewrite forallb_forall in Hb. specialize (Hb d Hd). unfold is_int in H. destruct (dtype d); [| |exact I].
          -- rewrite !Forall_cons_iff, !le0_iff, ev_var, ev_const in H. destruct H as (H1 & H2 & _).
             apply orb_true_iff in Hb as [E|E]; apply Z.eqb_eq in E; rewrite E in H1, H2; [left|right]; apply Qle_antisym; auto.
          -- rewrite !Forall_cons_iff, !le0_iff, ev_var, ev_const in H. destruct H as (H1 & H2 & _). exists (fixed (dvar d)). apply Qle_antisym; auto.
        * destruct (dlow d); auto. rewrite Forall_cons_iff, le0_iff, ev_var, ev_const in A. tauto.
        * destruct (dhigh d); auto. rewrite Forall_cons_iff, le0_iff, ev_var, ev_const in B. tauto.
      + intros v Hv. apply in_map_iff in Hv as (d & <- & Hd). apply filter_In in Hd as [Hd Hi]. specialize (H d Hd). unfold decl_system, sat in H. apply Forall_app in H as [_ H]. apply Forall_app in H as [_ H].
        rewrite Hi, !Forall_cons_iff, !le0_iff, ev_var, ev_const in H. destruct H as (H1 & H2 & _). apply Qle_antisym; auto.
    - intros [H Ha] d Hd. rewrite Forall_forall in H. destruct (H d Hd) as (_ & A & B). unfold decl_system, sat. apply Forall_app. split; [|apply Forall_app; split].
      + destruct (dlow d); [|constructor]. rewrite Forall_cons_iff, le0_iff, ev_var, ev_const. auto.
      + destruct (dhigh d); [|constructor]. rewrite Forall_cons_iff, le0_iff, ev_var, ev_const. auto.
      + destruct (is_int d) eqn:Hi; [|constructor]. assert (E : (restrict y (dvar d) == inject_Z (fixed (dvar d)))%Q) by (apply Ha; apply in_map; apply filter_In; auto).
        rewrite !Forall_cons_iff, !le0_iff, ev_var, ev_const, E. repeat split; try constructor; apply Qle_refl. }
  assert (Hcons : agrees m fixed (restrict y) -> ((forall c, In c (cons m) -> sat _ y (con_system fixed c)) <-> Forall (holds (restrict y)) (cons m))).
  { intros Ha. rewrite Forall_forall. split; intros H c Hc; [apply (con_system_ok fixed)|apply (con_system_ok fixed y c)]; auto; intros v Hv; apply Ha; eapply Hg; eauto. }
  unfold milp_system. unfold sat at 1. rewrite !Forall_app. fold (sat _ y (flat_map (decl_system fixed) (decls m))). fold (sat _ y (flat_map (con_system fixed) (cons m))).
  rewrite !Hflat, Hagree, Forall_cons_iff, Hobj. unfold feasible. split.
  - intros ((A & B) & C & D & _). split; [split; auto; apply Hcons; auto|auto].
  - intros ((A & B) & C & D). repeat split; auto. intros c Hc. apply Hcons; auto.
Qed.

(** all ways to choose values between [-B] and [B] for the variables [vs] *)
Definition range (B : nat) : list Z := map (fun i => (Z.of_nat i - Z.of_nat B)%Z) (seq 0 (2 * B + 1)).
Definition var_eq : forall a b : var, {a = b} + {a <> b}.
Proof. repeat decide equality. Defined.
Fixpoint choices (B : nat) (vs : list var) : list (var -> Z) :=
  match vs with
  | [] => [fun _ => 0%Z]
  | v :: vs => flat_map (fun f => map (fun z u => if var_eq u v then z else f u) (range B)) (choices B vs)
  end.
Lemma range_In : forall B z, (- Z.of_nat B <= z <= Z.of_nat B)%Z -> In z (range B).
Proof. intros B z H. apply in_map_iff. exists (Z.to_nat (z + Z.of_nat B)). split; [lia|]. apply in_seq. lia. Qed.
Lemma choices_complete : forall B vs (g : var -> Z), (forall v, In v vs -> (- Z.of_nat B <= g v <= Z.of_nat B)%Z) ->
  exists f, In f (choices B vs) /\ forall v, In v vs -> f v = g v.
Proof.
  intros B vs g. induction vs as [|v vs IH]; intros H.
  - eexists. split; [left; reflexivity|]. intros v [].
  - destruct IH as (f & Hf & Ef); [intros; apply H; right; auto|].
    exists (fun u => if var_eq u v then g v else f u). split.
    + cbn. apply in_flat_map. exists f. split; auto. apply in_map_iff. exists (g v). split; auto. apply range_In. apply H. left; auto.
    + intros u Hu. destruct (var_eq u v) as [->|n]; auto. destruct Hu as [E|Hu]; [congruence|auto].
Qed.

Fixpoint best_of (o : lin) (rs : list (lp_result (option var))) : status :=
  match rs with
  | [] => Infeasible
  | LpUnbounded _ :: _ => OtherStatus
  | LpNone _ :: rs => best_of o rs
  | LpBest _ y :: rs =>
      match best_of o rs with
      | OtherStatus => OtherStatus
      | Infeasible => Optimal (restrict y)
      | Optimal x => if Qle_bool (ev x o) (ev (restrict y) o) then Optimal (restrict y) else Optimal x
      end
  end.
Definition ref_solver (B : nat) : solver := fun m =>
  best_of (objective m) (map (fun f => lp (option var) var_dec None (milp_system f m)) (filter (fun f => binary_ok f m) (choices B (int_vars m)))).


Theorem ref_solver_correct : forall B m, guarded m -> bounded_integers B m -> correct_on (ref_solver B) m.
Proof.
  intros B m Hg HB. unfold correct_on, ref_solver.
  set (fs := filter (fun f => binary_ok f m) (choices B (int_vars m))).
  assert (Hfs : forall f, In f fs -> binary_ok f m = true) by (intros f Hf; apply filter_In in Hf; tauto).
  assert (Hall : forall x, feasible m x -> exists f, In f fs /\ agrees m f x).
  { intros x Hx. pose proof Hx as [Hd _]. rewrite Forall_forall in Hd.
    assert (Hint : forall v, In v (int_vars m) -> exists z, (x v == inject_Z z)%Q).
    { intros v Hv. apply in_map_iff in Hv as (d & <- & Hv). apply filter_In in Hv as [Hv Hi]. destruct (Hd d Hv) as (H & _). unfold is_int in Hi. destruct (dtype d); [| |discriminate]; auto.
      destruct H as [H|H]; [exists 0%Z|exists 1%Z]; auto. }
    set (g := fun v => Qfloor (x v)).
    assert (Hfl : forall v, In v (int_vars m) -> (x v == inject_Z (g v))%Q). { intros v Hv. unfold g. destruct (Hint v Hv) as (z & E). rewrite E, Qfloor_Z. reflexivity. }
    destruct (choices_complete B (int_vars m) g) as (f & Hf & Ef).
    - intros v Hv. specialize (HB x v Hx Hv). rewrite (Hfl v Hv) in HB. destruct HB as [H1 H2]. rewrite <- inject_Z_opp in H1. rewrite <- Zle_Qle in H1, H2. lia.
    - assert (Hag : agrees m f x) by (intros v Hv; rewrite Ef by auto; auto). exists f. split; auto. apply filter_In. split; auto.
      apply forallb_forall. intros d Hdd. destruct (dtype d) eqn:Et; auto. assert (Hv : In (dvar d) (int_vars m)) by (apply in_map, filter_In; split; auto; unfold is_int; rewrite Et; auto).
      destruct (Hd d Hdd) as (H & _). rewrite Et in H. rewrite (Hag _ Hv) in H. apply orb_true_iff. rewrite !Z.eqb_eq. destruct H as [H|H]; [left|right]; apply inject_Z_injective; exact H. }
  assert (G : forall l, (forall f, In f l -> binary_ok f m = true) ->
    match best_of (objective m) (map (fun f => lp (option var) var_dec None (milp_system f m)) l) with
    | Optimal x => feasible m x /\ forall f y, In f l -> feasible m y -> agrees m f y -> (ev y (objective m) <= ev x (objective m))%Q
    | Infeasible => forall f y, In f l -> feasible m y -> agrees m f y -> False
    | OtherStatus => forall q, exists x, feasible m x /\ (q < ev x (objective m))%Q
    end).
  { induction l as [|f l IH]; intros Hl; [cbn; intros f y []|]. specialize (IH (fun f Hf => Hl f (or_intror Hf))).
    pose proof (lp_correct (option var) var_dec None (milp_system f m)) as HLP.
    assert (Hb : binary_ok f m = true) by (apply Hl; left; auto). cbn [map best_of].
    assert (Hext : forall y, feasible m y -> agrees m f y -> sat _ (extend y (ev y (objective m))) (milp_system f m)).
    { intros y Hy Ha. apply milp_system_ok; auto. change (restrict (extend y (ev y (objective m)))) with (fun v => y v). change (fun v => y v) with y. repeat split; auto; try apply Hy. apply Qle_refl. }
    destruct (lp (option var) var_dec None (milp_system f m)) as [x| |].
    - destruct HLP as [Hsx Hopt]. apply milp_system_ok in Hsx as (Fx & Ax & Ox); auto.
      assert (Hb1 : forall y, feasible m y -> agrees m f y -> (ev y (objective m) <= ev (restrict x) (objective m))%Q).
      { intros y Hy Ha. specialize (Hopt _ (Hext y Hy Ha)). cbn [extend] in Hopt. lra. }
      destruct (best_of (objective m) (map (fun f => lp (option var) var_dec None (milp_system f m)) l)) as [z| |]; auto.
      + destruct IH as [Fz Hz]. destruct (Qle_bool (ev z (objective m)) (ev (restrict x) (objective m))) eqn:E.
        * apply Qle_bool_iff in E. split; auto. intros g y [<-|Hg'] Hy Ha; [auto|]. specialize (Hz g y Hg' Hy Ha). lra.
        * assert (ev (restrict x) (objective m) < ev z (objective m))%Q by (apply Qnot_le_lt; intros K; apply Qle_bool_iff in K; congruence).
          split; auto. intros g y [<-|Hg'] Hy Ha; [|eapply Hz; eauto]. specialize (Hb1 y Hy Ha). lra.
      + split; auto. intros g y [<-|Hg'] Hy Ha; [auto|]. exfalso. eapply IH; eauto.
    - assert (Hno : forall y, feasible m y -> agrees m f y -> False) by (intros y Hy Ha; eapply HLP; apply (Hext y Hy Ha)).
      destruct (best_of (objective m) (map (fun f => lp (option var) var_dec None (milp_system f m)) l)) as [z| |]; auto.
      + destruct IH as [Fz Hz]. split; auto. intros g y [<-|Hg'] Hy Ha; [exfalso; eauto|eauto].
      + intros g y [<-|Hg'] Hy Ha; eauto.
    - intros q. destruct (HLP q) as (y & Hy & Hq). apply milp_system_ok in Hy as (Fy & _ & Oy); auto. exists (restrict y). split; auto. lra. }
  specialize (G fs Hfs). destruct (best_of _ _) as [x| |]; auto.
  - destruct G as [Fx Hx]. split; auto. intros y Hy. destruct (Hall y Hy) as (f & Hf & Ha). eauto.
  - intros x Hx. destruct (Hall x Hx) as (f & Hf & Ha). eauto.
Qed.
