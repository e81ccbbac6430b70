(** * Pareto efficiency (C69) *)
From Coq Require Import String.
From Coq Require Import List Arith Bool ZArith QArith Lia Lqa Permutation Sorted.
From Verif Require Import Milp RulesSolver SpecLoads SolverCompute SolverLex RulesMonroe RulesMore SolverMore.
From Verif Require Import Prelude Misc Common MiscProofs Preferences Scores ScoresProofs Rule Spec SpecRules OptProofs Compute SpecCompute SpecSeq
  SpecMonroe ComputeProofs Guarantees ComputeAll SpecAll AllProofs Mono TieBreak SpecVary Vary VaryAll Join.
Import ListNotations.
Local Open Scope string_scope.
Open Scope nat_scope.
Local Open Scope list_scope.

Lemma Qsum_map_le : forall (A : Type) (f g : A -> Q) l, (forall a, In a l -> (f a <= g a)%Q) -> (Qsum (map f l) <= Qsum (map g l))%Q.
Proof.
  intros A f g l. induction l as [|a l IH]; intros H; [apply Qle_refl|]. cbn [map]. change (f a + Qsum (map f l) <= g a + Qsum (map g l))%Q.
  apply Qplus_le_compat; [apply H; left; auto|apply IH; intros; apply H; right; auto].
Qed.
Lemma Qsum_map_lt : forall (A : Type) (f g : A -> Q) l, (forall a, In a l -> (f a <= g a)%Q) -> (exists a, In a l /\ (f a < g a)%Q) ->
  (Qsum (map f l) < Qsum (map g l))%Q.
Proof.
  intros A f g l. induction l as [|a l IH]; intros H (b & Hb & Hlt); [destruct Hb|]. cbn [map]. change (f a + Qsum (map f l) < g a + Qsum (map g l))%Q.
  destruct Hb as [->|Hb].
  - pose proof (Qsum_map_le A f g l ltac:(intros; apply H; right; auto)). lra.
  - pose proof (IH ltac:(intros; apply H; right; auto) ltac:(eauto)). pose proof (H a ltac:(left; auto)). lra.
Qed.
Lemma Qsum_map_eq : forall (A : Type) (f g : A -> Q) l, (forall a, In a l -> (f a == g a)%Q) -> (Qsum (map f l) == Qsum (map g l))%Q.
Proof. intros. apply Qle_antisym; apply Qsum_map_le; intros a Ha; rewrite (H a Ha); apply Qle_refl. Qed.
Lemma count_le : forall (A : Type) (f g : A -> bool) l, (forall a, In a l -> f a = true -> g a = true) -> length (filter f l) <= length (filter g l).
Proof.
  intros A f g l. induction l as [|a l IH]; intros H; auto. cbn. assert (length (filter f l) <= length (filter g l)) by (apply IH; intros; apply H; auto; right; auto).
  destruct (f a) eqn:Ef; [rewrite (H a) by (auto; left; auto); cbn; lia|]. destruct (g a); cbn; lia.
Qed.
Lemma count_lt : forall (A : Type) (f g : A -> bool) l, (forall a, In a l -> f a = true -> g a = true) -> (exists a, In a l /\ f a = false /\ g a = true) ->
  length (filter f l) < length (filter g l).
Proof.
  intros A f g l. induction l as [|a l IH]; intros H (b & Hb & E1 & E2); [destruct Hb|]. cbn.
  destruct Hb as [->|Hb].
  - rewrite E1, E2. cbn. pose proof (count_le A f g l ltac:(intros; apply H; auto; right; auto)). lia.
  - pose proof (IH ltac:(intros; apply H; auto; right; auto) ltac:(eauto)). destruct (f a) eqn:Ef; [rewrite (H a) by (auto; left; auto); cbn; lia|]. destruct (g a); cbn; lia.
Qed.
Lemma wsum_filter : forall (f : voter -> bool) l, (wsum (filter f l) == Qsum (map (fun v => if f v then weight v else 0) l))%Q.
Proof.
  intros f l. unfold wsum. induction l as [|v l IH]; [reflexivity|]. cbn [map filter]. change (Qsum (?a :: ?b)) with (a + Qsum b)%Q. rewrite <- IH.
  destruct (f v); cbn [map]; [reflexivity|]. ring.
Qed.

Section Pareto.
  Variable p : profile.
  Hypothesis Hw : wf p.
  Lemma wt : forall v, In v (voters p) -> NoDup (approved v) /\ (0 < weight v)%Q.
  Proof using Hw. intros v Hv. pose proof Hw as [_ HF]. rewrite Forall_forall in HF. destruct (HF v Hv) as (A & _ & B). auto. Qed.

  Lemma seq_sum_lt : forall (f : nat -> Q) a b, (forall i, 1 <= i -> (0 < f i)%Q) -> a < b -> (Qsum (map f (seq 1 a)) < Qsum (map f (seq 1 b)))%Q.
  Proof using.
    intros f a b Hf Hab. replace b with (a + S (b - a - 1)) by lia. rewrite seq_app, map_app, Qsum_app. cbn [seq map]. change (Qsum (?a :: ?b)) with (a + Qsum b)%Q.
    assert (0 <= Qsum (map f (seq (S (1 + a)) (b - a - 1))))%Q by (apply Qsum_map_nonneg; intros i Hi; apply in_seq in Hi; apply Qlt_le_weak, Hf; lia).
    pose proof (Hf (1 + a) ltac:(lia)). lra.
  Qed.
  Lemma seq_sum_le : forall (f : nat -> Q) a b, (forall i, 1 <= i -> (0 <= f i)%Q) -> a <= b -> (Qsum (map f (seq 1 a)) <= Qsum (map f (seq 1 b)))%Q.
  Proof using.
    intros f a b Hf Hab. replace b with (a + (b - a)) by lia. rewrite seq_app, map_app, Qsum_app.
    assert (0 <= Qsum (map f (seq (1 + a) (b - a))))%Q; [|lra]. apply Qsum_map_nonneg. intros i Hi. apply in_seq in Hi. apply Hf. lia.
  Qed.
  Lemma thiele_dominates : forall f V W, (forall i, 1 <= i -> (0 < f i)%Q) -> dominates p V W -> (Thiele f p W < Thiele f p V)%Q.
  Proof using Hw.
    intros f V W Hf [H (v & Hv & Hlt)]. unfold Thiele. apply Qsum_map_lt.
    - intros u Hu. destruct (wt u Hu) as [_ P]. pose proof (seq_sum_le f _ _ ltac:(intros; apply Qlt_le_weak; auto) (H u Hu)). nra.
    - exists v. split; auto. destruct (wt v Hv) as [_ P]. pose proof (seq_sum_lt f _ _ Hf Hlt). nra.
  Qed.
  Lemma thiele_weakly : forall f V W, (forall i, 1 <= i -> (0 <= f i)%Q) -> dominates p V W -> (Thiele f p W <= Thiele f p V)%Q.
  Proof using Hw.
    intros f V W Hf [H _]. unfold Thiele. apply Qsum_map_le. intros u Hu. destruct (wt u Hu) as [_ P]. pose proof (seq_sum_le f _ _ Hf (H u Hu)). nra.
  Qed.
  Lemma separable_dominates : forall (g : voter -> Q) V W, (forall v, In v (voters p) -> (0 <= g v)%Q) ->
    (forall v, In v (voters p) -> approved v <> [] -> (0 < g v)%Q) -> NoDup V -> NoDup W -> dominates p V W ->
    (Qsum (map (fun c => Qsum (map g (supporters p c))) W) < Qsum (map (fun c => Qsum (map g (supporters p c))) V))%Q.
  Proof using Hw.
    intros g V W Hg0 Hg NV NW [H (v & Hv & Hlt)]. rewrite !sep_swap by auto. apply Qsum_map_lt.
    - intros u Hu. specialize (H u Hu). specialize (Hg0 u Hu). apply Qnat_le in H. nra.
    - exists v. split; auto. assert (Ha : approved v <> []) by (intros E; unfold util in Hlt; rewrite E in Hlt; cbn in Hlt; lia).
      specialize (Hg v Hv Ha). apply Qnat_lt in Hlt. nra.
  Qed.
  Lemma lexcc_dominates : forall k V W, is_committee p k V -> dominates p V W -> lex_ge k (at_least_weight p W) (at_least_weight p V) -> False.
  Proof using Hw.
    intros k V W HV [H (v & Hv & Hlt)] Hlex.
    assert (Hle : forall i, (at_least_weight p W i <= at_least_weight p V i)%Q).
    { intros i. unfold at_least_weight. rewrite !wsum_filter. apply Qsum_map_le. intros u Hu. destruct (wt u Hu) as [_ P]. specialize (H u Hu).
      destruct (Nat.leb_spec i (util u W)), (Nat.leb_spec i (util u V)); try lra. lia. }
    assert (Hk : util v V <= k). { destruct HV as (_ & HL & _). unfold util. destruct (wt v Hv) as [N _]. rewrite <- HL.
      apply NoDup_incl_length; [apply NoDup_inter; auto|]. intros c Hc. apply inter_In in Hc. tauto. }
    assert (Hst : (at_least_weight p W (util v V) < at_least_weight p V (util v V))%Q).
    { unfold at_least_weight. rewrite !wsum_filter. apply Qsum_map_lt.
      - intros u Hu. destruct (wt u Hu) as [_ P]. specialize (H u Hu). destruct (Nat.leb_spec (util v V) (util u W)), (Nat.leb_spec (util v V) (util u V)); try lra. lia.
      - exists v. split; auto. destruct (wt v Hv) as [_ P]. destruct (Nat.leb_spec (util v V) (util v W)), (Nat.leb_spec (util v V) (util v V)); try lra; lia. }
    destruct Hlex as [E|(i & Hi & Hl & He)].
    - specialize (E (util v V) ltac:(lia)). lra.
    - specialize (Hle i). lra.
  Qed.
  (** distances are determined by the number of approved members *)
  Lemma distance_util : forall k v W, In v (voters p) -> is_committee p k W -> distance (approved v) W + 2 * util v W = length (approved v) + k.
  Proof using Hw.
    intros k v W Hv (HA & HL & HR). destruct (wt v Hv) as [N _]. pose proof (ascending_NoDup W HA) as NW. unfold distance, util.
    assert (E1 : length (diff (approved v) W) + length (inter (approved v) W) = length (approved v)).
    { unfold diff, inter. clear. induction (approved v) as [|a l IH]; auto. cbn. destruct (mem a W); cbn; lia. }
    assert (E2 : length (diff W (approved v)) + length (inter W (approved v)) = k).
    { rewrite <- HL. unfold diff, inter. clear. induction W as [|a l IH]; auto. cbn. destruct (mem a (approved v)); cbn; lia. }
    rewrite (inter_comm_length (approved v) W) in * by auto. lia.
  Qed.
  Lemma lexminimaxav_dominates : forall k V W, is_committee p k V -> is_committee p k W -> dominates p V W -> lexmin_le p W V -> False.
  Proof using Hw.
    intros k V W HV HW [H (v & Hv & Hlt)] Hlex.
    assert (Hd : forall u, In u (voters p) -> distance (approved u) V <= distance (approved u) W).
    { intros u Hu. pose proof (distance_util k u V Hu HV). pose proof (distance_util k u W Hu HW). specialize (H u Hu). lia. }
    assert (Hs : distance (approved v) V < distance (approved v) W).
    { pose proof (distance_util k v V Hv HV). pose proof (distance_util k v W Hv HW). lia. }
    assert (Hle : forall d, voters_at_least p V d <= voters_at_least p W d).
    { intros d. apply count_le. intros u Hu Ht. apply Nat.leb_le in Ht. apply Nat.leb_le. specialize (Hd u Hu). lia. }
    assert (Hst : voters_at_least p V (distance (approved v) W) < voters_at_least p W (distance (approved v) W)).
    { apply count_lt; [intros u Hu Ht; apply Nat.leb_le in Ht; apply Nat.leb_le; specialize (Hd u Hu); lia|].
      exists v. split; auto. split; [apply Nat.leb_gt; auto|apply Nat.leb_le; auto]. }
    destruct Hlex as [E|(d & Hl & He)]; [specialize (E (distance (approved v) W)); lia|]. specialize (Hle d). lia.
  Qed.
  Lemma minimaxav_dominates : forall k V W, is_committee p k V -> dominates p V W -> minimaxav_winner p k W -> minimaxav_winner p k V.
  Proof using Hw.
    intros k V W HV [H _] [HW HB]. split; auto. intros U d d' HU Hd Hd'. destruct (max_distance_exists p W) as (x & Hx). specialize (HB U x d' HU Hx Hd').
    assert (d <= x); [|lia]. destruct Hd as (_ & D2 & D3). destruct Hx as (X1 & _). destruct (voters p) as [|v0 l] eqn:E; [rewrite D3; auto; lia|]. rewrite <- E in *.
    destruct D2 as (u & Hu & <-); [rewrite E; discriminate|]. pose proof (distance_util k u V Hu HV). pose proof (distance_util k u W Hu HW). specialize (H u Hu). specialize (X1 u Hu). lia.
  Qed.
End Pareto.

Section ParetoAll.
  Variable rnd : random.
  Variable nx : networkx.
  Variable sv : solvers.
  Variable e : env.
  Let e' := with_solvers nx sv e.
  Lemma efficient_listed : forall p k id alg, efficient e p id alg -> valid_call p k false None ->
    exists P, listed_by e p k id alg P /\ forall W, P W -> forall V, is_committee p k V -> dominates p V W -> False.
  Proof using.
    intros p k id alg Ha (Hw & Hv & Hk & _). 
    assert (TH : forall id f, denotes e id f -> id <> "cc" -> forall W, maximises (Thiele f p) p k W -> forall V, is_committee p k V -> dominates p V W -> False).
    { intros id0 f Hd Hne W [HW HB] V HV HD. pose proof (thiele_dominates p Hw f V W (fun i Hi => denotes_pos e id0 f Hd Hne i Hi) HD). specialize (HB V HV). lra. }
    assert (ND : forall W, is_committee p k W -> NoDup W) by (intros W (A & _); apply ascending_NoDup; auto).
    destruct Ha.
    - eexists. split; [apply b_av|]. intros W [HW HB] V HV HD. specialize (HB V HV). cbv beta in HB.
      pose proof (separable_dominates p Hw weight V W (fun v H => Qlt_le_weak _ _ (proj2 (wt p Hw v H))) (fun v H _ => proj2 (wt p Hw v H)) (ND V HV) (ND W HW) HD) as HS.
      change (fun c : nat => Qsum (map weight (supporters p c))) with (support p) in HS. lra.
    - eexists. split; [apply b_sav; auto|]. intros W [HW HB] V HV HD. specialize (HB V HV). cbv beta in HB.
      assert (G : forall v, In v (voters p) -> approved v <> [] -> (0 < weight v / Qnat (length (approved v)))%Q).
      { intros v Hv' Hne. destruct (wt p Hw v Hv') as [_ P]. apply Qlt_shift_div_l; [|lra]. destruct (approved v); [congruence|]. apply Qnat_lt with (a := 0). cbn. lia. }
      assert (G0 : forall v, In v (voters p) -> (0 <= weight v / Qnat (length (approved v)))%Q).
      { intros v Hv'. destruct (approved v) eqn:E; [cbn; change (Qnat 0) with 0%Q; unfold Qdiv; change (/ 0)%Q with 0%Q; lra|]. rewrite <- E. apply Qlt_le_weak, G; auto. rewrite E. discriminate. }
      pose proof (separable_dominates p Hw (fun v => weight v / Qnat (length (approved v)))%Q V W G0 G (ND V HV) (ND W HW) HD) as HS.
      change (fun c : nat => Qsum (map (fun v => weight v / Qnat (length (approved v)))%Q (supporters p c))) with (sav_support p) in HS. lra.
    - exists (maximises (Thiele f p) p k). split; [eapply b_thiele; eauto|]. exact (TH id f H H0).
    - exists (maximises (Thiele f p) p k). split; [eapply b_thiele_bb; eauto|]. exact (TH id f H H0).
    - exists (maximises (Thiele f p) p k). split; [eapply b_thiele_mip; eauto|]. exact (TH id f H H0).
    - eexists. split; [apply b_lexcc|]. intros W [HW HB] V HV HD. exact (lexcc_dominates p Hw k V W HV HD (HB V HV)).
    - eexists. split; [apply b_lexcc_gurobi; auto|]. intros W [HW HB] V HV HD. exact (lexcc_dominates p Hw k V W HV HD (HB V HV)).
    - eexists. split; [apply b_lexminimaxav; auto|]. intros W [HW HB] V HV HD. exact (lexminimaxav_dominates p Hw k V W HV HW HD (HB V HV)).
  Qed.
  Theorem efficient_ok : forall p k id alg, efficient e p id alg -> libraries_ok p rnd nx sv e -> valid_call p k false None ->
    exists l, compute rnd nx e' id p (Z.of_nat k) None (args alg false None) = Ok l /\
      forall W V, In W l -> is_committee p k V -> ~ dominates p V W.
  Proof using.
    intros p k id alg Ha HL Hc. destruct (efficient_listed p k id alg Ha Hc) as (P & HP & H). destruct (irresolute_list rnd nx sv e p k id alg P HL HP Hc) as (l & El & Hl).
    exists l. split; [exact El|]. intros W V HW HV HD. apply Hl in HW. eapply H; eauto.
  Qed.
  Theorem weakly_efficient_ok : forall p k id alg, weakly_efficient e p id alg -> libraries_ok p rnd nx sv e -> valid_call p k false None ->
    exists l, compute rnd nx e' id p (Z.of_nat k) None (args alg false None) = Ok l /\
      forall W V, In W l -> is_committee p k V -> dominates p V W -> In V l.
  Proof using.
    intros p k id alg Ha HL Hc. pose proof Hc as (Hw & Hv & Hk & _).
    assert (E : exists P, listed_by e p k id alg P /\ forall W V, P W -> is_committee p k V -> dominates p V W -> P V).
    { destruct Ha as [alg H|alg H].
      - exists (maximises (Thiele cc_w p) p k). split.
        + destruct H as [->|[->|[Hi|[-> Hi]]]].
          * apply b_thiele with (f := cc_w); constructor.
          * apply b_thiele_bb with (f := cc_w); [constructor|]. intros i j Hi Hij. unfold cc_w. destruct (Nat.eqb_spec i 1), (Nat.eqb_spec j 1); try lra. lia.
          * apply b_thiele_mip with (f := cc_w); [constructor|apply cc_decreasing|auto].
          * apply b_cc_cp. auto.
        + intros W V [HW HB] HV HD. split; auto. intros U HU. specialize (HB U HU).
          pose proof (thiele_weakly p Hw cc_w V W ltac:(intros i _; unfold cc_w; destruct (i =? 1); lra) HD). lra.
      - exists (minimaxav_winner p k). split; [apply b_minimaxav; auto|]. intros W V HW HV HD. eapply minimaxav_dominates; eauto. }
    destruct E as (P & HP & H). destruct (irresolute_list rnd nx sv e p k id alg P HL HP Hc) as (l & El & Hl).
    exists l. split; [exact El|]. intros W V HW HV HD. apply Hl in HW. apply Hl. eapply H; eauto.
  Qed.
End ParetoAll.
