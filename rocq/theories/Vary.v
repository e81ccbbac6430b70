(** * More approvals (C66): proofs *)
From Coq Require Import String.
From Coq Require Import List Arith Bool ZArith QArith Lia Lqa Permutation Sorted.
From Verif Require Import Milp RulesSolver SpecLoads SolverMaximin SolverCompute SolverLex IsoSeq.
From Verif Require Import Prelude Misc Common MiscProofs Preferences Scores ScoresProofs Spec SpecRules Compute SpecCompute SpecSeq SpecAxioms
  SpecMonroe PhragmenProofs EnestroemProofs MesProofs AvPhase MesFinal ComputeProofs Guarantees Proportional EnestroemPJR MaximinPJR
  ComputeAll SpecAll AllProofs Mono TieBreak SpecVary.
Import ListNotations.
Local Open Scope string_scope.
Open Scope nat_scope.
Local Open Scope list_scope.

(** ** Rules that choose the best committees *)
Section Best.
  Variables (p q : profile) (k c : nat).
  Hypothesis Hm : num_cand q = num_cand p.
  Variables ge_p ge_q : list nat -> list nat -> Prop.
  Hypothesis trans_q : forall A B D, ge_q A B -> ge_q B D -> ge_q A D.
  Hypothesis improves : forall W V, is_committee p k W -> is_committee p k V -> In c W -> ~ In c V -> ge_p W V -> ge_q W V.
  Lemma best_gains : forall W V,
    is_committee p k W /\ (forall U, is_committee p k U -> ge_p W U) -> In c W ->
    is_committee q k V /\ (forall U, is_committee q k U -> ge_q V U) ->
    exists V', (is_committee q k V' /\ (forall U, is_committee q k U -> ge_q V' U)) /\ In c V'.
  Proof using Hm trans_q improves.
    intros W V [HW Hbest] Hc [HV Hq].
    assert (Hco : forall U, is_committee q k U <-> is_committee p k U) by (intros U; unfold is_committee; rewrite Hm; tauto).
    destruct (in_dec Nat.eq_dec c V) as [Hin|Hn]; [exists V; auto|].
    exists W. split; auto. split; [apply Hco; auto|]. intros U HU. apply (trans_q W V U); auto.
    apply improves; auto; [apply Hco; auto|]. apply Hbest. apply Hco. auto.
  Qed.
End Best.

Lemma Forall2_Qsum_le : forall (R : voter -> voter -> Prop) (f g : voter -> Q) l l', Forall2 R l l' ->
  (forall v u, In v l -> In u l' -> R v u -> (f v <= g u)%Q) -> (Qsum (map f l) <= Qsum (map g l'))%Q.
Proof.
  intros R f g l l' H. induction H as [|v u l l' Hvu HF IH]; intros Hle; [apply Qle_refl|]. cbn [map Qsum fold_right].
  change (f v + Qsum (map f l) <= g u + Qsum (map g l'))%Q. apply Qplus_le_compat; [apply Hle; auto; left; auto|].
  apply IH. intros; apply Hle; auto; right; auto.
Qed.
Lemma Forall2_count_le : forall (R : voter -> voter -> Prop) (f g : voter -> bool) l l', Forall2 R l l' ->
  (forall v u, In v l -> In u l' -> R v u -> f v = true -> g u = true) -> length (filter f l) <= length (filter g l').
Proof.
  intros R f g l l' H. induction H as [|v u l l' Hvu HF IH]; intros Hle; auto. cbn [filter].
  assert (IH' : length (filter f l) <= length (filter g l')) by (apply IH; intros v' u' Hv' Hu'; apply Hle; right; auto).
  destruct (f v) eqn:Ef; [rewrite (Hle v u) by (auto; left; auto); cbn; lia|]. destruct (g u); cbn; lia.
Qed.
Lemma Forall2_flip' : forall (R : voter -> voter -> Prop) l l', Forall2 R l l' -> Forall2 (fun u v => R v u) l' l.
Proof. induction 1; constructor; auto. Qed.

(** a sum over the members of sums over their supporters *)
Lemma sep_swap : forall (g : voter -> Q) p W, wf p -> NoDup W ->
  (Qsum (map (fun c => Qsum (map g (supporters p c))) W) == Qsum (map (fun v => g v * Qnat (util v W)) (voters p)))%Q.
Proof.
  intros g p W [_ Hw] HW. unfold supporters.
  assert (E : forall v, In v (voters p) -> util v W = length (filter (fun c => approves v c) W)).
  { intros v Hv. unfold util. rewrite Forall_forall in Hw. rewrite inter_comm_length by (auto; apply (Hw v Hv)). reflexivity. }
  revert E. generalize (voters p) as vs. induction vs as [|v vs IH]; intros E.
  - cbn. clear. induction W as [|c W IH]; cbn; [reflexivity|]. change (Qsum [] + Qsum (map (fun _ => Qsum []) W) == 0)%Q. rewrite IH. reflexivity.
  - cbn [map]. change (Qsum (g v * Qnat (util v W) :: map (fun v0 => g v0 * Qnat (util v0 W)) vs)%Q)
      with (g v * Qnat (util v W) + Qsum (map (fun v0 => g v0 * Qnat (util v0 W)) vs))%Q.
    rewrite <- IH by (intros; apply E; right; auto). rewrite (E v) by (left; auto). clear.
    induction W as [|c W IH]; [cbn; change (Qnat 0) with 0%Q; ring|]. cbn [map filter].
    change (Qsum (map g (if approves v c then v :: filter (fun v0 => approves v0 c) vs else filter (fun v0 => approves v0 c) vs)) +
      Qsum (map (fun c0 => Qsum (map g (if approves v c0 then v :: filter (fun v0 => approves v0 c0) vs else filter (fun v0 => approves v0 c0) vs))) W) ==
      g v * Qnat (length (if approves v c then c :: filter (fun c0 => approves v c0) W else filter (fun c0 => approves v c0) W)) +
      (Qsum (map g (filter (fun v0 => approves v0 c) vs)) + Qsum (map (fun c0 => Qsum (map g (filter (fun v0 => approves v0 c0) vs))) W)))%Q.
    cbn [filter] in IH. rewrite IH. destruct (approves v c).
    + cbn [map length]. change (Qsum (g v :: map g (filter (fun v0 => approves v0 c) vs))) with (g v + Qsum (map g (filter (fun v0 => approves v0 c) vs)))%Q.
      rewrite Qnat_S. ring.
    + ring.
Qed.

(** *** lexicographic comparisons *)
Lemma lex_ge_trans : forall k x y z, lex_ge k x y -> lex_ge k y z -> lex_ge k x z.
Proof.
  intros k x y z [H|(i & Hi & Hl & He)] [H'|(j & Hj & Hl' & He')].
  - left. intros i Hi. rewrite (H i Hi). auto.
  - right. exists j. split; auto. split; [rewrite (H j Hj); auto|]. intros a Ha. rewrite (H a) by lia. auto.
  - right. exists i. split; auto. split; [rewrite <- (H' i Hi); auto|]. intros a Ha. rewrite (He a Ha). apply H'. lia.
  - right. destruct (lt_eq_lt_dec i j) as [[Hlt|E]|Hgt].
    + exists i. split; auto. split; [rewrite <- (He' i) by lia; auto|]. intros a Ha. rewrite (He a Ha). apply He'. lia.
    + subst j. exists i. split; auto. split; [lra|]. intros a Ha. rewrite (He a Ha). auto.
    + exists j. split; auto. split; [rewrite (He j) by lia; auto|]. intros a Ha. rewrite (He a) by lia. auto.
Qed.
Lemma lex_ge_pointwise : forall k x y, (forall i, 1 <= i <= k -> (y i <= x i)%Q) -> lex_ge k x y.
Proof.
  induction k as [|k IH]; intros x y H; [left; intros i Hi; lia|].
  destruct (IH x y) as [E|(i & Hi & Hl & He)]; [intros i Hi; apply H; lia| |].
  - destruct (Qlt_le_dec (y (S k)) (x (S k))) as [Hlt|Hle].
    + right. exists (S k). split; [lia|]. split; auto. intros j Hj. apply E. lia.
    + left. intros i Hi. destruct (Nat.eq_dec i (S k)) as [->|Hn]; [|apply E; lia]. apply Qle_antisym; [auto|apply H; lia].
  - right. exists i. split; [lia|]. auto.
Qed.

Definition lexm (f g : nat -> nat) : Prop := (forall d, f d = g d) \/ exists d, f d < g d /\ forall e, d < e -> f e = g e.
Lemma lexm_trans : forall f g h, lexm f g -> lexm g h -> lexm f h.
Proof.
  intros f g h [H|(i & Hl & He)] [H'|(j & Hl' & He')].
  - left. intros d. rewrite H. auto.
  - right. exists j. split; [rewrite H; auto|]. intros a Ha. rewrite H. auto.
  - right. exists i. split; [rewrite <- H'; auto|]. intros a Ha. rewrite He by auto. apply H'.
  - right. destruct (lt_eq_lt_dec i j) as [[Hlt|E]|Hgt].
    + exists j. split; [rewrite He; auto|]. intros a Ha. rewrite He by lia. auto.
    + subst j. exists i. split; [lia|]. intros a Ha. rewrite He by auto. auto.
    + exists i. split; [rewrite <- He'; auto|]. intros a Ha. rewrite He by auto. apply He'. lia.
Qed.
Lemma lexm_pointwise : forall n f g, (forall d, f d <= g d) -> (forall d, n <= d -> f d = g d) -> lexm f g.
Proof.
  induction n as [|n IH]; intros f g H Hb; [left; intros d; apply Hb; lia|].
  destruct (Nat.eq_dec (f n) (g n)) as [E|Hn].
  - apply IH; auto. intros d Hd. destruct (Nat.eq_dec d n) as [->|]; auto. apply Hb. lia.
  - right. exists n. split; [specialize (H n); lia|]. intros d Hd. apply Hb. lia.
Qed.
Lemma distances_bounded : forall p W, exists n, forall d, n <= d -> voters_at_least p W d = 0.
Proof.
  intros p W. unfold voters_at_least. induction (voters p) as [|v vs (n & IH)]; [exists 0; auto|].
  exists (Nat.max n (S (distance (approved v) W))). intros d Hd. cbn [filter].
  destruct (Nat.leb_spec d (distance (approved v) W)); [lia|]. apply IH. lia.
Qed.
Lemma max_distance_exists : forall p W, exists d, max_distance p W d.
Proof.
  intros p W. unfold max_distance. induction (voters p) as [|v vs (d & H1 & H2 & H3)].
  - exists 0. split; [intros v []|]. split; [congruence|auto].
  - exists (Nat.max d (distance (approved v) W)). split; [|split; [|discriminate]].
    + intros u [<-|Hu]; [lia|]. specialize (H1 u Hu). lia.
    + intros _. destruct (Nat.le_gt_cases d (distance (approved v) W)) as [Hle|Hgt].
      * exists v. split; [left; auto|]. lia.
      * destruct vs as [|u vs]; [rewrite (H3 eq_refl) in *; lia|]. destruct H2 as (x & Hx & Ex); [discriminate|].
        exists x. split; [right; auto|]. lia.
Qed.

Section Gains.
  Variables (p q : profile) (c : nat).
  Hypothesis Hwp : wf p.
  Hypothesis Hwq : wf q.
  Hypothesis Hg : gains c p q.
  Lemma gains_num : num_cand q = num_cand p.
  Proof using Hg. apply Hg. Qed.
  Lemma gains_len : length (voters q) = length (voters p).
  Proof using Hg. destruct Hg as [_ H]. induction H; cbn; auto. Qed.
  Lemma gains_wsum : wsum (voters q) = wsum (voters p).
  Proof using Hg.
    destruct Hg as [_ H]. unfold wsum. induction H as [|v u l l' Hvu HF IH]; auto. cbn. destruct Hvu as (E & _).
    change (weight u + Qsum (map weight l') = weight v + Qsum (map weight l))%Q. rewrite E, IH. reflexivity.
  Qed.
  Lemma ND_p : forall v, In v (voters p) -> NoDup (approved v) /\ (0 < weight v)%Q.
  Proof using Hwp. intros v Hv. destruct Hwp as [_ H]. rewrite Forall_forall in H. destruct (H v Hv) as (A & _ & B). auto. Qed.
  Lemma ND_q : forall v, In v (voters q) -> NoDup (approved v) /\ (0 < weight v)%Q.
  Proof using Hwq. intros v Hv. destruct Hwq as [_ H]. rewrite Forall_forall in H. destruct (H v Hv) as (A & _ & B). auto. Qed.

  Lemma util_without : forall v u V, In v (voters p) -> In u (voters q) -> voter_gains c v u -> ~ In c V -> util u V = util v V.
  Proof using Hwp Hwq.
    intros v u V Hv Hu (_ & _ & H & _) Hn. unfold util. apply NoDup_same_length.
    - apply NoDup_inter, ND_q; auto.
    - apply NoDup_inter, ND_p; auto.
    - intros d. rewrite !inter_In. destruct (Nat.eq_dec d c) as [->|Hd]; [tauto|]. rewrite (H d Hd). tauto.
  Qed.
  Lemma util_with : forall v u W, In v (voters p) -> voter_gains c v u -> util v W <= util u W.
  Proof using Hwp.
    intros v u W Hv (_ & _ & H & H'). unfold util. apply NoDup_incl_length; [apply NoDup_inter, ND_p; auto|].
    intros d. rewrite !inter_In. intros [A B]. split; auto. destruct (Nat.eq_dec d c) as [->|Hd]; [auto|]. apply H; auto.
  Qed.
  Lemma size_le : forall v u, In v (voters p) -> voter_gains c v u -> length (approved v) <= length (approved u).
  Proof using Hwp.
    intros v u Hv (_ & _ & H & H'). apply NoDup_incl_length; [apply ND_p; auto|]. intros d Hd.
    destruct (Nat.eq_dec d c) as [->|Hn]; [auto|]. apply H; auto.
  Qed.
  (** the number of approved candidates grows by at most one, and then by [c] *)
  Lemma size_step : forall v u, In v (voters p) -> In u (voters q) -> voter_gains c v u ->
    (length (approved u) = length (approved v) /\ forall d, In d (approved u) <-> In d (approved v)) \/
    (length (approved u) = S (length (approved v)) /\ forall W, NoDup W -> In c W -> util u W = S (util v W)).
  Proof using Hwp Hwq.
    intros v u Hv Hu (_ & _ & H & H'). destruct (in_dec Nat.eq_dec c (approved v)) as [Hc|Hc].
    { left. assert (E : forall d, In d (approved u) <-> In d (approved v)).
      { intros d. destruct (Nat.eq_dec d c) as [->|Hd]; [tauto|auto]. }
      split; auto. apply NoDup_same_length; [apply ND_q; auto|apply ND_p; auto|auto]. }
    destruct (in_dec Nat.eq_dec c (approved u)) as [Hc'|Hc'].
    2: { left. assert (E : forall d, In d (approved u) <-> In d (approved v)).
         { intros d. destruct (Nat.eq_dec d c) as [->|Hd]; [tauto|auto]. }
         split; auto. apply NoDup_same_length; [apply ND_q; auto|apply ND_p; auto|auto]. }
    right. assert (E : forall d, In d (approved u) <-> In d (c :: approved v)).
    { intros d. cbn. destruct (Nat.eq_dec d c) as [->|Hd]; [tauto|]. rewrite (H d Hd). intuition congruence. }
    split.
    - change (S (length (approved v))) with (length (c :: approved v)). apply NoDup_same_length; auto; [apply ND_q; auto|].
      constructor; auto. apply ND_p; auto.
    - intros W HW HcW. unfold util. change (S (length (inter (approved v) W))) with (length (c :: inter (approved v) W)).
      apply NoDup_same_length; [apply NoDup_inter, ND_q; auto| |].
      + constructor; [rewrite inter_In; tauto|]. apply NoDup_inter, ND_p; auto.
      + intros d. cbn. rewrite !inter_In, E. cbn. intuition congruence.
  Qed.

  (** *** Thiele methods *)
  Lemma thiele_without : forall f V, ~ In c V -> (Thiele f q V == Thiele f p V)%Q.
  Proof using Hwp Hwq Hg.
    intros f V Hn. destruct Hg as [_ HF]. unfold Thiele. apply Qle_antisym.
    - eapply Forall2_Qsum_le; [apply Forall2_flip'; exact HF|]. cbv beta. intros u v Hu Hv Hvu. rewrite (util_without v u V) by auto.
      destruct Hvu as (-> & _). apply Qle_refl.
    - eapply Forall2_Qsum_le; [exact HF|]. intros v u Hv Hu Hvu. rewrite (util_without v u V) by auto.
      destruct Hvu as (-> & _). apply Qle_refl.
  Qed.
  Lemma prefix_sum_le : forall (f : nat -> Q) a b, (forall i, 1 <= i -> (0 <= f i)%Q) -> a <= b -> (Qsum (map f (seq 1 a)) <= Qsum (map f (seq 1 b)))%Q.
  Proof using.
    intros f a b Hf Hab. replace b with (a + (b - a)) by lia. rewrite seq_app, map_app, Qsum_app.
    assert (0 <= Qsum (map f (seq (1 + a) (b - a))))%Q; [|lra].
    apply Qsum_map_nonneg. intros i Hi. apply in_seq in Hi. apply Hf. lia.
  Qed.
  Lemma thiele_with : forall f W, (forall i, 1 <= i -> (0 <= f i)%Q) -> (Thiele f p W <= Thiele f q W)%Q.
  Proof using Hwp Hg.
    intros f W Hf. destruct Hg as [_ HF]. unfold Thiele. eapply Forall2_Qsum_le; [exact HF|]. intros v u Hv Hu Hvu.
    pose proof (util_with v u W Hv Hvu) as Hut. destruct Hvu as (-> & _). destruct (ND_p v Hv) as [_ Hpos].
    pose proof (prefix_sum_le f _ _ Hf Hut). nra.
  Qed.
  Lemma maximises_gains : forall (s s' : list nat -> Q) k W V,
    (forall U, is_committee p k U -> In c U -> (s U <= s' U)%Q) -> (forall U, is_committee p k U -> ~ In c U -> (s' U <= s U)%Q) ->
    maximises s p k W -> In c W -> maximises s' q k V -> exists V', maximises s' q k V' /\ In c V'.
  Proof using Hg.
    intros s s' k W V H1 H2 HW Hc HV. apply (best_gains p q k c gains_num (fun A B => (s B <= s A)%Q) (fun A B => (s' B <= s' A)%Q)) with (W := W) (V := V); auto.
    - intros A B D HA HB. eapply Qle_trans; eauto.
    - intros A B HA HB HcA HcB Hle. specialize (H1 A HA HcA). specialize (H2 B HB HcB). lra.
  Qed.
  Lemma thiele_gains : forall f k W V, (forall i, 1 <= i -> (0 <= f i)%Q) -> maximises (Thiele f p) p k W -> In c W ->
    maximises (Thiele f q) q k V -> exists V', maximises (Thiele f q) q k V' /\ In c V'.
  Proof using Hwp Hwq Hg.
    intros f k W V Hf. apply maximises_gains.
    - intros U _ _. apply thiele_with; auto.
    - intros U _ Hn. rewrite thiele_without by auto. apply Qle_refl.
  Qed.

  (** *** AV and SAV *)
  Lemma av_gains : forall k W V, maximises (fun W => Qsum (map (support p) W)) p k W -> In c W ->
    maximises (fun W => Qsum (map (support q) W)) q k V -> exists V', maximises (fun W => Qsum (map (support q) W)) q k V' /\ In c V'.
  Proof using Hwp Hwq Hg.
    intros k W V. destruct Hg as [_ HF]. apply maximises_gains; intros U HU HcU.
    - unfold support, wsum. rewrite !sep_swap by (auto; apply ascending_NoDup, HU).
      eapply Forall2_Qsum_le; [exact HF|]. intros v u Hv Hu Hvu. pose proof (util_with v u U Hv Hvu) as Hut.
      destruct Hvu as (-> & _). destruct (ND_p v Hv) as [_ Hpos]. apply Qnat_le in Hut. nra.
    - unfold support, wsum. rewrite !sep_swap by (auto; apply ascending_NoDup, HU).
      eapply Forall2_Qsum_le; [apply Forall2_flip'; exact HF|]. cbv beta. intros u v Hu Hv Hvu. rewrite (util_without v u U) by auto.
      destruct Hvu as (-> & _). apply Qle_refl.
  Qed.
  Lemma util_le_size : forall v W, In v (voters p) -> util v W <= length (approved v).
  Proof using. intros v W _. apply inter_length_le_l. Qed.
  Lemma sav_gains : forall k W V, maximises (fun W => Qsum (map (sav_support p) W)) p k W -> In c W ->
    maximises (fun W => Qsum (map (sav_support q) W)) q k V -> exists V', maximises (fun W => Qsum (map (sav_support q) W)) q k V' /\ In c V'.
  Proof using Hwp Hwq Hg.
    intros k W V. destruct Hg as [_ HF]. apply maximises_gains; intros U HU HcU; unfold sav_support;
      rewrite !(sep_swap (fun v => weight v / Qnat (length (approved v)))%Q) by (auto; apply ascending_NoDup, HU).
    - eapply Forall2_Qsum_le; [exact HF|]. intros v u Hv Hu Hvu. destruct (ND_p v Hv) as [_ Hpos].
      destruct (size_step v u Hv Hu Hvu) as [[E1 E2]|[E1 E2]].
      + assert (Eu : util u U = util v U).
        { unfold util. apply NoDup_same_length; [apply NoDup_inter, ND_q; auto|apply NoDup_inter, ND_p; auto|]. intros d. rewrite !inter_In, E2. tauto. }
        rewrite E1, Eu. destruct Hvu as (-> & _). apply Qle_refl.
      + rewrite E1, (E2 U) by (auto; apply ascending_NoDup, HU). pose proof (util_le_size v U Hv) as Hs.
        destruct Hvu as (-> & _). rewrite !Qnat_S. apply Qnat_le in Hs. pose proof (Qnat_nonneg (util v U)) as H0.
        destruct (length (approved v)) as [|n] eqn:En.
        * change (Qnat 0) with 0%Q. unfold Qdiv. change (/ 0)%Q with 0%Q. change (/ (0 + 1))%Q with 1%Q. nra.
        * assert (Hn : (0 < Qnat (S n))%Q) by (apply Qnat_pos; lia). set (a := Qnat (S n)) in *. set (b := Qnat (util v U)) in *.
          assert (E3 : (weight v / a * b == weight v * b / a)%Q) by (field; lra).
          assert (E4 : (weight v / (a + 1) * (b + 1) == weight v * (b + 1) / (a + 1))%Q) by (field; lra).
          rewrite E3, E4. apply Qle_shift_div_l; [lra|].
          assert (E5 : (weight v * b / a * (a + 1) == weight v * b * (a + 1) / a)%Q) by (field; lra). rewrite E5.
          apply Qle_shift_div_r; [lra|]. nra.
    - eapply Forall2_Qsum_le; [apply Forall2_flip'; exact HF|]. cbv beta. intros u v Hu Hv Hvu. rewrite (util_without v u U) by auto.
      pose proof (size_le v u Hv Hvu) as Hs. destruct Hvu as (-> & _). destruct (ND_p v Hv) as [_ Hpos].
      destruct (util v U) as [|n] eqn:En; [change (Qnat 0) with 0%Q; lra|].
      assert (Hl : 1 <= length (approved v)) by (pose proof (util_le_size v U Hv); lia).
      assert (H1 : (0 < Qnat (length (approved v)))%Q) by (apply Qnat_pos; lia). apply Qnat_le in Hs.
      assert (H2 : (weight v / Qnat (length (approved u)) <= weight v / Qnat (length (approved v)))%Q).
      { apply Qle_shift_div_l; auto.
        assert (E5 : (weight v / Qnat (length (approved u)) * Qnat (length (approved v)) == weight v * Qnat (length (approved v)) / Qnat (length (approved u)))%Q) by (field; lra).
        rewrite E5. apply Qle_shift_div_r; [lra|]. nra. }
      pose proof (Qnat_nonneg (S n)). nra.
  Qed.

  (** *** lexcc *)
  Lemma at_least_le : forall W i, (forall v u, In v (voters p) -> In u (voters q) -> voter_gains c v u -> util v W <= util u W) ->
    (at_least_weight p W i <= at_least_weight q W i)%Q.
  Proof using Hwp Hg.
    intros W i H. destruct Hg as [_ HF]. unfold at_least_weight, wsum. rewrite !Qsum_filter. eapply Forall2_Qsum_le; [exact HF|].
    intros v u Hv Hu Hvu. specialize (H v u Hv Hu Hvu). destruct Hvu as (E & _). destruct (ND_p v Hv) as [_ Hpos].
    destruct (Nat.leb_spec i (util v W)), (Nat.leb_spec i (util u W)); rewrite ?E; try lra. lia.
  Qed.
  Lemma at_least_ge : forall V i, ~ In c V -> (at_least_weight q V i <= at_least_weight p V i)%Q.
  Proof using Hwp Hwq Hg.
    intros V i Hn. destruct Hg as [_ HF]. unfold at_least_weight, wsum. rewrite !Qsum_filter. eapply Forall2_Qsum_le; [apply Forall2_flip'; exact HF|].
    cbv beta. intros u v Hu Hv Hvu. rewrite (util_without v u V) by auto. destruct Hvu as (-> & _). apply Qle_refl.
  Qed.
  Lemma lexcc_gains : forall k W V, lexcc_winner p k W -> In c W -> lexcc_winner q k V -> exists V', lexcc_winner q k V' /\ In c V'.
  Proof using Hwp Hwq Hg.
    intros k W V HW Hc HV.
    apply (best_gains p q k c gains_num (fun A B => lex_ge k (at_least_weight p A) (at_least_weight p B))
             (fun A B => lex_ge k (at_least_weight q A) (at_least_weight q B))) with (W := W) (V := V); auto.
    - intros A B D. apply lex_ge_trans.
    - intros A B HA HB HcA HcB H. eapply lex_ge_trans; [|eapply lex_ge_trans; [exact H|]]; apply lex_ge_pointwise; intros i Hi.
      + apply at_least_le. intros. apply util_with; auto.
      + apply at_least_ge. auto.
  Qed.

  (** *** minimax AV *)
  Lemma distance_with : forall v u W, In v (voters p) -> In u (voters q) -> voter_gains c v u -> NoDup W -> In c W ->
    distance (approved u) W <= distance (approved v) W.
  Proof using Hwp Hwq.
    intros v u W Hv Hu (_ & _ & H & H') HW Hc. unfold distance. apply Nat.add_le_mono.
    - apply NoDup_incl_length; [apply NoDup_diff, ND_q; auto|]. intros d. rewrite !diff_In. intros [A B]. split; auto.
      apply H; auto. intros ->. auto.
    - apply NoDup_incl_length; [apply NoDup_diff; auto|]. intros d. rewrite !diff_In. intros [A B]. split; auto.
      intros Hd. apply B. destruct (Nat.eq_dec d c) as [->|Hn]; [auto|]. apply H; auto.
  Qed.
  Lemma distance_without : forall v u V, In v (voters p) -> In u (voters q) -> voter_gains c v u -> NoDup V -> ~ In c V ->
    distance (approved v) V <= distance (approved u) V.
  Proof using Hwp Hwq.
    intros v u V Hv Hu (_ & _ & H & H') HV Hc. unfold distance. apply Nat.add_le_mono.
    - apply NoDup_incl_length; [apply NoDup_diff, ND_p; auto|]. intros d. rewrite !diff_In. intros [A B]. split; auto.
      destruct (Nat.eq_dec d c) as [->|Hn]; [auto|]. apply H; auto.
    - apply NoDup_incl_length; [apply NoDup_diff; auto|]. intros d. rewrite !diff_In. intros [A B]. split; auto.
      intros Hd. apply B. apply H; auto. intros ->. auto.
  Qed.
  Lemma gains_partner : forall u, In u (voters q) -> exists v, In v (voters p) /\ voter_gains c v u.
  Proof using Hg.
    destruct Hg as [_ HF]. intros u Hu. induction HF as [|v u' l l' Hvu HF IH]; [destruct Hu|].
    destruct Hu as [<-|Hu]; [exists v; split; [left|]; auto|]. destruct (IH Hu) as (v' & A & B). exists v'. split; [right|]; auto.
  Qed.
  Lemma gains_partner' : forall v, In v (voters p) -> exists u, In u (voters q) /\ voter_gains c v u.
  Proof using Hg.
    destruct Hg as [_ HF]. intros v Hv. induction HF as [|v' u l l' Hvu HF IH]; [destruct Hv|].
    destruct Hv as [<-|Hv]; [exists u; split; [left|]; auto|]. destruct (IH Hv) as (u' & A & B). exists u'. split; [right|]; auto.
  Qed.
  Lemma max_distance_with : forall W d d', NoDup W -> In c W -> max_distance p W d -> max_distance q W d' -> d' <= d.
  Proof using Hwp Hwq Hg.
    intros W d d' HW Hc (A1 & A2 & A3) (B1 & B2 & B3). destruct (voters q) as [|u0 us] eqn:E; [rewrite B3; auto; lia|].
    destruct B2 as (u & Hu & <-); [discriminate|]. rewrite <- E in Hu. destruct (gains_partner u Hu) as (v & Hv & Hvu).
    pose proof (distance_with v u W Hv Hu Hvu HW Hc). specialize (A1 v Hv). lia.
  Qed.
  Lemma max_distance_without : forall V d d', NoDup V -> ~ In c V -> max_distance p V d -> max_distance q V d' -> d <= d'.
  Proof using Hwp Hwq Hg.
    intros V d d' HV Hc (A1 & A2 & A3) (B1 & B2 & B3). destruct (voters p) as [|v0 vs] eqn:E; [rewrite A3; auto; lia|].
    destruct A2 as (v & Hv & <-); [discriminate|]. rewrite <- E in Hv. destruct (gains_partner' v Hv) as (u & Hu & Hvu).
    pose proof (distance_without v u V Hv Hu Hvu HV Hc). specialize (B1 u Hu). lia.
  Qed.
  Lemma minimaxav_gains : forall k W V, minimaxav_winner p k W -> In c W -> minimaxav_winner q k V -> exists V', minimaxav_winner q k V' /\ In c V'.
  Proof using Hwp Hwq Hg.
    intros k W V [HW1 HW2] Hc [HV1 HV2].
    destruct (best_gains p q k c gains_num (fun A B => forall d d', max_distance p A d -> max_distance p B d' -> d <= d')
             (fun A B => forall d d', max_distance q A d -> max_distance q B d' -> d <= d')) with (W := W) (V := V) as (V' & (A & B) & D); auto.
    - intros A B D HA HB d d' Hd Hd'. destruct (max_distance_exists q B) as (b & Hb). specialize (HA d b Hd Hb). specialize (HB b d' Hb Hd'). lia.
    - intros A B HA HB HcA HcB H d d' Hd Hd'. destruct (max_distance_exists p A) as (a & Ha). destruct (max_distance_exists p B) as (b & Hb).
      specialize (H a b Ha Hb). pose proof (max_distance_with A a d (ascending_NoDup _ (proj1 HA)) HcA Ha Hd).
      pose proof (max_distance_without B b d' (ascending_NoDup _ (proj1 HB)) HcB Hb Hd'). lia.
    - split; auto. intros U HU d d' A B. exact (HW2 U d d' HU A B).
    - split; auto. intros U HU d d' A B. exact (HV2 U d d' HU A B).
    - exists V'. split; auto. split; auto. intros U d d' HU. apply B. auto.
  Qed.
  Lemma lexminimaxav_gains : forall k W V, lexminimaxav_winner p k W -> In c W -> lexminimaxav_winner q k V -> exists V', lexminimaxav_winner q k V' /\ In c V'.
  Proof using Hwp Hwq Hg.
    intros k W V HW Hc HV.
    apply (best_gains p q k c gains_num (fun A B => lexm (voters_at_least p A) (voters_at_least p B))
             (fun A B => lexm (voters_at_least q A) (voters_at_least q B))) with (W := W) (V := V); auto.
    - intros A B D. apply lexm_trans.
    - destruct Hg as [_ HF]. intros A B HA HB HcA HcB H. pose proof (ascending_NoDup _ (proj1 HA)) as NA. pose proof (ascending_NoDup _ (proj1 HB)) as NB.
      eapply lexm_trans; [|eapply lexm_trans; [exact H|]].
      + destruct (distances_bounded p A) as (n & Hn). destruct (distances_bounded q A) as (n' & Hn'). apply (lexm_pointwise (Nat.max n n')).
        * intros d. unfold voters_at_least. eapply Forall2_count_le; [apply Forall2_flip'; exact HF|]. cbv beta. intros u v Hu Hv Hvu Hd.
          pose proof (distance_with v u A Hv Hu Hvu NA HcA). apply Nat.leb_le. apply Nat.leb_le in Hd. lia.
        * intros d Hd. rewrite Hn, Hn' by lia. auto.
      + destruct (distances_bounded p B) as (n & Hn). destruct (distances_bounded q B) as (n' & Hn'). apply (lexm_pointwise (Nat.max n n')).
        * intros d. unfold voters_at_least. eapply Forall2_count_le; [exact HF|]. intros v u Hv Hu Hvu Hd.
          pose proof (distance_without v u B Hv Hu Hvu NB HcB). apply Nat.leb_le. apply Nat.leb_le in Hd. lia.
        * intros d Hd. rewrite Hn, Hn' by lia. auto.
  Qed.

  (** *** Monroe *)
  Lemma assignment_same : forall W phi, monroe_assignment q W phi <-> monroe_assignment p W phi.
  Proof using Hg. intros W phi. unfold monroe_assignment. rewrite gains_len. tauto. Qed.
  Lemma represented_le : forall phi, represented p phi <= represented q phi.
  Proof using Hg.
    destruct Hg as [_ HF]. unfold represented. induction HF as [|v u l l' Hvu HF IH]; intros [|d phi]; auto. cbn [combine filter fst snd].
    specialize (IH phi). assert (Ha : approves v d = true -> approves u d = true).
    { unfold approves. rewrite !mem_In. destruct Hvu as (_ & _ & H & H'). destruct (Nat.eq_dec d c) as [->|Hn]; auto. apply H. auto. }
    destruct (approves v d); [rewrite Ha by auto; cbn; lia|]. destruct (approves u d); cbn; lia.
  Qed.
  Lemma represented_ge : forall phi, ~ In c phi -> represented q phi <= represented p phi.
  Proof using Hg.
    destruct Hg as [_ HF]. unfold represented. induction HF as [|v u l l' Hvu HF IH]; intros [|d phi] Hn; auto. cbn [combine filter fst snd].
    specialize (IH phi ltac:(intro; apply Hn; right; auto)). assert (Ha : approves u d = true -> approves v d = true).
    { unfold approves. rewrite !mem_In. destruct Hvu as (_ & _ & H & H'). apply H. intros ->. apply Hn. left; auto. }
    destruct (approves u d); [rewrite Ha by auto; cbn; lia|]. destruct (approves v d); cbn; lia.
  Qed.
  Lemma monroe_gains : forall k W V, monroe_winner p k W -> In c W -> monroe_winner q k V -> exists V', monroe_winner q k V' /\ In c V'.
  Proof using Hwp Hwq Hg.
    intros k W V (HW & phi & Hphi & Hbest) Hc (HV & psi & Hpsi & Hq).
    assert (Hco : forall U, is_committee q k U <-> is_committee p k U) by (intros U; unfold is_committee; rewrite gains_num; tauto).
    destruct (in_dec Nat.eq_dec c V) as [Hin|Hn].
    { exists V. split; auto. split; auto. exists psi. auto. }
    exists W. split; auto. split; [apply Hco; auto|]. exists phi. split; [apply assignment_same; auto|].
    intros U chi HU Hchi. specialize (Hq U chi HU Hchi). pose proof (represented_le phi) as H1.
    assert (Hn' : ~ In c psi). { intros Hp. destruct Hpsi as (_ & HF & _). rewrite Forall_forall in HF. apply Hn, HF. auto. }
    pose proof (represented_ge psi Hn') as H2.
    specialize (Hbest V psi ltac:(apply Hco; auto) ltac:(apply assignment_same; auto)). lia.
  Qed.

  (** *** Sequential Thiele methods *)
  Lemma greedy_gains : forall f L, (forall i, 1 <= i -> (0 <= f i)%Q) -> greedy_run f p L ->
    (exists L', greedy_run f q L' /\ In c L' /\ length L' <= length L) \/ (greedy_run f q L /\ ~ In c L).
  Proof using Hwp Hwq Hg.
    intros f L Hf Hr. induction Hr as [|W d Hr IH (Hd & Hn & Hbest)]; [right; split; [constructor|intros []]|].
    destruct IH as [(L' & H1 & H2 & H3)|[H1 H2]]; [left; exists L'; split; auto; split; auto; cbn; lia|].
    pose proof gains_num as Em.
    assert (Hlow : forall a, a <> c -> ~ In a W -> (Thiele f q (a :: W) == Thiele f p (a :: W))%Q).
    { intros a Ha _. apply thiele_without. intros [E|E]; auto. }
    destruct (Nat.eq_dec d c) as [->|Hdc].
    - left. exists (c :: W). split; [|split; [left; auto|auto]]. constructor; auto. split; [rewrite Em; auto|]. split; auto.
      intros a Ha Hna. destruct (Nat.eq_dec a c) as [->|Hac]; [apply Qle_refl|]. rewrite Hlow by auto.
      eapply Qle_trans; [apply Hbest; auto; rewrite <- Em; auto|]. apply thiele_with. auto.
    - destruct (Qlt_le_dec (Thiele f q (d :: W)) (Thiele f q (c :: W))) as [Hlt|Hle].
      + destruct (le_lt_dec (num_cand p) c) as [Hcm|Hcm].
        { exfalso. assert (Thiele f q (c :: W) <= Thiele f q (d :: W))%Q; [|lra].
          assert (Eu : forall u a, In u (voters q) -> ~ In a (approved u) -> util u (a :: W) = util u W).
          { intros u a Hu Ha. unfold util. apply NoDup_same_length; try (apply NoDup_inter, ND_q; auto). intros x. rewrite !inter_In. cbn. intuition congruence. }
          unfold Thiele. apply Qsum_map_le. intros u Hu. destruct (ND_q u Hu) as [Hnd Hpos]. rewrite (Eu u c); auto.
          - assert (util u W <= util u (d :: W)).
            { unfold util. apply NoDup_incl_length; [apply NoDup_inter; auto|]. intros x. rewrite !inter_In. cbn. tauto. }
            pose proof (prefix_sum_le f _ _ Hf H). nra.
          - intros Hcu. destruct Hwq as [_ HFq]. rewrite Forall_forall in HFq. destruct (HFq u Hu) as (_ & HFu & _). rewrite Forall_forall in HFu.
            specialize (HFu c Hcu). rewrite Em in HFu. lia. }
        left. exists (c :: W). split; [|split; [left; auto|auto]]. constructor; auto. split; [rewrite Em; auto|]. split; auto.
        intros a Ha Hna. destruct (Nat.eq_dec a c) as [->|Hac]; [apply Qle_refl|]. rewrite Hlow by auto.
        specialize (Hbest a ltac:(rewrite <- Em; auto) Hna). rewrite <- (Hlow d) in Hbest by auto. lra.
      + right. split; [|intros [E|E]; auto]. constructor; auto. split; [rewrite Em; auto|]. split; auto.
        intros a Ha Hna. destruct (Nat.eq_dec a c) as [->|Hac]; [auto|]. rewrite !Hlow by auto. apply Hbest; auto. rewrite <- Em. auto.
  Qed.
  Lemma greedy_extend : forall f L k, greedy_run f q L -> length L <= k -> k <= num_cand q -> exists M, greedy_run f q (M ++ L) /\ length (M ++ L) = k.
  Proof using.
    intros f L k Hr Hl Hk. induction k as [|k IH].
    - exists []. split; auto. cbn. lia.
    - destruct (Nat.eq_dec (length L) (S k)) as [E|Hn]; [exists []; auto|]. destruct IH as (M & HM & EM); [lia|lia|].
      destruct (argmax_exists (fun d => Thiele f q (d :: M ++ L)) (others q (M ++ L))) as (d & Hd & Hmax); [apply others_exist; lia|].
      apply others_fresh in Hd as [Hd1 Hd2]. exists (d :: M). split; [|cbn; lia]. cbn. constructor; auto. split; auto. split; auto.
      intros a Ha Hna. apply Hmax. apply others_fresh. split; auto.
  Qed.
  Lemma seq_gains : forall f k W, (forall i, 1 <= i -> (0 <= f i)%Q) -> k <= num_cand p -> seq_thiele_winner f p k W -> In c W ->
    exists V, seq_thiele_winner f q k V /\ In c V.
  Proof using Hwp Hwq Hg.
    intros f k W Hf Hk (L & Hr & Hl & ->) Hc. rewrite isort_In in Hc.
    destruct (greedy_gains f L Hf Hr) as [(L' & H1 & H2 & H3)|[_ H]]; [|tauto].
    destruct (greedy_extend f L' k H1) as (M & HM & EM); [lia|rewrite gains_num; auto|].
    exists (isort (M ++ L')). split; [exists (M ++ L'); auto|]. rewrite isort_In. apply in_or_app. auto.
  Qed.
End Gains.
