(** * Proportionality and efficiency guarantees of the Thiele-type rules *)
From Coq Require Import String.
From Coq Require Import List Arith Bool ZArith QArith Lia Lqa Permutation Sorted.
From Verif Require Import Prelude Misc MiscProofs Preferences Scores Spec SpecRules ScoresProofs PrefProofs Search RulesThiele Common
  ThieleProofs RevseqProofs OptProofs Rule Compute SpecCompute ComputeProofs Checks SpecAxioms ChecksProofs.
Import ListNotations.
Open Scope nat_scope.

(** ** sums over groups and over voters *)
Lemma sum_indices : forall p (h : voter -> Q), Qsum (map (fun i => h (voter_at p i)) (indices p)) = Qsum (map h (voters p)).
Proof.
  intros p h. unfold indices, voter_at. rewrite <- (map_map (fun i => nth i (voters p) (mkVoter [] 1 true)) h), map_nth_seq. reflexivity.
Qed.

Lemma group_sum_le : forall p S (h : voter -> Q), is_group p S -> (forall v, In v (voters p) -> 0 <= h v)%Q ->
  (Qsum (map (fun i => h (voter_at p i)) S) <= Qsum (map h (voters p)))%Q.
Proof.
  intros p S h (_ & HN & HB) Hh. rewrite <- sum_indices. apply Qsum_incl; auto.
  - intros i Hi. rewrite Forall_forall in HB. apply in_indices; auto.
  - apply indices_NoDup.
  - intros i Hi. apply in_indices in Hi. apply Hh, nth_In; auto.
Qed.

Lemma group_weight_le : forall p S (h : voter -> Q) a, is_group p S -> (forall v, In v (voters p) -> 0 <= h v)%Q ->
  (forall i, In i S -> a * weight (voter_at p i) <= h (voter_at p i))%Q ->
  (a * gweight p S <= Qsum (map h (voters p)))%Q.
Proof.
  intros p S h a Hg Hh Ha. eapply Qle_trans; [|apply group_sum_le; eauto].
  unfold gweight. rewrite <- Qsum_map_scal. apply Qsum_map_le. intros i Hi. apply Ha; auto.
Qed.

Lemma weight_pos_in : forall p v, wf p -> In v (voters p) -> (0 < weight v)%Q.
Proof. intros p v Hw Hv. destruct (wf_voter_in p v Hw Hv) as (_ & _ & H). auto. Qed.

Lemma Qmult_nonneg : forall a b, (0 <= a)%Q -> (0 <= b)%Q -> (0 <= a * b)%Q.
Proof. intros a b H K. apply (Qmult_le_compat_r 0 a b) in H; auto. lra. Qed.

(** ** exchanging one member *)
Lemma util_swap : forall v W x c, NoDup (approved v) -> In x W -> ~ In c W -> In x (approved v) ->
  S (util v (c :: without x W)) = util v (c :: W).
Proof.
  intros v W x c Hn Hx Hc Ha. rewrite <- (util_set_same v (x :: c :: without x W) (c :: W)).
  2:{ intro d. simpl. rewrite without_In. destruct (Nat.eq_dec d x); subst; split; intuition. }
  rewrite (util_add v (c :: without x W) x); auto.
  - unfold approves. apply mem_In in Ha. rewrite Ha. lia.
  - simpl. rewrite without_In. intros [->|[]]; auto.
Qed.

(** for a maximiser, [k] times the gain of an outsider is at most the total loss *)
Lemma exchange : forall f p k W c, wf p -> (forall i, 0 <= f i)%Q -> maximises (Thiele f p) p k W ->
  c < num_cand p -> ~ In c W ->
  (Qnat k * gain f p W c <=
   Qsum (map (fun v => weight v * (Qnat (util v W) * f (util v (c :: W)))) (voters p)))%Q.
Proof.
  intros f p k W c Hw Hf ((Ha & Hk & Hb) & Hm) Hc Hn.
  assert (HN : NoDup W) by (apply ascending_NoDup; auto).
  set (loss := fun x => gain f p (c :: without x W) x).
  assert (L : forall x, In x W -> (gain f p W c <= loss x)%Q).
  { intros x Hx. unfold loss.
    rewrite !gain_correct; auto.
    2:{ simpl. rewrite without_In. intros [->|[]]; auto. }
    assert (E : (Thiele f p (x :: c :: without x W) == Thiele f p (c :: W))%Q).
    { apply Thiele_set_same. intro d. simpl. rewrite without_In. destruct (Nat.eq_dec d x); subst; split; intuition. }
    rewrite E.
    assert (M : (Thiele f p (c :: without x W) <= Thiele f p W)%Q).
    { assert (S1 : (Thiele f p (isort (c :: without x W)) == Thiele f p (c :: without x W))%Q).
      { apply Thiele_set_same. intro d. split; apply Permutation_in; [apply Permutation_sym|]; apply isort_perm. }
      rewrite <- S1. apply Hm. apply isort_committee.
      - constructor; [rewrite without_In; tauto|]. apply NoDup_filter; auto.
      - simpl. rewrite without_length by auto.
        assert (0 < length W) by (destruct W; [contradiction|simpl; lia]). lia.
      - constructor; auto. apply Forall_forall. intros d Hd. apply without_In in Hd as [Hd _].
        rewrite Forall_forall in Hb; auto. }
    lra. }
  assert (S1 : (Qnat k * gain f p W c <= Qsum (map loss W))%Q).
  { rewrite <- Hk, Qmult_comm, <- Qsum_map_const. apply Qsum_map_le. auto. }
  eapply Qle_trans; [exact S1|].
  assert (S2 : (Qsum (map loss W) == Qsum (map (fun x => Qsum (map (fun v => if mem x (approved v) then weight v * f (util v (c :: W)) else 0) (voters p))) W))%Q).
  { apply Qsum_map_ext. intros x Hx. unfold loss, gain, supporters. rewrite Qsum_filter. apply Qsum_map_ext. intros v Hv.
    unfold approves. destruct (mem x (approved v)) eqn:E; [|reflexivity]. apply mem_In in E.
    rewrite util_swap; auto; [reflexivity|]. destruct (wf_voter_in p v Hw Hv) as (N & _). auto. }
  rewrite S2, Qsum_swap. apply Qsum_map_le. intros v Hv. rewrite <- Qsum_filter.
  rewrite Qsum_map_const. assert (E : length (filter (fun a => mem a (approved v)) W) = util v W).
  { unfold util. rewrite inter_comm_length; auto. destruct (wf_voter_in p v Hw Hv) as (N & _). auto. }
  rewrite E. lra.
Qed.

(** ** PAV and EJR+ *)
Lemma util_add_le : forall v W c, NoDup (approved v) -> ~ In c W -> util v (c :: W) = util v W + (if approves v c then 1 else 0).
Proof. exact util_add. Qed.

Lemma pav_w_nonneg : forall i, (0 <= pav_w i)%Q.
Proof.
  intro i. unfold pav_w. destruct i; [vm_compute; discriminate|].
  apply Qlt_le_weak, Qinv_pos, Qnat_pos. lia.
Qed.
Lemma pav_w_mult : forall i, 1 <= i -> (Qnat i * pav_w i == 1)%Q.
Proof. intros i Hi. unfold pav_w. pose proof (Qnat_pos i ltac:(lia)). field. lra. Qed.

Lemma pav_total_loss : forall p W c, wf p -> ~ In c W ->
  (Qsum (map (fun v => weight v * (Qnat (util v W) * pav_w (util v (c :: W)))) (voters p)) <=
   wsum (voters p) - gain pav_w p W c)%Q.
Proof.
  intros p W c Hw Hc. unfold gain, supporters, wsum. rewrite Qsum_filter.
  assert (E : forall a b s, (s + b <= a)%Q -> (s <= a - b)%Q) by (intros; lra). apply E.
  rewrite <- Qsum_map_plus. apply Qsum_map_le. intros v Hv.
  pose proof (weight_pos_in p v Hw Hv) as Hpos. destruct (wf_voter_in p v Hw Hv) as (N & _).
  rewrite util_add by auto. destruct (approves v c).
  - replace (util v W + 1) with (S (util v W)) by lia. 
    assert (P := pav_w_mult (S (util v W)) ltac:(lia)). rewrite Qnat_S in P.
    assert (Q1 : (weight v * (Qnat (util v W) * pav_w (S (util v W))) + weight v * pav_w (S (util v W)) == weight v * ((Qnat (util v W) + 1) * pav_w (S (util v W))))%Q) by ring.
    rewrite Q1, P. lra.
  - rewrite Nat.add_0_r, Qplus_0_r. destruct (util v W) as [|u] eqn:Eu.
    + change (Qnat 0) with 0%Q. rewrite Qmult_0_l, Qmult_0_r. lra.
    + rewrite (pav_w_mult (S u)) by lia. lra.
Qed.

(** even stronger than EJR+: the quota may be anything above n/(k+1) *)
Theorem pav_EJR_plus : forall p k W q, wf p -> voters p <> [] -> maximises (Thiele pav_w p) p k W ->
  (wsum (voters p) < Qnat (k + 1) * q)%Q -> EJR_plus p q W.
Proof.
  intros p k W q Hw Hv Hm Hq S l c Hg Hl Hd Hc Hn Ha.
  destruct (existsb (fun i => l <=? approves_in p i W) S) eqn:E.
  { apply existsb_exists in E as (i & Hi & E). exists i. split; auto. apply Nat.leb_le; auto. }
  exfalso.
  assert (Hs : forall i, In i S -> approves_in p i W < l).
  { intros i Hi. destruct (Nat.lt_ge_cases (approves_in p i W) l); auto. exfalso. apply not_true_iff_false in E.
    apply E. apply existsb_exists. exists i. split; auto. apply Nat.leb_le; auto. }
  pose proof (exchange pav_w p k W c Hw pav_w_nonneg Hm Hc Hn) as X.
  pose proof (pav_total_loss p W c Hw Hn) as Y.
  assert (G : (q <= gain pav_w p W c)%Q).
  { unfold gain, supporters. rewrite Qsum_filter.
    assert (Hlp : (0 < Qnat l)%Q) by (apply Qnat_pos; lia).
    apply Qle_trans with (1 / Qnat l * gweight p S)%Q.
    - apply Qle_trans with (1 / Qnat l * (Qnat l * q))%Q; [assert (T : (1 / Qnat l * (Qnat l * q) == q)%Q) by (field; lra); rewrite T; lra|].
      rewrite (Qmult_comm (1 / Qnat l)), (Qmult_comm (1 / Qnat l)). apply Qmult_le_compat_r; [exact Hd|].
      apply Qlt_le_weak, Qinv_pos; auto.
    - apply group_weight_le; auto.
      + intros v Hv'. pose proof (weight_pos_in p v Hw Hv'). destruct (approves v c); [|lra].
        apply Qmult_nonneg; [lra|apply pav_w_nonneg].
      + intros i Hi. assert (In c (approved (voter_at p i))) by (apply (Ha i c Hi); left; auto).
        unfold approves. rewrite (proj2 (mem_In _ _) H). rewrite Qmult_comm.
        destruct Hg as (_ & _ & HB). rewrite Forall_forall in HB. pose proof (voter_weight_pos p i Hw (HB i Hi)) as Hp.
        unfold voter_weight in Hp. unfold voter_at.
        rewrite !(Qmult_comm (weight _)). apply Qmult_le_compat_r; [|lra].
        specialize (Hs i Hi). change (util (nth i (voters p) (mkVoter [] 1 true)) W) with (approves_in p i W).
        unfold pav_w. apply Qdiv1_le; [apply Qnat_pos; lia|]. apply Qnat_le. lia. }
  rewrite Qnat_plus in Hq. change (Qnat 1) with 1%Q in Hq.
  assert (T : ((Qnat k + 1) * q <= (Qnat k + 1) * gain pav_w p W c)%Q).
  { rewrite !(Qmult_comm (Qnat k + 1)). apply Qmult_le_compat_r; auto. pose proof (Qnat_nonneg k). lra. }
  lra.
Qed.

Lemma default_above_droop : forall p k, 1 <= k -> (0 < wsum (voters p))%Q ->
  (wsum (voters p) < Qnat (k + 1) * default_quota p k)%Q.
Proof.
  intros p k Hk Hp. unfold default_quota. pose proof (Qnat_pos k ltac:(lia)) as Hkp. rewrite Qnat_plus.
  change (Qnat 1) with 1%Q.
  assert (E : ((Qnat k + 1) * (wsum (voters p) / Qnat k) == wsum (voters p) + wsum (voters p) / Qnat k)%Q) by (field; lra).
  rewrite E. assert (0 < wsum (voters p) / Qnat k)%Q; [|lra]. apply Qlt_shift_div_l; lra.
Qed.

(** ** CC, lexcc, seq-CC and JR *)
Lemma cc_w_nonneg : forall i, (0 <= cc_w i)%Q.
Proof. intro i. unfold cc_w. destruct (i =? 1); lra. Qed.

Lemma cc_total_loss : forall p W c q S, wf p -> ~ In c W -> JR_violation p q W S c ->
  (Qsum (map (fun v => weight v * (Qnat (util v W) * cc_w (util v (c :: W)))) (voters p)) <=
   wsum (voters p) - gweight p S)%Q.
Proof.
  intros p W c q S Hw Hc (Hg & Hd & _ & Ha & Hu).
  assert (E : forall a b s, (b <= a - s)%Q -> (s <= a - b)%Q) by (intros; lra). apply E.
  unfold wsum.
  assert (D : forall (f g : voter -> Q) l, (Qsum (map f l) - Qsum (map g l) == Qsum (map (fun x => f x - g x) l))%Q).
  { intros f g l. induction l; simpl; [lra|]. rewrite <- IHl. lra. }
  rewrite D. rewrite <- (Qmult_1_l (gweight p S)). apply group_weight_le; auto.
  - intros v Hv. pose proof (weight_pos_in p v Hw Hv). destruct (wf_voter_in p v Hw Hv) as (N & _).
    rewrite util_add by auto. unfold cc_w. destruct (Nat.eqb_spec (util v W + (if approves v c then 1 else 0)) 1) as [E1|E1].
    + assert (Qnat (util v W) <= 1)%Q by (change 1%Q with (Qnat 1); apply Qnat_le; lia).
      assert (weight v * (Qnat (util v W) * 1) <= weight v * 1)%Q; [|lra].
      rewrite !(Qmult_comm (weight v)). apply Qmult_le_compat_r; lra.
    + rewrite Qmult_0_r, Qmult_0_r. lra.
  - intros i Hi. specialize (Hu i Hi). unfold approves_in, ballot in Hu.
    assert (Ez : util (voter_at p i) W = 0) by exact Hu. rewrite Ez. change (Qnat 0) with 0%Q.
    rewrite Qmult_0_l, Qmult_0_r. lra.
Qed.

Lemma violation_outside : forall p q W S c, wf p -> JR_violation p q W S c -> ~ In c W.
Proof.
  intros p q W S c Hw (Hg & Hd & _ & Ha & Hu) Hin. destruct S as [|i S]; [destruct Hg; congruence|].
  specialize (Hu i (or_introl eq_refl)). unfold approves_in in Hu. apply length_zero_iff_nil in Hu.
  assert (In c (inter (ballot p i) W)); [|rewrite Hu in H; auto]. apply inter_In. split; auto. apply (Ha i c); left; auto.
Qed.

Lemma violation_gain : forall p q W S c, wf p -> JR_violation p q W S c -> (gweight p S <= gain cc_w p W c)%Q.
Proof.
  intros p q W S c Hw (Hg & Hd & _ & Ha & Hu). unfold gain, supporters. rewrite Qsum_filter.
  rewrite <- (Qmult_1_l (gweight p S)). apply group_weight_le; auto.
  - intros v Hv'. pose proof (weight_pos_in p v Hw Hv'). destruct (approves v c); [|lra].
    apply Qmult_nonneg; [lra|apply cc_w_nonneg].
  - intros i Hi. assert (In c (approved (voter_at p i))) by (apply (Ha i c Hi); left; auto).
    unfold approves. rewrite (proj2 (mem_In _ _) H). specialize (Hu i Hi).
    assert (Ez : util (voter_at p i) W = 0) by exact Hu. rewrite Ez. unfold cc_w. simpl. lra.
Qed.

Lemma violation_pos : forall p q W S c, wf p -> JR_violation p q W S c -> (0 < gweight p S)%Q.
Proof.
  intros p q W S c Hw ((Hne & HN & HB) & _). destruct S as [|i S]; [congruence|]. unfold gweight. simpl.
  inversion HB; subst. pose proof (voter_weight_pos p i Hw H1).
  assert (0 <= Qsum (map (voter_weight p) S))%Q; [|lra]. apply Qsum_map_nonneg. intros j Hj.
  apply Qlt_le_weak, voter_weight_pos; auto. rewrite Forall_forall in H2. auto.
Qed.

Theorem cc_JR : forall p k W q, wf p -> maximises (Thiele cc_w p) p k W ->
  (wsum (voters p) < Qnat (k + 1) * q)%Q -> JR p q W.
Proof.
  intros p k W q Hw Hm Hq S c HV. pose proof (violation_outside p q W S c Hw HV) as Hn.
  assert (Hc : c < num_cand p) by apply HV.
  pose proof (exchange cc_w p k W c Hw cc_w_nonneg Hm Hc Hn) as X.
  pose proof (cc_total_loss p W c q S Hw Hn HV) as Y.
  pose proof (violation_gain p q W S c Hw HV) as G.
  assert (D : (q <= gweight p S)%Q).
  { destruct HV as (_ & HV & _). unfold deserves in HV. change (Qnat 1) with 1%Q in HV. lra. }
  assert (Z1 : (Qnat k * gweight p S <= Qnat k * gain cc_w p W c)%Q).
  { rewrite !(Qmult_comm (Qnat k)). apply Qmult_le_compat_r; auto. apply Qnat_nonneg. }
  assert (Z2 : (Qnat k * q <= Qnat k * gweight p S)%Q).
  { rewrite !(Qmult_comm (Qnat k)). apply Qmult_le_compat_r; auto. apply Qnat_nonneg. }
  rewrite Qnat_plus in Hq. change (Qnat 1) with 1%Q in Hq. lra.
Qed.

(** coverage *)
Lemma cc_sum : forall u, (Qsum (map cc_w (seq 1 u)) == if u =? 0 then 0 else 1)%Q.
Proof.
  intros [|u]; [reflexivity|]. simpl. rewrite Qsum_map_zero; [unfold cc_w; simpl; lra|].
  intros x Hx. apply in_seq in Hx. unfold cc_w. destruct (Nat.eqb_spec x 1); [lia|reflexivity].
Qed.

Lemma cc_covered : forall p q W S c, wf p -> JR_violation p q W S c ->
  (Thiele cc_w p W <= wsum (voters p) - gweight p S)%Q.
Proof.
  intros p q W S c Hw (Hg & Hd & _ & Ha & Hu).
  assert (E : forall a b s, (b <= a - s)%Q -> (s <= a - b)%Q) by (intros; lra). apply E.
  unfold wsum, Thiele.
  assert (D : forall (f g : voter -> Q) l, (Qsum (map f l) - Qsum (map g l) == Qsum (map (fun x => f x - g x) l))%Q).
  { intros f g l. induction l; simpl; [lra|]. rewrite <- IHl. lra. }
  rewrite D. rewrite <- (Qmult_1_l (gweight p S)). apply group_weight_le; auto.
  - intros v Hv. pose proof (weight_pos_in p v Hw Hv). rewrite cc_sum. destruct (util v W =? 0); lra.
  - intros i Hi. specialize (Hu i Hi). assert (Ez : util (voter_at p i) W = 0) by exact Hu. rewrite Ez. simpl. lra.
Qed.

Theorem seqcc_JR : forall p k W q, wf p -> seq_thiele_winner cc_w p k W ->
  (wsum (voters p) < Qnat (k + 1) * q)%Q -> JR p q W.
Proof.
  intros p k W q Hw (L & HL & Hk & ->) Hq S c HV.
  assert (SS : set_same (isort L) L) by (intro d; split; apply Permutation_in; [apply Permutation_sym|]; apply isort_perm).
  assert (HV' : JR_violation p q L S c).
  { destruct HV as (A & B & C & D & F). split; auto. split; auto. split; auto. split; auto. intros i Hi.
    specialize (F i Hi). unfold approves_in in *. rewrite <- F. apply inter_length_ext. intros x _. symmetry. apply SS. }
  clear HV SS.
  assert (D : (q <= gweight p S)%Q).
  { destruct HV' as (_ & HV & _). unfold deserves in HV. change (Qnat 1) with 1%Q in HV. lra. }
  (* the violation was present in every earlier round *)
  assert (Mono : forall L', incl L' L -> JR_violation p q L' S c).
  { intros L' Hi. destruct HV' as (A & B & C & D' & F). split; auto. split; auto. split; auto. split; auto.
    intros i Hs. specialize (F i Hs). unfold approves_in in *. apply length_zero_iff_nil in F. apply length_zero_iff_nil.
    destruct (inter (ballot p i) L') as [|x r] eqn:E; auto. exfalso.
    assert (In x (inter (ballot p i) L)); [|rewrite F in H; auto]. apply inter_In.
    assert (Hx : In x (inter (ballot p i) L')) by (rewrite E; left; auto). apply inter_In in Hx as []. auto. }
  assert (Cov : (Qnat (length L) * q <= Thiele cc_w p L)%Q).
  { clear Hk HV'. induction HL as [|L' d HL IH Hb].
    - change (Qnat (length (@nil nat))) with 0%Q. rewrite Qmult_0_l. apply Thiele_nonneg; auto. apply cc_w_nonneg.
    - assert (HV0 : JR_violation p q L' S c) by (apply Mono; intros x Hx; right; auto).
      pose proof (violation_outside p q L' S c Hw HV0) as Hout.
      pose proof (violation_gain p q L' S c Hw HV0) as G.
      destruct Hb as (Hd1 & Hd2 & Hd3). specialize (Hd3 c (proj1 (proj2 (proj2 HV0))) Hout).
      rewrite gain_correct in G by auto.
      cbn [length]. rewrite Qnat_S. specialize (IH ltac:(intros L0 H0; apply Mono; intros x Hx; right; auto)). lra. }
  pose proof (cc_covered p q L S c Hw HV') as Hcov. rewrite Hk in Cov.
  rewrite Qnat_plus in Hq. change (Qnat 1) with 1%Q in Hq. lra.
Qed.

(** lexcc maximises the CC score first *)
Lemma at_least_one : forall p W, (at_least_weight p W 1 == Thiele cc_w p W)%Q.
Proof.
  intros p W. unfold at_least_weight, wsum, Thiele. rewrite Qsum_filter. apply Qsum_map_ext. intros v _.
  rewrite cc_sum. destruct (util v W); simpl; lra.
Qed.

Lemma lexcc_is_cc : forall p k W, 1 <= k -> lexcc_winner p k W -> maximises (Thiele cc_w p) p k W.
Proof.
  intros p k W Hk [Hc H]. split; auto. intros W' HW'. rewrite <- !at_least_one.
  destruct (H W' HW') as [E|(i & Hi & Hlt & He)].
  - rewrite (E 1) by lia. lra.
  - destruct (Nat.eq_dec i 1) as [->|]; [lra|]. rewrite (He 1) by lia. lra.
Qed.

(** ** Pareto optimality *)
Lemma pos_sum_lt : forall (f : nat -> Q) (a b : nat), (forall i, (1 <= i)%nat -> 0 < f i)%Q -> a < b ->
  (Qsum (map f (seq 1 a)) < Qsum (map f (seq 1 b)))%Q.
Proof.
  intros f a b Hf Hab. replace b with (a + (b - a)) by lia. rewrite seq_app, map_app, Qsum_app.
  destruct (b - a) as [|n] eqn:E; [lia|]. simpl seq. simpl map. change (Qsum (f (S a) :: map f (seq (S (S a)) n))) with (f (S a) + Qsum (map f (seq (S (S a)) n)))%Q.
  assert (0 <= Qsum (map f (seq (S (S a)) n)))%Q.
  { apply Qsum_map_nonneg. intros x Hx. apply in_seq in Hx. apply Qlt_le_weak, Hf. lia. }
  specialize (Hf (S a) ltac:(lia)). lra.
Qed.

Theorem thiele_pareto : forall (f : nat -> Q) p k W, wf p -> (forall i, (1 <= i)%nat -> 0 < f i)%Q ->
  maximises (Thiele f p) p k W -> pareto_optimal p W.
Proof.
  intros f p k W Hw Hf [(Ha & Hk & Hb) Hm] W' HW' [Hall (v & Hv & Hlt)]. rewrite Hk in HW'.
  specialize (Hm W' HW'). apply (Qlt_not_le (Thiele f p W) (Thiele f p W')); auto.
  unfold Thiele. apply Qsum_map_lt.
  - intros u Hu. pose proof (weight_pos_in p u Hw Hu). rewrite !(Qmult_comm (weight u)). apply Qmult_le_compat_r; [|lra].
    specialize (Hall u Hu). destruct (Nat.eq_dec (util u W) (util u W')) as [->|]; [lra|].
    apply Qlt_le_weak, pos_sum_lt; auto. lia.
  - exists v. split; auto. pose proof (weight_pos_in p v Hw Hv). rewrite !(Qmult_comm (weight v)).
    apply Qmult_lt_compat_r; auto. apply pos_sum_lt; auto.
Qed.

Lemma pav_pos : forall i, 1 <= i -> (0 < pav_w i)%Q.
Proof. intros. unfold pav_w. apply Qinv_pos, Qnat_pos. lia. Qed.
Lemma slav_pos : forall i, 1 <= i -> (0 < slav_w i)%Q.
Proof.
  intros. unfold slav_w. apply Qinv_pos. assert (1 <= Qnat i)%Q by (change 1%Q with (Qnat 1); apply Qnat_le; lia). lra.
Qed.
Lemma geom_pos : forall b i, (0 < b)%Q -> 1 <= i -> (0 < geom_w b i)%Q.
Proof.
  intros b i Hb Hi. unfold geom_w. apply Qinv_pos. destruct i as [|i]; [lia|].
  replace (Z.of_nat (S i) - 1)%Z with (Z.of_nat i) by lia. rewrite <- Qpow_power. apply Qpow_pos; auto.
Qed.

(** AV is the Thiele method with constant marginals *)
Lemma av_thiele : forall p W, wf p -> NoDup W -> (Qsum (map (support p) W) == Thiele av_w p W)%Q.
Proof.
  intros p W Hw HW. unfold support, supporters, wsum, Thiele.
  rewrite (Qsum_map_ext _ _ (fun c => Qsum (map (fun v => if approves v c then weight v else 0) (voters p)))%Q)
    by (intros; apply Qsum_filter).
  rewrite Qsum_swap. apply Qsum_map_ext. intros v Hv. rewrite <- Qsum_filter, Qsum_map_const.
  unfold av_w. rewrite Qsum_map_const, seq_length, Qmult_1_l.
  assert (E : length (filter (approves v) W) = util v W); [|rewrite <- E; reflexivity].
  unfold util. rewrite inter_comm_length; auto. destruct (wf_voter_in p v Hw Hv) as (N & _). auto.
Qed.

Lemma av_pareto : forall p k W, wf p -> maximises (fun W => Qsum (map (support p) W)) p k W -> pareto_optimal p W.
Proof.
  intros p k W Hw [Hc Hm]. apply (thiele_pareto av_w p k); auto; [intros; unfold av_w; lra|]. split; auto.
  intros W' HW'. rewrite <- !av_thiele; auto; apply ascending_NoDup; [apply Hc|apply HW'].
Qed.

Lemma lexcc_pareto : forall p k W, wf p -> lexcc_winner p k W -> pareto_optimal p W.
Proof.
  intros p k W Hw [(Ha & Hk & Hb) H] W' HW' [Hall (v & Hv & Hlt)]. rewrite Hk in HW'.
  assert (Ge : forall i, (at_least_weight p W i <= at_least_weight p W' i)%Q).
  { intro i. unfold at_least_weight, wsum. rewrite !Qsum_filter. apply Qsum_map_le. intros u Hu.
    pose proof (weight_pos_in p u Hw Hu). specialize (Hall u Hu).
    destruct (Nat.leb_spec i (util u W)); destruct (Nat.leb_spec i (util u W')); try lra. lia. }
  assert (Gt : (at_least_weight p W (util v W') < at_least_weight p W' (util v W'))%Q).
  { unfold at_least_weight, wsum. rewrite !Qsum_filter. apply Qsum_map_lt.
    - intros u Hu. pose proof (weight_pos_in p u Hw Hu). specialize (Hall u Hu).
      destruct (Nat.leb_spec (util v W') (util u W)); destruct (Nat.leb_spec (util v W') (util u W')); try lra. lia.
    - exists v. split; auto. pose proof (weight_pos_in p v Hw Hv).
      destruct (Nat.leb_spec (util v W') (util v W)); [lia|]. rewrite Nat.leb_refl. auto. }
  assert (R : 1 <= util v W' <= k).
  { split; [lia|]. destruct HW' as (A & <- & _). unfold util. apply inter_length_le_r.
    destruct (wf_voter_in p v Hw Hv) as (N & _). auto. }
  destruct (H W' HW') as [E|(i & Hi & Hl & He)].
  - rewrite (E _ R) in Gt. lra.
  - specialize (Ge i). lra.
Qed.

(** ** returned committees pass the checks *)
Lemma committee_cand_set : forall p k W, 1 <= k -> is_committee p k W -> cand_set p W /\ W <> [].
Proof.
  intros p k W Hk (Ha & Hl & Hb). split; [split; auto; apply ascending_NoDup; auto|]. intros ->. simpl in Hl. lia.
Qed.

Definition passes (check : result bool) : Prop := check = Ok true.

Lemma passes_JR : forall p W, wf p -> voters p <> [] -> cand_set p W -> W <> [] ->
  JR p (default_quota p (length W)) W -> check_JR p W None = Ok true.
Proof.
  intros p W Hw Hv Hc Hne H. destruct (check_JR_exact p W None Hw Hc) as (b & -> & Hb); auto.
  - apply default_pos; auto.
  - f_equal. apply Hb. auto.
Qed.
Lemma passes_EJR_plus : forall p W, wf p -> voters p <> [] -> cand_set p W -> W <> [] ->
  EJR_plus p (default_quota p (length W)) W -> check_EJR_plus p W None = Ok true.
Proof.
  intros p W Hw Hv Hc Hne H. destruct (check_EJR_plus_default p W Hw Hc) as (b & -> & Hb); auto.
  f_equal. apply Hb. auto.
Qed.
Lemma passes_EJR : forall gurobi p W, wf p -> voters p <> [] -> unit_weights p -> cand_set p W -> W <> [] ->
  EJR p (default_quota p (length W)) W -> check_EJR gurobi p W None "brute-force" = Ok true.
Proof.
  intros g p W Hw Hv Hu Hc Hne H.
  destruct (check_with_quota_exact check_EJR_core g EJR p W None) as (b & E & Hb); auto.
  - intros q Hq. apply check_EJR_core_exact; auto.
  - intros. eapply EJR_quota; eauto.
  - apply default_pos; auto.
  - unfold check_EJR. rewrite E. f_equal. apply Hb. auto.
Qed.
Lemma passes_PJR : forall gurobi p W, wf p -> voters p <> [] -> unit_weights p -> cand_set p W -> W <> [] ->
  PJR p (default_quota p (length W)) W -> check_PJR gurobi p W None "brute-force" = Ok true.
Proof.
  intros g p W Hw Hv Hu Hc Hne H.
  destruct (check_with_quota_exact check_PJR_core g PJR p W None) as (b & E & Hb); auto.
  - intros q Hq. apply check_PJR_core_exact; auto. apply Hc.
  - intros. eapply PJR_quota; eauto.
  - apply default_pos; auto.
  - unfold check_PJR. rewrite E. f_equal. apply Hb. auto.
Qed.
Lemma passes_pareto : forall gurobi p W, cand_set p W -> pareto_optimal p W ->
  check_pareto_optimality gurobi p W "brute-force" = Ok true.
Proof.
  intros g p W Hc H. unfold check_pareto_optimality. rewrite checked_ok by auto. simpl.
  destruct (check_pareto_exact p W (proj1 Hc)) as (b & -> & Hb). unfold dispatch. simpl. f_equal. apply Hb; auto.
Qed.

(** EJR+ gives all four *)
Lemma passes_all : forall gurobi p W, wf p -> voters p <> [] -> cand_set p W -> W <> [] ->
  EJR_plus p (default_quota p (length W)) W ->
  check_EJR_plus p W None = Ok true /\ check_JR p W None = Ok true /\
  (unit_weights p -> check_EJR gurobi p W None "brute-force" = Ok true /\
                     check_PJR gurobi p W None "brute-force" = Ok true).
Proof.
  intros g p W Hw Hv Hc Hne H. assert (E := EJR_plus_EJR p _ W Hw (proj1 Hc) H). assert (P := EJR_PJR p _ W Hw (proj1 Hc) E).
  split; [apply passes_EJR_plus; auto|]. split; [apply passes_JR; auto; apply PJR_JR; auto|].
  intro Hu. split; [apply passes_EJR|apply passes_PJR]; auto.
Qed.

Lemma answers_In : forall P resolute maxn r l W, answers P resolute maxn r -> r = Ok l -> In W l -> P W.
Proof. intros P resolute maxn r l W (l' & E & _ & _ & H & _) -> Hin. inversion E; subst. auto. Qed.

Local Open Scope string_scope.

Lemma pav_passes : forall e gurobi p k alg resolute maxn l W, valid_call p k resolute maxn ->
  In alg ["brute-force"; "branch-and-bound"]%list ->
  compute_pav e p (Z.of_nat k) alg resolute maxn = Ok l -> In W l ->
  check_EJR_plus p W None = Ok true /\ check_JR p W None = Ok true /\
  (unit_weights p -> check_EJR gurobi p W None "brute-force" = Ok true /\
                     check_PJR gurobi p W None "brute-force" = Ok true).
Proof.
  intros e g p k alg resolute maxn l W Hc Ha E Hin.
  assert (M : maximises (Thiele pav_w p) p k W).
  { destruct Ha as [<-|[<-|[]]].
    - eapply answers_In; [|exact E|exact Hin]. apply compute_thiele_bruteforce_correct; auto. constructor.
    - eapply answers_In; [|exact E|exact Hin]. apply compute_thiele_branchandbound_correct; auto; [constructor|].
      apply pav_antitone. }
  destruct Hc as (Hw & Hv & Hk & _). destruct (committee_cand_set p k W (proj1 Hk) (proj1 M)) as [Hcs Hne].
  apply passes_all; auto. apply (pav_EJR_plus p k); auto.
  assert (El : length W = k) by apply M. rewrite El. apply default_above_droop; [lia|apply total_pos; auto].
Qed.

Lemma cc_passes : forall e p k alg resolute maxn l W, valid_call p k resolute maxn ->
  In alg ["brute-force"; "branch-and-bound"]%list ->
  compute_cc e p (Z.of_nat k) alg resolute maxn = Ok l -> In W l -> check_JR p W None = Ok true.
Proof.
  intros e p k alg resolute maxn l W Hc Ha E Hin.
  assert (M : maximises (Thiele cc_w p) p k W).
  { destruct Ha as [<-|[<-|[]]].
    - eapply answers_In; [|exact E|exact Hin]. apply compute_thiele_bruteforce_correct; auto. constructor.
    - eapply answers_In; [|exact E|exact Hin]. apply compute_thiele_branchandbound_correct; auto; [constructor|].
      apply cc_antitone. }
  destruct Hc as (Hw & Hv & Hk & _). destruct (committee_cand_set p k W (proj1 Hk) (proj1 M)) as [Hcs Hne].
  apply passes_JR; auto. apply (cc_JR p k); auto.
  assert (El : length W = k) by apply M. rewrite El. apply default_above_droop; [lia|apply total_pos; auto].
Qed.

Lemma lexcc_passes : forall e p k resolute maxn l W, valid_call p k resolute maxn ->
  compute_lexcc e p (Z.of_nat k) "brute-force" resolute maxn = Ok l -> In W l -> check_JR p W None = Ok true.
Proof.
  intros e p k resolute maxn l W Hc E Hin.
  assert (M : maximises (Thiele cc_w p) p k W).
  { apply lexcc_is_cc; [apply Hc|]. eapply answers_In; [|exact E|exact Hin]. apply compute_lexcc_correct; auto. }
  destruct Hc as (Hw & Hv & Hk & _). destruct (committee_cand_set p k W (proj1 Hk) (proj1 M)) as [Hcs Hne].
  apply passes_JR; auto. apply (cc_JR p k); auto.
  assert (El : length W = k) by apply M. rewrite El. apply default_above_droop; [lia|apply total_pos; auto].
Qed.

Lemma seq_winner_committee : forall f p k W, seq_thiele_winner f p k W -> is_committee p k W.
Proof.
  intros f p k W (L & HL & Hk & ->). apply isort_committee; auto.
  - clear Hk. induction HL as [|L c HL IH (A & B & _)]; constructor; auto.
  - clear Hk. induction HL as [|L c HL IH (A & B & _)]; constructor; auto.
Qed.

Lemma seqcc_passes : forall e p k resolute maxn l W, valid_call p k resolute maxn ->
  compute_seqcc e p (Z.of_nat k) "standard" resolute maxn = Ok l -> In W l -> check_JR p W None = Ok true.
Proof.
  intros e p k resolute maxn l W Hc E Hin.
  assert (M : seq_thiele_winner cc_w p k W).
  { eapply answers_In; [|exact E|exact Hin]. apply compute_seq_thiele_correct; auto. constructor. }
  assert (C := seq_winner_committee _ _ _ _ M).
  destruct Hc as (Hw & Hv & Hk & _). destruct (committee_cand_set p k W (proj1 Hk) C) as [Hcs Hne].
  apply passes_JR; auto. apply (seqcc_JR p k); auto.
  assert (El : length W = k) by apply C. rewrite El. apply default_above_droop; [lia|apply total_pos; auto].
Qed.

Lemma denotes_pos : forall e id f, denotes e id f -> id <> "cc" -> forall i, 1 <= i -> (0 < f i)%Q.
Proof.
  intros e id f H Hn. destruct H; [apply pav_pos|apply slav_pos|congruence|]. intros; apply geom_pos; auto.
Qed.

Lemma thiele_passes_pareto : forall e gurobi id f p k resolute maxn l W, denotes e id f -> id <> "cc" ->
  valid_call p k resolute maxn ->
  compute_thiele_method e id p (Z.of_nat k) "brute-force" resolute maxn = Ok l -> In W l ->
  check_pareto_optimality gurobi p W "brute-force" = Ok true.
Proof.
  intros e g id f p k resolute maxn l W Hd Hn Hc E Hin.
  assert (M : maximises (Thiele f p) p k W).
  { eapply answers_In; [|exact E|exact Hin]. apply compute_thiele_bruteforce_correct; auto. }
  apply passes_pareto; [apply (committee_cand_set p k); [apply Hc|apply M]|].
  apply (thiele_pareto f p k); auto; [apply Hc|]. eapply denotes_pos; eauto.
Qed.
Lemma bb_passes_pareto : forall e gurobi id f p k resolute maxn l W, denotes e id f -> id <> "cc" ->
  (forall i j, 1 <= i -> i <= j -> (f j <= f i)%Q) ->
  valid_call p k resolute maxn ->
  compute_thiele_method e id p (Z.of_nat k) "branch-and-bound" resolute maxn = Ok l -> In W l ->
  check_pareto_optimality gurobi p W "brute-force" = Ok true.
Proof.
  intros e g id f p k resolute maxn l W Hd Hn Hf Hc E Hin.
  assert (M : maximises (Thiele f p) p k W).
  { eapply answers_In; [|exact E|exact Hin]. apply compute_thiele_branchandbound_correct; auto. }
  apply passes_pareto; [apply (committee_cand_set p k); [apply Hc|apply M]|].
  apply (thiele_pareto f p k); auto; [apply Hc|]. eapply denotes_pos; eauto.
Qed.
Lemma av_passes_pareto : forall e gurobi p k resolute maxn l W, valid_call p k resolute maxn ->
  compute_av e p (Z.of_nat k) "standard" resolute maxn = Ok l -> In W l ->
  check_pareto_optimality gurobi p W "brute-force" = Ok true.
Proof.
  intros e g p k resolute maxn l W Hc E Hin.
  assert (M : maximises (fun W => Qsum (map (support p) W)) p k W).
  { eapply answers_In; [|exact E|exact Hin]. apply compute_av_correct; auto. }
  apply passes_pareto; [apply (committee_cand_set p k); [apply Hc|apply M]|]. apply (av_pareto p k); auto. apply Hc.
Qed.
Lemma lexcc_passes_pareto : forall e gurobi p k resolute maxn l W, valid_call p k resolute maxn ->
  compute_lexcc e p (Z.of_nat k) "brute-force" resolute maxn = Ok l -> In W l ->
  check_pareto_optimality gurobi p W "brute-force" = Ok true.
Proof.
  intros e g p k resolute maxn l W Hc E Hin.
  assert (M : lexcc_winner p k W).
  { eapply answers_In; [|exact E|exact Hin]. apply compute_lexcc_correct; auto. }
  apply passes_pareto; [apply (committee_cand_set p k); [apply Hc|apply M]|]. apply (lexcc_pareto p k); auto. apply Hc.
Qed.
