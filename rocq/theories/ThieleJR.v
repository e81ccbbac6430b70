(** * Which Thiele methods are proportional (C90) *)
From Coq Require Import String.
From Coq Require Import List Arith Bool ZArith QArith Lia Lqa Permutation Sorted Setoid.
From Verif Require Import RulesMore SpecAll SpecExtra.
From Verif Require Import Prelude Misc MiscProofs Preferences Scores Spec ScoresProofs Search Rule RulesThiele
  Common ThieleProofs SpecRules RevseqProofs OptProofs Compute SpecCompute ComputeProofs Checks SpecAxioms ChecksProofs Guarantees.
Import ListNotations.
Local Open Scope string_scope.
Open Scope nat_scope.
Local Open Scope list_scope.

(** ** Enough: the [j]-th representative counts at most [1/j] of the first *)
Definition from_one (f : nat -> Q) (i : nat) : Q := if i =? 0 then 0%Q else f i.
Lemma from_one_maximises : forall f p k W, maximises (Thiele f p) p k W -> maximises (Thiele (from_one f) p) p k W.
Proof.
  intros f p k W. apply maximises_ext. intros V _. apply Thiele_ext. intros i Hi. unfold from_one. destruct (Nat.eqb_spec i 0); [lia|reflexivity].
Qed.

Section Enough.
  Variable f : nat -> Q.
  Hypothesis H0 : forall i, (0 <= f i)%Q.
  Hypothesis H1 : (0 < f 1)%Q.
  Hypothesis HJ : forall j, 1 <= j -> (Qnat j * f j <= f 1)%Q.

  Lemma share_bound : forall u b, u <= b <= S u -> (Qnat u * f b <= f 1)%Q.
  Proof using H0 H1 HJ.
    intros u b Hb. destruct u as [|u]; [change (Qnat 0) with 0%Q; lra|]. pose proof (HJ b ltac:(lia)).
    assert (Qnat (S u) <= Qnat b)%Q by (apply Qnat_le; lia). pose proof (H0 b). nra.
  Qed.
  Lemma total_loss : forall p W c q S, wf p -> ~ In c W -> JR_violation p q W S c ->
    (Qsum (map (fun v => weight v * (Qnat (util v W) * f (util v (c :: W)))) (voters p)) <= f 1%nat * (wsum (voters p) - gweight p S))%Q.
  Proof using H0 H1 HJ.
    intros p W c q S Hw Hc (Hg & Hd & _ & Ha & Hu).
    assert (E : forall a b s t, (t * b <= t * a - s)%Q -> (s <= t * (a - b))%Q) by (intros; nra). apply E. unfold wsum. rewrite <- Qsum_map_scal.
    assert (D : forall (f g : voter -> Q) l, (Qsum (map f l) - Qsum (map g l) == Qsum (map (fun x => f x - g x) l))%Q).
    { clear. intros f g l. induction l; simpl; [lra|]. rewrite <- IHl. lra. }
    rewrite D. apply group_weight_le; auto.
    - intros v Hv. pose proof (weight_pos_in p v Hw Hv). destruct (wf_voter_in p v Hw Hv) as (N & _).
      assert (Qnat (util v W) * f (util v (c :: W)) <= f 1%nat)%Q by (apply share_bound; rewrite util_add by auto; destruct (approves v c); lia). nra.
    - intros i Hi. specialize (Hu i Hi). unfold approves_in, ballot in Hu.
      assert (Ez : util (voter_at p i) W = 0) by exact Hu. rewrite Ez. change (Qnat 0) with 0%Q. rewrite Qmult_0_l, Qmult_0_r. lra.
  Qed.
  Lemma gain_bound : forall p q W S c, wf p -> JR_violation p q W S c -> (f 1%nat * gweight p S <= gain f p W c)%Q.
  Proof using H0 H1.
    intros p q W S c Hw (Hg & Hd & _ & Ha & Hu). unfold gain, supporters. rewrite Qsum_filter. apply group_weight_le; auto.
    - intros v Hv'. pose proof (weight_pos_in p v Hw Hv'). destruct (approves v c); [|lra]. apply Qmult_nonneg; [lra|apply H0].
    - intros i Hi. assert (In c (approved (voter_at p i))) by (apply (Ha i c Hi); left; auto).
      unfold approves. rewrite (proj2 (mem_In _ _) H). specialize (Hu i Hi).
      assert (Ez : util (voter_at p i) W = 0) by exact Hu. rewrite Ez. lra.
  Qed.
  Lemma enough_JR : forall p k W q, wf p -> maximises (Thiele f p) p k W -> (wsum (voters p) < Qnat (k + 1) * q)%Q -> JR p q W.
  Proof using H0 H1 HJ.
    intros p k W q Hw Hm Hq S c HV. pose proof (violation_outside p q W S c Hw HV) as Hn.
    assert (Hc : c < num_cand p) by apply HV.
    pose proof (exchange f p k W c Hw H0 Hm Hc Hn) as X. pose proof (total_loss p W c q S Hw Hn HV) as Y. pose proof (gain_bound p q W S c Hw HV) as G.
    assert (D : (q <= gweight p S)%Q) by (destruct HV as (_ & HV & _); unfold deserves in HV; change (Qnat 1) with 1%Q in HV; lra).
    rewrite Qnat_plus in Hq. change (Qnat 1) with 1%Q in Hq. pose proof (Qnat_nonneg k) as K0.
    assert (Z1 : (Qnat k * (f 1%nat * gweight p S) <= Qnat k * gain f p W c)%Q) by (rewrite !(Qmult_comm (Qnat k)); apply Qmult_le_compat_r; auto).
    assert (Z2 : (f 1%nat * (Qnat k * gweight p S) <= f 1%nat * (wsum (voters p) - gweight p S))%Q) by lra.
    apply Qmult_le_l in Z2; [|exact H1].
    assert (Z3 : (Qnat k * q <= Qnat k * gweight p S)%Q) by (rewrite !(Qmult_comm (Qnat k)); apply Qmult_le_compat_r; auto).
    lra.
  Qed.
End Enough.

(** ** Swapping two candidates *)
Lemma swap_gain : forall f p k W c d, wf p -> maximises (Thiele f p) p k W -> In c W -> d < num_cand p -> ~ In d W ->
  (gain f p (without c W) d <= gain f p (without c W) c)%Q.
Proof.
  intros f p k W c d Hw [(Ha & Hk & Hb) Hm] Hc Hd Hn. assert (HN : NoDup W) by (apply ascending_NoDup; auto).
  set (V := without c W). assert (HcV : ~ In c V) by (unfold V; rewrite without_In; tauto). assert (HdV : ~ In d V) by (unfold V; rewrite without_In; tauto).
  rewrite !gain_correct by auto.
  assert (E1 : (Thiele f p (c :: V) == Thiele f p W)%Q).
  { apply Thiele_set_same. intros x. unfold V. cbn. rewrite without_In. split; [intros [<-|[H _]]; auto|]. intros H. destruct (Nat.eq_dec x c) as [->|]; [left|right]; auto. }
  assert (E2 : (Thiele f p (isort (d :: V)) == Thiele f p (d :: V))%Q).
  { apply Thiele_set_same. intros x. split; apply Permutation_in; [apply Permutation_sym|]; apply isort_perm. }
  assert (Thiele f p (isort (d :: V)) <= Thiele f p W)%Q; [|lra]. apply Hm. apply isort_committee.
  - constructor; [exact HdV|apply NoDup_filter; auto].
  - cbn [length]. unfold V. rewrite without_length by auto. assert (0 < length W) by (destruct W; [contradiction|cbn; lia]). lia.
  - constructor; auto. apply Forall_forall. intros x Hx. apply without_In in Hx as [Hx _]. rewrite Forall_forall in Hb; auto.
Qed.
Lemma gain_ge : forall f p V d v, wf p -> (forall i, 1 <= i -> (0 <= f i)%Q) -> In v (voters p) -> approves v d = true ->
  (weight v * f (S (util v V)) <= gain f p V d)%Q.
Proof.
  intros f p V d v Hw Hf Hv Ha. unfold gain. assert (Hin : In v (supporters p d)) by (apply filter_In; auto).
  assert (HS : forall u, In u (supporters p d) -> (0 <= weight u * f (S (util u V)))%Q).
  { intros u Hu. apply filter_In in Hu as [Hu _]. apply Qmult_nonneg; [apply Qlt_le_weak, (weight_pos_in p u Hw Hu)|apply Hf; lia]. }
  revert Hin HS. generalize (supporters p d). clear. intros l. induction l as [|u l IH]; intros Hin HS; [destruct Hin|]. cbn [map Qsum fold_right].
  assert (R : (0 <= Qsum (map (fun v => weight v * f (S (util v V)))%Q l))%Q) by (apply Qsum_map_nonneg; intros x Hx; apply HS; right; auto).
  destruct Hin as [->|Hin]; [unfold Qsum in R; lra|]. specialize (IH Hin ltac:(intros x Hx; apply HS; right; auto)). pose proof (HS u (or_introl eq_refl)). unfold Qsum in IH. lra.
Qed.
Lemma filter_nothing : forall (A : Type) (f : A -> bool) l, (forall x, In x l -> f x = false) -> filter f l = [].
Proof. intros A f l H. induction l as [|a l IH]; [reflexivity|]. cbn. rewrite (H a) by (left; auto). apply IH. intros x Hx. apply H. right. auto. Qed.
Lemma gain_single : forall f p V c l1 v l2, voters p = l1 ++ v :: l2 -> approves v c = true ->
  (forall u, In u (l1 ++ l2) -> approves u c = false) -> (gain f p V c == weight v * f (S (util v V)))%Q.
Proof.
  intros f p V c l1 v l2 E Hv Hu. unfold gain, supporters. rewrite E, filter_app. cbn [filter]. rewrite Hv.
  rewrite !filter_nothing by (intros x Hx; apply Hu, in_or_app; auto). cbn. ring.
Qed.
Lemma util_missing : forall v V d, NoDup (approved v) -> In d (approved v) -> ~ In d V -> util v V < length (approved v).
Proof.
  intros v V d N Hd Hn. unfold util. assert (I : incl (inter (approved v) V) (without d (approved v))).
  { intros x Hx. apply inter_In in Hx as [H1 H2]. apply without_In. split; [auto|intros ->; auto]. }
  apply NoDup_incl_length in I; [|apply NoDup_filter; auto]. rewrite without_length in I by auto.
  assert (0 < length (approved v)) by (destruct (approved v); [contradiction|cbn; lia]). lia.
Qed.
Lemma missing_one : forall n W, length W < n -> exists d, d < n /\ ~ In d W.
Proof.
  intros n W H. destruct (existsb (fun d => negb (mem d W)) (seq 0 n)) eqn:E.
  - apply existsb_exists in E as (d & Hd & E). apply in_seq in Hd. exists d. split; [lia|]. intros Hin. apply mem_In in Hin. rewrite Hin in E. discriminate.
  - exfalso. assert (I : incl (seq 0 n) W).
    { intros x Hx. destruct (mem x W) eqn:M; [apply mem_In; auto|]. assert (existsb (fun d => negb (mem d W)) (seq 0 n) = true); [|congruence].
      apply existsb_exists. exists x. rewrite M. auto. }
    apply NoDup_incl_length in I; [rewrite seq_length in I; lia|apply seq_NoDup].
Qed.
Lemma large_enough : forall x y : Q, (0 < x)%Q -> exists n : nat, 2 <= n /\ (y < Qnat n * x)%Q.
Proof.
  intros x y Hx. exists (2 + Z.to_nat (Qround.Qceiling (y / x))). split; [lia|].
  assert (y / x <= Qnat (Z.to_nat (Qround.Qceiling (y / x))))%Q.
  { eapply Qle_trans; [apply Qround.Qle_ceiling|]. unfold Qnat. rewrite <- Zle_Qle. lia. }
  rewrite Qnat_plus. change (Qnat 2) with 2%Q. assert (E : (y == y / x * x)%Q) by (field; lra). rewrite E at 1. nra.
Qed.

(** ** Necessary for JR: many blocks of [j] candidates, and one candidate with a quota of other voters *)
Definition blocks (m j : nat) : profile :=
  mkProfile (m * j + 1) [] (map (fun b => mkVoter (seq (b * j) j) (Qnat (m * j - 1)) true) (seq 0 m) ++ [mkVoter [m * j] (Qnat m) true]).
Section Blocks.
  Variables (f : nat -> Q) (m j : nat).
  Hypothesis Hm : 2 <= m.
  Hypothesis Hj : 1 <= j.
  Hypothesis H0 : forall i, 1 <= i -> (0 <= f i)%Q.
  Hypothesis HD : forall i i', 1 <= i -> i <= i' -> (f i' <= f i)%Q.
  Hypothesis Hmj : (Qnat m * f 1 < Qnat (m * j - 1) * f j)%Q.
  Lemma mj : m <= m * j.
  Proof using Hj. clear - Hj. nia. Qed.
  Lemma blocks_wf : wf (blocks m j).
  Proof using Hm Hj.
    pose proof mj as MJ. split; [cbn; lia|]. cbn [voters blocks num_cand]. apply Forall_app. split.
    - apply Forall_map, Forall_forall. intros b Hb. apply in_seq in Hb. split; [apply seq_NoDup|]. split; [|cbn; apply Qnat_pos; lia].
      apply Forall_forall. intros c Hc. cbn in Hc. apply in_seq in Hc. clear - Hb Hc. nia.
    - repeat constructor; [cbn; tauto|lia|cbn; apply Qnat_pos; lia].
  Qed.
  Lemma blocks_weight : (wsum (voters (blocks m j)) == Qnat m * Qnat (m * j))%Q.
  Proof using Hm Hj.
    pose proof mj as MJ. cbn [voters blocks]. unfold wsum. rewrite map_app, map_map, Qsum_app. cbn [weight map].
    rewrite (Qsum_map_const _ (Qnat (m * j - 1)) (seq 0 m)), seq_length. unfold Qsum. cbn [fold_right].
    assert (E : (Qnat (m * j) == Qnat (m * j - 1) + 1)%Q) by (rewrite <- Qnat_S; replace (S (m * j - 1)) with (m * j) by lia; reflexivity). rewrite E. ring.
  Qed.
  Lemma blocks_last : forall W, maximises (Thiele f (blocks m j)) (blocks m j) (m * j) W -> ~ In (m * j) W.
  Proof using Hm Hj H0 HD Hmj.
    intros W HW Hc. pose proof mj as MJ. pose proof (ascending_NoDup _ (proj1 (proj1 HW))) as N. pose proof (proj1 (proj2 (proj1 HW))) as HL.
    assert (HLw : length (without (m * j) W) < m * j) by (rewrite without_length by auto; lia).
    destruct (missing_one _ _ HLw) as (d & Hd & Hn). assert (HnW : ~ In d W) by (intros H; apply Hn, without_In; split; [auto|lia]).
    pose proof (swap_gain f _ _ W (m * j) d blocks_wf HW Hc ltac:(cbn; lia) HnW) as S1.
    set (V := without (m * j) W) in *. set (v := mkVoter (seq (d / j * j) j) (Qnat (m * j - 1)) true).
    assert (Hb : d / j < m) by (apply Nat.div_lt_upper_bound; lia).
    assert (Hv : In v (voters (blocks m j))).
    { cbn [voters blocks]. apply in_or_app. left. apply in_map_iff. exists (d / j). split; [reflexivity|apply in_seq; lia]. }
    assert (Hdv : In d (approved v)).
    { cbn. apply in_seq. pose proof (Nat.div_mod d j ltac:(lia)). pose proof (Nat.mod_upper_bound d j ltac:(lia)). lia. }
    pose proof (gain_ge f _ V d v blocks_wf H0 Hv (proj2 (mem_In _ _) Hdv)) as G1.
    pose proof (util_missing v V d ltac:(apply seq_NoDup) Hdv Hn) as U. replace (length (approved v)) with j in U by (cbn; rewrite seq_length; reflexivity).
    pose proof (HD (S (util v V)) j ltac:(lia) ltac:(lia)) as F. change (weight v) with (Qnat (m * j - 1)) in G1. pose proof (Qnat_nonneg (m * j - 1)) as P.
    assert (G2 : (gain f (blocks m j) V (m * j) == Qnat m * f (S (util (mkVoter [(m * j)%nat] (Qnat m) true) V)))%Q).
    { apply (gain_single f _ V (m * j) (map (fun b => mkVoter (seq (b * j) j) (Qnat (m * j - 1)) true) (seq 0 m)) (mkVoter [m * j] (Qnat m) true) []); [reflexivity|apply mem_In; left; auto|].
      rewrite app_nil_r. intros u Hu. apply in_map_iff in Hu as (b & <- & Hb'). apply in_seq in Hb'. unfold approves. cbn [approved].
      destruct (mem (m * j) (seq (b * j) j)) eqn:M; [|reflexivity]. apply mem_In, in_seq in M. clear - M Hb'. nia. }
    pose proof (HD 1 (S (util (mkVoter [m * j] (Qnat m) true) V)) ltac:(lia) ltac:(lia)) as F1.
    pose proof (Qnat_nonneg m) as Pm. nra.
  Qed.
  Lemma blocks_violation : forall W, maximises (Thiele f (blocks m j)) (blocks m j) (m * j) W ->
    ~ JR (blocks m j) (default_quota (blocks m j) (m * j)) W.
  Proof using Hm Hj H0 HD Hmj.
    intros W HW HJR. pose proof mj as MJ. pose proof (blocks_last W HW) as Hn. apply (HJR [m] (m * j)).
    assert (Hb : voter_at (blocks m j) m = mkVoter [m * j] (Qnat m) true).
    { unfold voter_at. cbn [voters blocks]. rewrite app_nth2; rewrite map_length, seq_length; [|lia]. rewrite Nat.sub_diag. reflexivity. }
    assert (Hl : length (voters (blocks m j)) = m + 1) by (cbn [voters blocks]; rewrite app_length, map_length, seq_length; reflexivity).
    split; [split; [discriminate|split; [repeat constructor; cbn; tauto|repeat constructor; rewrite Hl; lia]]|]. split; [|split; [cbn; lia|split]].
    - unfold deserves, default_quota. rewrite blocks_weight. unfold gweight. cbn [map]. unfold voter_weight. change (nth m (voters (blocks m j)) _) with (voter_at (blocks m j) m).
      rewrite Hb. cbn [weight]. unfold Qsum. cbn [fold_right]. change (Qnat 1) with 1%Q. assert (0 < Qnat (m * j))%Q by (apply Qnat_pos; lia).
      assert (E : (Qnat m * Qnat (m * j) / Qnat (m * j) == Qnat m)%Q) by (field; lra). rewrite E. lra.
    - intros i c [<-|[]] [<-|[]]. unfold ballot. change (nth m (voters (blocks m j)) _) with (voter_at (blocks m j) m). rewrite Hb. left. reflexivity.
    - intros i [<-|[]]. unfold approves_in, ballot. change (nth m (voters (blocks m j)) _) with (voter_at (blocks m j) m). rewrite Hb. cbn.
      destruct (mem (m * j) W) eqn:M; [apply mem_In in M; contradiction|reflexivity].
  Qed.
End Blocks.
Lemma JR_necessary : forall f j, (forall i, 1 <= i -> (0 <= f i)%Q) -> (forall i i', 1 <= i -> i <= i' -> (f i' <= f i)%Q) -> 1 <= j -> (f 1%nat < Qnat j * f j)%Q ->
  exists m, 2 <= m /\ forall W, maximises (Thiele f (blocks m j)) (blocks m j) (m * j) W -> ~ JR (blocks m j) (default_quota (blocks m j) (m * j)) W.
Proof.
  intros f j H0 HD Hj Hf. destruct (large_enough (Qnat j * f j - f 1%nat) (f j) ltac:(lra)) as (m & Hm & Hl). exists m. split; [exact Hm|].
  intros W. apply blocks_violation; auto. pose proof (mj m j Hj) as MJ.
  assert (E : (Qnat (m * j) == Qnat (m * j - 1) + 1)%Q) by (rewrite <- Qnat_S; replace (S (m * j - 1)) with (m * j) by lia; reflexivity).
  assert (E2 : (Qnat (m * j) == Qnat m * Qnat j)%Q) by (unfold Qnat; rewrite Nat2Z.inj_mul, inject_Z_mult; reflexivity).
  assert (E3 : (Qnat (m * j - 1) * f j == Qnat m * Qnat j * f j - f j)%Q) by (rewrite <- E2, E; ring). rewrite E3. lra.
Qed.

(** ** Necessary for PJR: a large party and many single candidates *)
Definition party_and_singles (j s : nat) : profile :=
  mkProfile (j + s + 1) [] (mkVoter (seq 0 j) (Qnat (j * (s + 1))) true :: map (fun i => mkVoter [j + i] (Qnat s) true) (seq 0 (s + 1))).
Section Party.
  Variables (f : nat -> Q) (j s : nat).
  Hypothesis Hs : 1 <= s.
  Hypothesis Hj : 1 <= j.
  Hypothesis H0 : forall i, 1 <= i -> (0 <= f i)%Q.
  Hypothesis Hjs : (Qnat (j * (s + 1)) * f j < Qnat s * f 1%nat)%Q.
  Notation p := (party_and_singles j s).
  Lemma party_wf : wf p.
  Proof using Hs Hj.
    split; [cbn; lia|]. cbn [voters party_and_singles num_cand]. constructor.
    - split; [apply seq_NoDup|]. split; [|cbn; apply Qnat_pos; clear - Hs Hj; nia]. apply Forall_forall. intros c Hc. cbn in Hc. apply in_seq in Hc. lia.
    - apply Forall_map, Forall_forall. intros i Hi. apply in_seq in Hi. repeat constructor; [cbn; tauto|cbn; lia|cbn; apply Qnat_pos; lia].
  Qed.
  Lemma party_weight : (wsum (voters p) == Qnat (s + 1) * Qnat (j + s))%Q.
  Proof using.
    cbn [voters party_and_singles]. unfold wsum. cbn [map]. rewrite map_map. cbn [weight].
    change (Qsum (?a :: ?l)) with (a + Qsum l)%Q. rewrite (Qsum_map_const _ (Qnat s) (seq 0 (s + 1))), seq_length.
    rewrite (Qnat_plus j s). assert (E2 : (Qnat (j * (s + 1)) == Qnat j * Qnat (s + 1))%Q) by (unfold Qnat; rewrite Nat2Z.inj_mul, inject_Z_mult; reflexivity). rewrite E2. ring.
  Qed.
  Lemma party_singles : forall W, maximises (Thiele f p) p (j + s) W -> forall i, i < s + 1 -> In (j + i) W.
  Proof using Hs Hj H0 Hjs.
    intros W HW i Hi. destruct (in_dec Nat.eq_dec (j + i) W) as [H|Hn]; [exact H|exfalso].
    pose proof (ascending_NoDup _ (proj1 (proj1 HW))) as N. pose proof (proj1 (proj2 (proj1 HW))) as HL.
    assert (Hin : forall c, c < j + s + 1 -> c <> j + i -> In c W).
    { intros c Hc Hne. destruct (in_dec Nat.eq_dec c W) as [H|Hc']; [exact H|exfalso].
      assert (L : length ((j + i) :: c :: W) <= length (seq 0 (j + s + 1))).
      { apply NoDup_incl_length; [constructor; [intros [->|H]; auto|constructor; auto]|]. intros x [<-|[<-|Hx]]; apply in_seq; try lia.
        pose proof (proj2 (proj2 (proj1 HW))) as F. rewrite Forall_forall in F. specialize (F x Hx). cbn in F. lia. }
      rewrite seq_length in L. cbn [length] in L. lia. }
    assert (H00 : In 0 W) by (apply Hin; lia).
    pose proof (swap_gain f p (j + s) W 0 (j + i) party_wf HW H00 ltac:(cbn; lia) Hn) as S1. set (V := without 0 W) in *.
    set (v := mkVoter [j + i] (Qnat s) true).
    assert (Hv : In v (voters p)) by (cbn [voters party_and_singles]; right; apply in_map_iff; exists i; split; [reflexivity|apply in_seq; lia]).
    pose proof (gain_ge f p V (j + i) v party_wf H0 Hv ltac:(apply mem_In; left; auto)) as G1.
    assert (U1 : util v V = 0).
    { unfold util, v. cbn [approved]. unfold inter. cbn [filter]. destruct (mem (j + i) V) eqn:M; [|reflexivity]. apply mem_In, without_In in M. tauto. }
    rewrite U1 in G1. change (weight v) with (Qnat s) in G1.
    assert (G2 : (gain f p V 0 == Qnat (j * (s + 1)) * f (S (util (mkVoter (seq 0 j) (Qnat (j * (s + 1))) true) V)))%Q).
    { apply (gain_single f p V 0 [] (mkVoter (seq 0 j) (Qnat (j * (s + 1))) true) (map (fun i => mkVoter [j + i] (Qnat s) true) (seq 0 (s + 1)))).
      - reflexivity.
      - apply mem_In. cbn. apply in_seq. lia.
      - intros u Hu. apply in_map_iff in Hu as (x & <- & _). unfold approves. cbn [approved]. destruct (mem 0 [j + x]) eqn:M; [|reflexivity].
        apply mem_In in M as [M|[]]. lia. }
    assert (U2 : S (util (mkVoter (seq 0 j) (Qnat (j * (s + 1))) true) V) = j).
    { unfold util. cbn [approved]. assert (P : Permutation (inter (seq 0 j) V) (seq 1 (j - 1))).
      { apply NoDup_Permutation; [apply NoDup_filter, seq_NoDup|apply seq_NoDup|]. intros x. rewrite inter_In, !in_seq. unfold V. rewrite without_In. split; [lia|].
        intros Hx. split; [lia|]. split; [apply Hin; lia|lia]. }
      rewrite (Permutation_length P), seq_length. lia. }
    rewrite U2 in G2. lra.
  Qed.
  Lemma party_violation : forall W, maximises (Thiele f p) p (j + s) W -> ~ PJR p (default_quota p (j + s)) W.
  Proof using Hs Hj H0 Hjs.
    intros W HW HP. pose proof (party_singles W HW) as HI.
    pose proof (ascending_NoDup _ (proj1 (proj1 HW))) as N. pose proof (proj1 (proj2 (proj1 HW))) as HL.
    destruct (missing_one (j + s + 1) W ltac:(lia)) as (d & Hd & Hn).
    assert (Hdj : d < j). { destruct (Nat.lt_ge_cases d j) as [L|L]; [exact L|]. exfalso. apply Hn. replace d with (j + (d - j)) by lia. apply HI. lia. }
    assert (C : cohesive p (default_quota p (j + s)) [0] j).
    { split; [split; [discriminate|split; [constructor; [cbn; tauto|constructor]|constructor; [cbn; lia|constructor]]]|]. split; [exact Hj|]. split.
      - unfold deserves, default_quota. rewrite party_weight. unfold gweight, voter_weight. cbn [map voters party_and_singles nth weight]. unfold Qsum. cbn [fold_right].
        assert (0 < Qnat (j + s))%Q by (apply Qnat_pos; lia). assert (E2 : (Qnat (j * (s + 1)) == Qnat j * Qnat (s + 1))%Q) by (unfold Qnat; rewrite Nat2Z.inj_mul, inject_Z_mult; reflexivity).
        assert (E : (Qnat (s + 1) * Qnat (j + s) / Qnat (j + s) == Qnat (s + 1))%Q) by (field; lra). rewrite E, E2. lra.
      - exists (seq 0 j). split; [split; [apply seq_NoDup|apply Forall_forall; intros c Hc; apply in_seq in Hc; cbn; lia]|]. split; [apply seq_length|].
        intros i c [<-|[]] Hc. exact Hc. }
    specialize (HP [0] j C). assert (I : incl (covered p [0] W) (without d (seq 0 j))).
    { intros c Hc. apply filter_In in Hc as [Hc E]. cbn [existsb] in E. rewrite orb_false_r in E. apply mem_In in E. apply without_In. split; [exact E|intros ->; auto]. }
    apply NoDup_incl_length in I; [|apply NoDup_filter; auto]. rewrite without_length in I by (try apply seq_NoDup; apply in_seq; lia). rewrite seq_length in I. lia.
  Qed.
End Party.
Lemma PJR_necessary : forall f j, (forall i, 1 <= i -> (0 <= f i)%Q) -> 1 <= j -> (Qnat j * f j < f 1%nat)%Q ->
  exists s, 1 <= s /\ forall W, maximises (Thiele f (party_and_singles j s)) (party_and_singles j s) (j + s) W ->
    ~ PJR (party_and_singles j s) (default_quota (party_and_singles j s) (j + s)) W.
Proof.
  intros f j H0 Hj Hf. destruct (large_enough (f 1%nat - Qnat j * f j) (Qnat j * f j) ltac:(lra)) as (s & Hs & Hl). exists s. split; [lia|].
  intros W. apply party_violation; auto; [lia|].
  assert (E2 : (Qnat (j * (s + 1)) == Qnat j * (Qnat s + 1))%Q) by (unfold Qnat; rewrite Nat2Z.inj_mul, inject_Z_mult, Nat2Z.inj_add, inject_Z_plus; reflexivity).
  rewrite E2. assert (Q1 : (Qnat j * (Qnat s + 1) * f j == Qnat s * (Qnat j * f j) + Qnat j * f j)%Q) by ring. rewrite Q1.
  assert (Q2 : (Qnat s * (f 1%nat - Qnat j * f j) == Qnat s * f 1%nat - Qnat s * (Qnat j * f j))%Q) by ring. rewrite Q2 in Hl. lra.
Qed.
