(** * Average satisfaction (C92) *)
From Coq Require Import String.
From Coq Require Import List Arith Bool ZArith QArith Lia Lqa Permutation Setoid.
From Verif Require Import Milp RulesSolver SpecLoads SolverCompute SolverLex RulesMonroe RulesMore SolverMore.
From Verif Require Import Prelude Misc Common MiscProofs Preferences Scores ScoresProofs Rule Spec SpecRules Compute SpecCompute SpecSeq SpecAxioms
  Checks ChecksProofs ComputeProofs ThieleProofs RevseqProofs BBProofs Guarantees ComputeAll SpecAll AllProofs SpecJR ThieleJR ThieleRules SpecDegree.
Import ListNotations.
Local Open Scope string_scope.
Open Scope nat_scope.
Local Open Scope list_scope.

Lemma group_pos : forall p S, wf p -> is_group p S -> (0 < gweight p S)%Q.
Proof.
  intros p S Hw (Hn & _ & HB). destruct S as [|i S]; [congruence|]. inversion HB; subst. unfold gweight. simpl. change (weight (nth i (voters p) (mkVoter [] 1 true))) with (voter_weight p i).
  pose proof (voter_weight_pos p i Hw H1). assert (0 <= Qsum (map (voter_weight p) S))%Q; [|lra].
  apply Qsum_map_nonneg. intros j Hj. rewrite Forall_forall in H2. apply Qlt_le_weak, voter_weight_pos; auto.
Qed.

(** ** From "some voter has at least [j]" for all subgroups to the average *)
Lemma counted : forall a l, (Qsum (map (fun j => if a <? j then 0 else 1) (seq 1 l)) <= Qnat a)%Q.
Proof.
  intros a l. assert (E : (Qsum (map (fun j => if a <? j then 0 else 1) (seq 1 l)) == Qnat (Nat.min a l))%Q).
  { induction l as [|l IH]; [rewrite Nat.min_0_r; reflexivity|]. rewrite seq_S, map_app, Qsum_app, IH. cbn [map Qsum fold_right Nat.add].
    destruct (Nat.ltb_spec a (S l)).
    - rewrite !Nat.min_l by lia. lra.
    - rewrite !Nat.min_r by lia. rewrite Qnat_S. lra. }
  rewrite E. apply Qnat_le. lia.
Qed.
Lemma sum_to : forall l, (2 * Qsum (map Qnat (seq 1 l)) == Qnat l * (Qnat l + 1))%Q.
Proof.
  induction l as [|l IH]; [reflexivity|]. rewrite seq_S, map_app, Qsum_app, Qmult_plus_distr_r, IH. cbn [map Qsum fold_right Nat.add]. rewrite Qnat_S. ring.
Qed.
Lemma subgroups_average : forall p q W S l, wf p -> is_group p S -> (0 <= q)%Q -> deserves p q S l ->
  (forall S' j, 1 <= j <= l -> is_group p S' -> incl S' S -> deserves p q S' j -> exists i, In i S' /\ j <= approves_in p i W) ->
  ((Qnat l - 1) / 2 * gweight p S <= satisfaction p S W)%Q.
Proof.
  intros p q W S l Hw HG Hq Hd H. pose proof HG as (Hn & HN & HB). pose proof (group_pos p S Hw HG) as GP.
  set (Sj := fun j => filter (fun i => approves_in p i W <? j) S).
  assert (B : forall j, 1 <= j <= l -> (gweight p (Sj j) <= Qnat j * q)%Q).
  { intros j Hj. destruct (Qlt_le_dec (Qnat j * q) (gweight p (Sj j))) as [L|L]; [exfalso|exact L].
    assert (GJ : is_group p (Sj j)).
    { split; [|split; [apply NoDup_filter; exact HN|]].
      - intros E. rewrite E in L. cbn in L. pose proof (Qnat_nonneg j). nra.
      - apply Forall_forall. intros i Hi. apply filter_In in Hi as [Hi _]. rewrite Forall_forall in HB. auto. }
    destruct (H (Sj j) j Hj GJ) as (i & Hi & Hi2).
    - intros i Hi. apply filter_In in Hi. apply Hi.
    - unfold deserves. lra.
    - apply filter_In in Hi as [_ Hi]. apply Nat.ltb_lt in Hi. lia. }
  assert (S1 : (Qsum (map (fun i => Qsum (map (fun j => voter_weight p i * (if (approves_in p i W <? j)%nat then 0 else 1)) (seq 1 l))) S) <= satisfaction p S W)%Q).
  { apply Qsum_map_le. intros i Hi. rewrite Qsum_map_scal. rewrite Forall_forall in HB. pose proof (voter_weight_pos p i Hw (HB i Hi)).
    rewrite !(Qmult_comm (voter_weight p i)). apply Qmult_le_compat_r; [apply counted|lra]. }
  rewrite Qsum_swap in S1.
  assert (S2 : (Qsum (map (fun j => gweight p S + (- q) * Qnat j) (seq 1 l)) <= Qsum (map (fun j => Qsum (map (fun i => voter_weight p i * (if (approves_in p i W <? j)%nat then 0 else 1)) S)) (seq 1 l)))%Q).
  { apply Qsum_map_le. intros j Hj. apply in_seq in Hj. pose proof (B j ltac:(lia)) as BJ.
    assert (E : (gweight p S == Qsum (map (fun i => voter_weight p i * (if (approves_in p i W <? j)%nat then 0 else 1)) S) + gweight p (Sj j))%Q).
    { unfold gweight, Sj. rewrite Qsum_filter, <- Qsum_map_plus. apply Qsum_map_ext. intros i _. destruct (approves_in p i W <? j); ring. }
    lra. }
  rewrite Qsum_map_plus, Qsum_map_scal, Qsum_map_const, seq_length in S2. pose proof (sum_to l) as T. unfold deserves in Hd.
  set (s := Qsum (map Qnat (seq 1 l))) in *. set (g := gweight p S) in *. set (n := Qnat l) in *.
  assert (N0 : (0 <= n)%Q) by apply Qnat_nonneg.
  assert (Z : (2 * (q * s) <= g * (n + 1))%Q).
  { assert (E : (2 * (q * s) == (n * q) * (n + 1))%Q) by (rewrite <- (Qmult_comm s q), Qmult_assoc, T; ring). rewrite E. apply Qmult_le_compat_r; lra. }
  assert (E2 : ((n - 1) / 2 * g == (g * n - g) / 2)%Q) by field. rewrite E2. apply Qle_shift_div_r; [lra|]. lra.
Qed.

Lemma nodup_firstn : forall (A : Type) n (l : list A), NoDup l -> NoDup (firstn n l).
Proof.
  induction n as [|n IH]; intros [|a l] H; cbn; auto; try constructor; inversion H; subst; auto.
  intros Hi. apply H2. rewrite <- (firstn_skipn n l). apply in_app_iff. auto.
Qed.
Definition half_degree (l : nat) : Q := ((Qnat l - 1) / 2)%Q.
Definition pav_degree (l : nat) : Q := (Qnat l - 1)%Q.
Theorem EJR_average : forall p q W, wf p -> (0 <= q)%Q -> EJR p q W -> average_at_least half_degree p q W.
Proof.
  intros p q W Hw Hq HE S l (HG & Hl & Hd & T & HT & HL & HA). apply (subgroups_average p q W S l); auto.
  intros S' j Hj HG' HI Hd'. apply HE. split; [exact HG'|]. split; [lia|]. split; [exact Hd'|]. exists (firstn j T).
  destruct HT as [N F]. split; [split|split].
  - apply nodup_firstn. exact N.
  - apply Forall_forall. intros c Hc. rewrite Forall_forall in F. apply F. rewrite <- (firstn_skipn j T). apply in_app_iff. auto.
  - rewrite firstn_length. lia.
  - intros i c Hi Hc. apply HA; auto. rewrite <- (firstn_skipn j T). apply in_app_iff. auto.
Qed.
Theorem EJR_plus_average : forall p q W, wf p -> (0 <= q)%Q -> EJR_plus p q W -> average_at_least_plus half_degree p q W.
Proof.
  intros p q W Hw Hq HE S l c HG Hl Hd Hc Hn HA. apply (subgroups_average p q W S l); auto.
  intros S' j Hj HG' HI Hd'. apply (HE S' j c); auto; [lia|]. intros i d Hi Hd2. apply HA; auto.
Qed.

(** ** PAV *)
Theorem pav_average_plus : forall p k W q, wf p -> voters p <> [] -> maximises (Thiele pav_w p) p k W -> (wsum (voters p) < Qnat (k + 1) * q)%Q ->
  average_above_plus pav_degree p q W.
Proof.
  intros p k W q Hw Hv Hm Hq S l c HG Hl Hd Hc Hn Ha. unfold pav_degree.
  destruct (Qlt_le_dec ((Qnat l - 1) * gweight p S) (satisfaction p S W)) as [L|L]; [exact L|exfalso].
  pose proof (exchange pav_w p k W c Hw pav_w_nonneg Hm Hc Hn) as X. pose proof (pav_total_loss p W c Hw Hn) as Y.
  assert (Hlp : (0 < Qnat l)%Q) by (apply Qnat_pos; lia). unfold deserves in Hd.
  assert (G : (q <= gain pav_w p W c)%Q).
  { unfold gain, supporters. rewrite Qsum_filter.
    eapply Qle_trans; [|apply (group_sum_le p S)]; auto.
    2:{ intros v Hv'. pose proof (weight_pos_in p v Hw Hv'). destruct (approves v c); [|lra]. apply Qmult_nonneg; [lra|apply pav_w_nonneg]. }
    apply Qle_trans with (Qsum (map (fun i => (2 / Qnat l - 1 / (Qnat l * Qnat l)) * voter_weight p i + (- (1 / (Qnat l * Qnat l))) * (voter_weight p i * Qnat (approves_in p i W))) S))%Q.
    - rewrite Qsum_map_plus, !Qsum_map_scal. fold (gweight p S). fold (satisfaction p S W).
      set (g := gweight p S) in *. set (s := satisfaction p S W) in *. set (n := Qnat l) in *.
      assert (E : ((2 / n - 1 / (n * n)) * g + - (1 / (n * n)) * s == (2 * n * g - g - s) / (n * n))%Q) by (field; lra). rewrite E.
      apply Qle_shift_div_l; [nra|]. nra.
    - apply Qsum_map_le. intros i Hi. assert (Hin : In c (approved (voter_at p i))) by (apply (Ha i c Hi); left; auto).
      unfold approves. rewrite (proj2 (mem_In _ _) Hin). destruct HG as (_ & _ & HB). rewrite Forall_forall in HB. pose proof (voter_weight_pos p i Hw (HB i Hi)) as Hp.
      change (weight (voter_at p i)) with (voter_weight p i). change (util (voter_at p i) W) with (approves_in p i W).
      set (w := voter_weight p i) in *. unfold pav_w. rewrite Qnat_S. pose proof (Qnat_nonneg (approves_in p i W)) as U. set (u := Qnat (approves_in p i W)) in *. set (n := Qnat l) in *.
      assert (E : ((2 / n - 1 / (n * n)) * w + - (1 / (n * n)) * (w * u) == w * ((2 * n - 1 - u) / (n * n)))%Q) by (field; lra). rewrite E.
      rewrite !(Qmult_comm w). apply Qmult_le_compat_r; [|lra]. apply Qle_shift_div_r; [nra|].
      assert (E2 : (1 / (u + 1) * (n * n) == (n * n) / (u + 1))%Q) by (field; lra). rewrite E2. apply Qle_shift_div_l; [lra|].
      assert (0 <= (n - (u + 1)) * (n - (u + 1)))%Q; [|lra]. destruct (Qlt_le_dec n (u + 1)); nra. }
  rewrite Qnat_plus in Hq. change (Qnat 1) with 1%Q in Hq.
  assert (T : ((Qnat k + 1) * q <= (Qnat k + 1) * gain pav_w p W c)%Q).
  { rewrite !(Qmult_comm (Qnat k + 1)). apply Qmult_le_compat_r; auto. pose proof (Qnat_nonneg k). lra. }
  lra.
Qed.
Theorem pav_average : forall p k W q, wf p -> voters p <> [] -> maximises (Thiele pav_w p) p k W -> (wsum (voters p) < Qnat (k + 1) * q)%Q ->
  average_above pav_degree p q W.
Proof.
  intros p k W q Hw Hv Hm Hq S l (HG & Hl & Hd & T & [HN HF] & HL & HA). rewrite Forall_forall in HF.
  destruct (existsb (fun c => negb (mem c W)) T) eqn:E.
  - apply existsb_exists in E as (c & Hc & E). apply negb_true_iff in E. apply (pav_average_plus p k W q Hw Hv Hm Hq S l c); auto.
    + intros HI. apply mem_In in HI. congruence.
    + intros i d Hi [<-|[]]. auto.
  - assert (HI : forall c, In c T -> In c W).
    { intros c Hc. apply mem_In. destruct (mem c W) eqn:Em; auto. exfalso. apply not_true_iff_false in E. apply E. apply existsb_exists. exists c. rewrite Em. auto. }
    pose proof (group_pos p S Hw HG) as GP. unfold pav_degree.
    assert (B : (Qnat l * gweight p S <= satisfaction p S W)%Q); [|lra].
    unfold gweight, satisfaction. rewrite <- Qsum_map_scal. apply Qsum_map_le. intros i Hi. rewrite Qmult_comm. destruct HG as (_ & _ & HB). rewrite Forall_forall in HB.
    pose proof (voter_weight_pos p i Hw (HB i Hi)). rewrite !(Qmult_comm (voter_weight p i)). apply Qmult_le_compat_r; [|lra]. apply Qnat_le. rewrite <- HL.
    unfold approves_in. apply NoDup_incl_length; [exact HN|]. intros c Hc. apply filter_In. split; [apply HA; auto|]. apply mem_In. auto.
Qed.
