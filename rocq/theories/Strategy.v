(** * Approval voting is strategyproof (C94) *)
From Coq Require Import String.
From Coq Require Import List Arith Bool ZArith QArith Lia Lqa Permutation Sorted Setoid.
From Verif Require Import Prelude Misc Common MiscProofs Preferences Scores ScoresProofs Search Spec SpecRules Rule RulesThiele ThieleProofs OptProofs Compute SpecCompute SpecSeq
  Milp RulesMonroe RulesSolver SpecLoads SolverMaximin SolverCompute PhragmenProofs EnestroemProofs AvPhase MesFinal ComputeProofs ComputeSeqProofs MonroeProofs RulesMore ComputeAll SpecAll AllProofs SpecMono Mono TieBreak
  RevseqProofs BBProofs Guarantees MesFinal MesProofs SpecStrategy.
Import ListNotations.
Local Open Scope string_scope.
Open Scope nat_scope.
Local Open Scope list_scope.

Lemma Qsum_cons : forall x l, (Qsum (x :: l) == x + Qsum l)%Q.
Proof. intros. reflexivity. Qed.

(** ** supports *)
Lemma support_split : forall p l1 v l2 c, voters p = l1 ++ v :: l2 ->
  (support p c == wsum (filter (fun v => approves v c) (l1 ++ l2)) + (if approves v c then weight v else 0))%Q.
Proof.
  intros p l1 v l2 c E. unfold support, supporters, wsum. rewrite E, !filter_app, !map_app, !Qsum_app. cbn [filter].
  destruct (approves v c); cbn [map]; rewrite ?Qsum_cons; ring.
Qed.
Lemma misreport_more : forall v p q c, wf p -> misreports v p q -> In c (approved v) -> (support q c <= support p c)%Q.
Proof.
  intros v p q c Hw (_ & l1 & u & l2 & Ep & Eq & Eu) Hc. rewrite (support_split p l1 v l2 c Ep), (support_split q l1 u l2 c Eq).
  assert (Ev : approves v c = true) by (apply mem_In; auto). rewrite Ev, Eu. assert (In v (voters p)) by (rewrite Ep; apply in_elt).
  pose proof (weight_pos_in p v Hw H). destruct (approves u c); lra.
Qed.
Lemma misreport_less : forall v p q c, wf p -> misreports v p q -> ~ In c (approved v) -> (support p c <= support q c)%Q.
Proof.
  intros v p q c Hw (_ & l1 & u & l2 & Ep & Eq & Eu) Hc. rewrite (support_split p l1 v l2 c Ep), (support_split q l1 u l2 c Eq).
  assert (Ev : approves v c = false) by (apply mem_false; auto). rewrite Ev, Eu. assert (In v (voters p)) by (rewrite Ep; apply in_elt).
  pose proof (weight_pos_in p v Hw H). destruct (approves u c); lra.
Qed.

(** ** a committee with more members of [A] *)
Lemma better_members : forall A W V : list nat, NoDup A -> NoDup W -> NoDup V -> length V = length W ->
  length (inter A W) < length (inter A V) ->
  (exists c, In c V /\ ~ In c W /\ In c A) /\ (exists d, In d W /\ ~ In d V /\ ~ In d A).
Proof.
  intros A W V HA HW HV HL H. rewrite (inter_comm_length A W), (inter_comm_length A V) in H by auto. unfold inter in H.
  pose proof (filter_length_split (fun x => mem x A) W) as SW. pose proof (filter_length_split (fun x => mem x A) V) as SV. split.
  - destruct (existsb (fun c => mem c A && negb (mem c W)) V) eqn:E.
    + apply existsb_exists in E as (c & Hc & E). apply andb_true_iff in E as [E1 E2]. apply negb_true_iff, mem_false in E2. apply mem_In in E1. eauto.
    + exfalso. assert (length (filter (fun x => mem x A) V) <= length (filter (fun x => mem x A) W)); [|lia].
      apply NoDup_incl_length; [apply NoDup_filter; auto|]. intros c Hc. apply filter_In in Hc as [H1 H2]. apply filter_In. split; auto.
      destruct (mem c W) eqn:M; [apply mem_In; auto|]. assert (existsb (fun c => mem c A && negb (mem c W)) V = true); [|congruence].
      apply existsb_exists. exists c. rewrite H2, M. auto.
  - destruct (existsb (fun d => negb (mem d A) && negb (mem d V)) W) eqn:E.
    + apply existsb_exists in E as (d & Hd & E). apply andb_true_iff in E as [E1 E2]. apply negb_true_iff, mem_false in E2. apply negb_true_iff, mem_false in E1. eauto.
    + exfalso. assert (length (filter (fun x => negb (mem x A)) W) <= length (filter (fun x => negb (mem x A)) V)); [|lia].
      apply NoDup_incl_length; [apply NoDup_filter; auto|]. intros d Hd. apply filter_In in Hd as [H1 H2]. apply filter_In. split; auto.
      destruct (mem d V) eqn:M; [apply mem_In; auto|]. assert (existsb (fun d => negb (mem d A) && negb (mem d V)) W = true); [|congruence].
      apply existsb_exists. exists d. rewrite H2, M. auto.
Qed.

(** ** resolute *)
Lemma first_strategyproof : forall v p q k W V, wf p -> misreports v p q -> first_by (support p) p k W -> first_by (support q) q k V ->
  util v V <= util v W.
Proof.
  intros v p q k W V Hw Hm [(AW & LW & BW) FW] [(AV & LV & BV) FV]. destruct (Nat.le_gt_cases (util v V) (util v W)) as [L|L]; [exact L|exfalso].
  assert (Hv : In v (voters p)) by (destruct Hm as (_ & l1 & u & l2 & -> & _); apply in_elt).
  destruct (wf_voter_in p v Hw Hv) as (N & _). rewrite Forall_forall in BW, BV. pose proof Hm as (En & _).
  destruct (better_members (approved v) W V) as [(c & Hc1 & Hc2 & Hc3) (d & Hd1 & Hd2 & Hd3)]; auto; [apply ascending_NoDup; auto|apply ascending_NoDup; auto|congruence|].
  pose proof (misreport_more v p q c Hw Hm Hc3). pose proof (misreport_less v p q d Hw Hm Hd3).
  assert (B1 : before (support p) d c) by (apply FW; auto; rewrite <- En; auto).
  assert (B2 : before (support q) c d) by (apply FV; auto; rewrite En; auto).
  destruct B1 as [B1|[B1 C1]], B2 as [B2|[B2 C2]]; try lra. lia.
Qed.

(** ** irresolute: exchanging tied candidates *)
  Lemma sum_swap : forall (s : nat -> Q) W, NoDup W -> forall c d, In d W -> ~ In c W ->
    (Qsum (map s (isort (c :: without d W))) == Qsum (map s W) - s d + s c)%Q.
  Proof.
    intros s W N c d Hd Hc. rewrite <- (Qsum_perm (map s (c :: without d W))) by (apply Permutation_map, isort_perm).
    assert (P : Permutation W (d :: without d W)).
    { apply NoDup_Permutation; auto.
      - constructor; [rewrite without_In; tauto|apply NoDup_filter; auto].
      - intros x. cbn [In]. rewrite without_In. split; [|intros [<-|[? _]]; auto]. intros Hx. destruct (Nat.eq_dec x d) as [->|]; auto. }
    rewrite (Qsum_perm _ _ (Permutation_map s P)). cbn [map]. rewrite !Qsum_cons. ring.
  Qed.
  Lemma swap_committee : forall p k W, is_committee p k W -> forall c d, In d W -> ~ In c W -> c < num_cand p -> is_committee p k (isort (c :: without d W)).
  Proof.
    intros p k W (A & L & B) c d Hd Hc Hb. pose proof (ascending_NoDup W A) as N. apply isort_committee.
    - constructor; [rewrite without_In; tauto|apply NoDup_filter; auto].
    - cbn [length]. rewrite <- L. apply Mono.without_length; auto.
    - constructor; auto. rewrite Forall_forall in *. intros x Hx. apply without_In in Hx as [Hx _]. auto.
  Qed.
  Lemma max_swap : forall s p k W, maximises (fun W => Qsum (map s W)) p k W -> forall c d, In d W -> ~ In c W -> c < num_cand p -> (s c <= s d)%Q.
  Proof.
    intros s p k W [C M] c d Hd Hc Hb. pose proof (M _ (swap_committee p k W C c d Hd Hc Hb)) as H. rewrite sum_swap in H; auto; [lra|]. apply ascending_NoDup, C.
  Qed.
  Lemma swap_max : forall s p k W, maximises (fun W => Qsum (map s W)) p k W -> forall c d, In d W -> ~ In c W -> c < num_cand p -> (s d <= s c)%Q ->
    maximises (fun W => Qsum (map s W)) p k (isort (c :: without d W)).
  Proof.
    intros s p k W [C M] c d Hd Hc Hb H. split; [apply swap_committee; auto|]. intros U HU. rewrite sum_swap; auto; [|apply ascending_NoDup, C].
    pose proof (M U HU). lra.
  Qed.
Lemma util_swapped : forall v W c d, NoDup (approved v) -> NoDup W -> In d W -> ~ In c W ->
  util v (isort (c :: without d W)) + (if approves v d then 1 else 0) = util v W + (if approves v c then 1 else 0).
Proof.
  intros v W c d N NW Hd Hc.
  assert (E1 : util v (isort (c :: without d W)) = util v (c :: without d W)) by (apply util_set_same; intros x; apply isort_In).
  assert (E2 : util v W = util v (d :: without d W)).
  { apply util_set_same. intros x. cbn [In]. rewrite without_In. split; [|intros [<-|[? _]]; auto]. intros Hx. destruct (Nat.eq_dec x d) as [->|]; auto. }
  rewrite E1, E2, !util_add; auto; [lia| |]; rewrite without_In; tauto.
Qed.

Section Irresolute.
  Variables (v : voter) (p q : profile) (k : nat).
  Hypotheses (Hw : wf p) (Hm : misreports v p q).
  Let best r := maximises (fun W => Qsum (map (support r) W)) r k.
  Lemma liar : In v (voters p) /\ NoDup (approved v).
  Proof using Hw Hm.
    assert (Hv : In v (voters p)) by (destruct Hm as (_ & l1 & u & l2 & -> & _); apply in_elt).
    split; auto. apply (wf_voter_in p v Hw Hv).
  Qed.
  Lemma tied : forall W V, best p W -> best q V -> util v W < util v V ->
    exists c d, In c V /\ ~ In c W /\ In d W /\ ~ In d V /\ c < num_cand p /\ d < num_cand p /\ approves v c = true /\ approves v d = false /\
      (support p d <= support p c)%Q /\ (support q c <= support q d)%Q.
  Proof using Hw Hm.
    intros W V HW HV L. pose proof HW as [(AW & LW & BW) _]. pose proof HV as [(AV & LV & BV) _]. destruct liar as [Hv N].
    rewrite Forall_forall in BW, BV. pose proof Hm as (En & _).
    destruct (better_members (approved v) W V) as [(c & Hc1 & Hc2 & Hc3) (d & Hd1 & Hd2 & Hd3)]; auto; [apply ascending_NoDup; auto|apply ascending_NoDup; auto|congruence|].
    pose proof (misreport_more v p q c Hw Hm Hc3). pose proof (misreport_less v p q d Hw Hm Hd3).
    assert (Bc : c < num_cand p) by (rewrite <- En; auto). assert (Bd : d < num_cand p) by auto.
    pose proof (max_swap (support p) p k W HW c d Hd1 Hc2 Bc). assert (Bd' : d < num_cand q) by (rewrite En; auto).
    pose proof (max_swap (support q) q k V HV d c Hc1 Hd2 Bd').
    exists c, d. repeat (split; [solve [auto | apply mem_In; auto | apply mem_false; auto | lra]|]). lra.
  Qed.
  Lemma optimist : forall V, best q V -> forall n W, best p W -> length (approved v) - util v W <= n -> exists W', best p W' /\ util v V <= util v W'.
  Proof using Hw Hm.
    intros V HV. destruct liar as [Hv N]. induction n as [|n IH]; intros W HW Hn; (destruct (Nat.le_gt_cases (util v V) (util v W)) as [L|L]; [eauto|]).
    - exfalso. pose proof (inter_length_le_l (approved v) V). unfold util in *. lia.
    - destruct (tied W V HW HV L) as (c & d & H1 & H2 & H3 & H4 & H5 & H6 & Ec & Ed & S1 & S2).
      pose proof (swap_max (support p) p k W HW c d H3 H2 H5 S1) as M.
      pose proof (util_swapped v W c d N (ascending_NoDup W (proj1 (proj1 HW))) H3 H2) as U. rewrite Ec, Ed in U.
      apply (IH _ M). pose proof (inter_length_le_l (approved v) V). unfold util in *. lia.
  Qed.
  Lemma pessimist : forall W, best p W -> forall n V, best q V -> util v V <= n -> exists V', best q V' /\ util v V' <= util v W.
  Proof using Hw Hm.
    intros W HW. destruct liar as [Hv N]. induction n as [|n IH]; intros V HV Hn; (destruct (Nat.le_gt_cases (util v V) (util v W)) as [L|L]; [eauto|]).
    - exfalso. lia.
    - destruct (tied W V HW HV L) as (c & d & H1 & H2 & H3 & H4 & H5 & H6 & Ec & Ed & S1 & S2).
      assert (B : d < num_cand q) by (rewrite (proj1 Hm); auto).
      pose proof (swap_max (support q) q k V HV d c H1 H4 B S2) as M.
      pose proof (util_swapped v V d c N (ascending_NoDup V (proj1 (proj1 HV))) H1 H4) as U. rewrite Ec, Ed in U.
      apply (IH _ M). lia.
  Qed.
End Irresolute.

Section Calls.
  Variables (rnd : random) (nx : networkx) (sv : solvers) (e : env).
  Notation call p k resolute := (compute rnd nx (with_solvers nx sv e) "av" p (Z.of_nat k) None (args "standard" resolute None)).
  Lemma av_resolute_strategyproof : forall v p q k, misreports v p q -> valid_call p k true None -> valid_call q k true None ->
    exists W V, call p k true = Ok [W] /\ call q k true = Ok [V] /\ util v V <= util v W.
  Proof using.
    intros v p q k Hm Hp Hq. destruct (separable_resolute rnd nx sv e p k "av" None (or_introl eq_refl) Hp) as (W & EW & FW).
    destruct (separable_resolute rnd nx sv e q k "av" None (or_introl eq_refl) Hq) as (V & EV & FV).
    exists W, V. split; [exact EW|]. split; [exact EV|]. apply (first_strategyproof v p q k); auto. apply Hp.
  Qed.
  Lemma av_irresolute_strategyproof : forall v p q k, misreports v p q -> libraries_ok p rnd nx sv e -> libraries_ok q rnd nx sv e ->
    valid_call p k false None -> valid_call q k false None ->
    exists l l', call p k false = Ok l /\ call q k false = Ok l' /\
      (forall V, In V l' -> exists W, In W l /\ util v V <= util v W) /\ (forall W, In W l -> exists V, In V l' /\ util v V <= util v W).
  Proof using.
    intros v p q k Hm Lp Lq Hp Hq.
    destruct (irresolute_list rnd nx sv e p k "av" "standard" _ Lp (b_av e p k) Hp) as (l & El & Ml).
    destruct (irresolute_list rnd nx sv e q k "av" "standard" _ Lq (b_av e q k) Hq) as (l' & El' & Ml').
    assert (best : forall r, valid_call r k false None -> exists X, maximises (fun W => Qsum (map (support r) W)) r k X).
    { intros r (A & B & C & _). assert (Hr : valid_call r k true None) by (split; [exact A|split; [exact B|split; [exact C|exact I]]]).
      destruct (separable_resolute rnd nx sv e r k "av" None (or_introl eq_refl) Hr) as (X & _ & F1 & F2). exists X.
      apply top_set_maximises. split; auto. intros c d H3 H4 H5. destruct (F2 c d H3 H4 H5) as [H|[H _]]; change (sep_number e r "av") with (support r) in H; lra. }
    exists l, l'. split; [exact El|]. split; [exact El'|]. destruct Hp as (Hw & Hpp). split.
    - intros V HV. destruct (best p (conj Hw Hpp)) as (X & HX).
      destruct (optimist v p q k Hw Hm V (proj1 (Ml' V) HV) _ X HX (le_n _)) as (W & HW & L). exists W. split; [apply Ml; exact HW|exact L].
    - intros W HW. destruct (best q Hq) as (X & HX).
      destruct (pessimist v p q k Hw Hm W (proj1 (Ml W) HW) _ X HX (le_n _)) as (V & HV & L). exists V. split; [apply Ml'; exact HV|exact L].
  Qed.
End Calls.
