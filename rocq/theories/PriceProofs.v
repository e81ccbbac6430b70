(** * The priceability checks, and what priceability implies *)
From Coq Require Import String.
From Coq Require Import List Arith Bool ZArith QArith Qminmax Lia Lqa Permutation.
From Verif Require Import Prelude Misc MiscProofs Preferences Spec Common PrefProofs Checks SpecAxioms ChecksProofs Guarantees Milp MilpProofs SolverProofs
  SolverMonroe SolverPhragmen RulesSolver RefSolver CheckSolver CheckSolverProofs SpecPrice.
Import ListNotations.
Local Open Scope string_scope.
Open Scope nat_scope.
Local Open Scope list_scope.

Lemma nonneg_decl : forall x v, in_domain x (nonneg v) <-> (0 <= x v)%Q.
Proof. intros. unfold in_domain, nonneg. cbn. tauto. Qed.

(** ** Conditions 1 to 3 *)
Definition pays (x : assignment) : nat -> nat -> Q := fun i c => x (Payment i c).
Lemma price_sound : forall p W x, Forall (in_domain x) (price_decls p) -> Forall (holds x) (price_cons p W) -> price_system p W (x Budget) (pays x).
Proof.
  intros p W x HD HC. unfold price_decls in HD. inversion HD as [|d ds HB HD' E]; subst. apply nonneg_decl in HB. rewrite Forall_flat_map, Forall_forall in HD'.
  unfold price_cons in HC. apply Forall_app in HC as [H1 HC]. apply Forall_app in HC as [H2 H3]. rewrite Forall_map, Forall_forall in H1, H3. rewrite Forall_forall in H2.
  assert (Hidx : forall i, i < length (voters p) -> In i (indices p)) by (intros; apply in_indices; auto).
  assert (Hc : forall c, c < num_cand p -> In c (candidates p)) by (intros; apply in_seq; lia).
  constructor; auto.
  - intros i c Hi Hlt. specialize (HD' i (Hidx i Hi)). rewrite Forall_map, Forall_forall in HD'. apply (proj1 (nonneg_decl x (Payment i c))). apply HD'. auto.
  - intros i Hi. specialize (H1 i (Hidx i Hi)). cbn [holds] in H1. rewrite ev_vsum, map_map, ev_scale, ev_var in H1. exact H1.
  - intros i c Hi Hlt Hn. specialize (H2 (CEq (lvar (Payment i c)) (lconst 0))). cbn [holds] in H2. rewrite ev_var, ev_const in H2. apply H2.
    apply in_flat_map. exists i. split; auto. apply in_flat_map. exists c. split; auto. destruct (mem c (approved (voter_at p i))) eqn:M; [|left; auto].
    exfalso. apply Hn. apply mem_In. exact M.
  - intros c Hlt Hin. specialize (H3 c (Hc c Hlt)). cbn [holds] in H3. rewrite ev_vsum, map_map, ev_const in H3. apply mem_In in Hin. rewrite Hin in H3. exact H3.
  - intros c Hlt Hin. specialize (H3 c (Hc c Hlt)). cbn [holds] in H3. rewrite ev_vsum, map_map, ev_const in H3. destruct (mem c W) eqn:M; [exfalso; apply Hin, mem_In; auto|exact H3].
Qed.
Lemma price_complete : forall p W x B pay, price_system p W B pay -> (forall i c, x (Payment i c) = pay i c) -> x Budget = B ->
  Forall (in_domain x) (price_decls p) /\ Forall (holds x) (price_cons p W).
Proof.
  intros p W x B pay [P1 P2 P3 P4 P5 P6] Hp HB. split.
  - unfold price_decls. constructor; [apply nonneg_decl; rewrite HB; auto|]. apply Forall_flat_map, Forall_forall. intros i Hi. apply in_indices in Hi.
    apply Forall_map, Forall_forall. intros c Hc. apply in_seq in Hc. apply nonneg_decl. rewrite Hp. apply P2; auto. lia.
  - unfold price_cons. apply Forall_app. split; [|apply Forall_app; split].
    + apply Forall_map, Forall_forall. intros i Hi. apply in_indices in Hi. cbn [holds]. rewrite ev_vsum, map_map, ev_scale, ev_var, HB.
      rewrite (Qsum_map_ext _ _ (pay i)) by (intros c _; rewrite Hp; reflexivity). apply P3. auto.
    + apply Forall_forall. intros k Hk. apply in_flat_map in Hk as (i & Hi & Hk). apply in_flat_map in Hk as (c & Hc & Hk). apply in_indices in Hi. apply in_seq in Hc.
      destruct (mem c (approved (voter_at p i))) eqn:M; [destruct Hk|]. destruct Hk as [<-|[]]. cbn [holds]. rewrite ev_var, ev_const, Hp. apply P4; auto; [lia|].
      intros K. apply mem_In in K. unfold ballot in K. unfold voter_at in M. congruence.
    + apply Forall_map, Forall_forall. intros c Hc. apply in_seq in Hc. cbn [holds]. rewrite ev_vsum, map_map, ev_const.
      rewrite (Qsum_map_ext _ _ (fun i => pay i c)) by (intros i _; rewrite Hp; reflexivity). destruct (mem c W) eqn:M.
      * apply P5; [lia|apply mem_In; auto].
      * apply P6; [lia|]. intros K. apply mem_In in K. congruence.
Qed.
Lemma ev_unspent : forall x p W i, (ev x (unspent p W i) == left_over p W (x Budget) (pays x) i)%Q.
Proof. intros. unfold unspent, left_over. rewrite ev_sub, ev_scale, ev_var, ev_vsum, map_map. reflexivity. Qed.

Lemma outsiders_In : forall p W c, In c (outsiders p W) <-> c < num_cand p /\ ~ In c W.
Proof.
  intros. unfold outsiders, candidates. rewrite filter_In, in_seq, negb_true_iff. split.
  - intros [H E]. split; [lia|]. intros K. apply mem_In in K. congruence.
  - intros [H E]. split; [lia|]. destruct (mem c W) eqn:M; auto. exfalso. apply E, mem_In. auto.
Qed.

Lemma price_feasible : forall p W, (exists x, feasible (price_program p W false) x) <-> priceable p W.
Proof.
  intros p W. split.
  - intros (x & HD & HC). cbn [decls cons price_program] in HD, HC. apply Forall_app in HD as [HD _]. apply Forall_app in HC as [HC HL].
    exists (x Budget), (pays x). split; [apply price_sound; auto|]. intros c Hc Hn. unfold leftover_cons in HL. rewrite Forall_map, Forall_forall in HL.
    specialize (HL c (proj2 (outsiders_In p W c) (conj Hc Hn))). cbn [holds] in HL. rewrite ev_const, ev_sum, map_map in HL.
    rewrite (Qsum_map_ext _ _ (left_over p W (x Budget) (pays x))) in HL by (intros i _; apply ev_unspent). exact HL.
  - intros (B & pay & HP & HL). set (x := fun v => match v with Budget => B | Payment i c => pay i c | _ => 0%Q end). exists x.
    destruct (price_complete p W x B pay HP) as [A C]; auto. split; cbn [decls cons price_program].
    + apply Forall_app. split; auto.
    + apply Forall_app. split; auto. unfold leftover_cons. apply Forall_map, Forall_forall. intros c Hc. apply outsiders_In in Hc as [Hc Hn]. cbn [holds].
      rewrite ev_const, ev_sum, map_map, (Qsum_map_ext _ _ (left_over p W B pay)) by (intros i _; rewrite ev_unspent; reflexivity). apply HL; auto.
Qed.

(** ** Maxima *)
Lemma gen_max_sound : forall x v vs picks, Forall (in_domain x) (gen_max_decls picks) -> Forall (holds x) (gen_max v vs picks) -> length vs = length picks ->
  (forall u, In u vs -> (x u <= x v)%Q) /\ exists u, In u vs /\ (x v == x u)%Q.
Proof.
  intros x v vs picks HD HC Hl. unfold gen_max in HC. apply Forall_app in HC as [H1 HC]. apply Forall_app in HC as [H2 H3].
  rewrite Forall_map, Forall_forall in H1, H3. assert (Hle : forall u, In u vs -> (x u <= x v)%Q) by (intros u Hu; specialize (H1 u Hu); cbn [holds] in H1; rewrite !ev_var in H1; auto).
  split; auto. inversion H2 as [|c cs H2' _ E]; subst. cbn [holds] in H2'. rewrite ev_vsum, ev_const in H2'.
  unfold gen_max_decls in HD. rewrite (bits_decl var (fun v => v)) in HD.
  assert (Hex : exists b, In b picks /\ (x b == 1)%Q).
  { clear - HD H2'. induction picks as [|b picks IH]; [cbn in H2'; lra|]. destruct (HD b (or_introl eq_refl)) as [E|E]; [|exists b; split; [left|]; auto].
    destruct IH as (b' & Hb & E'); [intros; apply HD; right; auto| |exists b'; split; [right|]; auto]. unfold Qsum in *; cbn [map fold_right] in H2'. rewrite E in H2'. lra. }
  destruct Hex as (b & Hb & Eb). apply In_nth with (d := Budget) in Hb as (n & Hn & En). exists (nth n vs Budget). assert (Hu : In (nth n vs Budget) vs) by (apply nth_In; lia). split; auto.
  apply Qle_antisym; [|apply Hle; auto]. specialize (H3 (nth n vs Budget, b)). cbn [holds fst snd] in H3. rewrite !ev_var in H3. apply H3; auto.
  rewrite <- En, <- combine_nth by auto. apply nth_In. rewrite combine_length. lia.
Qed.
Lemma gen_max_complete : forall x v vs picks, (forall u, In u vs -> (x u <= x v)%Q) -> (forall b, In b picks -> bit x b) -> (Qsum (map x picks) == 1)%Q ->
  (forall u b, In (u, b) (combine vs picks) -> (x b == 1)%Q -> (x v <= x u)%Q) ->
  Forall (in_domain x) (gen_max_decls picks) /\ Forall (holds x) (gen_max v vs picks).
Proof.
  intros x v vs picks H1 Hb H2 H3. split; [unfold gen_max_decls; apply (bits_decl var (fun v => v)); auto|]. unfold gen_max.
  apply Forall_app. split; [|apply Forall_app; split].
  - apply Forall_map, Forall_forall. intros u Hu. cbn [holds]. rewrite !ev_var. auto.
  - constructor; [|constructor]. cbn [holds]. rewrite ev_vsum, ev_const. auto.
  - apply Forall_map, Forall_forall. intros (u, b) Hub. cbn [holds fst snd]. rewrite !ev_var. intros E. eapply H3; eauto.
Qed.

Lemma fold_Qmax_spec : forall r l, (forall a, In a (r :: l) -> (a <= fold_right Qmax r l)%Q) /\ exists a, In a (r :: l) /\ (fold_right Qmax r l == a)%Q.
Proof.
  intros r l. induction l as [|b l [IH1 (a & Ha & E)]]; cbn [fold_right].
  - split; [intros a [->|[]]; lra|]. exists r. split; [left; auto|reflexivity].
  - split.
    + intros c [->|[->|Hc]]; [eapply Qle_trans; [apply IH1; left; auto|apply Q.le_max_r]|apply Q.le_max_l|eapply Qle_trans; [apply IH1; right; auto|apply Q.le_max_r]].
    + destruct (Q.max_spec b (fold_right Qmax r l)) as [[_ M]|[_ M]].
      * exists a. split; [destruct Ha as [->|Ha]; [left|right; right]; auto|]. eapply Qeq_trans; [exact M|exact E].
      * exists b. split; [right; left; auto|exact M].
Qed.
Lemma fold_Qmax_unique : forall r l e, (forall a, In a (r :: l) -> (a <= e)%Q) -> (exists a, In a (r :: l) /\ (e == a)%Q) -> (fold_right Qmax r l == e)%Q.
Proof.
  intros r l e H1 (a & Ha & E). destruct (fold_Qmax_spec r l) as [G1 (b & Hb & F)]. apply Qle_antisym; [rewrite F; auto|rewrite E; auto].
Qed.

(** ** Condition 4* *)
Lemma pairs_In : forall p W i c, In (i, c) (pairs p W) <-> In c (outsiders p W) /\ In i (approvers p c).
Proof.
  intros. unfold pairs. rewrite in_flat_map. split.
  - intros (d & Hd & H). apply in_map_iff in H as (j & E & Hj). inversion E; subst. auto.
  - intros [A B]. exists c. split; auto. apply in_map_iff. exists i. auto.
Qed.
Lemma stable_sound : forall p W x, Forall (in_domain x) (stable_decls p W) -> Forall (holds x) (stable_cons p W) -> forall c, c < num_cand p -> ~ In c W ->
  (Qsum (map (could_offer p W (x Budget) (pays x)) (who_approve p c)) <= 1)%Q.
Proof.
  intros p W x HD HC c Hc Hn. unfold stable_cons in HC. apply Forall_app in HC as [HC HS]. rewrite Forall_flat_map, Forall_forall in HC. unfold stable_decls in HD. rewrite Forall_flat_map, Forall_forall in HD.
  assert (Ho : In c (outsiders p W)) by (apply outsiders_In; auto). rewrite Forall_map, Forall_forall in HS. specialize (HS c Ho). cbn [holds] in HS. rewrite ev_vsum, map_map, ev_const in HS.
  eapply Qle_trans; [|exact HS]. apply Qle_lteq. right. apply Qsum_map_ext. intros i Hi. change (In i (approvers p c)) in Hi.
  specialize (HC (i, c) (proj2 (pairs_In p W i c) (conj Ho Hi))). specialize (HD (i, c) (proj2 (pairs_In p W i c) (conj Ho Hi))). cbn beta iota in HC, HD.
  apply Forall_app in HC as [H1 HC]. apply Forall_app in HC as [H2 H3]. apply Forall_app in HD as [_ HD]. apply Forall_app in HD as [D2 D3].
  inversion H1 as [|k ks H1' _ E]; subst. cbn [holds] in H1'. rewrite ev_var, ev_unspent in H1'.
  destruct (gen_max_sound _ _ _ _ D2 H2) as [A1 (u & Hu & Eu)]; [rewrite !map_length; reflexivity|]. destruct (gen_max_sound _ _ _ _ D3 H3) as [A2 (w & Hw & Ew)]; [reflexivity|].
  unfold could_offer. apply fold_Qmax_unique.
  - assert (B1 : (x (residual i c) <= x (extremum i c))%Q) by (apply A2; right; left; auto). assert (B2 : (x (MaxPayment i c) <= x (extremum i c))%Q) by (apply A2; left; auto).
    intros a [<-|Ha]; [rewrite <- H1'; auto|]. apply in_map_iff in Ha as (m & <- & Hm). eapply Qle_trans; [apply (A1 (Payment i m)); apply in_map; auto|auto].
  - apply in_map_iff in Hu as (m & <- & Hm). destruct Hw as [<-|[<-|[]]].
    + exists (pays x i m). split; [right; apply in_map; auto|]. rewrite Ew, Eu. reflexivity.
    + exists (left_over p W (x Budget) (pays x) i). split; [left; auto|]. rewrite Ew, H1'. reflexivity.
Qed.

Section Stable.
  Variables (p : profile) (W : list nat) (B : Q) (pay : nat -> nat -> Q).
  Definition most (i : nat) : Q := match W with [] => 0%Q | m :: r => maxq (pay i m) (map (pay i) r) end.
  Definition most_at (i : nat) : nat := hd 0 (filter (fun m => Qeq_bool (pay i m) (most i)) W).
  Definition stable_solution : assignment := fun v =>
    match v with
    | Budget => B
    | Payment i c => pay i c
    | Other 0 i c => could_offer p W B pay i
    | Other 1 i c => left_over p W B pay i
    | MaxPayment i c => most i
    | Other 2 i c => one_if (Qle_bool (left_over p W B pay i) (most i))
    | Other 3 i c => one_if (negb (Qle_bool (left_over p W B pay i) (most i)))
    | Other (S (S (S (S m)))) i c => one_if (most_at i =? m)
    | _ => 0%Q
    end.
  Hypothesis HW : W <> [].
  Hypothesis HN : NoDup W.
  Hypothesis HR : Forall (fun c => c < num_cand p) W.
  Hypothesis HP : price_system p W B pay.
  Lemma most_spec : forall i, (forall m, In m W -> (pay i m <= most i)%Q) /\ In (most i) (map (pay i) W).
  Proof using HW.
    clear HN HR HP. intros i. unfold most. destruct W as [|m r]; [congruence|]. destruct (maxq_spec (pay i m) (map (pay i) r)) as [A C]. split; auto.
    intros m' Hm. apply C. change (In (pay i m') (map (pay i) (m :: r))). apply in_map. auto.
  Qed.
  Lemma most_at_spec : forall i, In (most_at i) W /\ (pay i (most_at i) == most i)%Q.
  Proof using HW.
    intros i. destruct (most_spec i) as [_ A]. apply in_map_iff in A as (m & E & Hm). unfold most_at.
    assert (Hin : In m (filter (fun m => Qeq_bool (pay i m) (most i)) W)) by (apply filter_In; split; auto; apply Qeq_bool_iff; rewrite E; reflexivity).
    destruct (filter (fun m => Qeq_bool (pay i m) (most i)) W) as [|a r] eqn:F; [destruct Hin|]. cbn [hd].
    assert (Ha : In a (filter (fun m => Qeq_bool (pay i m) (most i)) W)) by (rewrite F; left; auto). apply filter_In in Ha as [Ha Ea]. apply Qeq_bool_iff in Ea. auto.
  Qed.
  Lemma offer_is : forall i, (could_offer p W B pay i == if Qle_bool (left_over p W B pay i) (most i) then most i else left_over p W B pay i)%Q.
  Proof using HW.
    intros i. destruct (most_spec i) as [A C]. unfold could_offer. apply fold_Qmax_unique; destruct (Qle_bool (left_over p W B pay i) (most i)) eqn:E.
    - apply Qle_bool_iff in E. intros a [<-|Ha]; auto. apply in_map_iff in Ha as (m & <- & Hm). auto.
    - assert (most i < left_over p W B pay i)%Q by (apply Qnot_le_lt; intros K; apply Qle_bool_iff in K; congruence).
      intros a [<-|Ha]; [lra|]. apply in_map_iff in Ha as (m & <- & Hm). specialize (A m Hm). lra.
    - exists (most i). split; [right; auto|reflexivity].
    - exists (left_over p W B pay i). split; [left; auto|reflexivity].
  Qed.
  Lemma members_spend : forall i, i < length (voters p) -> (Qsum (map (pay i) W) <= Qsum (map (pay i) (seq 0 (num_cand p))))%Q.
  Proof using HN HR HP.
    intros i Hi. apply Qsum_incl; auto; [|apply seq_NoDup|]. { intros c Hc. rewrite Forall_forall in HR. apply in_seq. specialize (HR c Hc). lia. }
    intros c Hc. apply in_seq in Hc. apply (pay_nonneg _ _ _ _ HP); auto. lia.
  Qed.
  Lemma left_nonneg : forall i, i < length (voters p) -> (0 <= left_over p W B pay i)%Q.
  Proof using HN HR HP. intros i Hi. pose proof (members_spend i Hi). pose proof (pay_budget _ _ _ _ HP i Hi). unfold left_over. lra. Qed.
  Lemma most_nonneg : forall i, i < length (voters p) -> (0 <= most i)%Q.
  Proof using HW HR HP.
    intros i Hi. destruct (most_at_spec i) as [A E]. rewrite <- E. apply (pay_nonneg _ _ _ _ HP); auto. rewrite Forall_forall in HR. auto.
  Qed.
  Lemma stable_complete : (forall c, c < num_cand p -> ~ In c W -> (Qsum (map (could_offer p W B pay) (who_approve p c)) <= 1)%Q) ->
    Forall (in_domain stable_solution) (stable_decls p W) /\ Forall (holds stable_solution) (stable_cons p W).
  Proof using HW HN HR HP.
    intros HS.
    assert (Hpair : forall i c, In (i, c) (pairs p W) ->
      (Forall (in_domain stable_solution) (gen_max_decls (map (pick_member i c) W)) /\ Forall (holds stable_solution) (gen_max (MaxPayment i c) (map (Payment i) W) (map (pick_member i c) W))) /\
      (Forall (in_domain stable_solution) (gen_max_decls [pick_payment i c; pick_residual i c]) /\
       Forall (holds stable_solution) (gen_max (extremum i c) [MaxPayment i c; residual i c] [pick_payment i c; pick_residual i c]))).
    { intros i c _. destruct (most_spec i) as [A _]. destruct (most_at_spec i) as [Ha Ea]. split; apply gen_max_complete.
      - intros u Hu. apply in_map_iff in Hu as (m & <- & Hm). apply A. auto.
      - intros b Hb. apply in_map_iff in Hb as (m & <- & Hm). apply one_if_bit.
      - rewrite map_map. cbn [pick_member Nat.add stable_solution]. rewrite (Qsum_map_ext _ _ (fun m => 1 * one_if (most_at i =? m)%nat)%Q) by (intros; lra).
        apply (sum_indicator 0 (fun _ => 1%Q)); auto.
      - intros u b Hub E. assert (G : forall l, In (u, b) (combine (map (Payment i) l) (map (pick_member i c) l)) -> exists m, In m l /\ u = Payment i m /\ b = pick_member i c m).
        { induction l as [|m l IH]; cbn [map combine]; intros H; [destruct H|]. destruct H as [H|H]; [inversion H; exists m; repeat split; left; auto|]. destruct (IH H) as (m' & Hm & H'). exists m'. split; [right|]; auto. }
        apply G in Hub as (m & Hm & -> & ->). cbn [pick_member Nat.add stable_solution] in E |- *. destruct (Nat.eqb_spec (most_at i) m) as [<-|]; [|cbn in E; lra]. rewrite Ea. lra.
      - intros u [<-|[<-|[]]]; cbn [extremum residual stable_solution]; rewrite offer_is; destruct (Qle_bool (left_over p W B pay i) (most i)) eqn:F.
        + lra.
        + apply Qlt_le_weak, Qnot_le_lt. intros K. apply Qle_bool_iff in K. congruence.
        + apply Qle_bool_iff. auto.
        + lra.
      - intros b [<-|[<-|[]]]; apply one_if_bit.
      - cbn [map pick_payment pick_residual stable_solution]. unfold Qsum; cbn [fold_right]. destruct (Qle_bool (left_over p W B pay i) (most i)); cbn [negb one_if]; lra.
      - intros u b Hub E. cbn [combine] in Hub. destruct Hub as [Hub|[Hub|[]]]; inversion Hub; subst; cbn [pick_payment pick_residual extremum residual stable_solution] in E |- *; rewrite offer_is;
          destruct (Qle_bool (left_over p W B pay i) (most i)); cbn [negb one_if] in E; lra. }
    split.
    - unfold stable_decls. apply Forall_flat_map, Forall_forall. intros (i, c) Hic. destruct (Hpair i c Hic) as [[A1 _] [A2 _]]. apply pairs_In in Hic as [_ Hi]. apply filter_In in Hi as [Hi _]. apply in_indices in Hi.
      apply Forall_app. split; [|apply Forall_app; auto]. pose proof (left_nonneg i Hi). pose proof (most_nonneg i Hi).
      repeat constructor; cbn; auto. change (0 <= could_offer p W B pay i)%Q. rewrite offer_is. destruct (Qle_bool (left_over p W B pay i) (most i)); auto.
    - unfold stable_cons. apply Forall_app. split.
      + apply Forall_flat_map, Forall_forall. intros (i, c) Hic. destruct (Hpair i c Hic) as [[_ A1] [_ A2]]. apply Forall_app. split; [|apply Forall_app; auto].
        constructor; [|constructor]. cbn [holds]. rewrite ev_var, ev_unspent. reflexivity.
      + apply Forall_map, Forall_forall. intros c Hc. apply outsiders_In in Hc as [Hc Hn]. cbn [holds]. rewrite ev_vsum, map_map, ev_const. apply (HS c Hc Hn).
  Qed.
End Stable.

Lemma stable_feasible : forall p W, cand_set p W -> W <> [] -> ((exists x, feasible (price_program p W true) x) <-> stable_priceable p W).
Proof.
  intros p W [HN HR] HW. split.
  - intros (x & HD & HC). cbn [decls cons price_program] in HD, HC. apply Forall_app in HD as [HD HD']. apply Forall_app in HC as [HC HC'].
    exists (x Budget), (pays x). split; [apply price_sound; auto|]. apply stable_sound; auto.
  - intros (B & pay & HP & HS). exists (stable_solution p W B pay). destruct (price_complete p W (stable_solution p W B pay) B pay HP) as [A C]; auto.
    destruct (stable_complete p W B pay HW HN HR HP HS) as [A' C']. split; cbn [decls cons price_program]; apply Forall_app; auto.
Qed.

(** ** The public function *)
Lemma few_approved_iff : forall p W, wf p -> (length (filter (fun c => existsb (fun v => mem c (approved v)) (voters p)) (candidates p)) < length W <-> few_approved p W).
Proof.
  intros p W Hw. set (A := filter (fun c => existsb (fun v => mem c (approved v)) (voters p)) (candidates p)).
  assert (HA : forall c, In c A <-> exists i, i < length (voters p) /\ In c (ballot p i)).
  { intros c. unfold A. rewrite filter_In, existsb_exists. split.
    - intros [_ (v & Hv & M)]. apply index_voter in Hv as (i & Hi & <-). exists i. split; [apply in_indices; auto|apply mem_In; auto].
    - intros (i & Hi & Hc). split; [apply in_seq; destruct (ballot_wf p i Hw Hi) as [_ F]; rewrite Forall_forall in F; specialize (F c Hc); lia|].
      exists (voter_at p i). split; [apply index_voter; exists i; split; auto; apply in_indices; auto|apply mem_In; auto]. }
  split.
  - intros H. exists A. split; [apply NoDup_filter, seq_NoDup|]. split; auto. intros i c Hi Hc. apply HA. eauto.
  - intros (A' & Hn & Hl & H). eapply Nat.le_lt_trans; [|exact Hl]. apply NoDup_incl_length; [apply NoDup_filter, seq_NoDup|]. intros c Hc. apply HA in Hc as (i & Hi & Hc). eauto.
Qed.
Lemma takes_all_iff : forall p W, wf p -> (forallb (fun c => mem c W) (filter (fun c => existsb (fun v => mem c (approved v)) (voters p)) (candidates p)) = true <-> takes_all_approved p W).
Proof.
  intros p W Hw. rewrite forallb_forall. split.
  - intros H i c Hi Hc. apply mem_In, H. apply filter_In. split; [apply in_seq; destruct (ballot_wf p i Hw Hi) as [_ F]; rewrite Forall_forall in F; specialize (F c Hc); lia|].
    apply existsb_exists. exists (voter_at p i). split; [apply index_voter; exists i; split; auto; apply in_indices; auto|apply mem_In; auto].
  - intros H c Hc. apply filter_In in Hc as [_ Hc]. apply existsb_exists in Hc as (v & Hv & M). apply index_voter in Hv as (i & Hi & <-). apply mem_In, (H i); [apply in_indices; auto|apply mem_In; auto].
Qed.
Lemma price_int : forall p W stable d, In d (decls (price_program p W stable)) -> dtype d <> Integer.
Proof.
  intros p W stable d Hd E. cbn [decls price_program] in Hd. apply in_app_or in Hd as [Hd|Hd].
  - unfold price_decls in Hd. destruct Hd as [<-|Hd]; [discriminate|]. apply in_flat_map in Hd as (i & _ & Hd). apply in_map_iff in Hd as (c & <- & _). discriminate.
  - destruct stable; [|destruct Hd]. unfold stable_decls in Hd. apply in_flat_map in Hd as ((i, c) & _ & Hd). apply in_app_or in Hd as [Hd|Hd].
    + repeat (destruct Hd as [<-|Hd]; [discriminate|]). destruct Hd.
    + apply in_app_or in Hd as [Hd|Hd]; apply in_map_iff in Hd as (b & <- & _); discriminate.
Qed.
Lemma gen_max_guards : forall v vs picks c u, In c (gen_max v vs picks) -> In u (guards c) -> In u picks.
Proof.
  intros v vs picks c u Hc Hu. unfold gen_max in Hc. apply in_app_or in Hc as [Hc|Hc]; [apply in_map_iff in Hc as (w & <- & _); destruct Hu|].
  apply in_app_or in Hc as [[<-|[]]|Hc]; [destruct Hu|]. apply in_map_iff in Hc as ((a, b) & <- & Hab). cbn in Hu. destruct Hu as [<-|[]]. apply in_combine_r in Hab. auto.
Qed.
Lemma price_guarded : forall p W stable, guarded (price_program p W stable).
Proof.
  intros p W stable c v Hc Hv. cbn [cons price_program] in Hc. apply in_app_or in Hc as [Hc|Hc].
  - exfalso. unfold price_cons in Hc. apply in_app_or in Hc as [Hc|Hc]; [apply in_map_iff in Hc as (i & <- & _); destruct Hv|].
    apply in_app_or in Hc as [Hc|Hc]; [|apply in_map_iff in Hc as (i & <- & _); destruct Hv].
    apply in_flat_map in Hc as (i & _ & Hc). apply in_flat_map in Hc as (d & _ & Hc). destruct (mem _ _); [destruct Hc|]. destruct Hc as [<-|[]]. destruct Hv.
  - destruct stable; [|exfalso; apply in_map_iff in Hc as (i & <- & _); destruct Hv]. unfold stable_cons in Hc.
    apply in_app_or in Hc as [Hc|Hc]; [|exfalso; apply in_map_iff in Hc as (i & <- & _); destruct Hv].
    apply in_flat_map in Hc as ((i, d) & Hid & Hc). assert (G : In v (map (pick_member i d) W) \/ In v [pick_payment i d; pick_residual i d]).
    { apply in_app_or in Hc as [[<-|[]]|Hc]; [destruct Hv|]. apply in_app_or in Hc as [Hc|Hc]; [left|right]; eapply gen_max_guards; eauto. }
    change v with (dvar (binary v)). apply int_var_in; auto. cbn [decls price_program]. apply in_or_app. right. unfold stable_decls. apply in_flat_map. exists (i, d). split; auto.
    apply in_or_app. right. apply in_or_app. unfold gen_max_decls. destruct G as [G|G]; [left|right]; apply in_map; auto.
Qed.
Theorem check_priceability_exact : forall s p W alg (stable : bool), wf p -> cand_set p W -> W <> [] -> exact_solver p s -> uses_gurobi alg ->
  exists b, check_priceability s p W alg stable = Ok b /\ (b = true <-> passes_price_check p W stable).
Proof.
  intros s p W alg stable Hw HW Hne Hs Ha. unfold check_priceability. rewrite checked_ok by auto. cbn [rbind].
  assert (E : (if String.eqb alg "fastest" then "gurobi" else alg) = "gurobi") by (destruct Ha as [-> | ->]; reflexivity). rewrite E. cbn [String.eqb Ascii.eqb Bool.eqb]. change (String.eqb "gurobi" "gurobi") with true. cbv iota.
  unfold priceability_gurobi, passes_price_check. destruct (Nat.ltb_spec (length (filter (fun c => existsb (fun v => mem c (approved v)) (voters p)) (candidates p))) (length W)) as [L|L].
  - eexists. split; [reflexivity|]. rewrite takes_all_iff by auto. apply few_approved_iff in L; auto. tauto.
  - assert (Hf : ~ few_approved p W) by (intros K; apply few_approved_iff in K; auto; lia).
    assert (Hc : correct_on s (price_program p W stable)).
    { apply Hs; [apply price_guarded|]. apply bounded_intro; [apply size_pos|]. intros x d _ Hd Et. exfalso. eapply price_int; eauto. }
    assert (Hfeas : (exists x, feasible (price_program p W stable) x) <-> (if stable then stable_priceable p W else priceable p W)).
    { destruct stable; [apply stable_feasible; auto|apply price_feasible]. }
    unfold correct_on in Hc. destruct (s (price_program p W stable)) as [x| |].
    + exists true. split; auto. split; auto. intros _. right. split; auto. apply Hfeas. exists x. apply Hc.
    + exists false. split; auto. split; [discriminate|]. intros [[K _]|[_ K]]; [contradiction|]. apply Hfeas in K as (x & Hx). destruct (Hc x Hx).
    + exfalso. destruct (Hc 0%Q) as (x & [HD _] & Hlt). cbn [objective price_program] in Hlt. rewrite ev_scale, ev_var in Hlt. cbn [decls price_program] in HD. apply Forall_app in HD as [HD _].
      inversion HD as [|d ds HB _ E']; subst. apply nonneg_decl in HB. lra.
Qed.

(** ** What priceability implies *)
Lemma Qsum_split : forall (f : nat -> Q) (b : nat -> bool) l, (Qsum (map f l) == Qsum (map f (filter b l)) + Qsum (map f (filter (fun c => negb (b c)) l)))%Q.
Proof.
  intros f b l. induction l as [|c l IH]; [cbn; lra|]. cbn [filter]. unfold Qsum in *. cbn [map fold_right]. destruct (b c); cbn [negb map fold_right]; lra.
Qed.
Lemma length_split : forall (b : nat -> bool) l, length l = length (filter b l) + length (filter (fun c => negb (b c)) l).
Proof. intros b l. induction l as [|c l IH]; auto. cbn [filter length]. destruct (b c); cbn [negb length]; lia. Qed.
Lemma default_times : forall p (W S : list nat) l, wf p -> voters p <> [] -> W <> [] -> deserves p (default_quota p (length W)) S l ->
  (Qnat l * wsum (voters p) <= Qnat (length W) * gweight p S)%Q.
Proof.
  intros p W S l Hw Hv HW H. unfold deserves, default_quota in H.
  assert (HK : (0 < Qnat (length W))%Q) by (destruct W; [congruence|]; apply (Qnat_lt 0); cbn; lia).
  setoid_replace (Qnat l * wsum (voters p))%Q with (Qnat (length W) * (Qnat l * (wsum (voters p) / Qnat (length W))))%Q by (field; lra).
  rewrite (Qmult_comm (Qnat (length W)) (_ * _)), (Qmult_comm (Qnat (length W)) (gweight p S)). apply Qmult_le_compat_r; lra.
Qed.
Lemma who_In : forall p c i, In i (who_approve p c) <-> i < length (voters p) /\ In c (ballot p i).
Proof. intros. unfold who_approve. rewrite filter_In, in_seq, mem_In. intuition lia. Qed.

Section Prices.
  Variables (p : profile) (W : list nat) (B : Q) (pay : nat -> nat -> Q).
  Hypothesis Hwf : wf p.
  Hypothesis HW : cand_set p W.
  Hypothesis HP : price_system p W B pay.
  Let n := length (voters p).
  Let spend (i : nat) : Q := Qsum (map (pay i) W).
  Let L (i : nat) : Q := left_over p W B pay i.
  Lemma L_nonneg : forall i, i < n -> (0 <= L i)%Q.
  Proof using HW HP. intros i Hi. apply left_nonneg; auto; apply HW. Qed.
  Lemma pay_member_nonneg : forall i c, i < n -> In c W -> (0 <= pay i c)%Q.
  Proof using HW HP. intros i c Hi Hc. apply (pay_nonneg _ _ _ _ HP); auto. destruct HW as [_ HR]. rewrite Forall_forall in HR. auto. Qed.
  (** the money that is not spent *)
  Lemma total_left : (Qsum (map L (seq 0 n)) == B * wsum (voters p) - Qnat (length W))%Q.
  Proof using HW HP.
    unfold L, left_over. rewrite (Qsum_map_ext _ _ (fun i => B * voter_weight p i + (-1) * Qsum (map (pay i) W)))%Q by (intros; lra).
    rewrite Qsum_map_plus, !Qsum_map_scal, (Qsum_swap _ _ (fun i c => pay i c)).
    rewrite (Qsum_map_ext _ (fun c => Qsum (map (fun i => pay i c) (seq 0 n))) (fun _ => 1%Q)).
    - rewrite Qsum_map_const. change (seq 0 n) with (indices p). fold (gweight p (indices p)). rewrite gweight_all. lra.
    - intros c Hc. destruct HW as [_ HR]. rewrite Forall_forall in HR. apply (pay_members _ _ _ _ HP); auto.
  Qed.
  Lemma group_left : forall S, is_group p S -> (Qsum (map L S) <= Qsum (map L (seq 0 n)))%Q.
  Proof using HW HP.
    intros S (_ & Hn & Hr). apply Qsum_incl; auto; [|apply seq_NoDup|].
    - intros i Hi. rewrite Forall_forall in Hr. apply in_seq. specialize (Hr i Hi). unfold n. lia.
    - intros i Hi. apply in_seq in Hi. apply L_nonneg. lia.
  Qed.
  Lemma group_budget : forall S, (B * gweight p S == Qsum (map L S) + Qsum (map spend S))%Q.
  Proof. intros S. unfold gweight. rewrite <- Qsum_map_scal, <- Qsum_map_plus. apply Qsum_map_ext. intros i _. unfold L, left_over, spend. lra. Qed.
  Lemma group_pays : forall S c, is_group p S -> In c W -> (Qsum (map (fun i => pay i c) S) <= 1)%Q.
  Proof using HW HP.
    intros S c (_ & Hn & Hr) Hc. assert (Hlt : c < num_cand p) by (destruct HW as [_ HR]; rewrite Forall_forall in HR; auto).
    rewrite <- (pay_members _ _ _ _ HP c Hlt Hc). apply Qsum_incl; auto; [|apply seq_NoDup|].
    - intros i Hi. rewrite Forall_forall in Hr. apply in_seq. specialize (Hr i Hi). lia.
    - intros i Hi. apply in_seq in Hi. apply pay_member_nonneg; auto. unfold n. lia.
  Qed.
  Lemma group_spends : forall S, is_group p S -> (Qsum (map spend S) <= Qnat (length (covered p S W)))%Q.
  Proof using HW HP.
    intros S HS. unfold spend. rewrite (Qsum_swap _ _ (fun i c => pay i c)). rewrite (Qsum_split _ (fun c => existsb (fun i => mem c (ballot p i)) S)). fold (covered p S W).
    assert (A : (Qsum (map (fun c => Qsum (map (fun i => pay i c) S)) (covered p S W)) <= Qsum (map (fun _ => 1%Q) (covered p S W)))%Q).
    { apply Qsum_map_le. intros c Hc. apply filter_In in Hc as [Hc _]. apply group_pays; auto. }
    rewrite Qsum_map_const in A. rewrite (Qsum_map_zero _ _ (filter _ W)); [lra|].
    intros c Hc. apply filter_In in Hc as [Hc E]. apply Qsum_map_zero. intros i Hi. destruct HS as (_ & _ & Hr). rewrite Forall_forall in Hr. destruct HW as [_ HR]. rewrite Forall_forall in HR.
    apply (pay_approved _ _ _ _ HP); auto. intros K. apply negb_true_iff in E. assert (existsb (fun i => mem c (ballot p i)) S = true); [|congruence].
    apply existsb_exists. exists i. split; auto. apply mem_In. auto.
  Qed.
  Lemma B_pos : voters p <> [] -> W <> [] -> (0 < B)%Q.
  Proof using HW HP Hwf.
    intros Hv Hne. pose proof total_left as E. assert (0 <= Qsum (map L (seq 0 n)))%Q by (apply Qsum_map_nonneg; intros i Hi; apply in_seq in Hi; apply L_nonneg; lia).
    assert (HK : (0 < Qnat (length W))%Q) by (destruct W; [congruence|]; apply (Qnat_lt 0); cbn; lia). pose proof (total_pos p Hwf Hv). pose proof (budget_nonneg _ _ _ _ HP).
    destruct (Qlt_le_dec 0 B) as [|K]; auto. assert (B == 0)%Q by lra. rewrite H2 in E. lra.
  Qed.
End Prices.

Theorem priceable_PJR_plus : forall p W, wf p -> voters p <> [] -> cand_set p W -> W <> [] -> priceable p W ->
  PJR_plus p (default_quota p (length W)) W.
Proof.
  intros p W Hw Hv HW Hne (B & pay & HP & HL) S l c HS Hd Hc Hn Ha.
  destruct (Nat.le_gt_cases l (length (covered p S W))) as [|Hlt]; auto. exfalso.
  pose proof (default_times p W S l Hw Hv Hne Hd) as D.
  pose proof (total_left p W B pay HW HP) as E. pose proof (group_budget p W B pay S) as G. pose proof (group_spends p W B pay HW HP S HS) as P. pose proof (group_left p W B pay HW HP S HS) as Q1.
  set (Lam := Qsum (map (left_over p W B pay) (seq 0 (length (voters p))))) in *. set (LS := Qsum (map (left_over p W B pay) S)) in *.
  assert (A1 : (LS <= 1)%Q).
  { eapply Qle_trans; [|apply (HL c Hc Hn)]. destruct HS as (_ & HSn & HSr). rewrite Forall_forall in HSr. apply Qsum_incl; auto.
    - intros i Hi. apply who_In. split; auto. apply (Ha i c Hi). left; auto.
    - apply NoDup_filter, seq_NoDup.
    - intros i Hi. apply who_In in Hi as [Hi _]. apply (L_nonneg p W B pay HW HP). auto. }
  assert (A2 : (Qnat (length (covered p S W)) <= Qnat l - 1)%Q) by (apply Qnat_le' in Hlt; rewrite Qnat_S' in Hlt; lra).
  assert (HK : (1 <= Qnat (length W))%Q) by (destruct W; [congruence|]; apply (Qnat_le' 1); cbn; lia).
  assert (Hl : (1 <= Qnat l)%Q) by (apply (Qnat_le' 1); lia).
  assert (HLam : (0 <= Lam)%Q) by (apply Qsum_map_nonneg; intros i Hi; apply in_seq in Hi; apply (L_nonneg p W B pay HW HP); lia).
  assert (HB := budget_nonneg _ _ _ _ HP).
  (* multiply [D] with the budget *)
  assert (M : (B * (Qnat l * wsum (voters p)) <= B * (Qnat (length W) * gweight p S))%Q) by (rewrite !(Qmult_comm B); apply Qmult_le_compat_r; auto).
  set (k := Qnat (length W)) in *. set (y := Qnat l) in *. set (T := wsum (voters p)) in *. set (w := gweight p S) in *.
  assert (M1 : (y * (k + Lam) <= k * (LS + (y - 1)))%Q).
  { setoid_replace (y * (k + Lam))%Q with (B * (y * T))%Q by (rewrite E; ring). eapply Qle_trans; [exact M|]. setoid_replace (B * (k * w))%Q with (k * (B * w))%Q by ring.
    rewrite G. rewrite !(Qmult_comm k). apply Qmult_le_compat_r; lra. }
  assert (M2 : (k + y * Lam <= k * LS)%Q) by (setoid_replace (k * (LS + (y - 1)))%Q with (k * LS + k * y - k)%Q in M1 by ring; setoid_replace (y * (k + Lam))%Q with (k * y + y * Lam)%Q in M1 by ring; lra).
  assert (M3 : (k * LS <= k * 1)%Q) by (rewrite !(Qmult_comm k); apply Qmult_le_compat_r; lra).
  assert (M4 : (1 * Lam <= y * Lam)%Q) by (apply Qmult_le_compat_r; lra).
  assert (Z : (Lam == 0)%Q) by lra. assert (Z2 : (LS <= 0)%Q) by lra. assert (M5 : (k * LS <= k * 0)%Q) by (rewrite !(Qmult_comm k); apply Qmult_le_compat_r; lra). lra.
Qed.

Lemma offer_bounds : forall p W B pay i, (left_over p W B pay i <= could_offer p W B pay i)%Q /\ forall c, In c W -> (pay i c <= could_offer p W B pay i)%Q.
Proof.
  intros. unfold could_offer. destruct (fold_Qmax_spec (left_over p W B pay i) (map (pay i) W)) as [A _]. split; [apply A; left; auto|]. intros c Hc. apply A. right. apply in_map. auto.
Qed.
Lemma stable_is_priceable : forall p W, stable_priceable p W -> priceable p W.
Proof.
  intros p W (B & pay & HP & HS). exists B, pay. split; auto. intros c Hc Hn. eapply Qle_trans; [|apply (HS c Hc Hn)]. apply Qsum_map_le. intros i _. apply offer_bounds.
Qed.

Theorem stable_core : forall p W, wf p -> voters p <> [] -> cand_set p W -> W <> [] -> stable_priceable p W ->
  in_core p (default_quota p (length W)) W.
Proof.
  intros p W Hw Hv HW Hne (B & pay & HP & HL) S T HS HT Hd.
  destruct (existsb (fun i => approves_in p i T <=? approves_in p i W) S) eqn:Ex.
  { apply existsb_exists in Ex as (i & Hi & E). exists i. split; auto. apply Nat.leb_le. auto. }
  exfalso. assert (Hlt : forall i, In i S -> approves_in p i W < approves_in p i T).
  { intros i Hi. destruct (Nat.lt_ge_cases (approves_in p i W) (approves_in p i T)) as [|F]; auto. apply Nat.leb_le in F. assert (existsb (fun i => approves_in p i T <=? approves_in p i W) S = true) by (apply existsb_exists; eauto). congruence. }
  clear Ex. pose proof HS as (HSne & HSn & HSr). rewrite Forall_forall in HSr. destruct HT as [HTn HTr]. pose proof HW as [HWn HWr]. rewrite Forall_forall in HTr, HWr.
  pose proof (default_times p W S _ Hw Hv Hne Hd) as D. pose proof (total_left p W B pay HW HP) as E. pose proof (group_budget p W B pay S) as G. pose proof (group_left p W B pay HW HP S HS) as Q1.
  set (e := could_offer p W B pay). set (L := left_over p W B pay) in *.
  assert (He : forall i, i < length (voters p) -> (0 <= e i)%Q).
  { intros i Hi. eapply Qle_trans; [apply (L_nonneg p W B pay HW HP i Hi)|]. apply offer_bounds. }
  set (Y := fun i => Qsum (map (fun d => if mem d W then pay i d else if mem d (ballot p i) then e i else 0)%Q T)).
  (* every voter of S could pay for more *)
  assert (HY : forall i, In i S -> (e i + Qsum (map (pay i) W) <= Y i)%Q).
  { intros i Hi. pose proof (HSr i Hi) as Hi'. set (A := ballot p i). destruct (ballot_wf p i Hw Hi') as [HAn _]. fold A in HAn.
    assert (C1 : (Qsum (map (pay i) W) <= Qsum (map (pay i) (filter (fun d => mem d T) W)) + e i * Qnat (length (filter (fun d => mem d A) (filter (fun d => negb (mem d T)) W))))%Q).
    { rewrite (Qsum_split (pay i) (fun d => mem d T) W). set (R := filter (fun d => negb (mem d T)) W).
      assert (Qsum (map (pay i) R) <= e i * Qnat (length (filter (fun d => mem d A) R)))%Q; [|lra].
      rewrite <- (Qsum_map_const _ (e i) (filter (fun d => mem d A) R)), (Qsum_filter _ (fun _ => e i) (fun d => mem d A) R). apply Qsum_map_le. intros d Hd'. apply filter_In in Hd' as [Hd' _].
      destruct (mem d A) eqn:M; [apply offer_bounds; auto|]. rewrite (pay_approved _ _ _ _ HP i d Hi' (HWr d Hd')); [lra|]. intros K. apply mem_In in K. unfold A in M. congruence. }
    assert (C2 : (Y i == Qsum (map (pay i) (filter (fun d => mem d W) T)) + e i * Qnat (length (filter (fun d => mem d A) (filter (fun d => negb (mem d W)) T))))%Q).
    { unfold Y. rewrite (Qsum_split _ (fun d => mem d W) T). apply Qplus_comp.
      - apply Qsum_map_ext. intros d Hd'. apply filter_In in Hd' as [_ M]. rewrite M. reflexivity.
      - rewrite <- (Qsum_map_const _ (e i) (filter (fun d => mem d A) (filter (fun d => negb (mem d W)) T))), (Qsum_filter _ (fun _ => e i) (fun d => mem d A) (filter (fun d => negb (mem d W)) T)). apply Qsum_map_ext. intros d Hd'. apply filter_In in Hd' as [_ M]. apply negb_true_iff in M. rewrite M. reflexivity. }
    assert (C3 : (Qsum (map (pay i) (filter (fun d => mem d T) W)) == Qsum (map (pay i) (filter (fun d => mem d W) T)))%Q).
    { apply Qsum_perm, Permutation_map. apply NoDup_Permutation; try (apply NoDup_filter; auto). intros d. rewrite !filter_In, !mem_In. tauto. }
    assert (C4 : length (filter (fun d => mem d A) (filter (fun d => negb (mem d T)) W)) + 1 <= length (filter (fun d => mem d A) (filter (fun d => negb (mem d W)) T))).
    { specialize (Hlt i Hi). unfold approves_in in Hlt. fold A in Hlt. rewrite (inter_comm_length A W), (inter_comm_length A T) in Hlt by auto. unfold inter in Hlt.
      rewrite (length_split (fun d => mem d T) (filter (fun d => mem d A) W)), (length_split (fun d => mem d W) (filter (fun d => mem d A) T)) in Hlt. rewrite !filter_filter in *.
      assert (F : length (filter (fun d => mem d A && mem d T) W) = length (filter (fun d => mem d A && mem d W) T)).
      { apply Permutation_length, NoDup_Permutation; try (apply NoDup_filter; auto). intros d. rewrite !filter_In, !andb_true_iff, !mem_In. tauto. }
      assert (F1 : filter (fun d => negb (mem d T) && mem d A) W = filter (fun d => mem d A && negb (mem d T)) W) by (apply filter_ext; intros; apply andb_comm).
      assert (F2 : filter (fun d => negb (mem d W) && mem d A) T = filter (fun d => mem d A && negb (mem d W)) T) by (apply filter_ext; intros; apply andb_comm).
      rewrite F1, F2. lia. }
    apply Qnat_le' in C4. rewrite Nat.add_1_r, Qnat_S' in C4. specialize (He i Hi').
    set (a := Qnat (length (filter (fun d => mem d A) (filter (fun d => negb (mem d T)) W)))) in *. set (b := Qnat (length (filter (fun d => mem d A) (filter (fun d => negb (mem d W)) T)))) in *.
    assert ((a + 1) * e i <= b * e i)%Q by (apply Qmult_le_compat_r; auto). rewrite C2. lra. }
  (* but the candidates of T are not worth more *)
  assert (HT : (Qsum (map Y S) <= Qnat (length T))%Q).
  { unfold Y. rewrite (Qsum_swap _ _ (fun i d => if mem d W then pay i d else if mem d (ballot p i) then e i else 0)%Q). rewrite <- (Qmult_1_l (Qnat (length T))), <- (Qsum_map_const _ 1%Q T).
    apply Qsum_map_le. intros d Hd'. destruct (mem d W) eqn:M.
    - apply mem_In in M. apply (group_pays p W B pay HW HP S d HS M).
    - rewrite <- (Qsum_filter _ e (fun i => mem d (ballot p i)) S). eapply Qle_trans; [|apply (HL d (HTr d Hd'))]; [|intros K; apply mem_In in K; congruence]. apply Qsum_incl.
      + apply NoDup_filter; auto.
      + intros i Hi. apply filter_In in Hi as [Hi Hm]. apply who_In. split; auto. apply mem_In. auto.
      + apply NoDup_filter, seq_NoDup.
      + intros i Hi. apply who_In in Hi as [Hi _]. apply He. auto. }
  assert (HYS : (Qsum (map e S) + Qsum (map (fun i => Qsum (map (pay i) W)) S) <= Qsum (map Y S))%Q) by (rewrite <- Qsum_map_plus; apply Qsum_map_le; auto).
  assert (HeL : (Qsum (map L S) <= Qsum (map e S))%Q) by (apply Qsum_map_le; intros; apply offer_bounds).
  set (Lam := Qsum (map L (seq 0 (length (voters p))))) in *. set (LS := Qsum (map L S)) in *. set (eS := Qsum (map e S)) in *. set (sp := Qsum (map (fun i => Qsum (map (pay i) W)) S)) in *.
  assert (HK : (1 <= Qnat (length W))%Q) by (destruct W; [congruence|]; apply (Qnat_le' 1); cbn; lia).
  assert (Hex : exists i, In i S) by (destruct S as [|i r]; [congruence|exists i; left; auto]). destruct Hex as (i & Hi).
  assert (Ht : (1 <= Qnat (length T))%Q).
  { apply (Qnat_le' 1). specialize (Hlt i Hi). pose proof (utility_le p i T Hw (HSr i Hi) HTn). lia. }
  assert (HLam : (0 <= Lam)%Q) by (apply Qsum_map_nonneg; intros j Hj; apply in_seq in Hj; apply (L_nonneg p W B pay HW HP); lia).
  assert (HB := budget_nonneg _ _ _ _ HP).
  assert (M : (B * (Qnat (length T) * wsum (voters p)) <= B * (Qnat (length W) * gweight p S))%Q) by (rewrite !(Qmult_comm B); apply Qmult_le_compat_r; auto).
  assert (HBp : (0 < B)%Q) by (apply (B_pos p W B pay Hw HW HP Hv Hne)).
  set (k := Qnat (length W)) in *. set (t := Qnat (length T)) in *. set (V := wsum (voters p)) in *. set (w := gweight p S) in *.
  assert (M1 : (t * (k + Lam) <= k * (LS + sp))%Q).
  { setoid_replace (t * (k + Lam))%Q with (B * (t * V))%Q by (rewrite E; ring). eapply Qle_trans; [exact M|]. setoid_replace (B * (k * w))%Q with (k * (B * w))%Q by ring. rewrite G. apply Qle_refl. }
  assert (M2 : (k * (eS + sp) <= k * t)%Q) by (rewrite !(Qmult_comm k); apply Qmult_le_compat_r; lra).
  assert (M3 : (1 * Lam <= t * Lam)%Q) by (apply Qmult_le_compat_r; lra).
  assert (M4 : (1 * (eS - LS) <= k * (eS - LS))%Q) by (apply Qmult_le_compat_r; lra).
  assert (M5 : (Lam + (eS - LS) <= 0)%Q).
  { setoid_replace (t * (k + Lam))%Q with (k * t + t * Lam)%Q in M1 by ring. setoid_replace (k * (eS - LS))%Q with (k * (eS + sp) - k * (LS + sp))%Q in M4 by ring. lra. }
  assert (Z : (eS <= 0)%Q) by lra.
  assert (Zi : (e i <= 0)%Q). { eapply Qle_trans; [|exact Z]. apply (Qsum_ge_member _ e S i); auto. }
  assert (Zp : (Qsum (map (pay i) W) <= 0)%Q).
  { rewrite <- (Qsum_map_zero _ (fun _ : nat => 0%Q) W) by reflexivity. apply Qsum_map_le. intros d Hd'. apply (Qle_trans _ (e i)); [apply (proj2 (offer_bounds p W B pay i) d Hd')|exact Zi]. }
  assert (ZL : (L i <= 0)%Q) by (eapply Qle_trans; [apply offer_bounds|exact Zi]).
  unfold L, left_over in ZL. pose proof (voter_weight_pos p i Hw (HSr i Hi)). assert (0 < voter_weight p i * B)%Q by (apply Qmult_lt_0_compat; auto). lra.
Qed.

Lemma all_approved_core : forall p W q, wf p -> NoDup W -> takes_all_approved p W -> in_core p q W.
Proof.
  intros p W q Hw Hn H S T (Hne & _ & Hr) HT _. destruct S as [|i S]; [congruence|]. inversion Hr; subst. exists i. split; [left; auto|].
  apply NoDup_incl_length; [apply NoDup_inter; apply ballot_wf; auto|]. intros c Hc. apply inter_In in Hc as [Hc _]. apply inter_In. split; eauto.
Qed.
