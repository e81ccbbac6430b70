(** * Which Thiele methods are proportional: the rules of the library (C90) *)
From Coq Require Import String.
From Coq Require Import List Arith Bool ZArith QArith Lia Lqa Permutation Sorted Setoid.
From Verif Require Import Milp RulesSolver SpecLoads SolverCompute SolverLex RulesMonroe RulesMore SolverMore.
From Verif Require Import Prelude Misc Common MiscProofs Preferences Scores ScoresProofs Rule Spec SpecRules Compute SpecCompute SpecSeq SpecAxioms
  SpecMonroe Checks ChecksProofs ComputeProofs ThieleProofs BBProofs Guarantees ComputeAll SpecAll AllProofs
  SpecVary SpecParty PartyLists PartyRules PartySeq PrefProofs PartyRest SpecJR ThieleJR.
Import ListNotations.
Local Open Scope string_scope.
Open Scope nat_scope.
Local Open Scope list_scope.

Lemma quota_droop : forall p k, wf p -> voters p <> [] -> 1 <= k -> (wsum (voters p) < Qnat (k + 1) * default_quota p k)%Q.
Proof. intros p k Hw Hv Hk. apply default_above_droop; [exact Hk|apply total_pos; auto]. Qed.
Lemma JR_sufficient : forall f, (forall i, 1 <= i -> (0 <= f i)%Q) -> (0 < f 1%nat)%Q -> (forall j, 1 <= j -> (Qnat j * f j <= f 1%nat)%Q) ->
  forall p k W, wf p -> voters p <> [] -> 1 <= k -> maximises (Thiele f p) p k W -> JR p (default_quota p k) W.
Proof.
  intros f H0 H1 HJ p k W Hw Hv Hk HW. apply (enough_JR (from_one f)) with (k := k); auto using from_one_maximises, quota_droop.
  - intros i. unfold from_one. destruct (Nat.eqb_spec i 0); [lra|apply H0; lia].
  - intros j Hj. unfold from_one. destruct (Nat.eqb_spec j 0); [lia|]. apply HJ; auto.
Qed.
Lemma EJR_plus_sufficient : forall f, (0 < f 1%nat)%Q -> (forall j, 1 <= j -> (Qnat j * f j == f 1%nat)%Q) ->
  forall p k W, wf p -> voters p <> [] -> 1 <= k -> maximises (Thiele f p) p k W -> EJR_plus p (default_quota p k) W.
Proof.
  intros f H1 HJ p k W Hw Hv Hk [HW Hm]. apply (pav_EJR_plus p k); auto using quota_droop. split; [exact HW|].
  assert (E : forall V, (Thiele f p V == f 1%nat * Thiele pav_w p V)%Q).
  { intros V. rewrite (Thiele_ext f (fun i => f 1%nat * pav_w i)%Q).
    - unfold Thiele. rewrite <- Qsum_map_scal. apply Qsum_map_ext. intros v _. rewrite Qsum_map_scal. ring.
    - intros i Hi. rewrite <- (HJ i Hi). unfold pav_w. pose proof (Qnat_pos i ltac:(lia)). field. lra. }
  intros V HV. specialize (Hm V HV). rewrite !E in Hm. apply Qmult_le_l in Hm; auto.
Qed.

Lemma blocks_voters : forall m j, voters (blocks m j) <> [].
Proof. intros m j. cbn. destruct (map _ (seq 0 m)); discriminate. Qed.
Lemma party_voters : forall j s, voters (party_and_singles j s) <> [].
Proof. intros. discriminate. Qed.
Theorem JR_iff : forall f, (forall i, 1 <= i -> (0 <= f i)%Q) -> non_increasing f -> (0 < f 1%nat)%Q ->
  ((forall p k W, wf p -> voters p <> [] -> 1 <= k -> maximises (Thiele f p) p k W -> JR p (default_quota p k) W) <->
   (forall j, 1 <= j -> (Qnat j * f j <= f 1%nat)%Q)).
Proof.
  intros f H0 HD H1. split; [|apply JR_sufficient; auto]. intros H j Hj.
  destruct (Qlt_le_dec (f 1%nat) (Qnat j * f j)) as [L|L]; [exfalso|exact L].
  destruct (JR_necessary f j H0 HD Hj L) as (m & Hm & HV). pose proof (mj m j Hj) as MJ.
  destruct (max_exists (Thiele f (blocks m j)) (blocks m j) (m * j) ltac:(cbn; lia)) as (W & HW).
  apply (HV W HW), H; auto; [apply blocks_wf; auto|apply blocks_voters|lia].
Qed.
Lemma PJR_share : forall f, (forall i, 1 <= i -> (0 <= f i)%Q) ->
  (forall p k W, wf p -> voters p <> [] -> 1 <= k -> maximises (Thiele f p) p k W -> PJR p (default_quota p k) W) ->
  forall j, 1 <= j -> (f 1%nat <= Qnat j * f j)%Q.
Proof.
  intros f H0 H j Hj. destruct (Qlt_le_dec (Qnat j * f j) (f 1%nat)) as [L|L]; [exfalso|exact L].
  destruct (PJR_necessary f j H0 Hj L) as (s & Hs & HV).
  destruct (max_exists (Thiele f (party_and_singles j s)) (party_and_singles j s) (j + s) ltac:(cbn; lia)) as (W & HW).
  apply (HV W HW), H; auto; [apply party_wf; auto|apply party_voters|lia].
Qed.
Theorem PJR_iff : forall f, (forall i, 1 <= i -> (0 <= f i)%Q) -> non_increasing f -> (0 < f 1%nat)%Q -> forall X : profile -> Q -> list nat -> Prop,
  (forall p q W, wf p -> NoDup W -> X p q W -> PJR p q W) -> (forall p q W, wf p -> NoDup W -> EJR_plus p q W -> X p q W) ->
  ((forall p k W, wf p -> voters p <> [] -> 1 <= k -> maximises (Thiele f p) p k W -> X p (default_quota p k) W) <->
   (forall j, 1 <= j -> (Qnat j * f j == f 1%nat)%Q)).
Proof.
  intros f H0 HD H1 X HX1 HX2. assert (N : forall p k W, maximises (Thiele f p) p k W -> NoDup W) by (intros p k W [[HA _] _]; apply ascending_NoDup; auto). split.
  - intros H. assert (HP : forall p k W, wf p -> voters p <> [] -> 1 <= k -> maximises (Thiele f p) p k W -> PJR p (default_quota p k) W) by (intros; apply HX1; eauto).
    intros j Hj. apply Qle_antisym; [|apply PJR_share; auto]. apply JR_iff; auto. intros p k W Hw Hv Hk HW. apply PJR_JR; auto.
  - intros HJ p k W Hw Hv Hk HW. apply HX2; eauto. apply EJR_plus_sufficient with (f := f); auto.
Qed.

(** ** The weights of the library *)
Lemma denotes_nonneg : forall e id f, denotes e id f -> forall i, 1 <= i -> (0 <= f i)%Q.
Proof.
  intros e id f H i Hi. destruct (string_dec id "cc") as [->|N]; [|apply Qlt_le_weak, (denotes_pos e id f H N i Hi)].
  inversion H; subst; apply cc_w_nonneg.
Qed.
Lemma denotes_one : forall e id f, denotes e id f -> (f 1%nat == 1)%Q.
Proof. intros e id f H. destruct H; [reflexivity|reflexivity|reflexivity|]. unfold geom_w. cbn. reflexivity. Qed.
Lemma optimises_nonneg : forall e p id alg f, optimises e p id alg f -> (forall i, 1 <= i -> (0 <= f i)%Q) /\ (0 < f 1%nat)%Q.
Proof.
  intros e p id alg f H. assert (D : forall i, denotes e i f -> (forall i, 1 <= i -> (0 <= f i)%Q) /\ (0 < f 1%nat)%Q).
  { intros i Hd. split; [eapply denotes_nonneg; eauto|rewrite (denotes_one _ _ _ Hd); lra]. }
  destruct H; eauto; split; try (intros; apply cc_w_nonneg); try reflexivity. intros i _. unfold av_w. lra.
Qed.

Lemma geom_one : forall b, (geom_w b 1 == 1)%Q.
Proof. intros b. unfold geom_w. cbn. reflexivity. Qed.
Lemma geom_next : forall b i, (0 < b)%Q -> 1 <= i -> (b * geom_w b (S i) == geom_w b i)%Q.
Proof.
  intros b i Hb Hi. destruct i as [|i]; [lia|]. unfold geom_w. replace (Z.of_nat (S (S i)) - 1)%Z with (Z.of_nat (S i)) by lia. replace (Z.of_nat (S i) - 1)%Z with (Z.of_nat i) by lia.
  rewrite <- !Qpow_power. cbn [Qpow]. pose proof (Qpow_pos b i Hb). field. split; lra.
Qed.
Lemma share_pav : forall j, 1 <= j -> (Qnat j * pav_w j == pav_w 1)%Q.
Proof. intros j Hj. rewrite pav_w_mult by auto. reflexivity. Qed.
Lemma share_slav : forall j, 1 <= j -> (Qnat j * slav_w j <= slav_w 1)%Q.
Proof.
  intros j Hj. assert (E1 : (slav_w 1 == 1)%Q) by reflexivity. rewrite E1. unfold slav_w.
  assert (1 <= Qnat j)%Q by (change 1%Q with (Qnat 1); apply Qnat_le; lia). assert (E : (Qnat j * (1 / (2 * Qnat j - 1)) == Qnat j / (2 * Qnat j - 1))%Q) by (field; lra).
  rewrite E. apply Qle_shift_div_r; lra.
Qed.
Lemma share_cc : forall j, 1 <= j -> (Qnat j * cc_w j <= cc_w 1)%Q.
Proof. intros j Hj. unfold cc_w at 2. cbn [Nat.eqb]. unfold cc_w. destruct (Nat.eqb_spec j 1) as [->|]; [change (Qnat 1) with 1%Q|]; lra. Qed.
Lemma share_geom : forall b, (2 <= b)%Q -> forall j, 1 <= j -> (Qnat j * geom_w b j <= geom_w b 1)%Q.
Proof.
  intros b Hb j Hj. induction Hj as [|j Hj IH]; [change (Qnat 1) with 1%Q; lra|]. rewrite Qnat_S.
  pose proof (geom_next b j ltac:(lra) Hj) as E. pose proof (geom_pos b (S j) ltac:(lra) ltac:(lia)) as P. rewrite <- E in IH.
  assert (1 <= Qnat j)%Q by (change 1%Q with (Qnat 1); apply Qnat_le; lia).
  assert (Q1 : ((Qnat j + 1) * geom_w b (S j) <= (Qnat j * b) * geom_w b (S j))%Q) by (apply Qmult_le_compat_r; [nra|lra]). lra.
Qed.

Section Calls.
  Variables (rnd : random) (nx : networkx) (sv : solvers) (e : env).
  Notation call p k id alg resolute maxn := (compute rnd nx (with_solvers nx sv e) id p (Z.of_nat k) None (args alg resolute maxn)).
  Lemma optimises_maximises : forall p k id alg f resolute maxn l W, optimises e p id alg f -> libraries_ok p rnd nx sv e -> valid_call p k resolute maxn ->
    call p k id alg resolute maxn = Ok l -> In W l -> maximises (Thiele f p) p k W.
  Proof using.
    intros p k id alg f resolute maxn l W Ho HL Hc E Hin. pose proof Hc as (Hw & Hv & Hk & _).
    assert (G : forall P, listed_by e p k id alg P -> P W).
    { intros P HP. eapply answers_In; [|exact E|exact Hin]. exact (listed_by_determined rnd nx sv e p k id alg P HL HP Hw Hv Hk resolute maxn Hc). }
    destruct Ho.
    - apply G. eapply b_thiele; eauto.
    - apply G. eapply b_thiele_bb; eauto.
    - apply G. eapply b_thiele_mip; eauto.
    - apply G. apply b_cc_cp. auto.
    - apply (maximises_ext (fun W => Qsum (map (support p) W))); [|apply G, b_av]. intros V HV. apply av_thiele; [exact Hw|apply ascending_NoDup, HV].
  Qed.
  Lemma optimises_JR : forall p k id alg f resolute maxn l W, optimises e p id alg f -> (forall j, 1 <= j -> (Qnat j * f j <= f 1%nat)%Q) ->
    libraries_ok p rnd nx sv e -> valid_call p k resolute maxn -> call p k id alg resolute maxn = Ok l -> In W l -> check_JR p W None = Ok true.
  Proof using.
    intros p k id alg f resolute maxn l W Ho HJ HL Hc E Hin. pose proof (optimises_maximises p k id alg f resolute maxn l W Ho HL Hc E Hin) as M.
    destruct Hc as (Hw & Hv & Hk & _). destruct (committee_cand_set p k W (proj1 Hk) (proj1 M)) as [Hcs Hne].
    assert (El : length W = k) by apply M. apply passes_JR; auto. rewrite El. destruct (optimises_nonneg _ _ _ _ _ Ho). apply JR_sufficient with (f := f); auto. lia.
  Qed.
  (** rules with the weights [f] on party-list profiles *)
  Lemma weighted_maximises : forall p k id alg f resolute maxn l W, optimises e p id alg f \/ apportions e p k id alg f -> non_increasing f -> party_lists p ->
    libraries_ok p rnd nx sv e -> valid_call p k resolute maxn -> call p k id alg resolute maxn = Ok l -> In W l -> maximises (Thiele f p) p k W.
  Proof using.
    intros p k id alg f resolute maxn l W [Ho|Ha] Hf Hp HL Hc E Hin; [eapply optimises_maximises; eauto|].
    assert (HW : highest_averages f p k W) by (eapply answers_In; [|exact E|exact Hin]; apply apportions_ok; auto).
    apply thiele_apportions; auto. apply Hc.
  Qed.
End Calls.

Lemma blocks_party_lists : forall m j, party_lists (blocks m j).
Proof.
  intros m j v u Hv Hu. cbn [voters blocks] in Hv, Hu. apply in_app_or in Hv, Hu.
  destruct Hv as [Hv|[<-|[]]], Hu as [Hu|[<-|[]]]; try apply in_map_iff in Hv as (b & <- & Hb); try apply in_map_iff in Hu as (a & <- & Ha); cbn [approved].
  - destruct (Nat.eq_dec a b) as [->|N]; [left; tauto|right]. intros c H1 H2. apply in_seq in H1, H2. clear - N H1 H2.
    assert (a < b \/ b < a) as [L|L] by lia; nia.
  - right. intros c H1 [<-|[]]. apply in_seq in H1, Hb. clear - H1 Hb. nia.
  - right. intros c [<-|[]] H1. apply in_seq in H1, Ha. clear - H1 Ha. nia.
  - left. tauto.
Qed.
Lemma party_party_lists : forall j s, party_lists (party_and_singles j s).
Proof.
  intros j s v u Hv Hu. cbn [voters party_and_singles] in Hv, Hu.
  destruct Hv as [<-|Hv], Hu as [<-|Hu]; try apply in_map_iff in Hv as (b & <- & Hb); try apply in_map_iff in Hu as (a & <- & Ha); cbn [approved].
  - left. tauto.
  - right. intros c H1 [<-|[]]. apply in_seq in H1. lia.
  - right. intros c [<-|[]] H1. apply in_seq in H1. lia.
  - destruct (Nat.eq_dec a b) as [->|N]; [left; tauto|right]. intros c [<-|[]] [H|[]]. lia.
Qed.

Lemma call_violates_JR : forall f j, (forall i, 1 <= i -> (0 <= f i)%Q) -> non_increasing f -> 1 <= j -> (f 1%nat < Qnat j * f j)%Q ->
  exists p k, valid_call p k false None /\ is_party_list p = true /\
    forall rnd nx sv e id alg resolute maxn l W, optimises e p id alg f \/ apportions e p k id alg f -> libraries_ok p rnd nx sv e -> valid_call p k resolute maxn ->
      compute rnd nx (with_solvers nx sv e) id p (Z.of_nat k) None (args alg resolute maxn) = Ok l -> In W l -> check_JR p W None = Ok false.
Proof.
  intros f j H0 HD Hj L. destruct (JR_necessary f j H0 HD Hj L) as (m & Hm & HV). pose proof (mj m j Hj) as MJ. exists (blocks m j), (m * j).
  pose proof (blocks_wf m j Hm Hj) as Hw. pose proof (blocks_voters m j) as Hv.
  split; [split; [exact Hw|split; [exact Hv|split; [cbn; lia|auto]]]|]. split; [apply is_party_list_iff; [exact Hw|apply blocks_party_lists]|].
  intros rnd nx sv e id alg resolute maxn l W Ho HL Hc E Hin.
  assert (M : maximises (Thiele f (blocks m j)) (blocks m j) (m * j) W) by (eapply weighted_maximises; eauto using blocks_party_lists).
  destruct (committee_cand_set _ (m * j) W ltac:(lia) (proj1 M)) as [Hcs Hne]. assert (El : length W = m * j) by apply M.
  destruct (check_JR_exact (blocks m j) W None Hw Hcs) as (b & Eb & Hb); auto; [apply default_pos; auto|]. rewrite Eb. destruct b; [exfalso|reflexivity].
  apply (HV W M). pose proof (proj1 Hb eq_refl) as R. cbn [the_quota] in R. rewrite El in R. exact R.
Qed.
Lemma call_violates_PJR : forall f j, (forall i, 1 <= i -> (0 <= f i)%Q) -> non_increasing f -> 1 <= j -> (Qnat j * f j < f 1%nat)%Q ->
  exists p k, valid_call p k false None /\ is_party_list p = true /\
    forall rnd nx sv e id alg resolute maxn l W, optimises e p id alg f \/ apportions e p k id alg f -> libraries_ok p rnd nx sv e -> valid_call p k resolute maxn ->
      compute rnd nx (with_solvers nx sv e) id p (Z.of_nat k) None (args alg resolute maxn) = Ok l -> In W l ->
      ~ PJR p (default_quota p k) W /\ check_EJR_plus p W None = Ok false.
Proof.
  intros f j H0 HD Hj L. destruct (PJR_necessary f j H0 Hj L) as (s & Hs & HV). exists (party_and_singles j s), (j + s).
  pose proof (party_wf j s Hs Hj) as Hw. pose proof (party_voters j s) as Hv.
  split; [split; [exact Hw|split; [exact Hv|split; [cbn; lia|auto]]]|]. split; [apply is_party_list_iff; [exact Hw|apply party_party_lists]|].
  intros rnd nx sv e id alg resolute maxn l W Ho HL Hc E Hin.
  assert (M : maximises (Thiele f (party_and_singles j s)) (party_and_singles j s) (j + s) W) by (eapply weighted_maximises; eauto using party_party_lists).
  destruct (committee_cand_set _ (j + s) W ltac:(lia) (proj1 M)) as [Hcs Hne]. assert (El : length W = j + s) by apply M.
  split; [apply HV; auto|]. destruct (check_EJR_plus_default (party_and_singles j s) W Hw Hcs Hne Hv) as (b & Eb & Hb).
  rewrite Eb. destruct b; [exfalso|reflexivity]. apply (HV W M). pose proof (proj1 Hb eq_refl) as R. rewrite El in R.
  apply EJR_PJR; auto; [apply Hcs|]. apply EJR_plus_EJR; auto. apply Hcs.
Qed.
