(** * Isomorphic elections have isomorphic results, for every listed rule *)
From Coq Require Import String.
From Coq Require Import List Arith Bool ZArith QArith Lia Lqa Permutation Sorted.
From Coq Require Import FinFun.
From Verif Require Import Prelude Misc MiscProofs Preferences Scores ScoresProofs Spec SpecRules Compute SpecCompute SpecSeq SpecMonroe SpecMore
  Milp RulesSolver SolverLex SpecLoads SolverPhragmen ComputeAll SpecAll ComputeProofs OptProofs AllProofs Iso IsoSeq SpecIso.
Import ListNotations.
Local Open Scope string_scope.
Open Scope nat_scope.
Local Open Scope list_scope.

Section IsoAll.
  Context (p q : profile) (s t r r' : nat -> nat) (x : Q) (I : iso p q s t r r' x).
  Let J := iso_sym _ _ _ _ _ _ _ I.

  Hypothesis flags : forall i, i < length (voters p) -> weight_is_int (the_voter q (r i)) = weight_is_int (the_voter p i).
  Lemma Forall_iso : forall (F G : voter -> Prop), (forall i, i < length (voters p) -> F (the_voter p i) -> G (the_voter q (r i))) ->
    Forall F (voters p) -> Forall G (voters q).
  Proof using I.
    intros F G H HF. rewrite Forall_forall in *. intros v Hv. destruct (voter_of_q _ _ _ _ _ _ _ I v Hv) as (i & Hi & ->).
    apply H; auto. apply HF, the_voter_in. auto.
  Qed.
  Lemma fraction_iso : fraction_weights p -> fraction_weights q.
  Proof using I flags. apply Forall_iso. intros i Hi. rewrite flags; auto. Qed.
  Lemma int_iso : Forall (fun v => weight_is_int v = true) (voters p) -> Forall (fun v => weight_is_int v = true) (voters q).
  Proof using I flags. apply Forall_iso. intros i Hi. rewrite flags; auto. Qed.

  Section Same.
    Hypothesis x1 : (x == 1)%Q.
    Lemma w1 : forall i, i < length (voters p) -> (weight (the_voter q (r i)) == weight (the_voter p i))%Q.
    Proof using I x1. intros i Hi. pose proof (iso_w _ _ _ _ _ _ _ I i Hi) as E. unfold w in E. rewrite E, x1. ring. Qed.
    Lemma unit_iso : unit_weights p -> unit_weights q.
    Proof using I x1. apply Forall_iso. intros i Hi E. rewrite w1; auto. Qed.
    Lemma one_iso : weights_at_least_one p -> weights_at_least_one q.
    Proof using I x1. apply Forall_iso. intros i Hi E. rewrite w1; auto. Qed.
    Lemma granular_iso : granular p -> granular q.
    Proof using I x1.
      intros (u & Hu & H). exists u. split; auto. intros v Hv. destruct (voter_of_q _ _ _ _ _ _ _ I v Hv) as (i & Hi & ->).
      destruct (H _ (the_voter_in p i Hi)) as (n & E). exists n. rewrite w1; auto.
    Qed.
    Lemma enough_iso : forall k, enough_support p k -> enough_support q k.
    Proof using I x1.
      intros k H d Hd. destruct (s_onto _ _ _ _ _ _ _ I d Hd) as (c & Hc & ->). pose proof (support_iso _ _ _ _ _ _ _ I c Hc) as E. rewrite x1, Qmult_1_l in E.
      destruct (H c Hc) as [H0|H0]; [left|right]; rewrite E; auto.
    Qed.
    Lemma inv1 : (/ x == 1)%Q. Proof using x1. rewrite x1. reflexivity. Qed.
    Lemma sorted_iso : forall W A b, in_range p W -> sorted_load p W A ACCURACY b -> sorted_load q (rn s W) A ACCURACY b.
    Proof using I x1.
      intros W A b RW H. pose proof inv1 as E.
      assert (HF : Forall2 (fun a a' => (a' == / x * a)%Q) A A) by (clear - E; induction A; constructor; auto; rewrite E; ring).
      destruct (sorted_load_iso _ _ _ _ _ _ _ I W A A ACCURACY b RW HF H) as (l & order & H1 & H2 & H3). exists l, order. split; auto. split; auto.
      intros pos i v Hi Hv. specialize (H3 pos i v Hi Hv). destruct (nth_error A pos); rewrite E, Qmult_1_l in H3; auto.
    Qed.
  End Same.
End IsoAll.

Section Lexi.
  Context (p q : profile) (s t r r' : nat -> nat) (x : Q) (I : iso p q s t r r' x) (x1 : (x == 1)%Q).
  Let J := iso_sym _ _ _ _ _ _ _ I.
  Let x1' : (1 / x == 1)%Q. Proof. rewrite x1. reflexivity. Qed.
  Lemma next_bound_iso : forall k A b, next_bound p k A ACCURACY b -> next_bound q k A ACCURACY b.
  Proof using I x1.
    intros k A b [(W & HW & H) Hb]. split.
    - exists (rn s W). split; [apply (rn_committee _ _ _ _ _ _ _ I); auto|]. eapply sorted_iso; eauto. apply HW.
    - intros U b' HU Hb'. apply (Hb (rn t U)); [apply (rn_committee _ _ _ _ _ _ _ J); auto|]. eapply (sorted_iso _ _ _ _ _ _ _ J); eauto. apply HU.
  Qed.
  Lemma leximax_bounds_iso : forall k A, leximax_bounds p k ACCURACY A -> leximax_bounds q k ACCURACY A.
  Proof using I x1. intros k A H. induction H; constructor; auto. apply next_bound_iso. auto. Qed.
  Lemma enough_bounds_iso : forall k A, enough_bounds p k A -> enough_bounds q k A.
  Proof using I x1.
    intros k A (H1 & H2 & H3). split; [apply leximax_bounds_iso; auto|]. split; auto. rewrite (iso_n _ _ _ _ _ _ _ I).
    destruct H3 as [H3|(H3 & b & Hb & Hs)]; [left; auto|right]. split; auto. exists b. split; auto. apply next_bound_iso. auto.
  Qed.
  Lemma leximax_iso : forall k A W, leximax_winner p k A W -> leximax_winner q k A (rn s W).
  Proof using I x1.
    intros k A W (HW & b & Hb & H). split; [apply (rn_committee _ _ _ _ _ _ _ I); auto|]. exists b. split; [eapply sorted_iso; eauto; apply HW|].
    intros U b' HU Hb'. apply (H (rn t U)); [apply (rn_committee _ _ _ _ _ _ _ J); auto|]. eapply (sorted_iso _ _ _ _ _ _ _ J); eauto. apply HU.
  Qed.
End Lexi.

Section Transport.
  Context (e : env) (p q : profile) (s t r r' : nat -> nat) (x : Q) (I : iso p q s t r r' x).
  Hypothesis flags : forall i, i < length (voters p) -> weight_is_int (the_voter q (r i)) = weight_is_int (the_voter p i).
  Lemma approved_candidates_iso : length (approved_candidates q) = length (approved_candidates p).
  Proof using I.
    assert (Hap : forall o c, In c (approved_candidates o) <-> exists v, In v (voters o) /\ In c (approved v)) by
      (intros; unfold approved_candidates; rewrite dedup_In, in_flat_map; reflexivity).
    apply (same_count _ _ _ _ _ _ _ I); [apply dedup_NoDup| |apply dedup_NoDup| |].
    - unfold in_range. apply Forall_forall. intros c Hc. apply Hap in Hc. destruct Hc as (v & Hv & Hc). destruct (voter_of_p p v Hv) as (i & Hi & ->).
      destruct (voter_wf_p _ _ _ _ _ _ _ I i) as [_ R]. unfold in_range in R. rewrite Forall_forall in R. auto.
    - apply Forall_forall. intros c Hc. apply Hap in Hc. destruct Hc as (v & Hv & Hc). destruct (voter_of_q _ _ _ _ _ _ _ I v Hv) as (i & Hi & ->).
      destruct (voter_wf_q _ _ _ _ _ _ _ I (r i)) as [_ R]. rewrite Forall_forall in R. auto.
    - intros c Hc. rewrite !Hap. split.
      + intros (v & Hv & Hin). destruct (voter_of_q _ _ _ _ _ _ _ I v Hv) as (i & Hi & ->). exists (the_voter p i). split; [apply the_voter_in; auto|].
        apply (approved_img _ _ _ _ _ _ _ I i Hi c Hc). auto.
      + intros (v & Hv & Hin). destruct (voter_of_p p v Hv) as (i & Hi & ->). exists (the_voter q (r i)). split; [apply the_voter_in; apply (r_lt _ _ _ _ _ _ _ I); auto|].
        apply (approved_img _ _ _ _ _ _ _ I i Hi c Hc). auto.
  Qed.

  Lemma listed_by_iso : forall k id alg P, listed_by e p k id alg P -> (id = "sav" -> fraction_weights p) ->
    (granular p -> granular q) -> (enough_support p k -> enough_support q k) -> ((x == 1)%Q \/ ~ In id scale_dependent) ->
    exists P', listed_by e q k id alg P' /\ forall W, P W -> P' (rn s W).
  Proof using I flags.
    intros k id alg P Hl Hsav Hg He Hx.
    destruct Hl; try (destruct Hx as [Hx|Hx]; [|exfalso; apply Hx; cbn; tauto]).
    - eexists. split; [apply b_av|]. intros W HW. apply (av_winner_iso _ _ _ _ _ _ _ I); auto.
    - eexists. split; [apply b_sav; eapply fraction_iso; eauto|]. intros W HW. apply (sav_winner_iso _ _ _ _ _ _ _ I); auto.
    - exfalso. auto.
    - eexists. split; [apply b_thiele; eauto|]. intros W HW. apply (thiele_winner_iso _ _ _ _ _ _ _ I); auto.
    - eexists. split; [apply b_thiele_bb; eauto|]. intros W HW. apply (thiele_winner_iso _ _ _ _ _ _ _ I); auto.
    - eexists. split; [apply b_thiele_mip; eauto|]. intros W HW. apply (thiele_winner_iso _ _ _ _ _ _ _ I); auto.
    - eexists. split; [apply b_cc_cp; eapply int_iso; eauto|]. intros W HW. apply (thiele_winner_iso _ _ _ _ _ _ _ I); auto.
    - eexists. split; [apply b_lexcc|]. intros W HW. apply (lexcc_iso _ _ _ _ _ _ _ I); auto.
    - eexists. split; [apply b_lexcc_gurobi; auto|]. intros W HW. apply (lexcc_iso _ _ _ _ _ _ _ I); auto.
    - eexists. split; [apply b_seq; eauto|]. intros W HW. apply (seq_winner_iso _ _ _ _ _ _ _ I); auto.
    - eexists. split; [apply b_revseq; eauto|]. intros W HW. apply (revseq_iso _ _ _ _ _ _ _ I); auto.
    - eexists. split; [apply b_seqphragmen; eauto|]. intros W HW. apply (phragmen_iso _ _ _ _ _ _ _ I); auto.
    - eexists. split; [apply b_minimaxphragmen; auto; [eapply one_iso; eauto|rewrite approved_candidates_iso; auto]|]. intros W HW.
      eapply (minimaxphragmen_iso _ _ _ _ _ _ _ I); eauto. rewrite inv1 by eauto. ring.
    - eexists. split; [apply (b_leximaxphragmen e q k bounds); auto; [eapply one_iso; eauto|rewrite approved_candidates_iso; auto|eapply enough_bounds_iso; eauto]|]. intros W HW.
      eapply leximax_iso; eauto.
    - eexists. split; [apply b_maximin; auto|]. intros W HW. eapply (maximin_iso _ _ _ _ _ _ _ I); eauto. rewrite Hx. ring.
    - eexists. split; [apply b_monroe; auto; eapply unit_iso; eauto|]. intros W HW. eapply monroe_iso; eauto.
    - eexists. split; [apply b_minimaxav; auto|]. intros W HW. apply (minimaxav_iso _ _ _ _ _ _ _ I); auto.
    - eexists. split; [apply b_lexminimaxav; auto; eapply unit_iso; eauto|]. intros W HW. apply (lexminimaxav_iso _ _ _ _ _ _ _ I); auto.
    - eexists. split; [apply b_mes_phragmen; eauto|]. intros W HW. apply (mes_phragmen_iso _ _ _ _ _ _ _ I); auto.
    - eexists. split; [apply b_mes_av; eauto|]. intros W HW. apply (mes_av_iso _ _ _ _ _ _ _ I); auto.
    - eexists. split; [apply b_mes_short; eauto|]. intros W HW. apply (mes_none_iso _ _ _ _ _ _ _ I); auto.
    - eexists. split; [apply b_enestroem; eauto|]. intros W HW. apply (enestroem_iso _ _ _ _ _ _ _ I); auto.
    - eexists. split; [apply b_consensus; eauto|]. intros W HW. apply (consensus_iso _ _ _ _ _ _ _ I); auto.
    - eexists. split; [apply b_trivial; eauto|]. intros W HW. apply (rn_committee _ _ _ _ _ _ _ I); auto.
    - eexists. split; [apply b_eph; eauto; rewrite (iso_m _ _ _ _ _ _ _ I); auto|]. intros W HW. apply (eph_iso _ _ _ _ _ _ _ I); auto.
  Qed.
End Transport.

(** ** From [renamed] to [iso] *)
Lemma inverse_exists : forall n f, (forall i, i < n -> f i < n) -> (forall i j, i < n -> j < n -> f i = f j -> i = j) ->
  exists g, forall i, i < n -> (g i < n /\ f (g i) = i) /\ g (f i) = i.
Proof.
  intros n f H1 H2.
  assert (HS : bSurjective n f) by (apply bInjective_bSurjective; auto).
  destruct (bSurjective_bBijective H1 HS) as (g & Hg & HE). exists g. intros i Hi. destruct (HE i Hi) as [E1 E2]. auto.
Qed.
Lemma NoDup_map_in : forall (A B : Type) (f : A -> B) l, (forall a b, In a l -> In b l -> f a = f b -> a = b) -> NoDup l -> NoDup (map f l).
Proof.
  intros A B f l H N. induction N as [|a l Hn N IH]; cbn; constructor; [|apply IH; intros; apply H; auto; right; auto].
  rewrite in_map_iff. intros (b & E & Hb). apply H in E; [subst; auto|right; auto|left; auto].
Qed.
Lemma Forall2_nth2 : forall (A B : Type) (R : A -> B -> Prop) l l' a b i, Forall2 R l l' -> i < length l -> R (nth i l a) (nth i l' b).
Proof. intros A B R l l' a b i H. revert i. induction H; intros i Hi; [cbn in Hi; lia|]. destruct i; cbn; auto. apply IHForall2. cbn in Hi. lia. Qed.

Lemma renamed_iso : forall x s p q, wf p -> (0 < x)%Q -> renamed x s p q ->
  exists t r r', iso p q s t r r' x /\ forall i, i < length (voters p) -> weight_is_int (the_voter q (r i)) = weight_is_int (the_voter p i).
Proof.
  intros x s p q Hw Hx (Hm & (Hs1 & Hs2) & vs & HP & HF).
  destruct (inverse_exists _ _ Hs1 Hs2) as (t & Ht).
  apply Permutation_sym in HP. pose proof (proj1 (Permutation_nth (voters q) vs (mkVoter [] 1 true)) HP) as (Hlen & f & Hf1 & Hf2 & Hf3).
  assert (Hl : length (voters p) = length vs) by (clear - HF; induction HF; cbn; auto). assert (Hn : length (voters q) = length (voters p)) by lia.
  destruct (inverse_exists (length (voters q)) f) as (g & Hg); [exact Hf1|intros i j Hi Hj E; apply Hf2; auto|].
  assert (HV : forall i, i < length (voters p) -> renamed_voter x s (the_voter p i) (the_voter q (f i))).
  { intros i Hi. unfold the_voter. rewrite <- Hf3 by lia. apply Forall2_nth2; auto. }
  pose proof Hw as [H0 HFo]. rewrite Forall_forall in HFo.
  assert (Hvp : forall i, i < length (voters p) -> wf_voter (num_cand p) (the_voter p i)) by (intros; apply HFo; apply nth_In; auto).
  exists t, f, g. split.
  - constructor; auto.
    + split; [lia|]. apply Forall_forall. intros u Hu. destruct (In_nth _ _ (mkVoter [] 1 true) Hu) as (j & Hj & <-).
      destruct (Hg j Hj) as [[H1 H2] _]. rewrite <- H2. change (wf_voter (num_cand q) (the_voter q (f (g j)))). rewrite Hn in H1.
      destruct (HV (g j) H1) as (HA & HW & _). destruct (Hvp (g j) H1) as (N & R & P). rewrite Forall_forall in R. split; [|split].
      * eapply Permutation_NoDup; [exact HA|]. apply NoDup_map_in; auto.
      * rewrite Hm. apply (Permutation_Forall HA). apply Forall_forall. intros d Hd. apply in_map_iff in Hd. destruct Hd as (c & <- & Hc). auto.
      * rewrite HW. nra.
    + intros c Hc. destruct (Ht c Hc) as [_ E]. auto.
    + intros c Hc. destruct (Ht c Hc) as [E _]. auto.
    + intros i Hi. rewrite <- Hn in *. destruct (Hg i Hi) as [_ E]. auto.
    + intros i Hi. rewrite <- Hn in *. destruct (Hg i Hi) as [E _]. auto.
    + intros i c Hi Hc. destruct (HV i Hi) as (HA & _). destruct (Hvp i Hi) as (_ & R & _). rewrite Forall_forall in R.
      unfold likes, approves. apply eq_true_iff_eq. rewrite !mem_In. split.
      * intros H. apply (Permutation_in _ (Permutation_sym HA)) in H. apply in_map_iff in H. destruct H as (d & E & Hd). apply Hs2 in E; auto. subst. auto.
      * intros H. apply (Permutation_in _ HA). apply in_map. auto.
    + intros i Hi. destruct (HV i Hi) as (_ & HW & _). exact HW.
  - intros i Hi. destruct (HV i Hi) as (_ & _ & HI). exact HI.
Qed.

Lemma rn_back_small : forall p q s t r r' x k W, iso p q s t r r' x -> is_small_committee p k W -> rn t (rn s W) = W.
Proof.
  intros p q s t r r' x k W I (A & L & R). apply (rn_back _ _ _ _ _ _ _ I (length W)). split; auto.
Qed.

Theorem isomorphic_results : forall rnd nx sv rnd' nx' sv' e p q x s k id alg,
  libraries_ok p rnd nx sv e -> libraries_ok q rnd' nx' sv' e -> (0 < x)%Q -> renamed x s p q ->
  listed e p k id alg \/ listed_short e id alg -> (id = "sav" -> fraction_weights p) ->
  (granular p <-> granular q) -> (enough_support p k <-> enough_support q k) -> ((x == 1)%Q \/ ~ In id scale_dependent) ->
  valid_call p k false None ->
  exists l l', compute rnd nx (with_solvers nx sv e) id p (Z.of_nat k) None (args alg false None) = Ok l /\
    compute rnd' nx' (with_solvers nx' sv' e) id q (Z.of_nat k) None (args alg false None) = Ok l' /\
    Permutation (map (rename s) l) l' /\ in_printed_order l /\ in_printed_order l' /\ Forall ascending l /\ Forall ascending l' /\ NoDup l /\ NoDup l'.
Proof.
  intros rnd nx sv rnd' nx' sv' e p q x s k id alg Hlp Hlq Hx0 Hr Hl Hsav Hg He Hx Hc. pose proof Hc as (Hw & Hv & Hk & _).
  destruct (renamed_iso _ _ _ _ Hw Hx0 Hr) as (t & r & r' & I & flags). pose proof (iso_sym _ _ _ _ _ _ _ I) as J.
  assert (flags' : forall i, i < length (voters q) -> weight_is_int (the_voter p (r' i)) = weight_is_int (the_voter q i)).
  { intros i Hi. rewrite (iso_n _ _ _ _ _ _ _ I) in Hi. destruct (iso_r' _ _ _ _ _ _ _ I i Hi) as [H1 H2]. rewrite <- flags, H2 by auto. auto. }
  assert (Hcq : valid_call q k false None).
  { split; [apply (iso_wq _ _ _ _ _ _ _ I)|]. split; [|split; auto; rewrite (iso_m _ _ _ _ _ _ _ I); auto].
    intros E. pose proof (iso_n _ _ _ _ _ _ _ I) as En. rewrite E in En. destruct (voters p); [congruence|discriminate]. }
  pose proof Hcq as (Hwq & Hvq & Hkq & _).
  destruct (listed_listed_by nx e p k id alg Hw Hv Hl) as (P & HP).
  destruct (listed_by_iso e p q s t r r' x I flags k id alg P HP Hsav (proj1 Hg) (proj1 He) Hx) as (P' & HP' & T).
  assert (Hsav' : id = "sav" -> fraction_weights q) by (intros E; eapply fraction_iso; eauto).
  assert (Hx' : (1 / x == 1)%Q \/ ~ In id scale_dependent) by (destruct Hx as [Hx|Hx]; [left; rewrite Hx; reflexivity|auto]).
  destruct (listed_by_iso e q p t s r' r (1 / x) J flags' k id alg P' HP' Hsav' (proj2 Hg) (proj2 He) Hx') as (P'' & HP'' & T').
  destruct (listed_by_determined rnd nx sv e p k id alg P Hlp HP Hw Hv Hk false None Hc) as (l & El & Nl & Sl & H1 & H2).
  destruct (listed_by_determined rnd nx sv e p k id alg P'' Hlp HP'' Hw Hv Hk false None Hc) as (l2 & El2 & _ & _ & _ & H2'').
  destruct (listed_by_determined rnd' nx' sv' e q k id alg P' Hlq HP' Hwq Hvq Hkq false None Hcq) as (l' & El' & Nl' & Sl' & H1' & H2').
  rewrite El in El2. injection El2 as <-.
  exists l, l'. split; auto. split; auto. split.
  2:{ split; [auto|]. split; [auto|]. split; [|split; [|auto]]; apply Forall_forall; intros W HW; [eapply (listed_by_committee e p k id alg P HP); auto|eapply (listed_by_committee e q k id alg P' HP'); auto]. }
  apply NoDup_Permutation; auto.
  - apply NoDup_map_in; auto. intros W V HW HV E. unfold rename in E.
    assert (HB : forall V, In V l -> rn t (rn s V) = V) by (intros V' HV'; apply (rn_back_small _ _ _ _ _ _ _ k V' I); apply (listed_by_committee e p k id alg P HP); auto).
    rewrite <- (HB W), <- (HB V) by auto. unfold rn. rewrite E. auto.
  - intros U. rewrite in_map_iff. split.
    + intros (W & <- & HW). apply H2', T, H1. auto.
    + intros HU. exists (rn t U). split; [apply (rn_back_small _ _ _ _ _ _ _ k U J); eapply listed_by_committee; eauto|]. apply H2'', T', H1'. auto.
Qed.

Theorem renamed_results : forall rnd nx sv rnd' nx' sv' e p q s k id alg,
  libraries_ok p rnd nx sv e -> libraries_ok q rnd' nx' sv' e -> renamed 1 s p q ->
  listed e p k id alg \/ listed_short e id alg -> (id = "sav" -> fraction_weights p) -> valid_call p k false None ->
  exists l l', compute rnd nx (with_solvers nx sv e) id p (Z.of_nat k) None (args alg false None) = Ok l /\
    compute rnd' nx' (with_solvers nx' sv' e) id q (Z.of_nat k) None (args alg false None) = Ok l' /\
    Permutation (map (rename s) l) l' /\ in_printed_order l /\ in_printed_order l' /\ Forall ascending l /\ Forall ascending l' /\ NoDup l /\ NoDup l'.
Proof.
  intros rnd nx sv rnd' nx' sv' e p q s k id alg Hlp Hlq Hr Hl Hsav Hc. pose proof Hc as (Hw & _).
  assert (H01 : (0 < 1)%Q) by lra. destruct (renamed_iso _ _ _ _ Hw H01 Hr) as (t & r & r' & I & _). pose proof (iso_sym _ _ _ _ _ _ _ I) as J.
  assert (E1 : (1 == 1)%Q) by reflexivity. assert (E2 : (1 / 1 == 1)%Q) by reflexivity.
  eapply isomorphic_results with (x := 1%Q); eauto; [split; intros; eapply granular_iso; eauto|split; intros; eapply enough_iso; eauto].
Qed.

Lemma reordered_renamed : forall p q, reordered p q -> renamed 1 (fun c => c) p q.
Proof.
  intros p q (Hm & vs & HP & HF). split; auto. split; [split; auto|].
  destruct (Permutation_Forall2 (Permutation_sym HP) HF) as (ws & H1 & H2). exists ws. split; [apply Permutation_sym; auto|].
  clear - H2. induction H2 as [|v u l l' (A & B & C)]; constructor; auto. split; [rewrite map_id; auto|]. split; auto. rewrite <- B. ring.
Qed.

Theorem reordered_results : forall rnd nx sv rnd' nx' sv' e p q k id alg,
  libraries_ok p rnd nx sv e -> libraries_ok q rnd' nx' sv' e -> reordered p q ->
  listed e p k id alg \/ listed_short e id alg -> (id = "sav" -> fraction_weights p) -> valid_call p k false None ->
  exists l, compute rnd nx (with_solvers nx sv e) id p (Z.of_nat k) None (args alg false None) = Ok l /\
    compute rnd' nx' (with_solvers nx' sv' e) id q (Z.of_nat k) None (args alg false None) = Ok l.
Proof.
  intros rnd nx sv rnd' nx' sv' e p q k id alg Hlp Hlq Hr Hl Hsav Hc.
  destruct (renamed_results _ _ _ _ _ _ _ _ _ _ _ _ _ Hlp Hlq (reordered_renamed _ _ Hr) Hl Hsav Hc) as (l & l' & E & E' & HP & S & S' & A & A' & N & N').
  exists l. split; [exact E|]. rewrite E'. f_equal. symmetry.
  assert (Em : map (rename (fun c => c)) l = l).
  { rewrite <- (map_id l) at 2. apply map_ext_in. intros W HW. unfold rename. rewrite map_id. apply isort_id. rewrite Forall_forall in A. auto. }
  rewrite Em in HP. apply sorted_same_elements; auto; intros W; split; apply Permutation_in; auto using Permutation_sym.
Qed.

Lemma scaled_renamed : forall x p q, scaled x p q -> renamed x (fun c => c) p q.
Proof.
  intros x p q (Hm & HF). split; auto. split; [split; auto|]. exists (voters q). split; auto.
  clear - HF. induction HF as [|v u l l' (A & B & C)]; constructor; auto. split; [rewrite map_id, A; auto|auto].
Qed.
Theorem scaled_results : forall rnd nx sv rnd' nx' sv' e p q x k id alg,
  libraries_ok p rnd nx sv e -> libraries_ok q rnd' nx' sv' e -> (0 < x)%Q -> scaled x p q ->
  listed e p k id alg \/ listed_short e id alg -> ~ In id scale_dependent -> (id = "sav" -> fraction_weights p) ->
  (granular p <-> granular q) -> (enough_support p k <-> enough_support q k) -> valid_call p k false None ->
  exists l, compute rnd nx (with_solvers nx sv e) id p (Z.of_nat k) None (args alg false None) = Ok l /\
    compute rnd' nx' (with_solvers nx' sv' e) id q (Z.of_nat k) None (args alg false None) = Ok l.
Proof.
  intros rnd nx sv rnd' nx' sv' e p q x k id alg Hlp Hlq Hx Hr Hl Hn Hsav Hg He Hc.
  destruct (isomorphic_results _ _ _ _ _ _ _ _ _ _ _ _ _ _ Hlp Hlq Hx (scaled_renamed _ _ _ Hr) Hl Hsav Hg He (or_intror Hn) Hc) as (l & l' & E & E' & HP & S & S' & A & A' & N & N').
  exists l. split; [exact E|]. rewrite E'. f_equal. symmetry.
  assert (Em : map (rename (fun c => c)) l = l).
  { rewrite <- (map_id l) at 2. apply map_ext_in. intros W HW. unfold rename. rewrite map_id. apply isort_id. rewrite Forall_forall in A. auto. }
  rewrite Em in HP. apply sorted_same_elements; auto; intros W; split; apply Permutation_in; auto using Permutation_sym.
Qed.

(** ** One candidate: its maximin support is its support *)
Lemma single_inter : forall l c, NoDup l -> inter l [c] <> [] -> inter l [c] = [c].
Proof.
  intros l c N. unfold inter. induction N as [|a l Hn N IH]; [intros H; exfalso; apply H; reflexivity|].
  cbn [filter mem existsb]. destruct (Nat.eqb_spec a c) as [->|_]; cbn [orb]; [|exact IH]. intros _. f_equal.
  clear - Hn. induction l as [|d l IH]; auto. cbn [filter mem existsb]. destruct (Nat.eqb_spec d c) as [->|_]; [exfalso; apply Hn; left; auto|].
  cbn [orb]. apply IH. intros H. apply Hn. right. auto.
Qed.
Lemma received_single : forall p c f, wf p -> support_distribution p [c] f -> (received p f c == support p c)%Q.
Proof.
  intros p c f Hw [_ H]. unfold received. rewrite positions_fans. cbn [fst].
  assert (E : support p c = Qsum (map (fun i => weight (the_voter p i)) (fans p c))) by (unfold support, wsum; rewrite supporters_fans, map_map; reflexivity).
  rewrite E. unfold sum. apply Qsum_map_ext. intros i Hi. unfold fans in Hi. apply filter_In in Hi. destruct Hi as [Hi Hl]. unfold voter_ids in Hi. apply in_seq in Hi.
  assert (Hin : inter (approved (the_voter p i)) [c] = [c]).
  { assert (Hv : wf_voter (num_cand p) (the_voter p i)) by (destruct Hw as [_ HF]; rewrite Forall_forall in HF; apply HF, nth_In; lia). destruct Hv as (N & _ & _).
    apply single_inter; auto. unfold likes, approves in Hl. apply mem_In in Hl. intros E0. assert (Hc : In c (inter (approved (the_voter p i)) [c])); [|rewrite E0 in Hc; destruct Hc].
    unfold inter. apply filter_In. split; auto. cbn. rewrite Nat.eqb_refl. auto. }
  specialize (H i (the_voter p i)). rewrite In_positions, Hin in H. specialize (H (conj (proj2 Hi) eq_refl) ltac:(discriminate)). cbn in H. rewrite <- H. ring.
Qed.
