(** * More approvals (C66): minimax Phragmén *)
From Coq Require Import String.
From Coq Require Import List Arith Bool ZArith QArith Lia Lqa Permutation Sorted.
From Verif Require Import Milp MilpProofs SolverProofs RulesSolver SpecLoads SolverPhragmen SolverCompute SolverLex IsoSeq.
From Verif Require Import Prelude Misc Common MiscProofs Preferences Scores ScoresProofs Spec SpecRules Compute SpecCompute SpecSeq SpecAxioms
  SpecMonroe PhragmenProofs MesProofs MesFinal ComputeProofs Guarantees Proportional
  ComputeAll SpecAll AllProofs Mono TieBreak ProfileFacts SpecVary Vary VaryRuns.
Import ListNotations.
Local Open Scope string_scope.
Open Scope nat_scope.
Local Open Scope list_scope.

(** the smallest possible load exists *)
Lemma min_load_exists : forall p k, wf p -> weights_at_least_one p -> voters p <> [] -> k <= length (approved_candidates p) -> 1 <= k <= num_cand p ->
  (exists W b, is_committee p k W /\ max_load p W b) ->
  exists W b, is_committee p k W /\ max_load p W b /\ forall W' b', is_committee p k W' -> max_load p W' b' -> (b <= b')%Q.
Proof.
  intros p k Hw Hone Hne Hap Hk (W1 & b1 & HW1 & Hb1). destruct (ref_solvers_exact p) as (H & _).
  pose proof (minimaxphragmen_solves (gurobi (ref_solvers p)) p k H [] (Forall_nil _)) as HS. set (m := minimaxphragmen_program p k) in *.
  assert (Em : forall x, feasible (excluding k m []) x <-> feasible m x).
  { intros x. unfold feasible, excluding. cbn. rewrite ?app_nil_r. tauto. }
  unfold correct_on in HS. destruct (gurobi (ref_solvers p) (excluding k m [])) as [x| |].
  - destruct HS as [Hx Hopt]. apply Em in Hx. exists (members p x), (- ev x (objective m))%Q. split; [apply (mmp_size p k); auto|]. split.
    + apply (mmp_max_load p k Hw). exists x. repeat split; auto; try apply Hx; reflexivity.
    + intros W' b' HW' Hb'. destruct (mmp_achieves p k Hw Hone Hne Hap W' b' HW' Hb') as (b2 & Hle & (y & Hy & _ & Ey)).
      specialize (Hopt y (proj2 (Em y) Hy)). cbn in Hopt, Ey |- *. unfold m in *. cbn in *. lra.
  - exfalso. destruct (mmp_achieves p k Hw Hone Hne Hap W1 b1 HW1 Hb1) as (b2 & _ & (y & Hy & _)). apply (HS y). apply Em. auto.
  - exfalso. destruct (HS 0%Q) as (y & Hy & Hlt). apply Em in Hy. destruct Hy as [Fd _]. rewrite Forall_forall in Fd.
    destruct (Fd (mkDecl LoadBound Continuous (Some 0%Q) (Some (Qnat k)))) as (_ & HL & _).
    { apply in_or_app. right. apply in_or_app. right. left. auto. } cbn in HL, Hlt. rewrite ?ev_scale, ?ev_var in Hlt. lra.
Qed.

Section LoadGains.
  Variables (p q : profile) (c : nat).
  Hypothesis Hwp : wf p.
  Hypothesis Hwq : wf q.
  Hypothesis Hg : gains c p q.

  Lemma max_load_gain : forall W b, max_load p W b -> max_load q W b.
  Proof using Hwp Hwq Hg.
    intros W b (l & [L0 L1] & Hb). exists (fun i d => if likes p i d then l i d else 0%Q). split; [split|].
    - intros i d. destruct (likes p i d); [apply L0|lra].
    - intros d Hd. rewrite positions_fans. cbn [fst snd]. rewrite <- (L1 d Hd), positions_fans. cbn [fst snd].
      assert (Hinc : incl (fans p d) (fans q d)).
      { intros i Hi. apply in_fans in Hi as [Hi Hl]. apply in_fans. rewrite (gains_len p q c Hg). split; auto. apply (likes_gain p q c Hg). auto. }
      apply Qle_antisym.
      + rewrite (sum_split (fun i => likes p i d) (fans q d)).
        assert (E : (sum (filter (fun i => negb (likes p i d)) (fans q d)) (fun i => weight (the_voter q i) * (if likes p i d then l i d else 0)) == 0)%Q).
        { rewrite (sum_ext _ _ (fun _ => 0%Q)); [apply sum_const0|]. intros i Hi. apply filter_In in Hi as [_ Hi]. destruct (likes p i d); [discriminate|ring]. }
        rewrite E. eapply Qle_trans with (y := sum (filter (fun i => likes p i d) (fans q d)) (fun i => weight (the_voter p i) * l i d)%Q).
        * rewrite Qplus_0_r. apply sum_le. intros i Hi. apply filter_In in Hi as [_ Hi]. rewrite Hi. pose proof (w_gain p q c Hg i) as Ew. unfold w in Ew. rewrite Ew. apply Qle_refl.
        * apply sum_incl_le; [apply NoDup_filter, fans_NoDup|apply fans_NoDup| |].
          -- intros i Hi. apply filter_In in Hi as [Hi Hl]. apply in_fans in Hi as [Hi _]. apply in_fans. rewrite <- (gains_len p q c Hg). auto.
          -- intros i Hi. apply in_fans in Hi as [Hi _]. apply Qmult_le_0_compat; [apply Qlt_le_weak, (w_pos p i Hwp Hi)|apply L0].
      + eapply Qle_trans; [|apply (sum_incl_le (fans p d))]; [|apply fans_NoDup|apply fans_NoDup|exact Hinc|].
        * apply sum_le. intros i Hi. apply in_fans in Hi as [_ Hl]. rewrite Hl. pose proof (w_gain p q c Hg i) as Ew. unfold w in Ew. rewrite Ew. apply Qle_refl.
        * intros i Hi. apply in_fans in Hi as [Hi _]. apply Qmult_le_0_compat; [apply Qlt_le_weak, (w_pos q i Hwq Hi)|]. destruct (likes p i d); [apply L0|lra].
    - intros i v Hi. apply In_positions in Hi as [Hi ->]. rewrite (gains_len p q c Hg) in Hi.
      specialize (Hb i (the_voter p i)). rewrite In_positions in Hb. specialize (Hb (conj Hi eq_refl)). eapply Qle_trans; [|exact Hb].
      unfold voter_load. change (sum (inter (approved (the_voter q i)) W) (fun d => if likes p i d then l i d else 0) <= sum (inter (approved (the_voter p i)) W) (l i))%Q.
      rewrite (sum_split (fun d => likes p i d) (inter (approved (the_voter q i)) W)).
      assert (E : (sum (filter (fun d => negb (likes p i d)) (inter (approved (the_voter q i)) W)) (fun d => if likes p i d then l i d else 0) == 0)%Q).
      { rewrite (sum_ext _ _ (fun _ => 0%Q)); [apply sum_const0|]. intros d Hd. apply filter_In in Hd as [_ Hd]. destruct (likes p i d); [discriminate|reflexivity]. }
      rewrite E, Qplus_0_r. eapply Qle_trans with (y := sum (filter (fun d => likes p i d) (inter (approved (the_voter q i)) W)) (l i)).
      + apply sum_le. intros d Hd. apply filter_In in Hd as [_ Hd]. rewrite Hd. apply Qle_refl.
      + assert (ND : forall o, wf o -> i < length (voters o) -> NoDup (approved (the_voter o i))).
        { intros o [_ HF] Ho. rewrite Forall_forall in HF. apply (HF (the_voter o i) (the_voter_In o i Ho)). }
        apply sum_incl_le.
        * apply NoDup_filter, NoDup_inter, ND; auto. rewrite (gains_len p q c Hg). auto.
        * apply NoDup_inter, ND; auto.
        * intros d Hd. apply filter_In in Hd as [Hd Hl]. apply inter_In in Hd as [_ Hd]. apply inter_In. split; auto. unfold likes, approves in Hl. apply mem_In in Hl. auto.
        * intros d _. apply L0.
  Qed.
  Lemma max_load_back : forall W b, ~ In c W -> max_load q W b -> max_load p W b.
  Proof using Hwp Hwq Hg.
    intros W b Hc (l & [L0 L1] & Hb). exists l. split; [split; auto|].
    - intros d Hd. assert (Hdc : d <> c) by (intros ->; auto). rewrite <- (L1 d Hd). rewrite !positions_fans. cbn [fst snd]. rewrite (fans_other p q c Hg d Hdc).
      apply sum_ext. intros i _. pose proof (w_gain p q c Hg i) as Ew. unfold w in Ew. rewrite Ew. reflexivity.
    - intros i v Hi. apply In_positions in Hi as [Hi ->]. specialize (Hb i (the_voter q i)). rewrite In_positions in Hb. rewrite (gains_len p q c Hg) in Hb. specialize (Hb (conj Hi eq_refl)).
      eapply Qle_trans; [|exact Hb]. unfold voter_load. change (sum (inter (approved (the_voter p i)) W) (l i) <= sum (inter (approved (the_voter q i)) W) (l i))%Q.
      assert (ND : forall o, wf o -> i < length (voters o) -> NoDup (approved (the_voter o i))).
      { intros o [_ HF] Ho. rewrite Forall_forall in HF. apply (HF (the_voter o i) (the_voter_In o i Ho)). }
      apply sum_incl_le.
      + apply NoDup_inter, ND; auto.
      + apply NoDup_inter, ND; auto. rewrite (gains_len p q c Hg). auto.
      + intros d Hd. apply inter_In in Hd as [Hd1 Hd2]. apply inter_In. split; auto.
        destruct (voter_gain p q c Hg i) as (_ & _ & H & H'). destruct (Nat.eq_dec d c) as [->|Hdc]; auto. apply H; auto.
      + intros d _. apply L0.
  Qed.
  Lemma approved_gain : length (approved_candidates p) <= length (approved_candidates q).
  Proof using Hg.
    destruct (profile_queries p) as (_ & _ & N & I). destruct (profile_queries q) as (_ & _ & N' & I').
    apply NoDup_incl_length; auto. intros d Hd. apply I in Hd as (v & Hv & Ha). apply I'.
    destruct (In_nth _ _ (mkVoter [] 1 true) Hv) as (i & Hi & E). fold (the_voter p i) in E. exists (the_voter q i). split; [apply the_voter_In; rewrite (gains_len p q c Hg); auto|].
    rewrite <- E in Ha. apply (likes_gain p q c Hg i d Ha).
  Qed.
  Lemma weights_gain : weights_at_least_one p -> weights_at_least_one q.
  Proof using Hg.
    intros H. pose proof Hg as [_ HF]. unfold weights_at_least_one in *. induction HF as [|v u l l' Hvu HF IH]; constructor; inversion H; subst; auto. destruct Hvu as (-> & _). auto.
  Qed.
  Lemma minimaxphragmen_gains : forall eps k W, (0 <= eps)%Q -> voters q <> [] -> weights_at_least_one p -> k <= length (approved_candidates p) -> 1 <= k <= num_cand p ->
    minimaxphragmen_winner eps p k W -> In c W -> exists V, minimaxphragmen_winner eps q k V /\ In c V.
  Proof using Hwp Hwq Hg.
    intros eps k W He Hv Hone Hap Hk (HW & b & Hb & Hmin) Hc. pose proof (gains_num p q c Hg) as Hm.
    assert (Hco : forall U, is_committee q k U <-> is_committee p k U) by (intros U; unfold is_committee; rewrite Hm; tauto).
    destruct (min_load_exists q k Hwq (weights_gain Hone) Hv) as (V & bv & HV & Hbv & Hbest).
    - pose proof approved_gain. lia.
    - lia.
    - exists W, b. split; [apply Hco; auto|apply max_load_gain; auto].
    - destruct (in_dec Nat.eq_dec c V) as [Hin|Hn].
      + exists V. split; auto. split; auto. exists bv. split; auto. intros W' b' HW' Hb'. specialize (Hbest W' b' HW' Hb'). lra.
      + exists W. split; auto. split; [apply Hco; auto|]. exists b. split; [apply max_load_gain; auto|]. intros W' b' HW' Hb'. specialize (Hbest W' b' HW' Hb').
        specialize (Hmin V bv (proj1 (Hco V) HV) (max_load_back V bv Hn Hbv)). lra.
  Qed.
End LoadGains.
