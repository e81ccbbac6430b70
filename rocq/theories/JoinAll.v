(** * C67, C68: the calls *)
From Coq Require Import String.
From Coq Require Import List Arith Bool ZArith QArith Lia Lqa Permutation Sorted.
From Verif Require Import Milp RulesSolver SpecLoads SolverCompute SolverLex RulesMonroe RulesMore SolverMore.
From Verif Require Import Prelude Misc Common MiscProofs Preferences Scores ScoresProofs Rule Spec SpecRules Compute SpecCompute SpecSeq
  SpecMonroe ComputeProofs Guarantees ComputeAll SpecAll AllProofs Mono TieBreak SpecVary Vary VaryAll Join.
Import ListNotations.
Local Open Scope string_scope.
Open Scope nat_scope.
Local Open Scope list_scope.

Section JoinAll.
  Variable rnd : random.
  Variable nx : networkx.
  Variable sv : solvers.
  Variable e : env.
  Let e' := with_solvers nx sv e.

  Lemma joined_sub : forall p q r (P : voter -> Prop), joined p q r -> Forall P (voters r) -> Forall P (voters p) /\ Forall P (voters q).
  Proof using. intros p q r P (_ & _ & ->) H. apply Forall_app in H. auto. Qed.
  Lemma joined_granular : forall p q r, joined p q r -> granular r -> granular p /\ granular q.
  Proof using.
    intros p q r (_ & _ & E) (u & Hu & H). rewrite E in H. split; exists u; split; auto; intros v Hv; apply H, in_or_app; auto.
  Qed.
  Lemma joined_valid : forall p q r k, joined p q r -> valid_call p k false None -> valid_call q k false None -> valid_call r k false None.
  Proof using.
    intros p q r k (E1 & E2 & E3) ((A1 & A2) & B & C & _) ((A3 & A4) & _). split; [split|split; [|split; auto]].
    - rewrite E2. auto.
    - rewrite E3. apply Forall_app. rewrite E2. split; auto. rewrite E1 in A4. auto.
    - rewrite E3. destruct (voters p); [congruence|discriminate].
    - rewrite E2. auto.
  Qed.
  Lemma additive_listed : forall p q r k id alg, joined p q r -> additive_rule e r id alg ->
    exists P Q R, listed_by e p k id alg P /\ listed_by e q k id alg Q /\ listed_by e r k id alg R /\ consistent P Q R.
  Proof using.
    intros p q r k id alg HJ Ha.
    Ltac three P Q R := exists P, Q, R; split; [|split; [|split]].
    Ltac max3 p q r k s t u := three (maximises s p k) (maximises t q k) (maximises u r k).
    destruct Ha.
    - max3 p q r k (fun W => Qsum (map (support p) W)) (fun W => Qsum (map (support q) W)) (fun W => Qsum (map (support r) W)); try apply b_av.
      apply maximises_join; auto. intros W. apply sum_over_join. intros c. apply support_join. auto.
    - destruct (joined_sub p q r _ HJ H) as [Hp Hq].
      max3 p q r k (fun W => Qsum (map (sav_support p) W)) (fun W => Qsum (map (sav_support q) W)) (fun W => Qsum (map (sav_support r) W)); try (apply b_sav; auto).
      apply maximises_join; auto. intros W. apply sum_over_join. intros c. apply sav_support_join. auto.
    - max3 p q r k (Thiele f p) (Thiele f q) (Thiele f r); try (eapply b_thiele; eauto). apply maximises_join; auto. intros W. apply thiele_join. auto.
    - max3 p q r k (Thiele f p) (Thiele f q) (Thiele f r); try (eapply b_thiele_bb; eauto). apply maximises_join; auto. intros W. apply thiele_join. auto.
    - max3 p q r k (Thiele f p) (Thiele f q) (Thiele f r); try (eapply b_thiele_mip; eauto). apply maximises_join; auto. intros W. apply thiele_join. auto.
    - destruct (joined_sub p q r _ HJ H) as [Hp Hq].
      max3 p q r k (Thiele cc_w p) (Thiele cc_w q) (Thiele cc_w r); try (apply b_cc_cp; auto). apply maximises_join; auto. intros W. apply thiele_join. auto.
    - three (lexcc_winner p k) (lexcc_winner q k) (lexcc_winner r k); try apply b_lexcc. apply lexcc_join. auto.
    - destruct (joined_granular p q r HJ H) as [Hp Hq].
      three (lexcc_winner p k) (lexcc_winner q k) (lexcc_winner r k); try (apply b_lexcc_gurobi; auto). apply lexcc_join. auto.
    - destruct (joined_sub p q r _ HJ H) as [Hp Hq].
      three (lexminimaxav_winner p k) (lexminimaxav_winner q k) (lexminimaxav_winner r k); try (apply b_lexminimaxav; auto). apply lexminimaxav_join. auto.
    - three (is_committee p k) (is_committee q k) (is_committee r k); try apply b_trivial. intros _ W. destruct (join_committee p q r HJ k W). tauto.
  Qed.

  Theorem joined_ok : forall p q r k id alg, joined p q r -> additive_rule e r id alg ->
    libraries_ok p rnd nx sv e -> libraries_ok q rnd nx sv e -> libraries_ok r rnd nx sv e -> valid_call p k false None -> valid_call q k false None ->
    exists l l' l'', compute rnd nx e' id p (Z.of_nat k) None (args alg false None) = Ok l /\
      compute rnd nx e' id q (Z.of_nat k) None (args alg false None) = Ok l' /\
      compute rnd nx e' id r (Z.of_nat k) None (args alg false None) = Ok l'' /\
      ((exists W, In W l /\ In W l') -> forall W, In W l'' <-> In W l /\ In W l').
  Proof using.
    intros p q r k id alg HJ Ha HLp HLq HLr Hcp Hcq. pose proof (joined_valid p q r k HJ Hcp Hcq) as Hcr.
    destruct (additive_listed p q r k id alg HJ Ha) as (P & Q & R & HP & HQ & HR & H).
    destruct (irresolute_list rnd nx sv e p k id alg P HLp HP Hcp) as (l & El & Hl). destruct (irresolute_list rnd nx sv e q k id alg Q HLq HQ Hcq) as (l' & El' & Hl').
    destruct (irresolute_list rnd nx sv e r k id alg R HLr HR Hcr) as (l'' & El'' & Hl'').
    exists l, l', l''. split; [exact El|]. split; [exact El'|]. split; [exact El''|]. intros (W & HW & HW') V. rewrite Hl, Hl', Hl''. apply H. exists W. rewrite <- Hl, <- Hl'. auto.
  Qed.
  Theorem joined_minimaxav_ok : forall p q r k alg, joined p q r -> In alg ["gurobi"; "mip-gurobi"; "mip-cbc"; "ortools-cp"; "brute-force"] ->
    libraries_ok p rnd nx sv e -> libraries_ok q rnd nx sv e -> libraries_ok r rnd nx sv e -> valid_call p k false None -> valid_call q k false None ->
    exists l l' l'', compute rnd nx e' "minimaxav" p (Z.of_nat k) None (args alg false None) = Ok l /\
      compute rnd nx e' "minimaxav" q (Z.of_nat k) None (args alg false None) = Ok l' /\
      compute rnd nx e' "minimaxav" r (Z.of_nat k) None (args alg false None) = Ok l'' /\
      forall W, In W l -> In W l' -> In W l''.
  Proof using.
    intros p q r k alg HJ Ha HLp HLq HLr Hcp Hcq. pose proof (joined_valid p q r k HJ Hcp Hcq) as Hcr.
    destruct (irresolute_list rnd nx sv e p k _ alg _ HLp (b_minimaxav e p k alg Ha) Hcp) as (l & El & Hl).
    destruct (irresolute_list rnd nx sv e q k _ alg _ HLq (b_minimaxav e q k alg Ha) Hcq) as (l' & El' & Hl').
    destruct (irresolute_list rnd nx sv e r k _ alg _ HLr (b_minimaxav e r k alg Ha) Hcr) as (l'' & El'' & Hl'').
    exists l, l', l''. split; [exact El|]. split; [exact El'|]. split; [exact El''|]. intros W. rewrite Hl, Hl', Hl''. apply minimaxav_join. auto.
  Qed.

  (** C68 *)
  Lemma refines_listed : forall p k id alg id' alg', refines e p id alg id' alg' -> valid_call p k false None ->
    exists P Q, listed_by e p k id alg P /\ listed_by e p k id' alg' Q /\ forall W, P W -> Q W.
  Proof using.
    intros p k id alg id' alg' H (Hw & Hne & Hk & _). destruct H as [alg alg' H H'|alg alg' Hu H H'].
    - exists (lexcc_winner p k), (maximises (Thiele cc_w p) p k). split; [|split].
      + destruct H as [->|[-> Hg]]; [apply b_lexcc|apply b_lexcc_gurobi; auto].
      + destruct H' as [->|[->|[Hi|[-> Hi]]]].
        * apply b_thiele with (f := cc_w); constructor.
        * apply b_thiele_bb with (f := cc_w); [constructor|]. intros i j Hi Hij. unfold cc_w. destruct (Nat.eqb_spec i 1), (Nat.eqb_spec j 1); try lra. lia.
        * apply b_thiele_mip with (f := cc_w); [constructor|apply cc_decreasing|auto].
        * apply b_cc_cp. auto.
      + intros W. apply lexcc_refines; auto. lia.
    - exists (lexminimaxav_winner p k), (minimaxav_winner p k). split; [apply b_lexminimaxav; auto|]. split; [apply b_minimaxav; auto|]. intros W. apply lexminimaxav_refines; auto.
  Qed.
  Theorem refines_ok : forall p k id alg id' alg', refines e p id alg id' alg' -> libraries_ok p rnd nx sv e -> valid_call p k false None ->
    exists l l', compute rnd nx e' id p (Z.of_nat k) None (args alg false None) = Ok l /\
      compute rnd nx e' id' p (Z.of_nat k) None (args alg' false None) = Ok l' /\ incl l l'.
  Proof using.
    intros p k id alg id' alg' H HL Hc. destruct (refines_listed p k id alg id' alg' H Hc) as (P & Q & HP & HQ & HI).
    destruct (irresolute_list rnd nx sv e p k id alg P HL HP Hc) as (l & El & Hl). destruct (irresolute_list rnd nx sv e p k id' alg' Q HL HQ Hc) as (l' & El' & Hl').
    exists l, l'. split; [exact El|]. split; [exact El'|]. intros W. rewrite Hl, Hl'. auto.
  Qed.
End JoinAll.
