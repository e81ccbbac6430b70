(** * How much of the optimum the rules of the library reach (C91) *)
From Coq Require Import String.
From Coq Require Import List Arith Bool ZArith QArith Lia Lqa Permutation Setoid.
From Verif Require Import Milp RulesSolver SpecLoads SolverCompute SolverLex RulesMonroe RulesMore SolverMore.
From Verif Require Import Prelude Misc Common MiscProofs Preferences Scores ScoresProofs Rule Spec SpecRules Compute SpecCompute SpecSeq SpecAxioms
  Checks ChecksProofs ComputeProofs ThieleProofs RevseqProofs BBProofs Guarantees ComputeAll SpecAll AllProofs SpecJR ThieleJR ThieleRules Approx.
Import ListNotations.
Local Open Scope string_scope.
Open Scope nat_scope.
Local Open Scope list_scope.

Lemma represented_weight : forall p W, (at_least_weight p W 1 == Qsum (map (fun v => weight v * I (covered v W)) (voters p)))%Q.
Proof.
  intros p W. unfold at_least_weight, wsum. rewrite Qsum_filter. apply Qsum_map_ext. intros v _. unfold covered, I. destruct (1 <=? util v W); lra.
Qed.
Theorem optimal_represents : forall f p k W V, wf p -> (forall i, 1 <= i -> (0 <= f i)%Q) -> (0 < f 1%nat)%Q -> (forall j, 1 <= j -> (Qnat j * f j <= f 1%nat)%Q) ->
  1 <= k -> maximises (Thiele f p) p k W -> is_committee p k V ->
  (Qnat k * at_least_weight p V 1 <= (2 * Qnat k - 1) * at_least_weight p W 1)%Q.
Proof.
  intros f p k W V Hw H0 H1 HJ Hk HM HV. rewrite !represented_weight. apply (represented_bound (from_one f) p k W); auto.
  - intros [|i]; unfold from_one; cbn; [lra|apply H0; lia].
  - intros j Hj. unfold from_one. destruct (Nat.eqb_spec j 0); [lia|]. cbn. apply HJ; auto.
  - apply from_one_maximises. exact HM.
Qed.

Section Calls.
  Variables (rnd : random) (nx : networkx) (sv : solvers) (e : env).
  Notation call p k id alg resolute maxn := (compute rnd nx (with_solvers nx sv e) id p (Z.of_nat k) None (args alg resolute maxn)).
  Theorem seq_score : forall p k id f resolute maxn l W V, denotes e id f -> non_increasing f -> libraries_ok p rnd nx sv e -> valid_call p k resolute maxn ->
    call p k ("seq" ++ id)%string "standard" resolute maxn = Ok l -> In W l -> is_committee p k V ->
    exists best s, score_of_id e id p V = Ok best /\ score_of_id e id p W = Ok s /\
      ((1 - Qpow (1 - 1 / Qnat k) k) * best <= s)%Q /\ ((63 # 100) * best <= s)%Q.
  Proof using.
    intros p k id f resolute maxn l W V Hf Hd HL Hc E Hin HV. pose proof Hc as (Hw & Hv & Hk & _).
    assert (M : seq_thiele_winner f p k W).
    { eapply answers_In; [|exact E|exact Hin]. exact (listed_by_determined rnd nx sv e p k _ _ _ HL (b_seq e p k id f Hf) Hw Hv Hk resolute maxn Hc). }
    destruct (seq_guarantee f p k W V Hw (denotes_nonneg e id f Hf) Hd (proj1 Hk) M HV) as [A B].
    destruct (score_of_id_correct e id f p V (sden_thiele e id f Hf) Hw) as (b & Eb & Hb). destruct (score_of_id_correct e id f p W (sden_thiele e id f Hf) Hw) as (s & Es & Hs).
    exists b, s. split; [exact Eb|]. split; [exact Es|]. rewrite Hb, Hs. auto.
  Qed.
  Theorem optimises_represents : forall p k id alg f resolute maxn l W V, optimises e p id alg f -> (forall j, 1 <= j -> (Qnat j * f j <= f 1%nat)%Q) ->
    libraries_ok p rnd nx sv e -> valid_call p k resolute maxn -> call p k id alg resolute maxn = Ok l -> In W l -> is_committee p k V ->
    exists best s, score_of_id e "cc" p V = Ok best /\ score_of_id e "cc" p W = Ok s /\ (Qnat k * best <= (2 * Qnat k - 1) * s)%Q.
  Proof using.
    intros p k id alg f resolute maxn l W V Ho HJ HL Hc E Hin HV. pose proof Hc as (Hw & Hv & Hk & _).
    pose proof (optimises_maximises rnd nx sv e p k id alg f resolute maxn l W Ho HL Hc E Hin) as M. destruct (optimises_nonneg _ _ _ _ _ Ho) as [H0 H1].
    pose proof (optimal_represents f p k W V Hw H0 H1 HJ (proj1 Hk) M HV) as B. rewrite !at_least_one in B.
    destruct (score_of_id_correct e "cc" cc_w p V (sden_thiele e _ _ (den_cc e)) Hw) as (b & Eb & Hb). destruct (score_of_id_correct e "cc" cc_w p W (sden_thiele e _ _ (den_cc e)) Hw) as (s & Es & Hs).
    exists b, s. split; [exact Eb|]. split; [exact Es|]. rewrite Hb, Hs. exact B.
  Qed.
End Calls.
