(** * [abcrules.compute] with the algorithm "float-fractions" (or the default, "fastest") *)
From Coq Require Import String.
From Coq Require Import List Arith Bool ZArith QArith Lia Lqa Permutation.
From Verif Require Import Prelude Misc MiscProofs Preferences Scores Spec SpecRules Rule Compute ComputeProofs SpecCompute SpecSeq ComputeSeq ComputeSeqProofs RulesSeq RulesMes RulesMonroe
  RulesMore Milp RulesSolver ComputeAll SpecAll PhragmenProofs AllProofs Floats RulesFloat FloatSearch FloatStruct SpecFloat FloatBounds FloatPhragmen FloatMesRun FloatIncrement Common.
Import ListNotations.
Local Open Scope string_scope.
Open Scope nat_scope.
Local Open Scope list_scope.

Section FloatCompute.
  Variables (A : arith) (rnd : random) (nx : networkx) (sv : solvers) (e : env).
  Let e' := with_solvers nx sv (with_floats A e).
  Variables (p : profile) (k : nat) (alg : string) (resolute : bool) (maxn : option pyobj).
  Hypothesis Halg : In alg ["float-fractions"; "fastest"].
  Hypothesis Hc : valid_call p k resolute maxn.

  Lemma run_floats : forall id r exact, lookup_rule e' id = Ok r -> algorithms r = FRACTION_ALGORITHMS ->
    existsb (Bool.eqb resolute) (resolute_values r) = true ->
    run e' id p (Z.of_nat k) alg resolute maxn (fun alg k maxn => with_fractions e' id alg p k resolute maxn (exact k maxn)) =
    float_rule A id p k resolute (limit maxn).
  Proof using Halg Hc.
    intros id r exact Hr Ha Hres. destruct Halg as [<-|[<-|[]]].
    - rewrite (run_ok e' id r p k "float-fractions" resolute maxn); [reflexivity|auto|auto|reflexivity|rewrite Ha; reflexivity|auto].
    - rewrite (run_fastest e' id r p k "float-fractions" resolute maxn); [reflexivity|auto|auto| |rewrite Ha; reflexivity|auto].
      unfold fastest_available_algorithm, rule_available. rewrite Ha. destruct (inst e') as [[] [] []]; reflexivity.
  Qed.
  Lemma compute_floats : forall id id', In (id, id')
      [("seqphragmen", "seqphragmen"); ("phragmen-enestroem", "phragmen-enestroem"); ("consensus-rule", "consensus-rule"); ("eph", "eph");
       ("rule-x", "equal-shares"); ("equal-shares", "equal-shares"); ("equal-shares-with-seqphragmen-completion", "equal-shares");
       ("equal-shares-with-av-completion", "equal-shares-with-av-completion");
       ("rule-x-without-phragmen-phase", "equal-shares-without-completion"); ("equal-shares-without-phragmen-phase", "equal-shares-without-completion");
       ("equal-shares-without-completion", "equal-shares-without-completion")] ->
    compute rnd nx e' id p (Z.of_nat k) None (args alg resolute maxn) = float_rule A id' p k resolute (limit maxn).
  Proof using Halg Hc.
    intros id id' Hin. unfold compute.
    assert (Hres : existsb (Bool.eqb resolute) [true; false] = true /\ existsb (Bool.eqb resolute) [false; true] = true) by (destruct resolute; auto).
    destruct Hres as [R1 R2].
    repeat (destruct Hin as [Hin|Hin]; [injection Hin as <- <-|]); [..|destruct Hin].
    all: match goal with |- (do r <- lookup_rule ?e ?id; _) = _ =>
           let Hr := fresh in assert (Hr : exists r, lookup_rule e id = Ok r) by (eexists; reflexivity); destruct Hr as (r & ->); cbn [rbind];
           transitivity (compute_fct rnd nx e id p (Z.of_nat k) (args alg resolute maxn)); [destruct (compute_fct rnd nx e id p (Z.of_nat k) (args alg resolute maxn)); reflexivity|] end.
    - apply (run_floats "seqphragmen" _ (fun k m => seqphragmen p k resolute m) eq_refl); [reflexivity|exact R1].
    - apply (run_floats "phragmen-enestroem" _ (fun k m => phragmen_enestroem p k resolute m) eq_refl); [reflexivity|exact R1].
    - apply (run_floats "consensus-rule" _ (fun k m => consensus_rule p k resolute m) eq_refl); [reflexivity|exact R1].
    - apply (run_floats "eph" _ (fun k m => do cs <- eph_algorithm p k resolute m; sorted_committees cs) eq_refl); [reflexivity|exact R2].
    - apply (run_floats "equal-shares" _ (fun k m => equal_shares_rule p k resolute m PhragmenCompletion) eq_refl); [reflexivity|exact R1].
    - apply (run_floats "equal-shares" _ (fun k m => equal_shares_rule p k resolute m PhragmenCompletion) eq_refl); [reflexivity|exact R1].
    - apply (run_floats "equal-shares" _ (fun k m => equal_shares_rule p k resolute m PhragmenCompletion) eq_refl); [reflexivity|exact R1].
    - apply (run_floats "equal-shares-with-av-completion" _ (fun k m => equal_shares_rule p k resolute m AvCompletion) eq_refl); [reflexivity|exact R1].
    - apply (run_floats "equal-shares-without-completion" _ (fun k m => equal_shares_rule p k resolute m NoCompletion) eq_refl); [reflexivity|exact R1].
    - apply (run_floats "equal-shares-without-completion" _ (fun k m => equal_shares_rule p k resolute m NoCompletion) eq_refl); [reflexivity|exact R1].
    - apply (run_floats "equal-shares-without-completion" _ (fun k m => equal_shares_rule p k resolute m NoCompletion) eq_refl); [reflexivity|exact R1].
  Qed.
End FloatCompute.

Lemma equal_shares_resort : forall A p k resolute maxn c (P Q : list nat -> Prop) r, answers P resolute maxn r -> (forall W, P W -> Q W) -> (forall W, Q W -> ascending W) ->
  match c with
  | IncrementCompletion => f_equal_shares_increment A p k
  | NoCompletion => f_equal_shares A p k resolute maxn f_fill_none (f_mes_start A p k)
  | PhragmenCompletion => f_equal_shares A p k resolute maxn (f_fill_phragmen A p k resolute) (f_mes_start A p k)
  | AvCompletion => f_equal_shares A p k resolute maxn (f_fill_av p k) (f_mes_start A p k)
  end = r ->
  answers P resolute maxn (f_equal_shares_rule A p k resolute maxn c).
Proof.
  intros A p k resolute maxn c P Q r HA HQ Hasc E. unfold f_equal_shares_rule. rewrite E.
  rewrite (sorted_again P resolute maxn r HA); auto.
Qed.

Theorem default_determined : forall A rnd nx sv e p k alg id Q, In alg ["float-fractions"; "fastest"] -> default_rule A p k id Q ->
  wf p -> 1 <= k <= num_cand p ->
  exists P : list nat -> Prop, (forall W, P W -> Q W) /\
    determined P p k (fun resolute maxn => compute rnd nx (with_solvers nx sv (with_floats A e)) id p (Z.of_nat k) None (args alg resolute maxn)).
Proof.
  intros A rnd nx sv e p k alg id Q Halg Hd Hw Hk.
  assert (G : forall id', In (id, id')
      [("seqphragmen", "seqphragmen"); ("phragmen-enestroem", "phragmen-enestroem"); ("consensus-rule", "consensus-rule"); ("eph", "eph");
       ("rule-x", "equal-shares"); ("equal-shares", "equal-shares"); ("equal-shares-with-seqphragmen-completion", "equal-shares");
       ("equal-shares-with-av-completion", "equal-shares-with-av-completion");
       ("rule-x-without-phragmen-phase", "equal-shares-without-completion"); ("equal-shares-without-phragmen-phase", "equal-shares-without-completion");
       ("equal-shares-without-completion", "equal-shares-without-completion")] ->
     (exists P : list nat -> Prop, (forall W, P W -> Q W) /\ forall resolute maxn, valid_max maxn -> answers P resolute maxn (float_rule A id' p k resolute maxn)) ->
     exists P : list nat -> Prop, (forall W, P W -> Q W) /\
       determined P p k (fun resolute maxn => compute rnd nx (with_solvers nx sv (with_floats A e)) id p (Z.of_nat k) None (args alg resolute maxn))).
  { intros id' Hin (P & HQ & HP). exists P. split; auto. intros resolute maxn Hc.
    rewrite (compute_floats A rnd nx sv e p k alg resolute maxn Halg Hc id id' Hin). apply HP. eapply valid_limit; eauto. }
  assert (Hasc : forall W, is_committee p k W -> ascending W) by (intros W (H & _); auto).
  destruct Hd as [HA [H1 H2]|id HA [H1 H2] Hin| |id Hin| | |H2].
  - apply (G "seqphragmen"); [cbn; tauto|]. exists (fwinner k (f_phragmen_select A p k) (f_phragmen_next A p k) [] (f_zero_load p)). split.
    + intros W HW. eapply f_winner_committee; eauto.
    + intros resolute maxn Hm. change (float_rule A "seqphragmen" p k resolute maxn) with (f_seqphragmen A p k resolute maxn). apply f_seqphragmen_answers; auto.
  - apply (G "equal-shares"); [cbn in Hin; cbn; intuition (subst; tauto)|].
    destruct (f_mes_phragmen_determined A HA p k Hw Hk H1 H2) as (P & HP & HD). exists P. split; auto. intros resolute maxn Hm.
    change (float_rule A "equal-shares" p k resolute maxn) with (f_equal_shares_rule A p k resolute maxn PhragmenCompletion).
    eapply equal_shares_resort; [apply HD; auto|exact HP|exact Hasc|reflexivity].
  - apply (G "equal-shares-with-av-completion"); [cbn; tauto|].
    destruct (f_mes_av_determined A p k Hk Hw) as (P & HP & HD). exists P. split; auto. intros resolute maxn Hm.
    change (float_rule A "equal-shares-with-av-completion" p k resolute maxn) with (f_equal_shares_rule A p k resolute maxn AvCompletion).
    eapply equal_shares_resort; [apply HD; auto|exact HP|exact Hasc|reflexivity].
  - apply (G "equal-shares-without-completion"); [cbn in Hin; cbn; intuition (subst; tauto)|].
    destruct (f_mes_none_determined A p k Hk) as (P & HP & HD). exists P. split; auto. intros resolute maxn Hm.
    change (float_rule A "equal-shares-without-completion" p k resolute maxn) with (f_equal_shares_rule A p k resolute maxn NoCompletion).
    eapply equal_shares_resort; [apply HD; auto|exact HP|apply small_asc|reflexivity].
  - apply (G "phragmen-enestroem"); [cbn; tauto|]. apply f_enestroem_determined; auto.
  - apply (G "consensus-rule"); [cbn; tauto|]. apply f_consensus_determined; auto.
  - apply (G "eph"); [cbn; tauto|]. apply f_eph_determined; auto.
Qed.

Lemma compute_increment : forall A rnd nx sv e p k alg, In alg ["float-fractions"; "fastest"] -> valid_call p k true None ->
  compute rnd nx (with_solvers nx sv (with_floats A e)) "equal-shares-with-increment-completion" p (Z.of_nat k) None (args alg true None) =
  (do cs <- f_equal_shares_increment A p k; sorted_committees cs).
Proof.
  intros A rnd nx sv e p k alg Halg Hc.
  rewrite (compute_plain rnd nx sv (with_floats A e) "equal-shares-with-increment-completion" (mkRule "equal-shares-with-increment-completion" FRACTION_ALGORITHMS [true])) by reflexivity.
  apply (run_floats A nx sv e p k alg true None Halg Hc "equal-shares-with-increment-completion" (mkRule "equal-shares-with-increment-completion" FRACTION_ALGORITHMS [true])
    (fun k m => equal_shares_rule p k true m IncrementCompletion)); reflexivity.
Qed.
Lemma one_resort : forall p k W, is_committee p k W -> (do cs <- Ok [W]; sorted_committees cs) = Ok [W].
Proof.
  intros p k W (H & _). cbn [rbind]. rewrite sorted_committees_asc; [reflexivity|]. constructor; auto.
Qed.
Theorem increment_any : forall A rnd nx sv e p k alg, In alg ["float-fractions"; "fastest"] -> valid_call p k true None ->
  let r := compute rnd nx (with_solvers nx sv (with_floats A e)) "equal-shares-with-increment-completion" p (Z.of_nat k) None (args alg true None) in
  (exists W, r = Ok [W] /\ is_committee p k W) \/ r = Err RuntimeError.
Proof.
  intros A rnd nx sv e p k alg Halg Hc r. unfold r. rewrite compute_increment by auto. destruct Hc as (Hw & _ & Hk & _).
  destruct (f_increment_any A p k Hw Hk) as [(W & -> & HW)| ->]; [left|right; reflexivity]. exists W. split; auto. eapply one_resort; eauto.
Qed.
Theorem increment_success : forall A rnd nx sv e p k alg, In alg ["float-fractions"; "fastest"] -> valid_call p k true None ->
  float_ok A -> (forall v, In v (voters p) -> (1 <= weight v)%Q) -> (Z.of_nat k <= 50)%Z ->
  exists W, compute rnd nx (with_solvers nx sv (with_floats A e)) "equal-shares-with-increment-completion" p (Z.of_nat k) None (args alg true None) = Ok [W] /\
    is_committee p k W.
Proof.
  intros A rnd nx sv e p k alg Halg Hc HA Hone Hs. rewrite compute_increment by auto. destruct Hc as (Hw & Hv & Hk & _).
  destruct (f_increment_ok A p k HA Hw Hv Hk Hone Hs) as (W & -> & HW). exists W. split; auto. eapply one_resort; eauto.
Qed.
