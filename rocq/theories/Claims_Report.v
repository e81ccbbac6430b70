(** * Claims C74, C75: what the checks print

    [report] is the result of a call together with the messages sent to the output object, [printing] stands for Python's
    formatting of numbers.  [explained r axiom yes no why ind] (SpecReport.v): the axiom holds and the call returns True
    after the message [yes]; or it fails and the call returns False after the message [no] and an explanation [t] with
    [why t].  The [_violation]s (evidence) and [_sentence]s (their wording) are in SpecReport.v. *)
From Coq Require Import String.
From Coq Require Import List Arith Bool ZArith QArith Lia Lqa.
From Verif Require Import Prelude Misc Preferences Spec Checks SpecAxioms ChecksProofs Milp RefSolver CheckSolver CheckSolverProofs
  SpecPrice PriceProofs Output SpecOutput OutputProofs CheckReport SpecReport CheckReportProofs CheckReportMore ExampleData.
Import ListNotations.
Local Open Scope string_scope.
Open Scope nat_scope.
Local Open Scope list_scope.

(** ** C74 *)
Theorem C74_JR : forall pr p W quota, wf p -> all_named p -> formattable pr p -> cand_set p W -> (quota = None -> W <> []) ->
  (0 < the_quota p W quota)%Q ->
  explained (report_JR pr p W quota) (JR p (the_quota p W quota) W)
    (verdict pr W "satisfies JR" quota) (verdict pr W "does not satisfy JR" quota)
    (fun t => exists S c, JR_violation p (the_quota p W quota) W S c /\ JR_sentence pr p S c t) "".
Proof. exact report_JR_explained. Qed.
Print Assumptions C74_JR.

Theorem C74_EJR_plus : forall pr p W quota, wf p -> all_named p -> formattable pr p -> cand_set p W -> (quota = None -> W <> []) ->
  (0 < the_quota p W quota)%Q ->
  (forall i, i < length (voters p) -> (Qnat (approves_in p i W) * the_quota p W quota <= wsum (voters p))%Q) ->
  explained (report_EJR_plus pr p W quota) (EJR_plus p (the_quota p W quota) W)
    (verdict pr W "satisfies EJR+" quota) (verdict pr W "does not satisfy EJR+" quota)
    (fun t => exists S l c, EJR_plus_violation p (the_quota p W quota) W S l c /\ EJR_plus_sentence pr p S l c t) "".
Proof. exact report_EJR_plus_explained. Qed.
Print Assumptions C74_EJR_plus.

Theorem C74_EJR : forall pr s p W quota alg, wf p -> formattable pr p -> cand_set p W -> (quota = None -> W <> []) ->
  (0 < the_quota p W quota)%Q -> exact_solver p s -> uses_gurobi alg ->
  explained (report_EJR pr s p W quota alg) (EJR p (the_quota p W quota) W)
    (verdict pr W "satisfies EJR" quota) (verdict pr W "does not satisfy EJR" quota)
    (fun t => exists S l T, EJR_violation p (the_quota p W quota) W S l T /\ EJR_sentence pr p S l T t) " ".
Proof. exact report_EJR_explained. Qed.
Print Assumptions C74_EJR.

Theorem C74_PJR : forall pr s p W quota alg, wf p -> formattable pr p -> cand_set p W -> (quota = None -> W <> []) ->
  (0 < the_quota p W quota)%Q -> exact_solver p s -> uses_gurobi alg ->
  explained (report_PJR pr s p W quota alg) (PJR p (the_quota p W quota) W)
    (verdict pr W "satisfies PJR" quota) (verdict pr W "does not satisfy PJR" quota)
    (fun t => exists S l T, PJR_violation p (the_quota p W quota) W S l T /\ PJR_sentence pr p S l T t) "".
Proof. exact report_PJR_explained. Qed.
Print Assumptions C74_PJR.

Theorem C74_FJR : forall pr s p W quota alg, wf p -> formattable pr p -> cand_set p W -> (quota = None -> W <> []) ->
  (0 < the_quota p W quota)%Q -> alg = "brute-force" \/ uses_gurobi alg /\ exact_solver p s ->
  explained (report_FJR pr s p W quota alg) (FJR p (the_quota p W quota) W)
    (verdict pr W "satisfies FJR" quota) (verdict pr W "does not satisfy FJR" quota)
    (fun t => exists S beta T, FJR_violation p (the_quota p W quota) W S beta T /\ FJR_sentence pr p S beta T t) " ".
Proof. exact report_FJR_explained. Qed.
Print Assumptions C74_FJR.

Theorem C74_core : forall pr s p W quota alg, wf p -> formattable pr p -> cand_set p W -> (quota = None -> W <> []) ->
  (0 < the_quota p W quota)%Q -> alg = "brute-force" \/ uses_gurobi alg /\ exact_solver p s ->
  explained (report_core pr s p W quota alg) (in_core p (the_quota p W quota) W)
    (verdict pr W "is in the core" quota) (verdict pr W "is not in the core" quota)
    (fun t => exists S T, core_violation p (the_quota p W quota) W S T /\ core_sentence pr p S T t) "".
Proof. exact report_core_explained. Qed.
Print Assumptions C74_core.

Theorem C74_pareto : forall s p W alg, wf p -> cand_set p W -> alg = "brute-force" \/ uses_gurobi alg /\ exact_solver p s ->
  explained (report_pareto s p W alg) (pareto_optimal p W)
    ("Committee " ++ str_set_of_candidates W ++ " is Pareto optimal.")%string
    ("Committee " ++ str_set_of_candidates W ++ " is not Pareto optimal.")%string
    (fun t => exists W', dominates p W' W /\ t = ("(It is dominated by the committee " ++ str_set_of_candidates W' ++ ".)")%string) "".
Proof. exact report_pareto_explained. Qed.
Print Assumptions C74_pareto.

(** The evidence is what it is called: it exists only if the axiom fails. *)
Theorem C74_evidence : forall p q W, NoDup W ->
  ((exists S c, JR_violation p q W S c) -> ~ JR p q W) /\
  ((exists S l T, EJR_violation p q W S l T) -> ~ EJR p q W) /\
  ((exists S l T, PJR_violation p q W S l T) -> ~ PJR p q W) /\
  ((exists S l c, EJR_plus_violation p q W S l c) -> ~ EJR_plus p q W) /\
  ((exists S beta T, FJR_violation p q W S beta T) -> ~ FJR p q W) /\
  ((exists S T, core_violation p q W S T) -> ~ in_core p q W) /\
  ((exists W', dominates p W' W) -> ~ pareto_optimal p W).
Proof.
  intros p q W HN.
  assert (Hc : forall S l T, is_group p S -> 1 <= l -> deserves p q S l -> cand_set p T -> l <= length T -> all_approve p S T -> cohesive p q S l).
  { intros S l T H1 H2 H3 [N F] H5 H6. split; auto. split; auto. split; auto. exists (firstn l T). split; [split|split].
    - revert N. generalize l at 1. clear. induction T as [|c T IH]; intros n N; destruct n; cbn; try constructor; inversion N as [|? ? Hn N']; subst; auto.
      intros I. apply Hn. rewrite <- (firstn_skipn n T). apply in_or_app. auto.
    - apply Forall_forall. intros c I. rewrite Forall_forall in F. apply F. rewrite <- (firstn_skipn l T). apply in_or_app. auto.
    - apply firstn_length_le. auto.
    - intros i c Hi I. apply H6; auto. rewrite <- (firstn_skipn l T). apply in_or_app. auto. }
  split; [intros (S & c & V) H; exact (H S c V)|].
  split; [intros (S & l & T & H1 & H2 & H3 & H4 & H5 & H6 & H7) H; destruct (H S l ltac:(eapply Hc; eauto)) as (i & Hi & Hl); specialize (H7 i Hi); lia|].
  split; [intros (S & l & T & H1 & H2 & H3 & H4 & H5 & H6 & H7) H; specialize (H S l ltac:(eapply Hc; eauto)); lia|].
  split; [intros (S & l & c & H1 & H2 & H3 & H4 & H5 & H6 & H7) H; destruct (H S l c H1 H2 H3 H4 H5 H6) as (i & Hi & Hl); specialize (H7 i Hi); lia|].
  split; [intros (S & b & T & H1 & H2 & H3 & H4 & H5) H; destruct (H S T b H1 H2 H3 H4) as (i & Hi & Hl); [intros i Hi; apply (H5 i Hi)|destruct (H5 i Hi); lia]|].
  split; [intros (S & T & H1 & H2 & H3 & H4) H; destruct (H S T H1 H2 H3) as (i & Hi & Hl); specialize (H4 i Hi); lia|].
  intros (W' & H1 & H2) H. exact (H W' H1 H2).
Qed.
Print Assumptions C74_evidence.

(** With the brute-force algorithm check_EJR and check_PJR print all voters they considered; the evidence is a part of them. *)
Theorem C74_EJR_brute_force : forall pr s p W quota, wf p -> unit_weights p -> formattable pr p -> cand_set p W -> (quota = None -> W <> []) ->
  (0 < the_quota p W quota)%Q ->
  explained (report_EJR pr s p W quota "brute-force") (EJR p (the_quota p W quota) W)
    (verdict pr W "satisfies EJR" quota) (verdict pr W "does not satisfy EJR" quota)
    (fun t => exists S S' l T, incl S' S /\ EJR_violation p (the_quota p W quota) W S' l T /\
      (forall i, In i S <-> i < length (voters p) /\ approves_in p i W < l) /\ EJR_sentence pr p S l T t) " ".
Proof. exact report_EJR_brute. Qed.
Print Assumptions C74_EJR_brute_force.
Theorem C74_PJR_brute_force : forall pr s p W quota, wf p -> unit_weights p -> formattable pr p -> cand_set p W -> (quota = None -> W <> []) ->
  (0 < the_quota p W quota)%Q ->
  explained (report_PJR pr s p W quota "brute-force") (PJR p (the_quota p W quota) W)
    (verdict pr W "satisfies PJR" quota) (verdict pr W "does not satisfy PJR" quota)
    (fun t => exists S S' l T, incl S' S /\ PJR_violation p (the_quota p W quota) W S' l T /\
      (forall i, In i S <-> i < length (voters p) /\ approves_in p i W < l) /\ PJR_sentence pr p S l T t) "".
Proof. exact report_PJR_brute. Qed.
Print Assumptions C74_PJR_brute_force.

(** some way of printing numbers; integers only, others are written "?" *)
Definition show (x : Q) : string := if Pos.eqb (Qden (Qred x)) 1 then str_nat (Z.to_nat (Qnum (Qred x))) else "?".
Definition ex_pr (b : bool) : printing := mkPrinting show show show b.

(** So the sentence printed can be false: voters 2 and 3 do not approve candidate 0. *)
Theorem C74_brute_force_group_refuted : exists p W t, wf p /\ all_named p /\ unit_weights p /\ cand_set p W /\
  (forall s, report_EJR (ex_pr true) s p W None "brute-force" = (Ok false, [mkMessage INFO "Committee {3, 4} does not satisfy EJR." true ""; mkMessage DETAILS t true " "])) /\
  t = "(The 1-cohesive group of voters {0, 1, 2, 3} (100% of all voters) jointly approve the candidates {0}, but none of them approves 1 candidates in the committee.)" /\
  EJR_sentence (ex_pr true) p [0;1;2;3] 1 [0] t /\ ~ all_approve p [0;1;2;3] [0].
Proof.
  exists (mkp 5 [mkv [0] 1; mkv [0] 1; mkv [1] 1; mkv [2] 1]), [3;4]. eexists. split; [wf_tac|]. split; [reflexivity|]. split; [repeat constructor|].
  split; [split; repeat constructor; simpl; intuition lia|]. split; [intros s; vm_compute; reflexivity|]. split; [reflexivity|]. split.
  - exists "100% of all voters". split; [|reflexivity]. exists 100%Q. split; [vm_compute; reflexivity|]. left. split; [repeat constructor|reflexivity].
  - intros H. specialize (H 2 0). cbn in H. destruct H as [H|H]; auto. discriminate.
Qed.
Print Assumptions C74_brute_force_group_refuted.

(** Before Python 3.12, [f"{x:.1f}"] is a TypeError for a Fraction: a failing check then raises although it has printed its verdict. *)
Theorem C74_fraction_weights_refuted : exists p W, wf p /\ all_named p /\ cand_set p W /\ W <> [] /\ check_JR p W None = Ok false /\
  report_JR (ex_pr false) p W None = (Err TypeError, [mkMessage INFO "Committee {1} does not satisfy JR." true ""]).
Proof.
  exists (mkp 2 [mkv [0] (1#2)]), [1]. split; [wf_tac|]. split; [reflexivity|]. split; [split; repeat constructor; simpl; intuition lia|].
  split; [discriminate|]. split; vm_compute; reflexivity.
Qed.
Print Assumptions C74_fraction_weights_refuted.

(** Printing never changes a verdict: a call that prints returns what the model of the silent call (Checks.v, CheckSolver.v) returns,
    except that a failing check may end with an exception while the explanation is formatted. *)
Theorem C74_same_result : forall pr s name p W quota alg, voters p <> [] ->
  fst (report_check pr s name p W quota alg) = check s name p W quota alg \/
  (check s name p W quota alg = Ok false /\ exists e, fst (report_check pr s name p W quota alg) = Err e).
Proof. intros pr s name p W quota alg Hv. exact (report_check_follows pr s name p W quota alg (or_intror Hv)). Qed.
Print Assumptions C74_same_result.
Theorem C74_same_result_formattable : forall pr s name p W, wf p -> voters p <> [] -> all_named p -> formattable pr p -> cand_set p W -> W <> [] ->
  exact_solver p s -> In name PROPERTY_NAMES ->
  fst (report_check pr s name p W None "fastest") = check s name p W None "fastest".
Proof. intros pr s name p W. exact (report_exact pr s p W name). Qed.
Print Assumptions C74_same_result_formattable.

(** The messages have the levels INFO and DETAILS, so nothing is printed under the default verbosity (WARNING). *)
Theorem C74_levels : forall fill pr s name p W quota alg o, (INFO < verbosity o)%Z ->
  printed (snd (run fill o (map Print (snd (report_check pr s name p W quota alg))))) = [] /\
  Forall (fun m => level m = INFO \/ level m = DETAILS) (snd (report_check pr s name p W quota alg)).
Proof.
  intros fill pr s name p W quota alg o Hv. assert (Qt := report_check_quiet pr s name p W quota alg). split; [|exact Qt].
  rewrite run_printed, <- (app_nil_r (map Print _)). rewrite quiet_shown by auto. reflexivity.
Qed.
Print Assumptions C74_levels.

(** full_analysis silences all of this: its events print the same as those of the model in Output.v, whose theorem is C59_full_analysis. *)
Theorem C74_full_analysis : forall fill pr s o p W, wf p -> voters p <> [] -> all_named p -> formattable pr p -> cand_set p W -> W <> [] -> exact_solver p s ->
  fst (full_analysis_report pr s o p W) = fst (full_analysis s o p W) /\
  printed (snd (run fill o (snd (full_analysis_report pr s o p W)))) = printed (snd (run fill o (snd (full_analysis s o p W)))).
Proof.
  intros fill pr s o p W Hw Hv Hnm Hf HW Hne Hs. destruct (full_analysis_same fill pr s o p W Hw Hv Hnm Hf HW Hne Hs) as [E H]. split; auto.
  rewrite !run_printed. apply H.
Qed.
Print Assumptions C74_full_analysis.

Definition ex_two : profile := mkp 3 [mkv [0] 2; mkv [0;1] 1; mkv [2] 1].
Lemma two_exact : exact_solver ex_two (ref_solver (election_size ex_two)).
Proof. intros m Hg HB. apply ref_solver_correct; auto. Qed.
Example C74_example : wf ex_two /\ all_named ex_two /\ formattable (ex_pr false) ex_two /\ cand_set ex_two [2] /\
  (0 < the_quota ex_two [2]%nat None)%Q /\ (0 < the_quota ex_two [2]%nat (Some 2))%Q /\ exact_solver ex_two (ref_solver (election_size ex_two)) /\
  report_JR (ex_pr false) ex_two [2] (Some 2%Q) =
    (Ok false, [mkMessage INFO "Committee {2} does not satisfy JR (for quota = 2)." true "";
      mkMessage DETAILS "(The 1-cohesive group of voters {0, 1} (75% of all voters (by weight)) jointly approve candidate 0, but none of them approve a candidate in the committee.)" true ""]) /\
  report_core (ex_pr false) (ref_solver (election_size ex_two)) ex_two [2] (Some 2%Q) "brute-force" =
    (Ok false, [mkMessage INFO "Committee {2} is not in the core (for quota = 2)." true "";
      mkMessage DETAILS "(The group of voters {0, 1} (75% of all voters (by weight)) can block the outcome by proposing {0}, in which each group member approves strictly more candidates.)" true ""]) /\
  fst (report_EJR_plus (ex_pr false) ex_two [0] None) = Ok true.
Proof.
  split; [wf_tac|]. split; [reflexivity|]. split; [left; cbn; intros v H; repeat (destruct H as [<-|H]; [reflexivity|]); destruct H|].
  split; [split; repeat constructor; simpl; intuition lia|]. split; [vm_compute; reflexivity|]. split; [vm_compute; reflexivity|].
  split; [exact two_exact|]. split; [vm_compute; reflexivity|]. split; [lazy; reflexivity|vm_compute; reflexivity].
Qed.

(** ** C75 *)
(** [prices p W stable B pay]: the budget and the payments show that [W] is (stable) priceable.  [shows_payments]: the table lists exactly
    these payments.  [few_approved p W]: fewer candidates are approved than [W] has members (then nothing but the verdict is printed). *)
Theorem C75_prices : forall pr s p W alg (stable : bool), wf p -> cand_set p W -> W <> [] -> exact_solver p s -> uses_gurobi alg -> ~ few_approved p W ->
  let verdict (b : bool) := mkMessage INFO ("Committee " ++ str_set_of_candidates W ++ (if b then " is " else " is not ") ++
                                            (if stable then "stable " else "") ++ "priceable.")%string true "" in
  (exists B pay, prices p W stable B pay /\ (forall B' pay', prices p W stable B' pay' -> (B <= B')%Q) /\
     exists ms, report_priceability pr s p W alg stable = (Ok true, ms ++ [verdict true]) /\
       (unit_weights p -> exists table, ms = mkMessage DETAILS ("Budget: " ++ str_float pr B) true "" :: table /\ shows_payments pr p pay table) /\
       (~ unit_weights p -> ms = [])) \/
  ((forall B pay, ~ prices p W stable B pay) /\
   report_priceability pr s p W alg stable = (Ok false, [mkMessage DETAILS "No feasible budget and payment function" true ""; verdict false])).
Proof. exact report_prices. Qed.
Print Assumptions C75_prices.

(** ... and if fewer candidates are approved than there are seats, only the verdict is printed *)
Theorem C75_few_approved : forall pr s p W alg (stable : bool), wf p -> cand_set p W -> uses_gurobi alg -> few_approved p W ->
  exists b, (b = true <-> takes_all_approved p W) /\
  report_priceability pr s p W alg stable = (Ok b, [mkMessage INFO ("Committee " ++ str_set_of_candidates W ++ (if b then " is " else " is not ") ++
                                            (if stable then "stable " else "") ++ "priceable.")%string true ""]).
Proof. exact report_few. Qed.
Print Assumptions C75_few_approved.

(** without voters, the empty committee is priceable, but the table cannot be printed *)
Theorem C75_no_voters_refuted : exists p s, wf p /\ voters p = [] /\ exact_solver p s /\ check_priceability s p [] "gurobi" false = Ok true /\
  report_priceability (ex_pr true) s p [] "gurobi" false = (Err ValueError, [mkMessage DETAILS "Budget: 0" true ""]).
Proof.
  exists (mkp 1 []), (ref_solver (election_size (mkp 1 []))). split; [wf_tac|]. split; [reflexivity|]. split; [intros m Hg HB; apply ref_solver_correct; auto|].
  split; vm_compute; reflexivity.
Qed.
Print Assumptions C75_no_voters_refuted.

Definition ex_shared : profile := mkp 2 [mkv [0] 1; mkv [0;1] 1; mkv [0] 1].
Example C75_example : wf ex_shared /\ cand_set ex_shared [0] /\ ~ few_approved ex_shared [0] /\ unit_weights ex_shared /\
  exact_solver ex_shared (ref_solver (election_size ex_shared)) /\
  (let r := report_priceability (ex_pr true) (ref_solver (election_size ex_shared)) ex_shared [0] "gurobi" false in (fst r, length (snd r))) = (Ok true, 6) /\
  (let p := mkp 2 [mkv [1] 1] in fst (report_priceability (ex_pr true) (ref_solver (election_size p)) p [0] "gurobi" false) = Ok false).
Proof.
  split; [wf_tac|]. split; [split; repeat constructor; simpl; intuition lia|]. split; [rewrite <- few_approved_iff by wf_tac; vm_compute; lia|].
  split; [repeat constructor|]. split; [intros m Hg HB; apply ref_solver_correct; auto|]. split; vm_compute; reflexivity.
Qed.
