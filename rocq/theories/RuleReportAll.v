(** * The reports of all rules *)
From Coq Require Import String Ascii.
From Coq Require Import List Arith Bool ZArith QArith Lia Lqa Permutation.
From Verif Require Import Prelude Misc Preferences Scores Search Rule RulesThiele Spec SpecRules Common Compute SpecCompute ComputeProofs MiscProofs ScoresProofs ThieleProofs ProfileFacts
  OptProofs SpecSeq RulesSeq RulesMes MesFinal ComputeSeq ComputeSeqProofs Guarantees RulesMonroe SpecMonroe MonroeRule GreedyMonroe
  RulesMore SpecMore RsdProofs EphProofs Milp RulesSolver SolverProofs SolverLex SpecLoads SolverPhragmen SolverLeximax SolverCompute SolverMore ComputeAll SpecAll AllProofs
  SpecText Output SpecReport CheckReport CheckReportProofs RuleReport SpecRuleReport SpecRuleTells RuleReportProofs RuleReportMore RuleReportSeq RuleReportLoads
  RuleReportMes RuleReportMaximin.
Import ListNotations.
Local Open Scope string_scope.
Open Scope nat_scope.
Local Open Scope list_scope.

(** ** Names *)
Lemma py_len_characters : forall s, py_len s = characters s.
Proof.
  unfold characters. induction s as [|c s IH]; [reflexivity|]. cbn [py_len list_ascii_of_string filter]. unfold continuation.
  destruct (Nat.leb_spec 128 (nat_of_ascii c)), (Nat.ltb_spec (nat_of_ascii c) 192), (Nat.ltb_spec (nat_of_ascii c) 128), (Nat.leb_spec 192 (nat_of_ascii c));
    try lia; cbn [andb orb length]; auto.
Qed.
Lemma upper_capitals : forall s, upper s = capitals s.
Proof. unfold capitals. induction s as [|c s IH]; [reflexivity|]. cbn [upper list_ascii_of_string map string_of_list_ascii]. rewrite IH. reflexivity. Qed.

Lemma longname_listed : forall id name, In (id, name) RULE_NAMES -> longname id = Ok name.
Proof.
  intros id name H.
  assert (F : Forall (fun x => longname (fst x) = Ok (snd x)) RULE_NAMES) by (repeat constructor).
  rewrite Forall_forall in F. exact (F (id, name) H).
Qed.
Lemma longname_geom : forall s, longname ("geom" ++ s)%string = Ok (s ++ "-Geometric Rule")%string.
Proof. intros s. destruct s; reflexivity. Qed.
Lemma longname_seqgeom : forall s, longname ("seqgeom" ++ s)%string = Ok ("Sequential " ++ s ++ "-Geometric Rule")%string.
Proof. intros s. destruct s; reflexivity. Qed.
Lemma longname_revseqgeom : forall s, longname ("revseqgeom" ++ s)%string = Ok ("Reverse Sequential " ++ s ++ "-Geometric Rule")%string.
Proof. intros s. destruct s; reflexivity. Qed.
Lemma longname_ok : forall id name, rule_name id name -> longname id = Ok name.
Proof.
  intros id name H. destruct H; auto using longname_listed, longname_geom, longname_seqgeom, longname_revseqgeom.
Qed.
Lemma algorithm_ok : forall alg title, In (alg, title) ALGORITHM_TITLES -> algorithm_name alg = Ok title.
Proof.
  intros alg title H.
  assert (F : Forall (fun x => algorithm_name (fst x) = Ok (snd x)) ALGORITHM_TITLES) by (repeat constructor).
  rewrite Forall_forall in F. exact (F (alg, title) H).
Qed.
Ltac in_tac := cbn; repeat (try (left; reflexivity); right); fail.
Lemma named : forall id l, In id (map fst l) -> exists name : string, In (id : string, name) l.
Proof. intros id l H. apply in_map_iff in H as ((a, b) & <- & H). eauto. Qed.
Lemma denotes_name : forall e id f, denotes e id f -> exists n, rule_name id n.
Proof. intros e id f H. destruct H; try (eexists; apply rn_listed; in_tac). eexists. apply rn_geom. Qed.
Lemma denotes_seq_name : forall e id f, denotes e id f -> exists n, rule_name ("seq" ++ id)%string n.
Proof. intros e id f H. destruct H; try (eexists; apply rn_listed; in_tac). eexists. apply (rn_seqgeom s). Qed.
Lemma denotes_revseq_name : forall e id f, denotes e id f -> exists n, rule_name ("revseq" ++ id)%string n.
Proof. intros e id f H. destruct H; try (eexists; apply rn_listed; in_tac). eexists. apply (rn_revseqgeom s). Qed.
Lemma exact_titled : forall e alg, exact_arithmetic e alg -> In alg (map fst ALGORITHM_TITLES).
Proof. intros e alg [->|[-> _]]; in_tac. Qed.

(** ** All rules *)
Section All.
  Variables (num : Q -> string) (rnd : random) (nx : networkx) (sv : solvers) (e : env).
  Let e' := with_solvers nx sv e.

  Definition reports (p : profile) (k : nat) (id alg : string) (resolute : bool) (maxn : option pyobj) (cs : list (list nat)) : Prop :=
    exists ms name title shown style before after,
      rule_report num nx sv e' id alg p k resolute (limit maxn) cs = Ok ms /\ rule_name id name /\ In (alg, title) ALGORITHM_TITLES /\
      tells num e p k id resolute cs style before after /\ Permutation shown cs /\ (id <> "trivial" -> shown = cs) /\
      is_report name (characters name) title style resolute p shown before after ms.

  Lemma report_from : forall p k id id0 alg resolute maxn cs shown st m B A b a before after, all_named p ->
    (exists n, rule_name id n) -> longname id0 = longname id -> In alg (map fst ALGORITHM_TITLES) -> mode_style m = st ->
    tells num e p k id resolute cs st B A -> shown <> [] -> Forall (Forall (fun c => c < num_cand p)) shown -> Permutation shown cs -> (id <> "trivial" -> shown = cs) ->
    before = Ok b -> B b -> after = Ok a -> A a ->
    rule_report num nx sv e' id alg p k resolute (limit maxn) cs = frame id0 alg m resolute p before shown after ->
    reports p k id alg resolute maxn cs.
  Proof using.
    intros p k id id0 alg resolute maxn cs shown st m B A b a before after Hn (n & Hname) H0 Halg <- Ht Hne HF HP Hsh Eb Hb Ea Ha ER.
    destruct (named _ _ Halg) as (title & Htitle).
    destruct (frame_ok id0 alg m resolute p before after shown n title B A b a) as (ms & E & HR); auto.
    { rewrite H0. apply longname_ok. auto. } { apply algorithm_ok. auto. }
    exists ms, n, title, shown, (mode_style m), B, A. rewrite ER. rewrite py_len_characters in HR. auto 10.
  Qed.

  Ltac plain := erewrite compute_plain by reflexivity;
    cbv [compute_fct String.eqb Ascii.eqb Bool.eqb andb str_in existsb orb call call_mes call_leximax args given or_default
         kw_algorithm kw_resolute kw_max kw_completion kw_lexicographic kw_other].

  Lemma thiele_report_eq : forall id f sf alg p k resolute maxn cs, denotes e id f -> lookup_scorefct e' id = Ok sf ->
    rule_report num nx sv e' id alg p k resolute maxn cs = report_thiele num (marginal sf) id alg p resolute cs.
  Proof using.
    intros id f sf alg p k resolute maxn cs Hd El.
    assert (E : rule_report num nx sv e' id alg p k resolute maxn cs = do f <- lookup_scorefct e' id; report_thiele num (marginal f) id alg p resolute cs).
    { destruct Hd; try reflexivity. destruct s; reflexivity. }
    rewrite E, El. reflexivity.
  Qed.
  Lemma seq_report_eq : forall id f sf alg p k resolute maxn cs, denotes e id f -> lookup_scorefct e' id = Ok sf ->
    rule_report num nx sv e' ("seq" ++ id)%string alg p k resolute maxn cs = report_seq_thiele num (marginal sf) id alg p k resolute cs.
  Proof using.
    intros id f sf alg p k resolute maxn cs Hd El.
    assert (E : rule_report num nx sv e' ("seq" ++ id)%string alg p k resolute maxn cs = do f <- lookup_scorefct e' id; report_seq_thiele num (marginal f) id alg p k resolute cs).
    { destruct Hd; reflexivity. }
    rewrite E, El. reflexivity.
  Qed.
  Lemma revseq_report_eq : forall id f sf alg p k resolute maxn cs, denotes e id f -> lookup_scorefct e' id = Ok sf ->
    rule_report num nx sv e' ("revseq" ++ id)%string alg p k resolute maxn cs = report_revseq num (marginal sf) id alg p k resolute cs.
  Proof using.
    intros id f sf alg p k resolute maxn cs Hd El.
    assert (E : rule_report num nx sv e' ("revseq" ++ id)%string alg p k resolute maxn cs = do f <- lookup_scorefct e' id; report_revseq num (marginal f) id alg p k resolute cs).
    { destruct Hd; reflexivity. }
    rewrite E, El. reflexivity.
  Qed.

  Lemma seq_resolute_eq : forall id f sf p k maxn, denotes e id f -> lookup_scorefct e' id = Ok sf -> good_fct sf -> valid_call p k true maxn ->
    compute_seq_thiele_method e' id p (Z.of_nat k) "standard" true maxn = seq_thiele_resolute (marginal sf) p k.
  Proof using.
    intros id f sf p k maxn Hd El Hg Hc.
    destruct (denotes_seqrule e' id f (denotes_with nx sv e id f Hd)) as (r & Er & Ha & Hres).
    unfold compute_seq_thiele_method. rewrite El. cbn [rbind].
    erewrite run_ok; eauto; [|rewrite Ha; reflexivity]. cbv beta. simpl String.eqb. cbv iota.
    destruct Hc as (Hw & _ & Hk & _).
    destruct (seq_thiele_resolute_correct (marginal sf) p k) as (L & E & HL & Hlen); auto; try lia; [intro; apply marginal_nonneg; auto|].
    unfold seq_thiele. rewrite E. cbn [rbind]. rewrite sorted_committees_asc; [reflexivity|].
    constructor; auto. apply isort_ascending. eapply greedy_run_props. apply greedy_lex_greedy. exact HL.
  Qed.
  Lemma revseq_resolute_eq : forall id f sf p k maxn, denotes e id f -> lookup_scorefct e' id = Ok sf -> valid_call p k true maxn ->
    compute_revseq_thiele_method e' id p (Z.of_nat k) "standard" true maxn = revseq_resolute (marginal sf) p k.
  Proof using.
    intros id f sf p k maxn Hd El Hc.
    destruct (denotes_revseqrule e' id f (denotes_with nx sv e id f Hd)) as (r & Er & Ha & Hres).
    unfold compute_revseq_thiele_method. rewrite El. cbn [rbind].
    erewrite run_ok; eauto. rewrite Ha. reflexivity.
  Qed.
  Lemma seqphragmen_eq : forall p k alg resolute maxn, exact_arithmetic e alg -> valid_call p k resolute maxn ->
    compute_seqphragmen e' p (Z.of_nat k) alg resolute maxn = seqphragmen p k resolute (limit maxn).
  Proof using.
    intros p k alg resolute maxn Ha Hc. unfold compute_seqphragmen.
    erewrite (run_fractions e' "seqphragmen" _ p k alg resolute maxn (fun k maxn => seqphragmen p k resolute maxn)); eauto; try reflexivity.
    destruct resolute; reflexivity.
  Qed.
  Lemma maximin_eq : forall p k alg resolute maxn, valid_call p k resolute maxn -> In alg MIP_ALGORITHMS ->
    compute_maximin_support e' p (Z.of_nat k) alg resolute maxn = maximin_support_rule (solver_of sv alg) p k resolute (limit maxn).
  Proof using.
    intros p k alg resolute maxn Hc Ha. unfold compute_maximin_support.
    destruct Ha as [<-|[<-|[<-|[]]]]; (erewrite run_ok; eauto; try reflexivity; destruct resolute; reflexivity).
  Qed.
  Lemma solver_of_exact : forall p alg, exact_solvers p sv -> In alg MIP_ALGORITHMS -> exact_solver p (solver_of sv alg).
  Proof using. intros p alg (H1 & H2 & _) [<-|[<-|[<-|[]]]]; cbn; auto. Qed.
  Lemma trivial_shown : forall p k resolute maxn, valid_call p k resolute maxn ->
    exists cs, compute_trivial_rule e' p (Z.of_nat k) "standard" resolute maxn = Ok cs /\
      Permutation (if resolute then [seq 0 k] else cut (limit maxn) (combinations (candidates p) k)) cs.
  Proof using.
    intros p k resolute maxn Hc. unfold compute_trivial_rule.
    erewrite run_ok; eauto; try reflexivity; [|destruct resolute; reflexivity]. cbv beta. simpl String.eqb. cbv iota. unfold trivial_rule. cbv zeta.
    assert (Hasc : Forall ascending (if resolute then [seq 0 k] else cut (limit maxn) (combinations (candidates p) k))).
    { destruct resolute; [constructor; [apply ascending_seq|constructor]|]. apply Forall_forall. intros W HW. apply cut_In in HW. apply combos_committee in HW. apply HW. }
    rewrite rmapM_candidate_set by (eapply Forall_impl; [|exact Hasc]; apply ascending_NoDup). cbn [rbind]. rewrite map_isort_id by auto.
    rewrite sorted_committees_asc by auto. eexists. split; [reflexivity|]. apply sort_by_perm.
  Qed.

  (** [report_from] for the committees returned *)
  Lemma report_same : forall p k id id0 alg resolute maxn cs st m B A b a before after, all_named p ->
    (exists n, rule_name id n) -> longname id0 = longname id -> In alg (map fst ALGORITHM_TITLES) ->
    cs <> [] -> Forall (Forall (fun c => c < num_cand p)) cs ->
    tells num e p k id resolute cs st B A -> mode_style m = st -> before = Ok b -> B b -> after = Ok a -> A a ->
    rule_report num nx sv e' id alg p k resolute (limit maxn) cs = frame id0 alg m resolute p before cs after ->
    reports p k id alg resolute maxn cs.
  Proof using. intros p k id id0 alg resolute maxn cs st m B A b a before after. intros. apply (report_from p k id id0 alg resolute maxn cs cs st m B A b a before after); auto. Qed.
  (** a report without details *)
  Lemma report_no_details : forall p k id alg resolute maxn cs st m, all_named p ->
    (exists n, rule_name id n) -> In alg (map fst ALGORITHM_TITLES) ->
    cs <> [] -> Forall (Forall (fun c => c < num_cand p)) cs -> tells num e p k id resolute cs st nothing nothing -> mode_style m = st ->
    rule_report num nx sv e' id alg p k resolute (limit maxn) cs = report_plain id m alg p resolute cs ->
    reports p k id alg resolute maxn cs.
  Proof using. intros p k id alg resolute maxn cs st m. intros. apply (report_same p k id id alg resolute maxn cs st m nothing nothing [] [] (Ok []) (Ok [])); auto; reflexivity. Qed.

  Ltac mode_tac := first [exact (eq_refl (mode_style OptimisationMode))|exact (eq_refl (mode_style SequentialMode))|exact (eq_refl (mode_style NoMode))].
  Ltac listed_name := eexists; apply rn_listed; in_tac.
  Ltac in_any := match goal with |- In ?x _ => try subst x end; in_tac.

  Lemma mes_report : forall p k id id0 arg c alg resolute maxn cs, all_named p -> valid_call p k resolute maxn -> exact_arithmetic e alg ->
    (exists n, rule_name id n) -> longname id0 = longname id -> (exists i, completion_rule arg = Ok (i, c)) -> c <> IncrementCompletion -> completion_needs p k c ->
    cs <> [] -> Forall (Forall (fun c => c < num_cand p)) cs ->
    compute_equal_shares e' p (Z.of_nat k) alg resolute maxn arg = Ok cs ->
    rule_report num nx sv e' id alg p k resolute (limit maxn) cs = report_equal_shares num id0 c alg p k resolute cs ->
    (resolute = true -> tells num e p k id true cs Sequential (mes_told num p k (after_first num c p k cs)) nothing) ->
    (resolute = false -> tells num e p k id false cs Sequential nothing nothing) ->
    reports p k id alg resolute maxn cs.
  Proof using.
    intros p k id id0 arg c alg resolute maxn cs Hn Hc Ha Hname Hlong Harg Hi Hneed Hne HF Ecs ER HT HT'.
    pose proof Hc as (Hw & Hv & Hk & Hmx). pose proof (valid_limit _ _ _ _ Hc) as Hm.
    rewrite (compute_equal_shares_exact e' p k alg resolute maxn arg c) in Ecs by (auto; intros; contradiction).
    destruct resolute.
    - destruct (mes_details_ok num p k (limit maxn) c Hw Hv Hn Hk Hm Hi Hneed) as (cs' & ms & E1 & E2 & A1). assert (cs' = cs) by congruence. subst cs'.
      eapply report_same; [exact Hn|exact Hname|exact Hlong|eapply exact_titled; eauto|exact Hne|exact HF|apply HT; reflexivity|mode_tac|exact E2|exact A1|reflexivity|reflexivity|].
      rewrite ER. unfold report_equal_shares. destruct c; try reflexivity. contradiction Hi. reflexivity.
    - eapply report_same; [exact Hn|exact Hname|exact Hlong|eapply exact_titled; eauto|exact Hne|exact HF|apply HT'; reflexivity|mode_tac|reflexivity|reflexivity|reflexivity|reflexivity|].
      rewrite ER. unfold report_equal_shares. destruct c; try reflexivity. contradiction Hi. reflexivity.
  Qed.

  Theorem listed_report : forall p k id alg P resolute maxn, libraries_ok p rnd nx sv e -> listed_by e p k id alg P -> all_named p -> valid_call p k resolute maxn ->
    exists cs, compute rnd nx e' id p (Z.of_nat k) None (args alg resolute maxn) = Ok cs /\ reports p k id alg resolute maxn cs.
  Proof using.
    intros p k id alg P resolute maxn Hlib Hl Hn Hc.
    pose proof Hc as (Hw & Hv & Hk & Hmx). pose proof (valid_limit _ _ _ _ Hc) as Hm.
    pose proof (listed_by_determined rnd nx sv e p k id alg P Hlib Hl Hw Hv Hk) as Hd.
    destruct (determined_valid P P p k _ resolute maxn Hd (fun W H => H) Hc) as (cs & Ecs & Hne & HN & HP).
    assert (HF : Forall (Forall (fun c => c < num_cand p)) cs).
    { apply Forall_forall. intros W HW. apply HP in HW. apply (listed_by_committee e p k id alg P Hl) in HW. apply HW. }
    assert (Hone : resolute = true -> length cs = 1).
    { intros ->. destruct (Hd true maxn Hc) as (l & E & _ & _ & _ & H1). cbv beta in Ecs. rewrite Ecs in E. inversion E; subst l. exact H1. }
    cbv beta in Ecs. exists cs. split; [exact Ecs|].
    pose proof Hlib as (Hrnd & Hnx & Hsv & Ho1 & Ho2).
    assert (Hsolver : forall alg, In alg ["gurobi"; "mip-gurobi"; "mip-cbc"] -> In alg (map fst ALGORITHM_TITLES)) by (intros a [<-|[<-|[<-|[]]]]; in_tac).
    assert (Hsolver5 : forall alg, In alg ["gurobi"; "mip-gurobi"; "mip-cbc"; "ortools-cp"; "brute-force"] -> In alg (map fst ALGORITHM_TITLES))
      by (intros a [<-|[<-|[<-|[<-|[<-|[]]]]]]; in_tac).
    assert (Hthiele : forall id f alg, denotes e id f -> (forall W, In W cs -> maximises (Thiele f p) p k W) -> In alg (map fst ALGORITHM_TITLES) -> reports p k id alg resolute maxn cs).
    { intros id' f alg' Hden HP' Ha. destruct (denotes_ok e' id' f (denotes_with nx sv e id' f Hden)) as (sf & El & Hg & Hs & _).
      destruct (thiele_details_ok num (marginal sf) f id' p k cs Hw Hs Hne HP') as (ms & E & HA). rewrite upper_capitals in HA.
      eapply report_same; [exact Hn|eapply denotes_name; eauto|reflexivity|exact Ha|exact Hne|exact HF|apply t_thiele; exact Hden|mode_tac|exact E|exact HA|reflexivity|reflexivity|].
      rewrite (thiele_report_eq id' f sf) by auto. reflexivity. }
    destruct Hl.
    - (* av *)
      destruct (separable_ok num p k (sep_scores SepAV p) (support p) Hn) as (ms & E & HA); auto.
      { apply sep_scores_length. } { intros c Hcc. apply (sep_scores_nth SepAV); auto. }
      eapply report_same; [exact Hn|listed_name|reflexivity|in_tac|exact Hne|exact HF|apply t_av|mode_tac|exact E|exact HA|reflexivity|reflexivity|reflexivity].
    - (* sav *)
      destruct (separable_ok num p k (sep_scores SepSAV p) (sav_support p) Hn) as (ms & E & HA); auto.
      { apply sep_scores_length. } { intros c Hcc. apply (sep_scores_nth SepSAV); auto. }
      eapply report_same; [exact Hn|listed_name|reflexivity|in_tac|exact Hne|exact HF|apply t_sav; exact H|mode_tac|exact E|exact HA|reflexivity|reflexivity|].
      unfold rule_report. cbv zeta. change (String.eqb "sav" "av") with false. change (String.eqb "sav" "sav") with true. cbv iota.
      assert (Ef : forallb (fun v => negb (weight_is_int v)) (voters p) = true).
      { apply forallb_forall. intros v Hin. unfold fraction_weights in H. rewrite Forall_forall in H. rewrite (H v Hin). reflexivity. }
      rewrite Ef. reflexivity.
    - (* sav, floats *)
      destruct (separable_ok num p k (sav_float_scores e p) (fun c => nth c (sav_float_scores e p) 0%Q) Hn) as (ms & E & HA); auto.
      { intros c Hcc. reflexivity. }
      eapply report_same; [exact Hn|listed_name|reflexivity|in_tac|exact Hne|exact HF|apply t_sav_float; exact H|mode_tac|exact E|exact HA|reflexivity|reflexivity|].
      unfold rule_report. cbv zeta. change (String.eqb "sav" "av") with false. change (String.eqb "sav" "sav") with true. cbv iota.
      assert (Ef : forallb (fun v => negb (weight_is_int v)) (voters p) = false).
      { apply not_true_iff_false. intros Et. apply H. apply Forall_forall. intros v Hin. rewrite forallb_forall in Et. specialize (Et v Hin). destruct (weight_is_int v); auto; discriminate. }
      rewrite Ef. reflexivity.
    - eapply Hthiele; eauto; in_tac.
    - eapply Hthiele; eauto; in_tac.
    - eapply Hthiele; eauto.
    - eapply Hthiele; [apply den_cc|auto|in_tac].
    - (* lexcc *)
      destruct (lexcc_brute_value p k Hw ltac:(lia)) as [V1 V2].
      eapply report_same; [exact Hn|listed_name|reflexivity|in_tac|exact Hne|exact HF|apply t_lexcc|mode_tac|reflexivity|apply (lexcc_details_ok num p k _ V1 V2)|reflexivity|reflexivity|reflexivity].
    - destruct H as (u & Hu). destruct (lexcc_gurobi_value (gurobi sv) p k u resolute (limit maxn) Hw Hk Hu) as (v & Ev & V1 & V2); auto.
      { intros sc. apply lexcc_solves; auto. apply Hsv. }
      eapply report_same with (before := do v <- lexcc_gurobi_vector (gurobi sv) p k resolute (limit maxn); Ok (lexcc_details num v));
        [exact Hn|listed_name|reflexivity|in_tac|exact Hne|exact HF|apply t_lexcc|mode_tac|rewrite Ev; reflexivity|apply (lexcc_details_ok num p k _ V1 V2)|reflexivity|reflexivity|reflexivity].
    - (* seq *)
      destruct (denotes_ok e' id f (denotes_with nx sv e id f H)) as (sf & El & Hg & Hs & _).
      destruct (score_lines_ok num (marginal sf) f (upper id) p cs Hw Hn Hs HF) as (ls & E1 & A1). rewrite upper_capitals in A1.
      rewrite (compute_seq_id rnd nx sv e id f) in Ecs by auto. destruct resolute.
      + rewrite (seq_resolute_eq id f sf) in Ecs by auto.
        destruct (seq_thiele_details_ok num (marginal sf) f p k Hw Hn) as (W & ms & E2 & E3 & A2); auto; try lia; [intro; apply marginal_nonneg; auto|].
        assert (cs = [W]) by congruence. subst cs.
        eapply report_same; [exact Hn|eapply denotes_seq_name; eauto|reflexivity|in_tac|exact Hne|exact HF|apply t_seq_one; exact H|mode_tac|exact E3|exact A2|exact E1|exact A1|].
        rewrite (seq_report_eq id f sf) by auto. reflexivity.
      + eapply report_same; [exact Hn|eapply denotes_seq_name; eauto|reflexivity|in_tac|exact Hne|exact HF|apply t_seq_all; exact H|mode_tac|reflexivity|reflexivity|exact E1|exact A1|].
        rewrite (seq_report_eq id f sf) by auto. reflexivity.
    - (* revseq *)
      destruct (denotes_ok e' id f (denotes_with nx sv e id f H)) as (sf & El & Hg & Hs & _).
      pose proof (revseq_scores_ok num (marginal sf) f p resolute cs Hw Hs Hone) as A1.
      rewrite (compute_revseq_id rnd nx sv e id f) in Ecs by auto. destruct resolute.
      + rewrite (revseq_resolute_eq id f sf) in Ecs by auto.
        destruct (revseq_details_ok num (marginal sf) f p k Hw Hn Hs ltac:(lia)) as (W & ms & E2 & E3 & A2).
        assert (cs = [W]) by congruence. subst cs.
        eapply report_same; [exact Hn|eapply denotes_revseq_name; eauto|reflexivity|in_tac|exact Hne|exact HF|apply t_revseq_one; exact H|mode_tac|exact E3|exact A2|reflexivity|exact A1|].
        rewrite (revseq_report_eq id f sf) by auto. reflexivity.
      + eapply report_same; [exact Hn|eapply denotes_revseq_name; eauto|reflexivity|in_tac|exact Hne|exact HF|apply t_revseq_all; exact H|mode_tac|reflexivity|reflexivity|reflexivity|exact A1|].
        rewrite (revseq_report_eq id f sf) by auto. reflexivity.
    - (* seqphragmen *)
      assert (Ec : seqphragmen p k resolute (limit maxn) = Ok cs).
      { rewrite <- Ecs, <- (seqphragmen_eq p k alg resolute maxn) by auto. plain. reflexivity. }
      destruct resolute.
      + destruct (phragmen_told_ok num p k Hw Hv Hn Hk H0) as (W & rounds & L & y & ms & E1 & E2 & E3 & E4 & E5 & E6 & E7 & E8).
        assert (cs = [W]) by (unfold seqphragmen in *; congruence). subst cs W.
        destruct (load_lines_ok num p [(isort L, last_load (zero_load p) rounds)] (fun _ _ => True) Hw Hn Hv) as (ls & E9 & _).
        { constructor; [|constructor]. cbn. inversion HF; auto. }
        destruct (set_ok p (isort L) Hn ltac:(inversion HF; auto)) as (t & Et & Ht).
        eapply report_same with (m := SequentialMode) (id0 := "seqphragmen") (before := Ok ms)
          (after := do lines <- load_lines num p [(isort L, last_load (zero_load p) rounds)]; Ok (details "corresponding load distribution:" "" :: lines));
          [exact Hn|listed_name|reflexivity|eapply exact_titled; eauto|exact Hne|exact HF|apply (t_seqphragmen_one num e p k L y E6)|mode_tac|reflexivity|exact E4| | |].
        * unfold load_lines, rconcat. cbn [rmapM fst snd]. rewrite Et. reflexivity.
        * exists t. eexists. split; [exact Ht|]. split; [eapply tuple_ok; [exact Hv|exact E8|exact E7]|reflexivity].
        * unfold rule_report. cbv zeta. cbn [String.eqb Ascii.eqb Bool.eqb str_in existsb orb]. unfold report_seqphragmen. rewrite E2. cbn [rbind map]. rewrite E3. reflexivity.
      + destruct (seqphragmen_all_loads num p k (limit maxn) Hw Hv Hn Hk H0 Hm) as (cs' & pairs & ls & E1 & E2 & E3 & A1).
        assert (cs' = cs) by congruence. subst cs'. specialize (A1 (negb (length cs =? 1))).
        eapply report_same with (m := SequentialMode) (id0 := "seqphragmen") (before := Ok [])
          (after := do lines <- load_lines num p pairs; Ok (details (if (length cs =? 1) then "corresponding load distribution:" else "corresponding load distributions:") "" :: lines));
          [exact Hn|listed_name|reflexivity|eapply exact_titled; eauto|exact Hne|exact HF|apply t_seqphragmen_all|mode_tac|reflexivity|reflexivity| |exact A1|].
        * rewrite E3. cbn [rbind]. destruct (length cs =? 1); reflexivity.
        * unfold rule_report. cbv zeta. cbn [String.eqb Ascii.eqb Bool.eqb str_in existsb orb]. unfold report_seqphragmen. cbn [rbind]. rewrite E2. reflexivity.
    - eapply report_no_details with (m := OptimisationMode); [exact Hn|listed_name|auto|exact Hne|exact HF|apply t_optimising; in_tac|mode_tac|reflexivity].
    - eapply report_no_details with (m := OptimisationMode); [exact Hn|listed_name|auto; in_tac|exact Hne|exact HF|apply t_optimising; in_tac|mode_tac|reflexivity].
    - (* maximin *)
      assert (Ec : maximin_support_rule (solver_of sv alg) p k resolute (limit maxn) = Ok cs).
      { rewrite <- Ecs, <- (maximin_eq p k alg resolute maxn) by auto. plain. reflexivity. }
      destruct resolute.
      + destruct (maximin_report_ok num (solver_of sv alg) p k Hw Hn Hk (maximin_solves _ p (solver_of_exact p alg Hsv H)) (limit maxn) Hm) as (cs' & rounds & story & E1 & E2 & E3 & A1).
        assert (cs' = cs) by congruence. subst cs'.
        eapply report_same; [exact Hn|listed_name|reflexivity|auto|exact Hne|exact HF|apply t_maximin_one|mode_tac| |exact A1|reflexivity|reflexivity|reflexivity].
        cbv iota. rewrite E2. cbn [rbind]. rewrite E3. reflexivity.
      + eapply report_same; [exact Hn|listed_name|reflexivity|auto|exact Hne|exact HF|apply t_maximin_all|mode_tac|reflexivity|reflexivity|reflexivity|reflexivity|reflexivity].
    - (* monroe *)
      destruct (monroe_details_ok nx p k cs Hnx (proj1 Hk) Hne HP) as (ms & E & A1).
      eapply report_same; [exact Hn|listed_name|reflexivity|auto|exact Hne|exact HF|apply t_monroe|mode_tac|exact E|exact A1|reflexivity|reflexivity|reflexivity].
    - (* minimaxav *)
      destruct cs as [|c r] eqn:Ec; [congruence|]. rewrite <- Ec in *.
      pose proof (minimax_ok p k cs c r Ec HP) as A1.
      eapply report_same; [exact Hn|listed_name|reflexivity|auto|exact Hne|exact HF|apply t_minimaxav|mode_tac|reflexivity|reflexivity| |exact A1|rewrite Ec; reflexivity].
      rewrite Ec. reflexivity.
    - (* lexminimaxav *)
      destruct H0 as [<-|[<-|[]]].
      + destruct cs as [|c r] eqn:Ec; [congruence|]. rewrite <- Ec in *.
        destruct (lexminimax_ok p k cs (map (fun v => hamming (approved v) c) (voters p)) c Hv ltac:(apply HP; rewrite Ec; left; auto) (Permutation_refl _)) as (ms & E & A1).
        eapply report_same with (after := do ds <- lexminimaxav_gurobi_distances p cs; _); [exact Hn|listed_name|reflexivity|in_tac|exact Hne|exact HF|apply t_lexminimaxav|mode_tac|reflexivity|reflexivity| |exact A1|reflexivity].
        rewrite Ec at 1. exact E.
      + destruct (lexminimax_value p k Hw Hv ltac:(lia)) as (W & HW & EW).
        destruct (lexminimax_ok p k cs (lexminimaxav_brute_distances p k) W Hv HW) as (ms & E & A1).
        { rewrite EW. unfold distances. apply Permutation_trans with (2 := Permutation_rev _). apply sort_by_perm. }
        eapply report_same; [exact Hn|listed_name|reflexivity|in_tac|exact Hne|exact HF|apply t_lexminimaxav|mode_tac|reflexivity|reflexivity| |exact A1|reflexivity].
        exact E.
    - (* equal shares, Phragmen *)
      assert (E : compute rnd nx (with_solvers nx sv e) id p (Z.of_nat k) None (args alg resolute maxn) = compute_equal_shares e' p (Z.of_nat k) alg resolute maxn (Some "seqphragmen")).
      { destruct H1 as [<-|[<-|[<-|[]]]]; plain; reflexivity. }
      eapply (mes_report p k id "equal-shares" (Some "seqphragmen") PhragmenCompletion alg resolute maxn cs); auto; try discriminate.
      + destruct H1 as [<-|[<-|[<-|[]]]]; listed_name.
      + destruct H1 as [<-|[<-|[<-|[]]]]; reflexivity.
      + eexists; reflexivity.
      + unfold e' in *. congruence.
      + destruct H1 as [<-|[<-|[<-|[]]]]; reflexivity.
      + intros ->. apply t_mes_phragmen; auto.
      + intros ->. apply t_mes_all. destruct H1 as [<-|[<-|[<-|[]]]]; in_tac.
    - eapply (mes_report p k "equal-shares-with-av-completion" "equal-shares-with-av-completion" (Some "av") AvCompletion alg resolute maxn cs); auto; try discriminate.
      + listed_name.
      + eexists; reflexivity.
      + exact I.
      + rewrite <- Ecs. plain. reflexivity.
      + intros ->. apply t_mes_av.
      + intros ->. apply t_mes_all. in_tac.
    - assert (E : compute rnd nx (with_solvers nx sv e) id p (Z.of_nat k) None (args alg resolute maxn) = compute_equal_shares e' p (Z.of_nat k) alg resolute maxn None).
      { destruct H0 as [<-|[<-|[<-|[]]]]; plain; reflexivity. }
      eapply (mes_report p k id "equal-shares-without-completion" None NoCompletion alg resolute maxn cs); auto; try discriminate.
      + destruct H0 as [<-|[<-|[<-|[]]]]; listed_name.
      + destruct H0 as [<-|[<-|[<-|[]]]]; reflexivity.
      + eexists; reflexivity.
      + exact I.
      + unfold e' in *. congruence.
      + destruct H0 as [<-|[<-|[<-|[]]]]; reflexivity.
      + intros ->. apply t_mes_short; auto.
      + intros ->. apply t_mes_all. destruct H0 as [<-|[<-|[<-|[]]]]; in_tac.
    - eapply report_no_details with (m := SequentialMode); [exact Hn|listed_name|eapply exact_titled; eauto|exact Hne|exact HF|apply t_sequential; in_tac|mode_tac|reflexivity].
    - eapply report_no_details with (m := SequentialMode); [exact Hn|listed_name|eapply exact_titled; eauto|exact Hne|exact HF|apply t_sequential; in_tac|mode_tac|reflexivity].
    - (* trivial *)
      destruct (trivial_shown p k resolute maxn Hc) as (cs' & E1 & HPm).
      assert (cs' = cs). { assert (E2 : compute rnd nx (with_solvers nx sv e) "trivial" p (Z.of_nat k) None (args "standard" resolute maxn) = Ok cs') by (plain; exact E1). unfold e' in *. congruence. }
      subst cs'.
      eapply report_from with (m := OptimisationMode) (b := []) (a := []);
        [exact Hn|listed_name|reflexivity|in_tac|reflexivity|apply t_optimising; in_tac| | |exact HPm|intros Hx; contradiction Hx; reflexivity|reflexivity|reflexivity|reflexivity|reflexivity|reflexivity].
      + intros E0. rewrite E0 in HPm. apply Permutation_nil in HPm. contradiction.
      + apply Forall_forall. intros W HW. rewrite Forall_forall in HF. apply HF. apply (Permutation_in _ HPm). exact HW.
    - eapply report_no_details with (m := OptimisationMode); [exact Hn|listed_name|eapply exact_titled; eauto|exact Hne|exact HF|apply t_optimising; in_tac|mode_tac|reflexivity].
  Qed.

  (** Rules with resolute=True only *)
  Theorem listed_resolute_report : forall p k id alg, libraries_ok p rnd nx sv e -> listed_resolute e p id alg -> all_named p -> valid_call p k true None ->
    exists cs, compute rnd nx e' id p (Z.of_nat k) None (args alg true None) = Ok cs /\ reports p k id alg true None cs.
  Proof using.
    intros p k id alg Hlib Hl Hn Hc. pose proof Hc as (Hw & Hv & Hk & _).
    destruct (listed_resolute_one rnd nx sv e p k id alg Hlib Hl Hc) as (W & Ecs & HW & _). exists [W]. split; [exact Ecs|].
    assert (Hne : [W] <> []) by discriminate.
    assert (HF : Forall (Forall (fun c => c < num_cand p)) [W]) by (constructor; [apply HW|constructor]).
    destruct Hlib as (Hrnd & Hnx & Hsv & _). destruct Hl.
    - destruct (greedy_details_ok nx p k Hnx Hn Hk) as (W' & ms & E1 & E2 & A1).
      assert (W' = W).
      { assert (E3 : compute rnd nx (with_solvers nx sv e) "greedy-monroe" p (Z.of_nat k) None (args "standard" true None) = Ok [W']); [|congruence].
        plain. unfold compute_greedy_monroe. erewrite run_ok; eauto; try reflexivity. rewrite unit_weights_b by auto. exact E1. }
      subst W'.
      eapply report_same; [exact Hn|listed_name|reflexivity|in_tac|exact Hne|exact HF|apply t_greedy_monroe|mode_tac|exact E2|exact A1|reflexivity|reflexivity|reflexivity].
    - eapply report_no_details with (m := NoMode); [exact Hn|listed_name|in_tac|exact Hne|exact HF|apply t_rsd|reflexivity|reflexivity].
    - destruct (increment_details_ok p k (limit None) true Hw Hv Hk H0) as (cs & ms & E1 & E2 & A1).
      assert (cs = [W]).
      { assert (E3 : compute rnd nx (with_solvers nx sv e) "equal-shares-with-increment-completion" p (Z.of_nat k) None (args alg true None) = Ok cs); [|congruence].
        plain. rewrite (compute_equal_shares_exact (with_solvers nx sv e) p k alg true None (Some "increment") IncrementCompletion); auto. eexists; reflexivity. }
      subst cs.
      eapply report_same; [exact Hn|listed_name|reflexivity|eapply exact_titled; eauto|exact Hne|exact HF|apply t_mes_increment|mode_tac|exact E2|exact A1|reflexivity|reflexivity|reflexivity].
  Qed.
End All.
