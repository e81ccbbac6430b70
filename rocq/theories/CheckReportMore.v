(** * Proofs about what the checks print, continued: the result, full_analysis, prices *)
From Coq Require Import String.
From Coq Require Import List Arith Bool ZArith QArith Qround Lia Lqa.
From Verif Require Import Prelude Misc MiscProofs Preferences PrefProofs Spec SpecRules Checks SpecAxioms ChecksProofs Milp MilpProofs SolverProofs CheckSolver CheckSolverProofs
  SpecPrice PriceProofs Output OutputProofs SpecOutput CheckReport SpecReport.
From Verif Require Import StrProfile CheckReportProofs.
Import ListNotations.
Local Open Scope string_scope.
Open Scope nat_scope.
Local Open Scope list_scope.

(** ** The result is that of the silent check, unless the explanation cannot be formatted *)
Definition follows (r : report) (c : result bool) : Prop := fst r = c \/ (c = Ok false /\ exists e, fst r = Err e).
Lemma conclude_follows : forall A verdict (explain : A -> result string) ind r, follows (conclude verdict explain ind r) (passed r).
Proof.
  intros A verdict explain ind [[a|]|e]; try (left; reflexivity). cbn. destruct (explain a); [left; reflexivity|right; split; [reflexivity|eexists; reflexivity]].
Qed.
Lemma quota_follows : forall A pr yes no ind (explain : profile -> A -> result string) brute gurobi p W quota alg cb cg,
  (forall W q, cb p W q = passed (brute p W q)) -> (forall W q, cg p W q = passed (gurobi p W q)) ->
  follows (report_with_quota pr yes no ind explain brute gurobi p W quota alg) (check_with_quota cb cg p W quota alg).
Proof.
  intros A pr yes no ind explain brute gurobi p W quota alg cb cg Hb Hg. unfold report_with_quota, check_with_quota.
  destruct (quota_of p W quota) as [q|]; [|left; reflexivity]. cbn [rbind]. destruct (checked_committee p W) as [w|]; [|left; reflexivity]. cbn [rbind].
  rewrite Hb, Hg, pick_passed. apply conclude_follows.
Qed.
Lemma priceability_follows : forall pr gb p W alg stable, has_unit_weights p = false \/ voters p <> [] ->
  fst (report_priceability pr gb p W alg stable) = check_priceability gb p W alg stable.
Proof.
  intros pr gb p W alg stable Hv. unfold report_priceability, check_priceability. destruct (checked_committee p W) as [w|]; [|reflexivity]. cbn [rbind]. cbv zeta.
  destruct (String.eqb _ "gurobi"); [|reflexivity]. unfold report_priceability_gurobi, priceability_gurobi. cbv zeta. destruct (_ <? _); [reflexivity|].
  destruct (gb _) as [x| |]; try reflexivity. destruct (has_unit_weights p); [|reflexivity]. destruct Hv as [Hv|Hv]; [discriminate|].
  destruct (voters p) as [|v vs]; [congruence|]. reflexivity.
Qed.
Lemma report_check_follows : forall pr gb name p W quota alg, has_unit_weights p = false \/ voters p <> [] -> follows (report_check pr gb name p W quota alg) (check gb name p W quota alg).
Proof.
  intros pr gb name p W quota alg Hv. unfold report_check, check. cbv zeta.
  repeat match goal with |- follows (if ?b then _ else _) _ => destruct b end; try (left; reflexivity).
  - unfold report_pareto, check_pareto_optimality. destruct (checked_committee p W) as [w|]; [|left; reflexivity]. cbn [rbind].
    unfold check_pareto_core, pareto_gurobi. rewrite pareto_passed, (witness_passed _ gb _ (committee_at_least p)), pick_passed. apply conclude_follows.
  - unfold report_JR, check_JR. destruct (quota_of p W quota) as [q|]; [|left; reflexivity]. cbn [rbind]. destruct (checked_committee p W) as [w|]; [|left; reflexivity]. cbn [rbind].
    rewrite JR_passed. apply conclude_follows.
  - apply quota_follows; [intros; apply PJR_passed|intros; apply PJR_solve_passed].
  - apply quota_follows; [intros; apply EJR_passed|intros; apply EJR_solve_passed].
  - unfold report_EJR_plus, check_EJR_plus. destruct (quota_of p W quota) as [q|]; [|left; reflexivity]. cbn [rbind]. destruct (checked_committee p W) as [w|]; [|left; reflexivity]. cbn [rbind].
    unfold check_EJR_plus_core. destruct (upper_bound p q); [|left; reflexivity]. cbn [rbind]. rewrite EJR_plus_passed. apply conclude_follows.
  - apply quota_follows; [intros; apply FJR_passed|intros; apply FJR_solve_passed].
  - left. apply priceability_follows; auto.
  - left. apply priceability_follows; auto.
  - apply quota_follows; [intros; apply core_passed|intros; apply core_solve_passed].
Qed.

(** ** Levels *)
Definition quiet (ms : list message) : Prop := Forall (fun m => level m = INFO \/ level m = DETAILS) ms.
Lemma conclude_quiet : forall A verdict (explain : A -> result string) ind r, quiet (snd (conclude verdict explain ind r)).
Proof. intros. apply Forall_forall. intros m. apply conclude_levels. Qed.
Lemma quota_quiet : forall A pr yes no ind (explain : profile -> A -> result string) brute gurobi p W quota alg,
  quiet (snd (report_with_quota pr yes no ind explain brute gurobi p W quota alg)).
Proof. intros. unfold report_with_quota. destruct (rbind _ _) as [(q, w)|]; [apply conclude_quiet|constructor]. Qed.
Lemma priceability_quiet : forall pr gb p W alg stable, quiet (snd (report_priceability pr gb p W alg stable)).
Proof.
  intros. unfold report_priceability. destruct (checked_committee p W) as [w|]; [|constructor]. cbv zeta. destruct (String.eqb _ "gurobi"); [|constructor].
  assert (Q : quiet (snd (report_priceability_gurobi pr gb p w stable))).
  { unfold report_priceability_gurobi. cbv zeta. destruct (_ <? _); [constructor|]. destruct (gb _) as [x| |]; [|constructor; [right; reflexivity|constructor]|constructor].
    destruct (has_unit_weights p); [|constructor]. cbn [snd]. apply Forall_cons; [right; reflexivity|]. destruct (Nat.eqb _ 0); [apply Forall_nil|].
    apply Forall_cons; [right; reflexivity|]. apply Forall_map, Forall_forall. intros i _. right. reflexivity. }
  destruct (report_priceability_gurobi pr gb p w stable) as ([b|e], ms); cbn [snd] in *; auto. apply Forall_app. split; [exact Q|]. constructor; [left; reflexivity|constructor].
Qed.
Lemma report_check_quiet : forall pr gb name p W quota alg, quiet (snd (report_check pr gb name p W quota alg)).
Proof.
  intros. unfold report_check. cbv zeta.
  repeat match goal with |- quiet (snd (if ?b then _ else _)) => destruct b end; try constructor.
  - unfold report_pareto. destruct (checked_committee p W); [apply conclude_quiet|constructor].
  - unfold report_JR. destruct (rbind _ _) as [(q, w)|]; [apply conclude_quiet|constructor].
  - apply quota_quiet.
  - apply quota_quiet.
  - unfold report_EJR_plus. destruct (rbind _ _) as [(q, w)|]; [apply conclude_quiet|constructor].
  - apply quota_quiet.
  - apply priceability_quiet.
  - apply priceability_quiet.
  - apply quota_quiet.
Qed.
Lemma quiet_shown : forall fill v ms h, (INFO < v)%Z -> quiet ms -> shown fill v (map Print ms ++ h) = shown fill v h.
Proof.
  intros fill v ms h Hv. induction ms as [|m ms IH]; intros H; [reflexivity|]. inversion H as [|m' ms' Hm Hms]; subst. cbn [map app shown].
  destruct (Z_le_dec v (level m)) as [L|L]; [|cbn; auto]. exfalso. unfold INFO, DETAILS in *. destruct Hm as [E|E]; rewrite E in L; lia.
Qed.

(** ** full_analysis *)
Lemma report_exact : forall pr s p W name, wf p -> voters p <> [] -> all_named p -> formattable pr p -> cand_set p W -> W <> [] -> exact_solver p s ->
  In name PROPERTY_NAMES -> fst (report_check pr s name p W None "fastest") = check s name p W None "fastest".
Proof.
  intros pr s p W name Hw Hv Hnm Hf HW Hne Hs Hin.
  assert (Hq := default_pos p W Hw Hv Hne). assert (Hn : @None Q = None -> W <> []) by auto. assert (Ha : uses_gurobi "fastest") by (right; reflexivity).
  assert (Hws : with_solver p s "fastest") by (right; auto).
  assert (F := report_check_follows pr s name p W None "fastest" (or_intror Hv)). destruct F as [F|[Hc (e & He)]]; [auto|]. exfalso.
  assert (NE : forall ax y n w i, explained (report_check pr s name p W None "fastest") ax y n w i -> False).
  { intros ax y n w i [[_ X]|(_ & t & _ & X)]; rewrite X in He; discriminate. }
  destruct Hin as [<-|[<-|[<-|[<-|[<-|[<-|[<-|[<-|[<-|[]]]]]]]]]].
  - eapply NE. apply (report_pareto_explained s p W "fastest"); auto.
  - eapply NE. apply (report_JR_explained pr p W None); auto.
  - eapply NE. apply (report_PJR_explained pr s p W None "fastest"); auto.
  - eapply NE. apply (report_EJR_explained pr s p W None "fastest"); auto.
  - eapply NE. apply (report_EJR_plus_explained pr p W None); auto.
    intros i Hi. cbn [the_quota]. assert (Hk : (0 < Qnat (length W))%Q) by (apply Qnat_pos; destruct W; [congruence|simpl; lia]).
    assert (E : (Qnat (length W) * default_quota p (length W) == wsum (voters p))%Q) by (unfold default_quota; field; lra).
    rewrite <- E. apply Qmult_le_compat_r; [|cbn in Hq; lra]. apply Qnat_le'. apply utility_le; auto. apply HW.
  - eapply NE. apply (report_FJR_explained pr s p W None "fastest"); auto.
  - assert (X := priceability_follows pr s p W "fastest" false (or_intror Hv)). change (fst (report_priceability pr s p W "fastest" false) = Err e) in He. rewrite X in He. change (check_priceability s p W "fastest" false = Ok false) in Hc. congruence.
  - assert (X := priceability_follows pr s p W "fastest" true (or_intror Hv)). change (fst (report_priceability pr s p W "fastest" true) = Err e) in He. rewrite X in He. change (check_priceability s p W "fastest" true = Ok false) in Hc. congruence.
  - eapply NE. apply (report_core_explained pr s p W None "fastest"); auto.
Qed.
Lemma report_all_ok : forall pr s p W names, wf p -> voters p <> [] -> all_named p -> formattable pr p -> cand_set p W -> W <> [] -> exact_solver p s ->
  incl names PROPERTY_NAMES -> fst (report_all pr s names p W) = rmapM (fun name => do b <- check s name p W None "fastest"; Ok (name, b)) names /\
  quiet (snd (report_all pr s names p W)).
Proof.
  intros pr s p W names Hw Hv Hnm Hf HW Hne Hs. induction names as [|n names IH]; intros Hi; [split; [reflexivity|constructor]|].
  destruct IH as [IH1 IH2]; [intros x Hx; apply Hi; right; auto|]. cbn [report_all rmapM].
  assert (E := report_exact pr s p W n Hw Hv Hnm Hf HW Hne Hs (Hi n (or_introl eq_refl))). assert (Qn := report_check_quiet pr s n p W None "fastest").
  destruct (report_check pr s n p W None "fastest") as (r, ms). cbn [fst snd] in *. rewrite <- E. destruct r as [b|e]; cbn [rbind]; [|split; auto].
  destruct (report_all pr s names p W) as (rs, ms'). cbn [fst snd] in *. rewrite IH1. split; [reflexivity|]. apply Forall_app. auto.
Qed.
Theorem full_analysis_same : forall fill pr s o p W, wf p -> voters p <> [] -> all_named p -> formattable pr p -> cand_set p W -> W <> [] -> exact_solver p s ->
  fst (full_analysis_report pr s o p W) = fst (full_analysis s o p W) /\
  forall v, shown fill v (snd (full_analysis_report pr s o p W)) = shown fill v (snd (full_analysis s o p W)).
Proof.
  intros fill pr s o p W Hw Hv Hnm Hf HW Hne Hs. destruct (report_all_ok pr s p W PROPERTY_NAMES Hw Hv Hnm Hf HW Hne Hs (incl_refl _)) as [E Qt].
  unfold full_analysis_report, full_analysis. destruct (report_all pr s PROPERTY_NAMES p W) as (r, ms). cbn [fst snd] in *. rewrite <- E.
  destruct r as [rs|e]; cbn [fst snd]; (split; [reflexivity|]); intros v; cbn [shown app].
  - rewrite quiet_shown by (auto; unfold INFO, WARNING; lia). reflexivity.
  - rewrite <- (app_nil_r (map Print ms)). rewrite quiet_shown by (auto; unfold INFO, WARNING; lia). reflexivity.
Qed.

(** ** Priceability *)
Lemma concat_spaces : forall n, String.length (String.concat "" (repeat " " n)) = n.
Proof.
  induction n as [|n IH]; [reflexivity|]. cbn [repeat]. destruct n; [reflexivity|]. cbn [repeat String.concat] in *. cbn. f_equal. exact IH.
Qed.
Lemma append_length : forall a b, String.length (a ++ b) = String.length a + String.length b.
Proof. induction a as [|x a IH]; intros; [reflexivity|]. cbn. rewrite IH. reflexivity. Qed.
Lemma rjust_column : forall n s, in_column n s (rjust n s).
Proof.
  intros n s. exists (n - String.length s). split; [reflexivity|]. unfold rjust. rewrite append_length, concat_spaces. lia.
Qed.
Lemma payment_table_shows : forall pr p x, shows_payments pr p (pays x) (payment_table pr p x).
Proof.
  intros pr p x. unfold shows_payments, payment_table. do 2 eexists. exists (column_width pr p x). do 2 eexists. split; [reflexivity|]. split; [reflexivity|]. split; [|split].
  - exists (voter_width p). split; [symmetry; apply append_nil_r|]. rewrite concat_spaces. unfold voter_width. cbn. lia.
  - unfold candidates. induction (seq 0 (num_cand p)); cbn [map]; constructor; auto. apply rjust_column.
  - unfold indices. induction (seq 0 (length (voters p))); cbn [map]; constructor; auto. do 2 eexists. split; [reflexivity|]. split; [apply rjust_column|].
    unfold candidates. clear. induction (seq 0 (num_cand p)); cbn [map]; constructor; auto. apply rjust_column.
Qed.
Lemma prices_feasible : forall p W stable B pay, cand_set p W -> W <> [] -> prices p W stable B pay -> exists x, feasible (price_program p W stable) x /\ x Budget = B.
Proof.
  intros p W stable B pay HW Hne [HP HL]. destruct stable.
  - exists (stable_solution p W B pay). split; [|reflexivity]. destruct (price_complete p W (stable_solution p W B pay) B pay HP) as [A C]; auto.
    destruct HW as [HN HR]. destruct (stable_complete p W B pay Hne HN HR HP HL) as [A' C']. split; cbn [decls Milp.cons price_program]; apply Forall_app; auto.
  - set (x := fun v => match v with Payment i c => pay i c | Budget => B | _ => 0%Q end). exists x. split; [|reflexivity].
    destruct (price_complete p W x B pay HP) as [A C]; auto. split; cbn [decls Milp.cons price_program]; apply Forall_app; split; auto.
    unfold leftover_cons. apply Forall_map, Forall_forall. intros c Hc. apply outsiders_In in Hc as [Hc Hn]. cbn [holds]. rewrite ev_const, ev_sum, map_map.
    rewrite (Qsum_map_ext _ _ (left_over p W (x Budget) (pays x))) by (intros i _; apply ev_unspent). exact (HL c Hc Hn).
Qed.
Lemma solution_prices : forall p W stable x, feasible (price_program p W stable) x -> prices p W stable (x Budget) (pays x).
Proof.
  intros p W stable x [HD HC]. cbn [decls Milp.cons price_program] in HD, HC. apply Forall_app in HD as [HD HD']. apply Forall_app in HC as [HC HC'].
  split; [apply price_sound; auto|]. destruct stable; [apply stable_sound; auto|].
  intros c Hc Hn. unfold leftover_cons in HC'. rewrite Forall_map, Forall_forall in HC'.
  specialize (HC' c (proj2 (outsiders_In p W c) (conj Hc Hn))). cbn [holds] in HC'. rewrite ev_const, ev_sum, map_map in HC'.
  rewrite (Qsum_map_ext _ _ (left_over p W (x Budget) (pays x))) in HC' by (intros i _; apply ev_unspent). exact HC'.
Qed.
Lemma price_correct : forall s p W stable, exact_solver p s -> correct_on s (price_program p W stable).
Proof. intros s p W stable Hs. apply Hs; [apply price_guarded|]. apply bounded_intro; [apply size_pos|]. intros x d _ Hd Et. exfalso. eapply price_int; eauto. Qed.

Definition price_verdict (W : list nat) (stable b : bool) : message :=
  mkMessage INFO ("Committee " ++ str_set_of_candidates W ++ (if b then " is " else " is not ") ++ (if stable then "stable " else "") ++ "priceable.")%string true "".
Theorem report_prices : forall pr s p W alg stable, wf p -> cand_set p W -> W <> [] -> exact_solver p s -> uses_gurobi alg -> ~ few_approved p W ->
  (exists B pay, prices p W stable B pay /\ (forall B' pay', prices p W stable B' pay' -> (B <= B')%Q) /\
     exists ms, report_priceability pr s p W alg stable = (Ok true, ms ++ [price_verdict W stable true]) /\
       (unit_weights p -> exists table, ms = mkMessage DETAILS ("Budget: " ++ str_float pr B) true "" :: table /\ shows_payments pr p pay table) /\
       (~ unit_weights p -> ms = [])) \/
  ((forall B pay, ~ prices p W stable B pay) /\
   report_priceability pr s p W alg stable = (Ok false, [mkMessage DETAILS "No feasible budget and payment function" true ""; price_verdict W stable false])).
Proof.
  intros pr s p W alg stable Hw HW Hne Hs Ha Hf. unfold report_priceability. rewrite checked_ok by auto. cbv zeta.
  replace (String.eqb (if String.eqb alg "fastest" then "gurobi" else alg) "gurobi") with true by (destruct Ha as [-> | ->]; reflexivity).
  unfold report_priceability_gurobi. cbv zeta.
  destruct (Nat.ltb_spec (length (filter (fun c => existsb (fun v => mem c (approved v)) (voters p)) (candidates p))) (length W)) as [L|L].
  { exfalso. apply Hf, few_approved_iff; auto. }
  assert (Hv : voters p <> []).
  { intros E. rewrite E in L. destruct W as [|c W]; [congruence|]. replace (filter _ (candidates p)) with (@nil nat) in L; [cbn in L; lia|].
    symmetry. cbn [existsb]. clear. induction (candidates p); auto. }
  assert (Hc := price_correct s p W stable Hs). unfold correct_on in Hc. destruct (s (price_program p W stable)) as [x| |].
  - left. exists (x Budget), (pays x). destruct Hc as [Hx Hopt]. split; [apply solution_prices; auto|]. split.
    + intros B' pay' H. apply prices_feasible in H as (y & Hy & <-); auto. specialize (Hopt y Hy). cbn [objective price_program] in Hopt. rewrite !ev_scale, !ev_var in Hopt. lra.
    + pose proof (has_unit_iff p) as U. destruct (has_unit_weights p).
      * assert (E : Nat.eqb (length (voters p)) 0 = false) by (destruct (voters p); [congruence|reflexivity]). rewrite E. eexists. split; [reflexivity|]. split.
        -- intros _. eexists. split; [reflexivity|]. apply payment_table_shows.
        -- intros X. exfalso. apply X, U. reflexivity.
      * exists []. split; [reflexivity|]. split; auto. intros X. apply U in X. discriminate.
  - right. split; [|reflexivity]. intros B pay H. apply prices_feasible in H as (y & Hy & _); auto. destruct (Hc y Hy).
  - exfalso. destruct (Hc 0%Q) as (y & [HD _] & Hlt). cbn [objective price_program] in Hlt. rewrite ev_scale, ev_var in Hlt. cbn [decls price_program] in HD. apply Forall_app in HD as [HD _].
    inversion HD as [|d ds HB _ E']; subst. apply nonneg_decl in HB. lra.
Qed.
Theorem report_few : forall pr s p W alg (stable : bool), wf p -> cand_set p W -> uses_gurobi alg -> few_approved p W ->
  exists b, (b = true <-> takes_all_approved p W) /\ report_priceability pr s p W alg stable = (Ok b, [price_verdict W stable b]).
Proof.
  intros pr s p W alg stable Hw HW Ha Hf. unfold report_priceability. rewrite checked_ok by auto. cbv zeta.
  replace (String.eqb (if String.eqb alg "fastest" then "gurobi" else alg) "gurobi") with true by (destruct Ha as [-> | ->]; reflexivity).
  unfold report_priceability_gurobi. cbv zeta. apply few_approved_iff in Hf; auto. apply Nat.ltb_lt in Hf. rewrite Hf.
  eexists. split; [|reflexivity]. apply takes_all_iff; auto.
Qed.
