(** * Claims C21, C22, C55: [abcrules.compute] for every rule

    SpecAll.v lists the rules, their algorithms, the elections for which each is
    covered ([listed], [listed_short], [listed_resolute]) and the winning
    committees of each ([elects]). *)
From Coq Require Import String.
From Coq Require Import List Arith Bool ZArith QArith Lia Lqa Permutation.
From Verif Require Import Prelude Misc MiscProofs Preferences Scores Spec SpecRules Rule Compute SpecCompute SpecSeq ComputeSeq RulesMonroe SpecMonroe
  RulesMore SpecMore MonroeExample ExampleData PrefProofs ProfileFacts Milp RulesSolver SolverPhragmen SolverCompute SolverMore ComputeAll SpecAll AllProofs.
Import ListNotations.
Local Open Scope string_scope.
Open Scope nat_scope.
Local Open Scope list_scope.

(** ** C21 *)
Theorem C21_every_rule : forall rnd nx sv e p k id alg resolute maxn, libraries_ok p rnd nx sv e ->
  listed e p k id alg -> valid_call p k resolute maxn ->
  exists l, compute rnd nx (with_solvers nx sv e) id p (Z.of_nat k) None (args alg resolute maxn) = Ok l /\
    l <> [] /\ NoDup l /\ forall W, In W l -> is_committee p k W.
Proof.
  intros rnd nx sv e p k id alg resolute maxn Hlib Hl Hc. pose proof Hc as (Hw & Hv & Hk & _).
  destruct (listed_determined rnd nx sv e p k id alg Hlib Hl Hw Hv Hk) as (P & _ & HP & Hd).
  exact (determined_valid P _ p k _ resolute maxn Hd HP Hc).
Qed.
Print Assumptions C21_every_rule.

(** Equal Shares without completion returns committees of at most [k] members. *)
Theorem C21_without_completion : forall rnd nx sv e p k id alg resolute maxn,
  listed_short e id alg -> valid_call p k resolute maxn ->
  exists l, compute rnd nx (with_solvers nx sv e) id p (Z.of_nat k) None (args alg resolute maxn) = Ok l /\
    l <> [] /\ NoDup l /\ forall W, In W l -> is_small_committee p k W.
Proof.
  intros rnd nx sv e p k id alg resolute maxn Hl Hc. pose proof Hc as (Hw & Hv & Hk & _).
  destruct (listed_short_determined rnd nx sv e p k id alg Hl Hw Hv Hk) as (P & _ & HP & Hd).
  exact (determined_valid P _ p k _ resolute maxn Hd HP Hc).
Qed.
Print Assumptions C21_without_completion.

(** Greedy Monroe, RSD and the increment completion return exactly one committee. *)
Theorem C21_resolute_rules : forall rnd nx sv e p k id alg, libraries_ok p rnd nx sv e ->
  listed_resolute e p id alg -> valid_call p k true None ->
  exists W, compute rnd nx (with_solvers nx sv e) id p (Z.of_nat k) None (args alg true None) = Ok [W] /\ is_committee p k W.
Proof.
  intros rnd nx sv e p k id alg Hlib Hl Hc.
  destruct (listed_resolute_one rnd nx sv e p k id alg Hlib Hl Hc) as (W & E & HW & _). eauto.
Qed.
Print Assumptions C21_resolute_rules.

(** The two Phragmén optimisation rules if fewer than [k] candidates are approved by anybody *)
Theorem C21_few_approved : forall rnd nx sv e p k resolute maxn, valid_call p k resolute maxn ->
  length (approved_candidates p) < k ->
  forall id alg, In (id, alg) [("minimaxphragmen", "gurobi"); ("minimaxphragmen", "mip-gurobi"); ("minimaxphragmen", "mip-cbc"); ("leximaxphragmen", "gurobi")] ->
  exists l, compute rnd nx (with_solvers nx sv e) id p (Z.of_nat k) None (args alg resolute maxn) = Ok l /\
    l <> [] /\ NoDup l /\ forall W, In W l -> is_committee p k W.
Proof.
  intros rnd nx sv e p k resolute maxn Hc Hf id alg Hin.
  pose proof (compute_fill_resolute nx sv e p k (valid_true _ _ _ _ Hc) Hf) as (W & HW & R1 & R2).
  assert (Hcase : exists l, l <> [] /\ NoDup l /\ (forall W, In W l -> is_committee p k W) /\
            (forall alg, In alg MIP_ALGORITHMS -> compute_minimaxphragmen (with_solvers nx sv e) p (Z.of_nat k) alg resolute maxn = Ok l) /\
            compute_leximaxphragmen (with_solvers nx sv e) p (Z.of_nat k) "gurobi" resolute maxn false = Ok l).
  { destruct resolute.
    - assert (maxn = None) as -> by (destruct Hc as (_ & _ & _ & H); destruct maxn as [[]|]; auto; destruct H; discriminate).
      exists [W]. split; [discriminate|]. split; [repeat constructor; intros []|]. split; auto.
      intros V [<-|[]]. apply HW.
    - destruct (compute_fill_correct nx sv e p k maxn Hc Hf) as (F1 & F2 & F3 & F4).
      exists (fill_with_unapproved p k false). split; [|split; auto; split; auto].
      + intros E. apply F4 in HW. rewrite E in HW. destruct HW.
      + intros V HV. apply F4 in HV. apply HV. }
  destruct Hcase as (l & H1 & H2 & H3 & H4 & H5). exists l. split; auto.
  destruct Hin as [E|[E|[E|[E|[]]]]]; inversion E; subst id alg.
  - transitivity (do cs <- compute_minimaxphragmen (with_solvers nx sv e) p (Z.of_nat k) "gurobi" resolute maxn; Ok cs); [reflexivity|]. rewrite H4; auto; left; auto.
  - transitivity (do cs <- compute_minimaxphragmen (with_solvers nx sv e) p (Z.of_nat k) "mip-gurobi" resolute maxn; Ok cs); [reflexivity|]. rewrite H4; auto; right; left; auto.
  - transitivity (do cs <- compute_minimaxphragmen (with_solvers nx sv e) p (Z.of_nat k) "mip-cbc" resolute maxn; Ok cs); [reflexivity|]. rewrite H4; auto; right; right; left; auto.
  - transitivity (do cs <- compute_leximaxphragmen (with_solvers nx sv e) p (Z.of_nat k) "gurobi" resolute maxn false; Ok cs); [reflexivity|]. rewrite H5; auto.
Qed.
Print Assumptions C21_few_approved.

Definition id_random : random := mkRandom (fun l => l) (fun l n => firstn n l).
Lemma example_libraries : forall p, libraries_ok p id_random ref_nx (ref_solvers p) ex_env.
Proof.
  intros p. split; [|split; [apply ref_nx_ok|split; [apply ref_solvers_exact|split; [intros; apply Permutation_sym, isort_perm|intros; apply isort_perm_eq; auto]]]].
  split; [intros; apply Permutation_refl|]. intros l n H. cbn. split; [rewrite firstn_length; lia|]. exists (skipn n l). rewrite firstn_skipn. auto.
Qed.
Example C21_example :
  let call id alg resolute := compute id_random ref_nx (with_solvers ref_nx (ref_solvers ex_unit) ex_env) id ex_unit 3 None (args alg resolute None) in
  libraries_ok ex_unit id_random ref_nx (ref_solvers ex_unit) ex_env /\ (forall resolute, valid_call ex_unit 3 resolute None) /\
  listed ex_env ex_unit 3 "pav" "branch-and-bound" /\ listed ex_env ex_unit 3 "seqgeom2" "standard" /\
  listed ex_env ex_unit 3 "equal-shares-with-av-completion" "standard-fractions" /\
  listed_short ex_env "equal-shares-without-completion" "standard-fractions" /\
  listed_resolute ex_env ex_unit "greedy-monroe" "standard" /\
  call "pav" "branch-and-bound" false = Ok [[0; 2; 3]; [0; 2; 4]; [1; 2; 3]; [1; 2; 4]] /\
  call "seqgeom2" "standard" true = Ok [[0; 2; 3]] /\
  call "equal-shares-without-completion" "standard-fractions" false = Ok [[0]; [1]; [2]] /\
  call "greedy-monroe" "standard" true = Ok [[0; 2; 3]].
Proof.
  cbv zeta. split; [apply example_libraries|]. split; [apply ex_unit_valid|].
  split; [apply (l_thiele_bb ex_env ex_unit 3 "pav" pav_w); [constructor|]|].
  { intros i j Hi Hj. unfold pav_w. assert (0 < Qnat i)%Q by (apply (Qnat_lt 0); lia). assert (Qnat i <= Qnat j)%Q by (apply Qnat_le; auto).
    apply Qle_shift_div_l; [lra|]. assert (E : (1 / Qnat j * Qnat i == Qnat i / Qnat j)%Q) by (field; lra). rewrite E. apply Qle_shift_div_r; lra. }
  split; [apply (l_seq ex_env ex_unit 3 "geom2" (geom_w 2)); apply (den_geom ex_env "2" 2%Q); [reflexivity|lra]|].
  split; [apply l_mes_av; left; reflexivity|]. split; [constructor; [left; reflexivity|right; right; left; reflexivity]|].
  split; [apply lr_greedy_monroe, ex_unit_unit|].
  repeat split; vm_compute; reflexivity.
Qed.

(** ** C22 *)
Theorem C22_restricts : forall rnd nx sv e p k id alg n, libraries_ok p rnd nx sv e ->
  listed e p k id alg \/ listed_short e id alg -> valid_call p k false (Some (PyInt n)) ->
  let call resolute maxn := compute rnd nx (with_solvers nx sv e) id p (Z.of_nat k) None (args alg resolute maxn) in
  exists all some one, call false None = Ok all /\ call true None = Ok [one] /\ call false (Some (PyInt n)) = Ok some /\
    In one all /\ incl some all /\ length some = Nat.min (Z.to_nat n) (length all).
Proof.
  intros rnd nx sv e p k id alg n Hlib Hl Hc. pose proof Hc as (Hw & Hv & Hk & _).
  destruct Hl as [Hl|Hl].
  - destruct (listed_determined rnd nx sv e p k id alg Hlib Hl Hw Hv Hk) as (P & _ & _ & Hd).
    exact (determined_restricts P p k _ n Hd Hc).
  - destruct (listed_short_determined rnd nx sv e p k id alg Hl Hw Hv Hk) as (P & _ & _ & Hd).
    exact (determined_restricts P p k _ n Hd Hc).
Qed.
Print Assumptions C22_restricts.

(** The other rules refuse [resolute=False]. *)
Theorem C22_resolute_only : forall rnd nx sv e p k id alg maxn, listed_resolute e p id alg -> valid_call p k false maxn ->
  compute rnd nx (with_solvers nx sv e) id p (Z.of_nat k) None (args alg false maxn) = Err NotImplementedError.
Proof. exact resolute_only_refuses. Qed.
Print Assumptions C22_resolute_only.

Example C22_example :
  let call resolute maxn := compute id_random ref_nx (with_solvers ref_nx (ref_solvers ex_unit) ex_env) "seqphragmen" ex_unit 3 None (args "standard-fractions" resolute maxn) in
  valid_call ex_unit 3 false (Some (PyInt 2)) /\ enough_support ex_unit 3 /\
  call false None = Ok [[0; 2; 3]; [0; 2; 4]; [1; 2; 3]; [1; 2; 4]] /\ call true None = Ok [[0; 2; 3]] /\
  call false (Some (PyInt 2)) = Ok [[0; 2; 3]; [0; 2; 4]].
Proof.
  cbv zeta. split. { split; [wf_tac|]. cbn. split; [discriminate|]. split; [lia|split; [lia|auto]]. }
  split. { intros c Hc. cbn in Hc. do 5 (destruct c as [|c]; [right; vm_compute; reflexivity|]). lia. }
  repeat split; vm_compute; reflexivity.
Qed.

(** ** C55 *)
(** [compute(rule_id, ...)] computes the rule named [rule_id]. *)
Theorem C55_computes_the_rule : forall rnd nx sv e p k id alg, libraries_ok p rnd nx sv e ->
  listed e p k id alg \/ listed_short e id alg -> wf p -> voters p <> [] -> 1 <= k <= num_cand p ->
  exists P, elects e p k id P /\ forall resolute maxn, valid_call p k resolute maxn ->
    answers P resolute (limit maxn) (compute rnd nx (with_solvers nx sv e) id p (Z.of_nat k) None (args alg resolute maxn)).
Proof.
  intros rnd nx sv e p k id alg Hlib [Hl|Hl] Hw Hv Hk.
  - destruct (listed_determined rnd nx sv e p k id alg Hlib Hl Hw Hv Hk) as (P & HE & _ & Hd). exists P. auto.
  - destruct (listed_short_determined rnd nx sv e p k id alg Hl Hw Hv Hk) as (P & HE & _ & Hd). exists P. auto.
Qed.
Print Assumptions C55_computes_the_rule.
Theorem C55_resolute_rules : forall rnd nx sv e p k id alg, libraries_ok p rnd nx sv e ->
  listed_resolute e p id alg -> valid_call p k true None ->
  exists P W, elects e p k id P /\ P W /\ compute rnd nx (with_solvers nx sv e) id p (Z.of_nat k) None (args alg true None) = Ok [W].
Proof.
  intros rnd nx sv e p k id alg Hlib Hl Hc.
  destruct (listed_resolute_one rnd nx sv e p k id alg Hlib Hl Hc) as (W & E & _ & P & H1 & H2). exists P, W. auto.
Qed.
Print Assumptions C55_resolute_rules.

(** Omitted keyword arguments: [resolute] is the first value the rule supports, there is no limit,
    and the algorithm is the fastest (exceptions: EPH, whose default is always
    "float-fractions", and the two rules with the single algorithm "standard"). *)
Theorem C55_defaults : forall rnd nx e id r p k expected kw, lookup_rule e id = Ok r ->
  compute rnd nx e id p k expected kw =
  compute rnd nx e id p k expected
    (mkKwargs (Some (match kw_algorithm kw with Some a => a | None =>
                 if String.eqb id "eph" then "float-fractions"
                 else if String.eqb id "trivial" || String.eqb id "rsd" then "standard" else "fastest" end))
              (Some (match kw_resolute kw with Some b => b | None => hd false (resolute_values r) end))
              (Some (match kw_max kw with Some m => m | None => None end))
              (kw_completion kw) (kw_lexicographic kw) (kw_other kw)).
Proof. exact compute_defaults. Qed.
Print Assumptions C55_defaults.

(** [result=...]: the call succeeds, with the same value, iff the committees are the expected
    ones (for [resolute]: iff the committee is one of the expected ones). *)
Theorem C55_expected_result : forall rnd nx e id r p k expected kw l, lookup_rule e id = Ok r ->
  compute rnd nx e id p k (Some expected) kw = Ok l <->
  compute rnd nx e id p k None kw = Ok l /\
  if (match kw_resolute kw with Some b => b | None => hd false (resolute_values r) end : bool)
  then exists c, l = [c] /\ exists d, In d expected /\ set_same c d
  else (forall c, In c l -> exists d, In d expected /\ set_same c d) /\
       (forall c, In c expected -> exists d, In d l /\ set_same c d).
Proof.
  intros rnd nx e id r p k expected kw l Hr. rewrite (compute_expected rnd nx e id r p k expected kw l Hr).
  rewrite verify_expected_iff. reflexivity.
Qed.
Print Assumptions C55_expected_result.

Theorem C55_unknown_rule : forall rnd nx e id x p k expected kw, lookup_rule e id = Err x -> compute rnd nx e id p k expected kw = Err x.
Proof. exact compute_unknown. Qed.
Print Assumptions C55_unknown_rule.

(** A keyword argument the rule's function does not have is a TypeError: [completion] is one of
    the rules with equal shares only, [lexicographic_tiebreaking] one of leximaxphragmen only. *)
Definition equal_shares_ids : list string :=
  ["rule-x"; "equal-shares"; "equal-shares-with-seqphragmen-completion"; "equal-shares-with-av-completion";
   "equal-shares-with-increment-completion"; "rule-x-without-phragmen-phase"; "equal-shares-without-phragmen-phase";
   "equal-shares-without-completion"].
Theorem C55_unexpected_keyword : forall rnd nx e id r p k expected kw, lookup_rule e id = Ok r ->
  kw_other kw = true \/ (kw_completion kw <> None /\ ~ In id equal_shares_ids) \/
  (kw_lexicographic kw <> None /\ id <> "leximaxphragmen") ->
  compute rnd nx e id p k expected kw = Err TypeError.
Proof.
  intros rnd nx e id r p k expected kw Hr Hu. unfold compute. rewrite Hr. cbn [rbind].
  assert (compute_fct rnd nx e id p k kw = Err TypeError) as ->; [|reflexivity].
  assert (A : forall id' f da dr, (id' = id /\ ~ In id equal_shares_ids /\ id <> "leximaxphragmen") -> call f da dr p k kw = Err TypeError).
  { intros id' f da dr (_ & H1 & H2). unfold call. destruct Hu as [->|[[H _]|[H _]]]; [reflexivity| |].
    - destruct (kw_completion kw); [|congruence]. destruct (kw_other kw); reflexivity.
    - destruct (kw_lexicographic kw); [|congruence]. destruct (kw_other kw), (kw_completion kw); reflexivity. }
  assert (B : forall c, In id equal_shares_ids -> call_mes e c p k kw = Err TypeError).
  { intros c H1. unfold call_mes. destruct Hu as [->|[[_ H]|[H _]]]; [reflexivity|contradiction|].
    destruct (kw_lexicographic kw); [|congruence]. destruct (kw_other kw); reflexivity. }
  assert (D : id = "leximaxphragmen" -> call_leximax e p k kw = Err TypeError).
  { intros ->. unfold call_leximax. destruct Hu as [->|[[H _]|[_ H]]]; [reflexivity| |congruence].
    destruct (kw_completion kw); [|congruence]. destruct (kw_other kw); reflexivity. }
  destruct (in_dec string_dec id equal_shares_ids) as [Hin|Hin].
  - cbn in Hin. repeat (destruct Hin as [<-|Hin]; [cbn; apply B; cbn; tauto|]). contradiction.
  - destruct (string_dec id "leximaxphragmen") as [->|Hx]; [cbn; apply D; reflexivity|].
    unfold compute_fct.
    assert (N : forall l, (In id l -> In id equal_shares_ids) -> str_in id l = false).
    { intros l Hl. unfold str_in. destruct (existsb (String.eqb id) l) eqn:E; [|reflexivity]. exfalso.
      apply Hin, Hl. apply existsb_exists in E as (x & Hx1 & Hx2). apply String.eqb_eq in Hx2. subst x. exact Hx1. }
    assert (E1 : str_in id ["rule-x"; "equal-shares"; "equal-shares-with-seqphragmen-completion"] = false).
    { apply N. intros H. cbn in H |- *. tauto. }
    assert (E2 : str_in id ["rule-x-without-phragmen-phase"; "equal-shares-without-phragmen-phase";
                       "equal-shares-without-completion"] = false).
    { apply N. intros H. cbn in H |- *. tauto. }
    assert (E3 : String.eqb id "equal-shares-with-av-completion" = false).
    { apply String.eqb_neq. intros ->. apply Hin. cbn. tauto. }
    assert (E4 : String.eqb id "equal-shares-with-increment-completion" = false).
    { apply String.eqb_neq. intros ->. apply Hin. cbn. tauto. }
    assert (E5 : String.eqb id "leximaxphragmen" = false) by (apply String.eqb_neq; auto).
    rewrite E1, E2, E3, E4, E5.
    repeat match goal with |- (if ?b then _ else _) = _ => destruct b; [apply (A id); auto|] end.
    apply (A id); auto.
Qed.
Print Assumptions C55_unexpected_keyword.

Example C55_example :
  let call id expected kw := compute id_random ref_nx ex_env id ex_unit 3 expected kw in
  call "seqpav" (Some [[3; 2; 0]; [1; 2; 3]]) no_kwargs = Ok [[0; 2; 3]] /\
  call "pav" (Some [[3; 2; 0]; [1; 2; 3]]) (mkKwargs (Some "brute-force") None None None None false) = Err ValueError /\
  call "pav" None (mkKwargs None None None (Some None) None false) = Err TypeError /\
  call "phragmms" None no_kwargs = Err UnknownRuleIDError.
Proof. cbv zeta. repeat split; vm_compute; reflexivity. Qed.
