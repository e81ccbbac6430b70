(** * More about the rules that need a solver *)
From Coq Require Import String.
From Coq Require Import List Arith Bool ZArith QArith Qpower Lia Lqa Permutation.
From Verif Require Import Prelude Misc MiscProofs Preferences Scores Spec SpecRules Common ScoresProofs Search Rule RulesThiele ThieleProofs
  BBProofs OptProofs Compute SpecCompute ComputeProofs SpecSeq RulesSeq SeqProofs RulesMonroe SpecMonroe MonroeProofs MonroeRule Guarantees ExampleData
  Milp MilpProofs SpecLoads RulesSolver SolverProofs SolverLex SolverMonroe SolverPhragmen SolverLeximax SolverMaximin RefSolver SolverCompute.
Import ListNotations.
Local Open Scope string_scope.
Open Scope nat_scope.
Local Open Scope list_scope.

(** ** Which Thiele methods the integer programs are for *)
Lemma pav_decreasing : decreasing_to_zero pav_w.
Proof.
  split; [reflexivity|]. intros i Hi. left. unfold pav_w.
  assert (0 < Qnat i)%Q by (apply Qnat_pos; lia). assert (E : (Qnat (S i) == Qnat i + 1)%Q) by apply Qnat_S'.
  apply Qlt_shift_div_r; [lra|]. setoid_replace (1 / Qnat i * Qnat (S i))%Q with (1 + 1 / Qnat i)%Q by (rewrite E; field; lra).
  assert (0 < 1 / Qnat i)%Q by (apply Qlt_shift_div_l; lra). lra.
Qed.
Lemma slav_decreasing : decreasing_to_zero slav_w.
Proof.
  split; [reflexivity|]. intros i Hi. left. unfold slav_w.
  assert (1 <= Qnat i)%Q by (unfold Qnat; change 1%Q with (inject_Z 1); rewrite <- Zle_Qle; lia). assert (E : (Qnat (S i) == Qnat i + 1)%Q) by apply Qnat_S'.
  apply Qlt_shift_div_r; [lra|]. setoid_replace (1 / (2 * Qnat i - 1) * (2 * Qnat (S i) - 1))%Q with (1 + 2 / (2 * Qnat i - 1))%Q by (rewrite E; field; lra).
  assert (0 < 2 / (2 * Qnat i - 1))%Q by (apply Qlt_shift_div_l; lra). lra.
Qed.
Lemma cc_decreasing : decreasing_to_zero cc_w.
Proof. split; [reflexivity|]. intros i Hi. right. unfold cc_w. destruct i as [|i]; [lia|]. reflexivity. Qed.
Lemma geom_step : forall b i, (0 < b)%Q -> 1 <= i -> (geom_w b i == b * geom_w b (S i))%Q.
Proof.
  intros b i Hb Hi. unfold geom_w. replace (Z.of_nat (S i) - 1)%Z with (Z.of_nat i - 1 + 1)%Z by lia.
  rewrite Qpower_plus by lra. assert (E : (Qpower b 1 == b)%Q) by reflexivity. rewrite E. field. split; [lra|].
  intros H. assert (0 < Qpower b (Z.of_nat i - 1))%Q by (replace (Z.of_nat i - 1)%Z with (Z.of_nat (i - 1)) by lia; rewrite <- Qpow_power; apply Qpow_pos; auto). lra.
Qed.
Lemma geom_decreasing : forall b, (1 < b)%Q -> decreasing_to_zero (geom_w b).
Proof.
  intros b Hb. split; [reflexivity|]. intros i Hi. left. rewrite (geom_step b i) by (auto; lra).
  assert (0 < geom_w b (S i))%Q by (apply geom_pos; [lra|lia]). nra.
Qed.

(** a base of at most 1: rejected, although brute force computes the rule *)
Theorem compute_geom_solver_rejects : forall nx sv e t b p k alg resolute maxn, fraction_of_string e t = Some b -> (0 < b)%Q -> (b <= 1)%Q ->
  valid_call p k resolute maxn -> 2 <= k -> In alg MIP_ALGORITHMS ->
  compute_thiele_method (with_solvers nx sv e) ("geom" ++ t)%string p (Z.of_nat k) alg resolute maxn = Err ValueError.
Proof.
  intros nx sv e t b p k alg resolute maxn Ht Hb0 Hb1 Hc Hk Ha.
  pose proof (den_geom e t b Ht Hb0) as Hd.
  destruct (denotes_ok e _ _ Hd) as (sf & El & Hg & Hsame & _).
  destruct (denotes_solver_rule (with_solvers nx sv e) _ _ (denotes_with nx sv e _ _ Hd)) as (r & Er & Hal & Hres).
  destruct (thiele_dispatch nx sv e _ _ alg p k resolute (limit maxn) sf Hd Ha El) as (s & Hs & E).
  unfold compute_thiele_method. erewrite run_ok; eauto; [|destruct Ha as [<-|[<-|[<-|[]]]]; reflexivity]. cbv beta.
  assert (Eb : (if String.eqb alg "gurobi" then external (with_solvers nx sv e) ("geom" ++ t)%string alg p k resolute (limit maxn)
     else if String.eqb alg "branch-and-bound" then
       do f <- lookup_scorefct (with_solvers nx sv e) ("geom" ++ t)%string; thiele_branchandbound (marginal f) p k resolute (limit maxn)
     else if String.eqb alg "brute-force" then
       do f <- lookup_scorefct (with_solvers nx sv e) ("geom" ++ t)%string; thiele_bruteforce (marginal f) p k resolute (limit maxn)
     else if String.prefix "mip-" alg then external (with_solvers nx sv e) ("geom" ++ t)%string alg p k resolute (limit maxn)
     else if String.eqb alg "ortools-cp" && String.eqb ("geom" ++ t)%string "cc" then external (with_solvers nx sv e) ("geom" ++ t)%string alg p k resolute (limit maxn)
     else Err UnknownAlgorithm) = solver_rule e nx sv ("geom" ++ t)%string alg p k resolute (limit maxn)).
  { destruct Ha as [<-|[<-|[<-|[]]]]; reflexivity. }
  rewrite Eb, E. unfold ilp_thiele.
  assert (Em : monotonic_decreasing (map (marginal sf) (seq 1 k)) = false).
  { apply not_true_is_false. intros H. unfold monotonic_decreasing in H. rewrite forallb_forall in H.
    specialize (H (marginal sf 1, marginal sf 2)). cbn [fst snd] in H.
    assert (Hin : In (marginal sf 1, marginal sf 2) (combine (map (marginal sf) (seq 1 k)) (tl (map (marginal sf) (seq 1 k))))).
    { destruct k as [|[|k']]; [lia|lia|]. left. reflexivity. }
    specialize (H Hin). pose proof (Hsame 1 ltac:(lia)) as E1. pose proof (Hsame 2 ltac:(lia)) as E2. rewrite (geom_step b 1) in E1 by (auto; lia).
    pose proof (geom_pos b 2 Hb0 ltac:(lia)) as Hp. apply orb_true_iff in H as [H|H].
    - apply Qltb_lt in H. nra.
    - apply andb_true_iff in H as [_ H]. apply Qeq_bool_iff in H. lra. }
  rewrite Em. reflexivity.
Qed.

(** fractional weights with OR-Tools *)
Theorem compute_cc_ortools_rejects : forall nx sv e p k resolute maxn, valid_call p k resolute maxn ->
  Exists (fun v => weight_is_int v = false) (voters p) ->
  compute_cc (with_solvers nx sv e) p (Z.of_nat k) "ortools-cp" resolute maxn = Err TypeError.
Proof.
  intros nx sv e p k resolute maxn Hc He. unfold compute_cc, compute_thiele_method.
  erewrite run_ok; eauto; try reflexivity; [|destruct resolute; reflexivity].
  cbn [String.eqb Ascii.eqb Bool.eqb andb]. simpl String.prefix. cbv iota.
  change (external (with_solvers nx sv e) "cc" "ortools-cp" p k resolute (limit maxn)) with (ortools_cc (cp_sat sv) p k resolute (limit maxn)).
  unfold ortools_cc. replace (forallb weight_is_int (voters p)) with false; [reflexivity|]. symmetry. apply not_true_is_false. intros H. rewrite forallb_forall in H.
  apply Exists_exists in He as (v & Hv & E). rewrite (H v Hv) in E. discriminate.
Qed.

(** ** leximax Phragmén *)
Lemma compute_leximax_unfold : forall nx sv e p k resolute maxn lexi, valid_call p k resolute maxn ->
  compute_leximaxphragmen (with_solvers nx sv e) p (Z.of_nat k) "gurobi" resolute maxn lexi =
    if lexi && negb resolute then Err ValueError
    else do cs <- gurobi_leximaxphragmen (gurobi sv) p k (if lexi then false else resolute) (limit maxn);
         if lexi then do sorted <- sorted_committees cs; Ok (firstn 1 sorted) else Ok cs.
Proof. intros. unfold compute_leximaxphragmen. erewrite run_ok; eauto; try reflexivity. destruct resolute; reflexivity. Qed.

Theorem compute_leximaxphragmen_uniform : forall nx sv e p k, exact_solvers p sv -> wf p -> voters p <> [] ->
  weights_at_least_one p -> k <= length (approved_candidates p) ->
  exists bounds, enough_bounds p k bounds /\ (exists W, leximax_winner p k bounds W) /\
    forall resolute maxn, valid_call p k resolute maxn -> answers (leximax_winner p k bounds) resolute (limit maxn)
            (compute_leximaxphragmen (with_solvers nx sv e) p (Z.of_nat k) "gurobi" resolute maxn false).
Proof.
  intros nx sv e p k (Hs & _) Hw Hv Ho Hk.
  destruct (gurobi_leximaxphragmen_correct (gurobi sv) p k Hw Ho Hv Hk ltac:(intros; apply leximaxphragmen_solves; auto)) as (bounds & H1 & H1' & H2 & (b & (W & HW & HL) & Hb) & H3).
  exists bounds. split; [split; auto|]. split.
  { exists W. split; auto. exists b. split; auto. intros W' b' HW' Hb'. specialize (Hb W' b' HW' Hb'). unfold CMP_ACCURACY. lra. }
  intros resolute maxn Hc. rewrite compute_leximax_unfold by auto. cbn [andb].
  destruct (H3 resolute (limit maxn) (valid_limit _ _ _ _ Hc)) as (l & El & H4). cbv iota. rewrite El. cbn [rbind]. exists l. auto.
Qed.
Theorem compute_leximaxphragmen_correct : forall nx sv e p k resolute maxn, exact_solvers p sv -> valid_call p k resolute maxn ->
  weights_at_least_one p -> k <= length (approved_candidates p) ->
  exists bounds, enough_bounds p k bounds /\ (exists W, leximax_winner p k bounds W) /\
    answers (leximax_winner p k bounds) resolute (limit maxn)
            (compute_leximaxphragmen (with_solvers nx sv e) p (Z.of_nat k) "gurobi" resolute maxn false).
Proof.
  intros nx sv e p k resolute maxn Hs Hc Ho Hk. pose proof Hc as (Hw & Hv & _).
  destruct (compute_leximaxphragmen_uniform nx sv e p k Hs Hw Hv Ho Hk) as (bounds & H1 & H2 & H3). exists bounds. auto.
Qed.

(** with [lexicographic_tiebreaking]: the first of all winning committees; only for [resolute=True] *)
Theorem compute_leximaxphragmen_lexicographic : forall nx sv e p k, exact_solvers p sv -> valid_call p k true None ->
  weights_at_least_one p -> k <= length (approved_candidates p) ->
  exists W l, compute_leximaxphragmen (with_solvers nx sv e) p (Z.of_nat k) "gurobi" true None true = Ok [W] /\
    compute_leximaxphragmen (with_solvers nx sv e) p (Z.of_nat k) "gurobi" false None false = Ok (W :: l) /\
    compute_leximaxphragmen (with_solvers nx sv e) p (Z.of_nat k) "gurobi" false None true = Err ValueError.
Proof.
  intros nx sv e p k Hs Hc Ho Hk.
  assert (Hc' : valid_call p k false None) by (destruct Hc as (A & B & C & _); split; auto).
  destruct (compute_leximaxphragmen_correct nx sv e p k false None Hs Hc' Ho Hk) as (bounds & _ & Hw & HA).
  rewrite !compute_leximax_unfold in * by auto. cbn [andb negb] in *. cbv iota in *.
  change (limit None) with (@None nat) in *.
  assert (E0 : (do cs <- gurobi_leximaxphragmen (gurobi sv) p k false None; Ok cs) = gurobi_leximaxphragmen (gurobi sv) p k false None)
    by (destruct (gurobi_leximaxphragmen (gurobi sv) p k false None); reflexivity).
  rewrite E0 in *. clear E0.
  destruct HA as (l & El & Hn & Ho' & HP & Hall). rewrite El. cbn [rbind].
  destruct l as [|W l]; [destruct Hw as (W & HW); destruct (Hall W HW)|]. exists W, l. split; [|auto].
  rewrite sorted_committees_asc by (apply Forall_forall; intros V HV; apply HP in HV; apply HV). cbn [rbind].
  rewrite sort_sorted_id by auto. reflexivity.
Qed.

(** ** Fewer approved candidates than seats *)
Lemma approved_In : forall p c, In c (approved_candidates p) <-> exists v, In v (voters p) /\ In c (approved v).
Proof. intros p c. unfold approved_candidates. rewrite dedup_In, in_flat_map. reflexivity. Qed.
Lemma approved_range : forall p c, wf p -> In c (approved_candidates p) -> c < num_cand p.
Proof.
  intros p c Hw H. apply approved_In in H as (v & Hv & Hc). destruct (wf_approved p v Hw Hv) as (_ & Hr & _). rewrite Forall_forall in Hr. auto.
Qed.
(** all approved candidates are elected *)
Definition elects_approved (p : profile) (k : nat) (W : list nat) : Prop :=
  is_committee p k W /\ forall v c, In v (voters p) -> In c (approved v) -> In c W.

Section Fill.
  Variables (p : profile) (k : nat).
  Hypothesis Hw : wf p.
  Hypothesis Hfew : length (approved_candidates p) < k.
  Hypothesis Hk : k <= num_cand p.
  Let A := approved_candidates p.
  Let R := diff (candidates p) A.
  Lemma fill_R : forall c, In c R <-> c < num_cand p /\ ~ In c A.
  Proof using All. intros c. unfold R, diff, candidates. rewrite filter_In, in_seq, negb_true_iff, mem_false. intuition lia. Qed.
  Lemma fill_R_asc : ascending R.
  Proof using All. apply ascending_filter, ascending_seq. Qed.
  Lemma fill_nodup : forall E, sublist E R -> NoDup (A ++ E).
  Proof using All.
    intros E HE. apply NoDup_app_intro.
    - apply dedup_NoDup.
    - eapply sublist_NoDup; [exact HE|]. apply ascending_NoDup, fill_R_asc.
    - intros c Hc Hc'. apply (sublist_incl _ _ _ HE) in Hc'. apply fill_R in Hc'. tauto.
  Qed.
  Lemma fill_committee : forall E, sublist E R -> length E = k - length A -> elects_approved p k (isort (A ++ E)).
  Proof using All.
    intros E HE Hl. split.
    - apply isort_committee; [apply fill_nodup; auto|rewrite app_length, Hl; fold A in Hfew; lia|]. apply Forall_forall. intros c Hc. apply in_app_or in Hc as [Hc|Hc].
      + apply approved_range; auto.
      + apply (sublist_incl _ _ _ HE) in Hc. apply fill_R in Hc. tauto.
    - intros v c Hv Hc. apply isort_In, in_or_app. left. apply approved_In. eauto.
  Qed.
  Lemma fill_all : forall W, elects_approved p k W <-> In W (fill_with_unapproved p k false).
  Proof using All.
    intros W. unfold fill_with_unapproved. fold A R. rewrite in_map_iff. split.
    - intros [(Ha & Hl & Hr) HA]. exists (diff W A).
      assert (HAW : forall c, In c A -> In c W) by (intros c Hc; apply approved_In in Hc as (v & Hv & Hc); eauto).
      assert (Hsub : sublist (diff W A) R).
      { apply ascending_sublist; [apply ascending_filter; auto|apply fill_R_asc|]. intros c Hc. unfold diff in Hc. rewrite filter_In, negb_true_iff, mem_false in Hc.
        apply fill_R. rewrite Forall_forall in Hr. split; [apply Hr|]; tauto. }
      assert (E : isort (A ++ diff W A) = W).
      { apply ascending_ext; auto; [apply isort_ascending, fill_nodup; auto|]. intros c. rewrite isort_In, in_app_iff. unfold diff. rewrite filter_In, negb_true_iff, mem_false.
        split; [intuition|]. intros Hc. destruct (in_dec Nat.eq_dec c A); tauto. }
      split; auto. apply combinations_sublist. split; auto. rewrite <- E, isort_length, app_length in Hl. lia.
    - intros (E & <- & HE). apply combinations_sublist in HE as [HE Hl]. apply fill_committee; auto.
  Qed.
  Lemma fill_distinct : NoDup (fill_with_unapproved p k false).
  Proof using All.
    unfold fill_with_unapproved. fold A R. apply NoDup_map_inj; [|apply combinations_NoDup, ascending_NoDup, fill_R_asc].
    intros s t Hs Ht E. apply combinations_sublist in Hs as [Hs _]. apply combinations_sublist in Ht as [Ht _].
    apply ascending_ext.
    - eapply sublist_ascending; eauto using fill_R_asc.
    - eapply sublist_ascending; eauto using fill_R_asc.
    - assert (G : forall u w x, sublist u R -> isort (A ++ u) = isort (A ++ w) -> In x u -> In x w).
      { intros u w x Hu Eu Hx. assert (Hi : In x (isort (A ++ w))) by (rewrite <- Eu; apply isort_In, in_app_iff; auto).
        apply isort_In, in_app_iff in Hi as [Hi|Hi]; auto. exfalso. apply (sublist_incl _ _ _ Hu) in Hx. apply fill_R in Hx. tauto. }
      intro x. split; [apply (G s t)|apply (G t s)]; auto.
  Qed.
  Lemma fill_R_length : length R = num_cand p - length A.
  Proof using All.
    assert (Hp : Permutation (A ++ R) (candidates p)).
    { apply NoDup_Permutation; [apply fill_nodup, sublist_refl|apply seq_NoDup|]. intros c. rewrite in_app_iff, fill_R. unfold candidates. rewrite in_seq. split.
      - intros [Hc|Hc]; [apply (approved_range p c Hw) in Hc|]; lia.
      - intros Hc. destruct (in_dec Nat.eq_dec c A); [auto|right; split; [lia|auto]]. }
    apply Permutation_length in Hp. rewrite app_length in Hp. unfold candidates in Hp. rewrite seq_length in Hp. lia.
  Qed.
  Lemma fill_one : exists W, fill_with_unapproved p k true = [W] /\ elects_approved p k W.
  Proof using All.
    unfold fill_with_unapproved. fold A R. eexists. split; [reflexivity|]. apply fill_committee.
    - assert (F : forall n (l : list nat), sublist (firstn n l) l) by (intros n l; revert n; clear; induction l; destruct n; simpl; constructor; auto). apply F.
    - rewrite firstn_length, fill_R_length. fold A in Hfew. lia.
  Qed.
End Fill.

Lemma compute_minimax_unfold : forall nx sv e p k alg resolute maxn, valid_call p k resolute maxn -> In alg MIP_ALGORITHMS ->
  exists s, (s = gurobi sv \/ exists id, s = python_mip sv id) /\
    compute_minimaxphragmen (with_solvers nx sv e) p (Z.of_nat k) alg resolute maxn = ilp_minimaxphragmen s p k resolute (limit maxn).
Proof.
  intros nx sv e p k alg resolute maxn Hc Ha. unfold compute_minimaxphragmen.
  destruct Ha as [<-|[<-|[<-|[]]]]; [exists (gurobi sv)|exists (python_mip sv "gurobi")|exists (python_mip sv "cbc")]; (split; [eauto|]);
    (erewrite run_ok; eauto; try reflexivity; destruct resolute; reflexivity).
Qed.

(** the two rules return the same committees in this case, without a solver *)
Theorem compute_fill_correct : forall nx sv e p k maxn, valid_call p k false maxn -> length (approved_candidates p) < k ->
  (forall alg, In alg MIP_ALGORITHMS -> compute_minimaxphragmen (with_solvers nx sv e) p (Z.of_nat k) alg false maxn = Ok (fill_with_unapproved p k false)) /\
  compute_leximaxphragmen (with_solvers nx sv e) p (Z.of_nat k) "gurobi" false maxn false = Ok (fill_with_unapproved p k false) /\
  NoDup (fill_with_unapproved p k false) /\ forall W, In W (fill_with_unapproved p k false) <-> elects_approved p k W.
Proof.
  intros nx sv e p k maxn Hc Hf. pose proof Hc as (Hw & _ & Hk & _). split; [|split; [|split]].
  - intros alg Ha. destruct (compute_minimax_unfold nx sv e p k alg false maxn Hc Ha) as (s & _ & ->). unfold ilp_minimaxphragmen.
    replace (length (approved_candidates p) <? k) with true by (symmetry; apply Nat.ltb_lt; auto). auto.
  - rewrite compute_leximax_unfold by auto. cbn [andb]. unfold gurobi_leximaxphragmen. replace (length (approved_candidates p) <? k) with true by (symmetry; apply Nat.ltb_lt; auto). auto.
  - apply fill_distinct; auto; lia.
  - intros W. symmetry. apply fill_all; auto; lia.
Qed.
Theorem compute_fill_resolute : forall nx sv e p k, valid_call p k true None -> length (approved_candidates p) < k ->
  exists W, elects_approved p k W /\
    (forall alg, In alg MIP_ALGORITHMS -> compute_minimaxphragmen (with_solvers nx sv e) p (Z.of_nat k) alg true None = Ok [W]) /\
    compute_leximaxphragmen (with_solvers nx sv e) p (Z.of_nat k) "gurobi" true None false = Ok [W].
Proof.
  intros nx sv e p k Hc Hf. pose proof Hc as (Hw & _ & Hk & _). destruct (fill_one p k Hw Hf (proj2 Hk)) as (W & E & HW). exists W. split; auto. rewrite <- E. split.
  - intros alg Ha. destruct (compute_minimax_unfold nx sv e p k alg true None Hc Ha) as (s & _ & ->). unfold ilp_minimaxphragmen.
    replace (length (approved_candidates p) <? k) with true by (symmetry; apply Nat.ltb_lt; auto). auto.
  - rewrite compute_leximax_unfold by auto. cbn [andb]. unfold gurobi_leximaxphragmen. replace (length (approved_candidates p) <? k) with true by (symmetry; apply Nat.ltb_lt; auto). auto.
Qed.

(** ** Defects *)
(** [max_num_of_committees] is ignored if fewer candidates are approved than there are seats *)
Theorem fill_ignores_max : forall nx sv e,
  let p := mkp 3 [mkv [] 1] in
  valid_call p 1 false (Some (PyInt 1)) /\
  (forall alg, In alg MIP_ALGORITHMS -> compute_minimaxphragmen (with_solvers nx sv e) p 1 alg false (Some (PyInt 1)) = Ok [[0]; [1]; [2]]) /\
  compute_leximaxphragmen (with_solvers nx sv e) p 1 "gurobi" false (Some (PyInt 1)) false = Ok [[0]; [1]; [2]].
Proof.
  intros nx sv e p. assert (Hc : valid_call p 1 false (Some (PyInt 1))).
  { split; [unfold p; wf_tac|]. cbn. split; [discriminate|]. split; [lia|]. split; [lia|auto]. }
  split; auto. destruct (compute_fill_correct nx sv e p 1 _ Hc) as (H1 & H2 & _); [cbn; lia|]. split; auto.
Qed.

(** a candidate that is only approved by a voter of weight less than 1 cannot be paid for: all loads are at most 1 *)
Theorem light_voters_fail : forall nx sv e alg resolute,
  let p := mkp 1 [mkv [0] (1#2)] in exact_solvers p sv -> In alg MIP_ALGORITHMS ->
  valid_call p 1 resolute None /\
  compute_minimaxphragmen (with_solvers nx sv e) p 1 alg resolute None = Err RuntimeError /\
  compute_leximaxphragmen (with_solvers nx sv e) p 1 "gurobi" resolute None false = Err RuntimeError.
Proof.
  intros nx sv e alg resolute p Hs Ha. assert (Hc : valid_call p 1 resolute None).
  { split; [unfold p; wf_tac; reflexivity|]. cbn. split; [discriminate|]. split; [lia|auto]. }
  split; auto.
  assert (Hinf : forall m x, incl (load_decls p) (decls m) -> incl (load_cons p) (cons m) -> In (size_con p 1) (cons m) -> ~ feasible m x).
  { intros m x Hd Hco Hsz [Fd Fc]. rewrite Forall_forall in Fd, Fc.
    specialize (Fd (mkDecl (Load 0 0) Continuous (Some 0%Q) (Some 1%Q))). destruct Fd as (_ & _ & Hl); [apply Hd; left; reflexivity|]. cbn [dhigh dvar] in Hl.
    pose proof (Fc _ Hsz) as Hz. specialize (Fc _ (Hco _ (or_introl eq_refl))). cbv [size_con holds ev] in *. cbn in Fc, Hz. change (Qnat 1) with 1%Q in Hz. lra. }
  assert (Hfail : forall s m score res maxn, solves s p 1 m -> incl (load_decls p) (decls m) -> incl (load_cons p) (cons m) -> In (size_con p 1) (cons m) ->
    optimize_rule s MIP_THRESHOLD p 1 score res maxn m = Err RuntimeError).
  { intros s m score res maxn Hso Hd Hco Hsz. unfold optimize_rule. cbn [opt_loop]. specialize (Hso [] (Forall_nil _)). unfold correct_on in Hso. cbn [excluding fold_left] in Hso.
    destruct (s m) as [x| |]; auto. destruct Hso as [Hx _]. destruct (Hinf m x Hd Hco Hsz Hx). }
  split.
  - change 1%Z with (Z.of_nat 1). destruct (compute_minimax_unfold nx sv e p 1 alg resolute None Hc Ha) as (s & Hsv & ->).
    assert (Hex : exact_solver p s) by (destruct Hs as (A & B & _); destruct Hsv as [-> | (id & ->)]; auto).
    unfold ilp_minimaxphragmen. change (length (approved_candidates p) <? 1) with false. cbv iota. unfold solve_and_sort. rewrite Hfail; auto.
    + apply minimaxphragmen_solves; auto.
    + intros d Hd. apply in_or_app. right. apply in_or_app. auto.
    + intros d Hd. right. apply in_or_app. auto.
    + left. auto.
  - change 1%Z with (Z.of_nat 1). rewrite compute_leximax_unfold by auto. cbn [andb]. cbv iota. unfold gurobi_leximaxphragmen. change (length (approved_candidates p) <? 1) with false. cbv iota.
    change (length (voters p) - 1) with 0. cbn [leximax_iterations rbind]. unfold solve_and_sort. rewrite Hfail; auto.
    + apply leximaxphragmen_solves; apply Hs.
    + intros d Hd. apply in_or_app. right. apply in_or_app. auto.
    + intros d Hd. apply in_or_app. right. right. apply in_or_app. auto.
    + apply in_or_app. right. left. auto.
Qed.

(** the tolerance: two committees with the maximal loads 1/4000 and 1/4001 both win *)
Theorem tolerance_admits_nonoptimal : forall nx sv e alg,
  let p := mkp 2 [mkv [0] 4000; mkv [1] 4001] in exact_solvers p sv -> In alg MIP_ALGORITHMS ->
  compute_minimaxphragmen (with_solvers nx sv e) p 1 alg false None = Ok [[0]; [1]] /\
  minimaxphragmen_winner 0 p 1 [1] /\ ~ minimaxphragmen_winner 0 p 1 [0].
Proof.
  intros nx sv e alg p Hs Ha.
  assert (Hp : p = mkp 2 [mkv [0] 4000; mkv [1] 4001]) by reflexivity.
  assert (Hc : valid_call p 1 false None) by (split; [unfold p; wf_tac; reflexivity|]; cbn; split; [discriminate|]; split; [lia|auto]).
  assert (L0 : max_load p [0] (1#4000)).
  { exists (fun i c => if (i =? 0) && (c =? 0) then (1#4000)%Q else 0%Q). split; [split|].
    - intros i c. destruct ((i =? 0) && (c =? 0)); unfold Qle; cbn; lia.
    - intros c [<-|[]]. reflexivity.
    - intros i v [E|[E|[]]]; inversion E; subst; vm_compute; discriminate. }
  assert (L1 : max_load p [1] (1#4001)).
  { exists (fun i c => if (i =? 1) && (c =? 1) then (1#4001)%Q else 0%Q). split; [split|].
    - intros i c. destruct ((i =? 1) && (c =? 1)); unfold Qle; cbn; lia.
    - intros c [<-|[]]. reflexivity.
    - intros i v [E|[E|[]]]; inversion E; subst; vm_compute; discriminate. }
  assert (M0 : forall b, max_load p [0] b -> ((1#4000) <= b)%Q).
  { intros b (l & [_ H] & Hb). specialize (H 0 (or_introl eq_refl)). specialize (Hb 0 (mkv [0] 4000) (or_introl eq_refl)). cbn in H, Hb. lra. }
  assert (M1 : forall b, max_load p [1] b -> ((1#4001) <= b)%Q).
  { intros b (l & [_ H] & Hb). specialize (H 1 (or_introl eq_refl)). specialize (Hb 1 (mkv [1] 4001) (or_intror (or_introl eq_refl))). cbn in H, Hb. lra. }
  assert (C : forall W, is_committee p 1 W <-> W = [0] \/ W = [1]).
  { intros W. rewrite <- combos_committee. cbn. split; [intros [<-|[<-|[]]]; auto|intros [-> | ->]; auto]. }
  assert (W0 : minimaxphragmen_winner CMP_ACCURACY p 1 [0]).
  { split; [apply C; auto|]. exists (1#4000)%Q. split; auto. intros W' b' HW' Hb'. apply C in HW' as [-> | ->]; [apply M0 in Hb'|apply M1 in Hb']; unfold CMP_ACCURACY; lra. }
  assert (W1 : minimaxphragmen_winner 0 p 1 [1]).
  { split; [apply C; auto|]. exists (1#4001)%Q. split; auto. intros W' b' HW' Hb'. apply C in HW' as [-> | ->]; [apply M0 in Hb'|apply M1 in Hb']; lra. }
  split; [|split; auto].
  - assert (HA := compute_minimaxphragmen_correct nx sv e p 1 alg false None Hs Hc).
    change (Z.of_nat 1) with 1%Z in HA. change (limit None) with (@None nat) in HA.
    destruct HA as (l & -> & Hn & Ho & HP & Hall); auto; [constructor; [vm_compute; discriminate|constructor; [vm_compute; discriminate|constructor]]|cbn; lia|].
    f_equal. assert (Hmem : forall W, In W l <-> In W [[0]; [1]]).
    { intros W. split; [intros H; apply HP in H as [H _]; apply C in H as [-> | ->]; cbn; auto|]. intros [<-|[<-|[]]]; apply Hall; auto.
      destruct W1 as (H1 & b & H2 & H3). split; auto. exists b. split; auto. intros W' b' H4 H5. specialize (H3 W' b' H4 H5). unfold CMP_ACCURACY. lra. }
    apply sorted_same_elements; auto.
    + apply Forall_forall. intros W HW. apply HP in HW. apply HW.
    + repeat constructor.
    + repeat constructor; cbn; intuition congruence.
    + repeat constructor.
  - intros (_ & b & Hb & H). specialize (H [1] (1#4001) (proj2 (C [1]) (or_intror eq_refl)) L1). apply M0 in Hb. lra.
Qed.

(** ** Agreement with brute force *)
Lemma max_asc : forall S p k W, maximises S p k W -> ascending W.
Proof. intros S p k W [(H & _) _]. auto. Qed.
Theorem thiele_solver_agrees : forall nx sv e id f p k alg, exact_solvers p sv ->
  denotes e id f -> decreasing_to_zero f -> valid_call p k false None -> In alg MIP_ALGORITHMS ->
  compute_thiele_method (with_solvers nx sv e) id p (Z.of_nat k) alg false None =
  compute_thiele_method e id p (Z.of_nat k) "brute-force" false None.
Proof.
  intros nx sv e id f p k alg Hs Hd Hf Hc Ha.
  apply (answers_unique (maximises (Thiele f p) p k) (maximises (Thiele f p) p k)); [tauto|apply max_asc| |].
  - apply (compute_thiele_solver_correct nx sv e id f p k alg false None); auto.
  - apply (compute_thiele_bruteforce_correct e id f p k false None); auto.
Qed.
Theorem others_solver_agree : forall nx sv e p k, networkx_correct nx -> exact_solvers p sv -> valid_call p k false None ->
  (Forall (fun v => weight_is_int v = true) (voters p) ->
     compute_cc (with_solvers nx sv e) p (Z.of_nat k) "ortools-cp" false None = compute_cc e p (Z.of_nat k) "brute-force" false None) /\
  (granular p ->
     compute_lexcc (with_solvers nx sv e) p (Z.of_nat k) "gurobi" false None = compute_lexcc e p (Z.of_nat k) "brute-force" false None) /\
  (forall alg, In alg WITH_CP ->
     compute_minimaxav (with_solvers nx sv e) p (Z.of_nat k) alg false None = compute_minimaxav e p (Z.of_nat k) "brute-force" false None) /\
  (unit_weights p ->
     compute_lexminimaxav (with_solvers nx sv e) p (Z.of_nat k) "gurobi" false None = compute_lexminimaxav e p (Z.of_nat k) "brute-force" false None) /\
  (unit_weights p -> forall alg, In alg WITH_CP ->
     compute_monroe nx (with_solvers nx sv e) p (Z.of_nat k) alg false None = compute_monroe nx e p (Z.of_nat k) "brute-force" false None).
Proof.
  intros nx sv e p k Hx Hs Hc. split; [|split; [|split; [|split]]].
  - intros Hi. apply (answers_unique (maximises (Thiele cc_w p) p k) (maximises (Thiele cc_w p) p k)); [tauto|apply max_asc| |].
    + apply (compute_cc_ortools_correct nx sv e p k false None); auto.
    + apply (compute_thiele_bruteforce_correct e "cc" cc_w p k false None); auto. constructor.
  - intros Hg. apply (answers_unique (lexcc_winner p k) (lexcc_winner p k)); [tauto|intros W ((H & _) & _); auto| |].
    + apply (compute_lexcc_gurobi_correct nx sv e p k false None); auto.
    + apply (compute_lexcc_correct e p k false None); auto.
  - intros alg Ha. apply (answers_unique (minimaxav_winner p k) (minimaxav_winner p k)); [tauto|intros W ((H & _) & _); auto| |].
    + apply (compute_minimaxav_solver_correct nx sv e p k alg false None); auto.
    + apply (compute_minimaxav_correct e p k false None); auto.
  - intros Hu. apply (answers_unique (lexminimaxav_winner p k) (lexminimaxav_winner p k)); [tauto|intros W ((H & _) & _); auto| |].
    + apply (compute_lexminimaxav_gurobi_correct nx sv e p k false None); auto.
    + apply (compute_lexminimaxav_correct e p k false None); auto.
  - intros Hu alg Ha. apply (answers_unique (monroe_winner p k) (monroe_winner p k)); [tauto|intros W ((H & _) & _); auto| |].
    + apply (compute_monroe_solver_correct nx sv e p k alg false None); auto.
    + apply (compute_monroe_correct nx e p k false None); auto.
Qed.

Lemma ex_granular : granular ex_profile.
Proof.
  exists (1#2)%Q. split; [vm_compute; reflexivity|]. intros v [<-|[<-|[<-|[<-|[]]]]]; [exists 4|exists 2|exists 2|exists 1]; vm_compute; reflexivity.
Qed.
