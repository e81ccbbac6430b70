From Coq Require Import String.
From Coq Require Import List Arith Bool ZArith QArith Lia Lqa Permutation Sorted.
From Verif Require Import Prelude Misc Preferences Scores Search Rule RulesThiele Spec SpecRules Common Compute SpecCompute ComputeProofs
  OptProofs SpecSeq RulesSeq RulesMes MesFinal ComputeSeq ComputeSeqProofs Guarantees RulesMonroe SpecMonroe MonroeRule GreedyMonroe
  RulesMore SpecMore RsdProofs EphProofs Milp RulesSolver SolverLex SpecLoads SolverPhragmen SolverLeximax SolverCompute SolverMore ComputeAll SpecAll.
Import ListNotations.
Local Open Scope string_scope.
Open Scope nat_scope.
Local Open Scope list_scope.

(** ** Consequences of [answers] *)
(** the call answers with the winners [P] for all values of [resolute] and the limit *)
Definition determined (P : list nat -> Prop) (p : profile) (k : nat) (c : bool -> option pyobj -> result (list (list nat))) : Prop :=
  forall resolute maxn, valid_call p k resolute maxn -> answers P resolute (limit maxn) (c resolute maxn).

Lemma valid_true : forall p k b m, valid_call p k b m -> valid_call p k true None.
Proof. intros p k b m (A & B & C & _). split; auto. Qed.
Lemma valid_false : forall p k b m, valid_call p k b m -> valid_call p k false None.
Proof. intros p k b m (A & B & C & _). split; auto. Qed.

Lemma determined_winner : forall P p k c b m, determined P p k c -> valid_call p k b m -> exists W, P W.
Proof.
  intros P p k c b m Hd Hc. destruct (Hd true None (valid_true _ _ _ _ Hc)) as (l & _ & _ & _ & HP & Hl).
  destruct l as [|W l]; [discriminate|]. exists W. apply HP. left. auto.
Qed.

Lemma determined_valid : forall (P Q : list nat -> Prop) p k c resolute maxn, determined P p k c -> (forall W, P W -> Q W) ->
  valid_call p k resolute maxn -> exists l, c resolute maxn = Ok l /\ l <> [] /\ NoDup l /\ forall W, In W l -> Q W.
Proof.
  intros P Q p k c resolute maxn Hd HQ Hc.
  destruct (answers_nonempty _ _ _ _ (determined_winner _ _ _ _ _ _ Hd Hc) (valid_limit _ _ _ _ Hc) (Hd _ _ Hc)) as (l & E & Hne).
  destruct (Hd _ _ Hc) as (l' & E' & HN & _ & HP & _). assert (l' = l) by congruence. subst l'.
  exists l. split; auto.
Qed.

Lemma determined_restricts : forall P p k c n, determined P p k c -> valid_call p k false (Some (PyInt n)) ->
  exists all some one, c false None = Ok all /\ c true None = Ok [one] /\ c false (Some (PyInt n)) = Ok some /\
    In one all /\ incl some all /\ length some = Nat.min (Z.to_nat n) (length all).
Proof.
  intros P p k c n Hd Hc.
  destruct (Hd false None (valid_false _ _ _ _ Hc)) as (all & E1 & N1 & _ & P1 & C1). change (limit None) with (@None nat) in C1. cbv beta iota in C1.
  destruct (Hd true None (valid_true _ _ _ _ Hc)) as (one & E2 & N2 & _ & P2 & C2). destruct one as [|one [|]]; try discriminate.
  destruct (Hd false _ Hc) as (some & E3 & N3 & _ & P3 & C3). cbn [limit] in C3. destruct C3 as [Hle Hall].
  exists all, some, one. split; auto. split; auto. split; auto. split; [apply C1, P2; left; auto|].
  assert (Hi : incl some all) by (intros W HW; apply C1, P3; auto). split; auto.
  assert (H1 : length some <= length all) by (apply NoDup_incl_length; auto).
  destruct (Nat.lt_ge_cases (length some) (Z.to_nat n)) as [H|H].
  - assert (length all <= length some) by (apply NoDup_incl_length; auto; intros W HW; apply Hall; auto). lia.
  - lia.
Qed.

(** ** The winners of each rule are committees *)
Lemma revseq_committee : forall f p k W, revseq_winner f p k W -> is_committee p k W.
Proof.
  intros f p k W [Hr Hl]. split; [|split; auto].
  - clear Hl. induction Hr as [|W c Hr IH Hb]; [apply ascending_seq|]. unfold without. apply ascending_filter. auto.
  - clear Hl. induction Hr as [|W c Hr IH Hb].
    + apply Forall_forall. intros x Hx. apply in_seq in Hx. lia.
    + rewrite Forall_forall in *. intros x Hx. apply filter_In in Hx as [Hx _]. auto.
Qed.
Lemma mes_short : forall p k start W, mes_winner p k start no_completion W -> is_small_committee p k W.
Proof.
  intros p k start W (L & b & [Hr He] & H1 & H2). destruct (mes_run_NoDup _ _ _ _ Hr) as [HN HF].
  assert (E : W = isort L /\ length L <= k).
  { destruct He as [Hl|[Hl _]]; [split; [auto|lia]|split; [apply H2; auto|lia]]. }
  destruct E as [-> Hl]. split; [apply isort_ascending; auto|]. split; [rewrite isort_length; auto|].
  rewrite Forall_forall in *. intros x Hx. rewrite isort_In in Hx. auto.
Qed.
Lemma increment_committee : forall p k W, mes_increment_winner p k W -> is_committee p k W.
Proof.
  intros p k W [H1 H2]. destruct (Nat.lt_ge_cases (length (supported p)) k) as [H|H]; [apply H1; auto|].
  destruct (H2 H) as (n & L & b & _ & (Hr & _) & Hl & -> & _).
  assert (HN : NoDup L /\ Forall (fun c => c < num_cand p) L).
  { clear Hl H1 H2 H. induction Hr as [|V x c x' Hr IH Hc Hm Hu]; [split; constructor|]. destruct IH as [A B].
    destruct Hc as ([Hcm Hcn] & _). split; constructor; auto. }
  destruct HN as [HN HF]. apply isort_committee; auto.
Qed.

(** ** The calls *)
Section Calls.
  Variables (rnd : random) (nx : networkx) (sv : solvers) (e : env).
  Let e' := with_solvers nx sv e.

  Lemma compute_plain : forall id r p k kw, lookup_rule e' id = Ok r ->
    compute rnd nx e' id p k None kw = compute_fct rnd nx e' id p k kw.
  Proof using. intros id r p k kw E. unfold compute. rewrite E. cbn [rbind]. destruct (compute_fct rnd nx e' id p k kw); reflexivity. Qed.

  Lemma compute_thiele_id : forall id f p k alg resolute maxn, denotes e id f ->
    compute rnd nx e' id p k None (args alg resolute maxn) = compute_thiele_method e' id p k alg resolute maxn.
  Proof using.
    intros id f p k alg resolute maxn Hd.
    destruct (denotes_solver_rule e' id f (denotes_with nx sv e id f Hd)) as (r & Er & _). rewrite (compute_plain id r) by auto.
    destruct Hd; try reflexivity. destruct s; reflexivity.
  Qed.

  Lemma lookup_seq : forall id f, denotes e id f -> exists r, lookup_rule e' ("seq" ++ id)%string = Ok r.
  Proof using.
    intros id f Hd. destruct Hd; try (eexists; reflexivity). unfold lookup_rule.
    cbn [with_solvers fraction_of_string int_of_string e']. unfold rule_of_id.
    change (listed_rule ("seq" ++ ("geom" ++ s))%string) with (@None rule). cbv iota.
    change (String.prefix "seq" ("seq" ++ ("geom" ++ s))%string || String.prefix "revseq" ("seq" ++ ("geom" ++ s))%string) with true. cbv iota zeta.
    change (drop 3 ("seq" ++ ("geom" ++ s))%string) with ("geom" ++ s)%string.
    change (String.prefix "seq" ("seq" ++ ("geom" ++ s))%string) with true. cbv iota.
    assert (E : get_marginal_scorefct (fraction_of_string e) (int_of_string e) ("geom" ++ s)%string = Ok (Geom b)).
    { transitivity (match fraction_of_string e s with Some b => Ok (Geom b) | None => Err ValueError end); [destruct s; reflexivity|]. rewrite H. reflexivity. }
    rewrite E. destruct s; eexists; reflexivity.
  Qed.
  Lemma lookup_revseq : forall id f, denotes e id f -> exists r, lookup_rule e' ("revseq" ++ id)%string = Ok r.
  Proof using.
    intros id f Hd. destruct Hd; try (eexists; reflexivity). unfold lookup_rule.
    cbn [with_solvers fraction_of_string int_of_string e']. unfold rule_of_id.
    change (listed_rule ("revseq" ++ ("geom" ++ s))%string) with (@None rule). cbv iota.
    change (String.prefix "seq" ("revseq" ++ ("geom" ++ s))%string || String.prefix "revseq" ("revseq" ++ ("geom" ++ s))%string) with true. cbv iota zeta.
    change (drop 6 ("revseq" ++ ("geom" ++ s))%string) with ("geom" ++ s)%string.
    change (String.prefix "seq" ("revseq" ++ ("geom" ++ s))%string) with false. cbv iota.
    assert (E : get_marginal_scorefct (fraction_of_string e) (int_of_string e) ("geom" ++ s)%string = Ok (Geom b)).
    { transitivity (match fraction_of_string e s with Some b => Ok (Geom b) | None => Err ValueError end); [destruct s; reflexivity|]. rewrite H. reflexivity. }
    rewrite E. destruct s; eexists; reflexivity.
  Qed.

  Lemma compute_seq_id : forall id f p k alg resolute maxn, denotes e id f ->
    compute rnd nx e' ("seq" ++ id)%string p k None (args alg resolute maxn) = compute_seq_thiele_method e' id p k alg resolute maxn.
  Proof using.
    intros id f p k alg resolute maxn Hd. destruct (lookup_seq id f Hd) as (r & Er).
    rewrite (compute_plain _ r) by auto. destruct Hd; reflexivity.
  Qed.
  Lemma compute_revseq_id : forall id f p k alg resolute maxn, denotes e id f ->
    compute rnd nx e' ("revseq" ++ id)%string p k None (args alg resolute maxn) = compute_revseq_thiele_method e' id p k alg resolute maxn.
  Proof using.
    intros id f p k alg resolute maxn Hd. destruct (lookup_revseq id f Hd) as (r & Er).
    rewrite (compute_plain _ r) by auto. destruct Hd; reflexivity.
  Qed.

  Lemma exact_arith_with : forall alg, exact_arithmetic e alg -> exact_arithmetic e' alg.
  Proof using. intros alg H. exact H. Qed.

  Lemma sav_float_determined : forall p k, length (sav_float_scores e p) = num_cand p ->
    forallb (fun v => negb (weight_is_int v)) (voters p) = false ->
    determined (maximises (fun W => Qsum (map (fun c => nth c (sav_float_scores e p) 0%Q) W)) p k) p k
      (compute_sav e' p (Z.of_nat k) "standard").
  Proof using.
    intros p k Hl Hf resolute maxn Hc. unfold compute_sav, compute_separable_rule.
    erewrite run_ok; eauto; try reflexivity; [|destruct resolute; reflexivity]. rewrite Hf.
    pose proof (valid_limit _ _ _ _ Hc) as Hm. destruct Hc as (Hw & _ & Hk & _).
    change (sav_float_scores e' p) with (sav_float_scores e p).
    assert (Hk' : 1 <= k <= length (sav_float_scores e p)) by lia.
    pose proof (separable_from_scores_correct (sav_float_scores e p) k resolute (limit maxn) Hk' Hm) as H.
    rewrite Hl in H. exact H.
  Qed.

  Ltac plain := erewrite compute_plain by reflexivity;
    cbv [compute_fct String.eqb Ascii.eqb Bool.eqb andb str_in existsb orb call call_mes call_leximax args given or_default
         kw_algorithm kw_resolute kw_max kw_completion kw_lexicographic kw_other].


  (** [listed] and [listed_short] together with the winning committees of [elects] *)
  Inductive listed_by (p : profile) (k : nat) : string -> string -> (list nat -> Prop) -> Prop :=
  | b_av : listed_by p k "av" "standard" (maximises (fun W => Qsum (map (support p) W)) p k)
  | b_sav : fraction_weights p -> listed_by p k "sav" "standard" (maximises (fun W => Qsum (map (sav_support p) W)) p k)
  | b_sav_float : ~ fraction_weights p -> length (sav_float_scores e p) = num_cand p ->
      listed_by p k "sav" "standard" (maximises (fun W => Qsum (map (fun c => nth c (sav_float_scores e p) 0%Q) W)) p k)
  | b_thiele : forall id f, denotes e id f -> listed_by p k id "brute-force" (maximises (Thiele f p) p k)
  | b_thiele_bb : forall id f, denotes e id f -> non_increasing f -> listed_by p k id "branch-and-bound" (maximises (Thiele f p) p k)
  | b_thiele_mip : forall id f alg, denotes e id f -> decreasing_to_zero f -> In alg ["gurobi"; "mip-gurobi"; "mip-cbc"] ->
      listed_by p k id alg (maximises (Thiele f p) p k)
  | b_cc_cp : Forall (fun v => weight_is_int v = true) (voters p) -> listed_by p k "cc" "ortools-cp" (maximises (Thiele cc_w p) p k)
  | b_lexcc : listed_by p k "lexcc" "brute-force" (lexcc_winner p k)
  | b_lexcc_gurobi : granular p -> listed_by p k "lexcc" "gurobi" (lexcc_winner p k)
  | b_seq : forall id f, denotes e id f -> listed_by p k ("seq" ++ id)%string "standard" (seq_thiele_winner f p k)
  | b_revseq : forall id f, denotes e id f -> listed_by p k ("revseq" ++ id)%string "standard" (revseq_winner f p k)
  | b_seqphragmen : forall alg, exact_arithmetic e alg -> enough_support p k -> listed_by p k "seqphragmen" alg (phragmen_winner p k)
  | b_minimaxphragmen : forall alg, weights_at_least_one p -> k <= length (approved_candidates p) ->
      In alg ["gurobi"; "mip-gurobi"; "mip-cbc"] -> listed_by p k "minimaxphragmen" alg (minimaxphragmen_winner CMP_ACCURACY p k)
  | b_leximaxphragmen : forall bounds, weights_at_least_one p -> k <= length (approved_candidates p) -> enough_bounds p k bounds ->
      listed_by p k "leximaxphragmen" "gurobi" (leximax_winner p k bounds)
  | b_maximin : forall alg, In alg ["gurobi"; "mip-gurobi"; "mip-cbc"] -> listed_by p k "maximin-support" alg (maximin_winner CMP_ACCURACY p k)
  | b_monroe : forall alg, unit_weights p -> In alg ["gurobi"; "mip-gurobi"; "mip-cbc"; "ortools-cp"; "brute-force"] ->
      listed_by p k "monroe" alg (monroe_winner p k)
  | b_minimaxav : forall alg, In alg ["gurobi"; "mip-gurobi"; "mip-cbc"; "ortools-cp"; "brute-force"] ->
      listed_by p k "minimaxav" alg (minimaxav_winner p k)
  | b_lexminimaxav : forall alg, unit_weights p -> In alg ["gurobi"; "brute-force"] -> listed_by p k "lexminimaxav" alg (lexminimaxav_winner p k)
  | b_mes_phragmen : forall id alg, exact_arithmetic e alg -> enough_support p k ->
      In id ["rule-x"; "equal-shares"; "equal-shares-with-seqphragmen-completion"] ->
      listed_by p k id alg (mes_winner p k (equal_share p k) (phragmen_completion p k))
  | b_mes_av : forall alg, exact_arithmetic e alg ->
      listed_by p k "equal-shares-with-av-completion" alg (mes_winner p k (equal_share p k) (av_completion p k))
  | b_mes_short : forall id alg, exact_arithmetic e alg ->
      In id ["rule-x-without-phragmen-phase"; "equal-shares-without-phragmen-phase"; "equal-shares-without-completion"] ->
      listed_by p k id alg (mes_winner p k (equal_share p k) no_completion)
  | b_enestroem : forall alg, exact_arithmetic e alg -> listed_by p k "phragmen-enestroem" alg (enestroem_winner p k)
  | b_consensus : forall alg, exact_arithmetic e alg -> listed_by p k "consensus-rule" alg (consensus_winner p k)
  | b_trivial : listed_by p k "trivial" "standard" (is_committee p k)
  | b_eph : forall alg, exact_arithmetic e alg -> 2 <= num_cand p -> listed_by p k "eph" alg (eph_winner p k).

  (** the loads that leximax Phragmén works with are unique *)
  Lemma sorted_load_compat : forall p W A B eps b, Forall2 Qeq A B -> sorted_load p W A eps b -> sorted_load p W B eps b.
  Proof using.
    intros p W A B eps b HF (l & order & Hl & HP & Ho). exists l, order. split; auto. split; auto. intros pos i v H1 H2. specialize (Ho pos i v H1 H2).
    assert (HE : match nth_error A pos, nth_error B pos with Some a, Some a' => (a == a')%Q | None, None => True | _, _ => False end).
    { clear - HF. revert pos. induction HF; intros [|pos]; cbn; auto. apply IHHF. }
    destruct (nth_error A pos), (nth_error B pos); try contradiction; [rewrite <- HE|]; auto.
  Qed.
  Lemma Forall2_Qeq_sym : forall A B, Forall2 Qeq A B -> Forall2 Qeq B A.
  Proof using. intros A B H. induction H; constructor; auto. symmetry. auto. Qed.
  Lemma next_bound_unique : forall p k A B eps a b, Forall2 Qeq A B -> next_bound p k A eps a -> next_bound p k B eps b -> (a == b)%Q.
  Proof using.
    intros p k A B eps a b HF [(W & HW & H1) H2] [(V & HV & H3) H4]. pose proof (Forall2_Qeq_sym _ _ HF) as HF'.
    pose proof (H2 V b HV (sorted_load_compat _ _ _ _ _ _ HF' H3)). pose proof (H4 W a HW (sorted_load_compat _ _ _ _ _ _ HF H1)). lra.
  Qed.
  Lemma leximax_bounds_prefix : forall p k eps B, leximax_bounds p k eps B -> forall i b, nth_error B i = Some b ->
    leximax_bounds p k eps (firstn i B) /\ next_bound p k (firstn i B) eps b.
  Proof using.
    intros p k eps B H. induction H as [|B b' H IH Hn]; intros i b Hi; [destruct i; discriminate|].
    destruct (Nat.lt_ge_cases i (length B)) as [Hlt|Hge].
    - rewrite nth_error_app1 in Hi by auto. rewrite firstn_app. replace (i - length B) with 0 by lia. cbn [firstn]. rewrite app_nil_r. apply IH. auto.
    - rewrite nth_error_app2 in Hi by auto. destruct (i - length B) as [|j] eqn:E; [|destruct j; discriminate]. injection Hi as <-.
      assert (i = length B) as -> by lia. rewrite firstn_app, Nat.sub_diag, firstn_all. cbn [firstn]. rewrite app_nil_r. auto.
  Qed.
  Lemma leximax_bounds_same : forall p k eps A B, leximax_bounds p k eps A -> leximax_bounds p k eps B -> length A = length B -> Forall2 Qeq A B.
  Proof using.
    intros p k eps A B HA. revert B. induction HA as [|A a HA IH Hn]; intros B HB E.
    - destruct B; [constructor|discriminate].
    - rewrite app_length in E. cbn in E. destruct HB as [|B b HB Hn']; [cbn in E; lia|]. rewrite app_length in E. cbn in E.
      assert (HF : Forall2 Qeq A B) by (apply IH; auto; lia). apply Forall2_app; auto. constructor; auto. eapply next_bound_unique; eauto.
  Qed.
  Lemma enough_bounds_le : forall p k A B, enough_bounds p k A -> enough_bounds p k B -> length A < length B -> False.
  Proof using.
    intros p k A B (HA & _ & EA) (HB & LB & EB) Hlt. destruct EA as [EA|(_ & a & Ha & Hs)]; [lia|].
    destruct (nth_error B (length A)) as [b|] eqn:Eb; [|apply nth_error_None in Eb; lia].
    destruct (leximax_bounds_prefix _ _ _ _ HB _ _ Eb) as [H1 H2].
    assert (HF : Forall2 Qeq A (firstn (length A) B)) by (eapply leximax_bounds_same; eauto; rewrite firstn_length; lia).
    pose proof (next_bound_unique _ _ _ _ _ _ _ HF Ha H2) as E. rewrite Forall_forall in LB. specialize (LB b (nth_error_In _ _ Eb)). rewrite E in Hs. lra.
  Qed.
  Lemma enough_bounds_unique : forall p k A B, enough_bounds p k A -> enough_bounds p k B -> Forall2 Qeq A B.
  Proof using.
    intros p k A B HA HB. eapply leximax_bounds_same; [apply HA|apply HB|].
    destruct (Nat.lt_trichotomy (length A) (length B)) as [H|[H|H]]; auto; exfalso; eapply enough_bounds_le; [| |exact H| | |exact H]; eauto.
  Qed.
  Lemma leximax_winner_compat : forall p k A B W, Forall2 Qeq A B -> leximax_winner p k A W -> leximax_winner p k B W.
  Proof using.
    intros p k A B W HF (HW & b & Hb & H). split; auto. exists b. split; [eapply sorted_load_compat; eauto|]. intros W' b' HW' Hb'. apply (H W'); auto.
    eapply sorted_load_compat; [|exact Hb']. apply Forall2_Qeq_sym. auto.
  Qed.

  Lemma listed_by_determined : forall p k id alg P, libraries_ok p rnd nx sv e -> listed_by p k id alg P -> wf p -> voters p <> [] -> 1 <= k <= num_cand p ->
      determined P p k (fun resolute maxn => compute rnd nx e' id p (Z.of_nat k) None (args alg resolute maxn)).
  Proof using.
    intros p k id alg P (Hrnd & Hnx & Hsv & Ho1 & Ho2) Hl Hw Hv Hk.
    destruct Hl; intros resolute maxn Hc.
    - plain. apply compute_av_correct. auto.
    - plain. apply compute_sav_correct; auto.
    - plain. apply sav_float_determined; auto. apply not_true_iff_false. intros E. apply H. apply Forall_forall. intros v Hin.
      rewrite forallb_forall in E. specialize (E v Hin). destruct (weight_is_int v); auto; discriminate.
    - rewrite (compute_thiele_id id f) by auto. apply compute_thiele_bruteforce_correct with (f := f); [apply denotes_with|]; auto.
    - rewrite (compute_thiele_id id f) by auto. apply compute_thiele_branchandbound_correct with (f := f); [apply denotes_with| |]; auto.
    - rewrite (compute_thiele_id id f) by auto. apply compute_thiele_solver_correct with (f := f); auto.
    - plain. apply compute_cc_ortools_correct; auto.
    - plain; apply compute_lexcc_correct; auto.
    - plain; apply compute_lexcc_gurobi_correct; auto.
    - rewrite (compute_seq_id id f) by auto; apply compute_seq_thiele_correct with (f := f); [apply denotes_with|]; auto.
    - rewrite (compute_revseq_id id f) by auto; apply compute_revseq_thiele_correct with (f := f); [| |apply denotes_with|]; auto.
    - plain; apply compute_seqphragmen_correct; auto.
    - plain; apply compute_minimaxphragmen_correct; auto.
    - destruct (compute_leximaxphragmen_uniform nx sv e p k Hsv Hw Hv H H0) as (bounds' & HB & _ & HA). plain.
      pose proof (enough_bounds_unique _ _ _ _ HB H1) as HF.
      eapply answers_ext; [|apply HA; auto]. intros W. split; apply leximax_winner_compat; auto using Forall2_Qeq_sym.
    - plain; apply compute_maximin_support_correct; auto.
    - assert (D : In alg WITH_CP \/ alg = "brute-force") by (cbn in H0 |- *; intuition).
      plain; destruct D as [D| ->]; [apply compute_monroe_solver_correct|apply compute_monroe_correct]; auto.
    - assert (D : In alg WITH_CP \/ alg = "brute-force") by (cbn in H |- *; intuition).
      plain; destruct D as [D| ->]; [apply compute_minimaxav_solver_correct|apply compute_minimaxav_correct]; auto.
    - assert (D : alg = "gurobi" \/ alg = "brute-force") by (cbn in H0 |- *; intuition).
      plain; destruct D as [-> | ->]; [apply compute_lexminimaxav_gurobi_correct|apply compute_lexminimaxav_correct]; auto.
    - assert (E : compute rnd nx e' id p (Z.of_nat k) None (args alg resolute maxn) = compute_equal_shares e' p (Z.of_nat k) alg resolute maxn (Some "seqphragmen")).
      { destruct H1 as [<-|[<-|[<-|[]]]]; plain; reflexivity. }
      rewrite E. change (phragmen_completion p k) with (the_completion p k false PhragmenCompletion). apply compute_mes_correct; auto; [eexists; reflexivity|discriminate].
    - plain. change (av_completion p k) with (the_completion p k false AvCompletion). apply compute_mes_correct; auto; [eexists; reflexivity|discriminate|exact I].
    - assert (E : compute rnd nx e' id p (Z.of_nat k) None (args alg resolute maxn) = compute_equal_shares e' p (Z.of_nat k) alg resolute maxn None).
      { destruct H0 as [<-|[<-|[<-|[]]]]; plain; reflexivity. }
      rewrite E. change no_completion with (the_completion p k false NoCompletion). apply compute_mes_correct; auto; [eexists; reflexivity|discriminate|exact I].
    - plain; apply compute_enestroem_correct; auto.
    - plain; apply compute_consensus_correct; auto.
    - plain; apply compute_trivial_correct; auto.
    - plain; apply compute_eph_correct; auto.
  Qed.

  Lemma small_of_committee : forall p k W, is_committee p k W -> is_small_committee p k W.
  Proof using. intros p k W (A & B & C). split; auto. split; auto. lia. Qed.
  Lemma listed_by_committee : forall p k id alg P, listed_by p k id alg P -> forall W, P W -> is_small_committee p k W.
  Proof using.
    intros p k id alg P Hl W HW.
    destruct Hl; try (apply small_of_committee, HW; fail).
    - apply small_of_committee. eapply seq_winner_committee; eauto.
    - apply small_of_committee. eapply revseq_committee; eauto.
    - apply small_of_committee. eapply run_step_facts; [|exact HW]; intros V x c [H' _]; exact H'.
    - apply small_of_committee. eapply run_step_facts; [|exact HW]; intros V x c H'; apply H'.
    - apply small_of_committee. eapply (mes_winner_full p k (equal_share p k) PhragmenCompletion); [|exact HW]; auto.
    - apply small_of_committee. eapply (mes_winner_full p k (equal_share p k) AvCompletion); [|exact HW]; auto.
    - eapply mes_short; exact HW.
    - apply small_of_committee. eapply run_step_facts; [|exact HW]; intros V x c [H' _]; exact H'.
    - apply small_of_committee. eapply run_step_facts; [|exact HW]; intros V x c [H' _]; exact H'.
    - apply small_of_committee. apply eph_winner_committee; auto.
  Qed.
  (** what [listed] and [listed_short] cover *)
  Lemma listed_case : forall p k id alg, wf p -> voters p <> [] -> listed e p k id alg ->
    exists P, listed_by p k id alg P /\ elects e p k id P /\ forall W, P W -> is_committee p k W.
  Proof using nx.
    intros p k id alg Hw Hv Hl.
    assert (Hmax : forall s W, maximises s p k W -> is_committee p k W) by (intros s W H; apply H).
    destruct Hl.
    - eexists. split; [apply b_av|]. split; [apply e_av|apply Hmax].
    - destruct (forallb (fun v => negb (weight_is_int v)) (voters p)) eqn:Ef.
      + assert (Hfr : fraction_weights p).
        { unfold fraction_weights. rewrite forallb_forall in Ef. apply Forall_forall. intros v Hin. specialize (Ef v Hin). destruct (weight_is_int v); auto; discriminate. }
        eexists. split; [apply b_sav; auto|]. split; [apply e_sav; auto|apply Hmax].
      + assert (Hnf : ~ fraction_weights p).
        { intros H'. unfold fraction_weights in H'. rewrite Forall_forall in H'.
          assert (forallb (fun v => negb (weight_is_int v)) (voters p) = true); [|congruence]. apply forallb_forall. intros v Hin. rewrite (H' v Hin). auto. }
        eexists. split; [apply b_sav_float; auto; destruct H; auto; contradiction|]. split; [apply e_sav_float; auto|apply Hmax].
    - eexists. split; [apply b_thiele; eauto|]. split; [apply e_thiele; auto|apply Hmax].
    - eexists. split; [apply b_thiele_bb; eauto|]. split; [apply e_thiele; auto|apply Hmax].
    - eexists. split; [apply b_thiele_mip; eauto|]. split; [apply e_thiele; auto|apply Hmax].
    - eexists. split; [apply b_cc_cp; auto|]. split; [apply (e_thiele e p k "cc" cc_w), den_cc|apply Hmax].
    - eexists. split; [apply b_lexcc; auto|]. split; [apply e_lexcc|]. intros W H'. apply H'.
    - eexists. split; [apply b_lexcc_gurobi; auto|]. split; [apply e_lexcc|]. intros W H'. apply H'.
    - eexists. split; [apply b_seq; eauto|]. split; [apply e_seq; auto|]. intros W HW. eapply seq_winner_committee; eauto.
    - eexists. split; [apply b_revseq; eauto|]. split; [apply e_revseq; auto|]. intros W HW. eapply revseq_committee; eauto.
    - eexists. split; [apply b_seqphragmen; eauto|]. split; [apply e_seqphragmen|]. intros W HW. eapply run_step_facts; [|exact HW]. intros V x c [H' _]. exact H'.
    - eexists. split; [apply b_minimaxphragmen; eauto|]. split; [apply e_minimaxphragmen|]. intros W HW. apply HW.
    - destruct (compute_leximaxphragmen_uniform nx (ref_solvers p) e p k (ref_solvers_exact p) Hw Hv H H0) as (bounds & HB & _).
      eexists. split; [apply b_leximaxphragmen; eauto|]. split; [apply e_leximaxphragmen; auto|]. intros W HW. apply HW.
    - eexists. split; [apply b_maximin; eauto|]. split; [apply e_maximin|]. intros W HW. eapply run_step_facts; [|exact HW]. intros V x c H'. apply H'.
    - eexists. split; [apply b_monroe; eauto|]. split; [apply e_monroe|]. intros W HW. apply HW.
    - eexists. split; [apply b_minimaxav; eauto|]. split; [apply e_minimaxav|]. intros W HW. apply HW.
    - eexists. split; [apply b_lexminimaxav; eauto|]. split; [apply e_lexminimaxav|]. intros W HW. apply HW.
    - eexists. split; [apply b_mes_phragmen; eauto|]. split; [apply e_mes_phragmen; auto|]. intros W HW.
      eapply (mes_winner_full p k (equal_share p k) PhragmenCompletion); [|exact HW]. auto.
    - eexists. split; [apply b_mes_av; eauto|]. split; [apply e_mes_av; auto|]. intros W HW.
      eapply (mes_winner_full p k (equal_share p k) AvCompletion); [|exact HW]. auto.
    - eexists. split; [apply b_enestroem; eauto|]. split; [apply e_enestroem|]. intros W HW. eapply run_step_facts; [|exact HW]. intros V x c [H' _]. exact H'.
    - eexists. split; [apply b_consensus; eauto|]. split; [apply e_consensus|]. intros W HW. eapply run_step_facts; [|exact HW]. intros V x c [H' _]. exact H'.
    - eexists. split; [apply b_trivial; eauto|]. split; [apply e_trivial|]. intros W HW. exact HW.
    - eexists. split; [apply b_eph; eauto|]. split; [apply e_eph|]. intros W HW. apply eph_winner_committee. auto.
  Qed.
  Lemma listed_listed_by : forall p k id alg, wf p -> voters p <> [] -> listed e p k id alg \/ listed_short e id alg -> exists P, listed_by p k id alg P.
  Proof using nx.
    intros p k id alg Hw Hv [Hl|Hl]; [destruct (listed_case p k id alg Hw Hv Hl) as (P & HP & _); eauto|].
    destruct Hl. eexists. apply b_mes_short; auto.
  Qed.
  Lemma listed_determined : forall p k id alg, libraries_ok p rnd nx sv e -> listed e p k id alg -> wf p -> voters p <> [] -> 1 <= k <= num_cand p ->
    exists P : list nat -> Prop, elects e p k id P /\ (forall W, P W -> is_committee p k W) /\
      determined P p k (fun resolute maxn => compute rnd nx e' id p (Z.of_nat k) None (args alg resolute maxn)).
  Proof using.
    intros p k id alg Hlib Hl Hw Hv Hk. destruct (listed_case p k id alg Hw Hv Hl) as (P & HP & HE & HC).
    exists P. split; auto. split; auto. eapply listed_by_determined; eauto.
  Qed.
  Lemma listed_short_determined : forall p k id alg, listed_short e id alg -> wf p -> voters p <> [] -> 1 <= k <= num_cand p ->
    exists P : list nat -> Prop, elects e p k id P /\ (forall W, P W -> is_small_committee p k W) /\
      determined P p k (fun resolute maxn => compute rnd nx e' id p (Z.of_nat k) None (args alg resolute maxn)).
  Proof using.
    intros p k id alg Hl Hw Hv Hk. destruct Hl as [id alg Ha Hid].
    exists (mes_winner p k (equal_share p k) (the_completion p k false NoCompletion)). split; [apply e_mes_short; auto|]. split; [intros W HW; eapply mes_short; exact HW|].
    intros resolute maxn Hc.
    assert (E : compute rnd nx e' id p (Z.of_nat k) None (args alg resolute maxn) = compute_equal_shares e' p (Z.of_nat k) alg resolute maxn None).
    { destruct Hid as [<-|[<-|[<-|[]]]]; plain; reflexivity. }
    rewrite E. apply compute_mes_correct; auto; [eexists; reflexivity|discriminate|exact I].
  Qed.

  Lemma listed_resolute_one : forall p k id alg, libraries_ok p rnd nx sv e -> listed_resolute e p id alg -> valid_call p k true None ->
    exists W, compute rnd nx e' id p (Z.of_nat k) None (args alg true None) = Ok [W] /\ is_committee p k W /\ exists P, elects e p k id P /\ P W.
  Proof using.
    intros p k id alg (Hrnd & Hnx & Hsv & _) Hl Hc. destruct Hl.
    - plain. destruct (compute_greedy_monroe_correct nx e' p k Hnx Hc H) as (W & E & HG & HW). exists W. split; auto. split; auto. eexists. split; [apply e_greedy_monroe|auto].
    - plain. destruct (compute_rsd_correct rnd e' p k Hrnd Hc H) as (W & E & HW). exists W. split; auto. split; [destruct HW as (order & _ & HW); apply HW|]. eexists. split; [apply e_rsd|auto].
    - plain. destruct (compute_mes_increment_correct e' p k alg H Hc H0) as (W & E & HW). exists W. split; auto. split; [apply increment_committee; auto|]. eexists. split; [apply e_increment|auto].
  Qed.
End Calls.

(** ** Default values *)
Definition default_algorithm (id : string) : string :=
  if String.eqb id "eph" then "float-fractions"
  else if String.eqb id "trivial" || String.eqb id "rsd" then "standard" else "fastest".

Lemma str_in_cases : forall id l, str_in id l = true -> In id l.
Proof.
  intros id l. unfold str_in. intros H. apply existsb_exists in H as (x & Hx & E). apply String.eqb_eq in E. subst. auto.
Qed.
Lemma str_in_In : forall id l, In id l -> str_in id l = true.
Proof. intros id l H. apply existsb_exists. exists id. split; auto. apply String.eqb_refl. Qed.

Lemma listed_rule_values : forall id r, listed_rule id = Some r ->
  forall rnd nx e p k kw, compute_fct rnd nx e id p k kw =
    compute_fct rnd nx e id p k (mkKwargs (Some (or_default (kw_algorithm kw) (default_algorithm id)))
      (Some (or_default (kw_resolute kw) (hd false (resolute_values r)))) (Some (or_default (kw_max kw) None))
      (kw_completion kw) (kw_lexicographic kw) (kw_other kw)).
Proof.
  intros id r H rnd nx e p k kw. unfold listed_rule in H. unfold compute_fct, default_algorithm.
  repeat match type of H with
  | (if String.eqb id ?x then _ else _) = Some r =>
      let E := fresh "E" in destruct (String.eqb id x) eqn:E;
      [apply String.eqb_eq in E; subst id; inversion H; subst r; destruct kw as [[] [] [] [] [] []]; reflexivity|]
  | (if str_in id ?l then _ else _) = Some r =>
      let E := fresh "E" in destruct (str_in id l) eqn:E;
      [apply str_in_cases in E; inversion H; subst r; cbn [In] in E;
       repeat match type of E with _ \/ _ => destruct E as [E|E] end; try contradiction; subst id;
       destruct kw as [[] [] [] [] [] []]; reflexivity|]
  | (if String.prefix ?x id then _ else _) = Some r =>
      let E := fresh "E" in destruct (String.prefix x id) eqn:E; [inversion H; subst r|discriminate H]
  end.
  cbn [orb].
  destruct kw as [[] [] [] [] [] []]; reflexivity.
Qed.

Lemma compute_defaults : forall rnd nx e id r p k x kw, lookup_rule e id = Ok r ->
  compute rnd nx e id p k x kw =
  compute rnd nx e id p k x (mkKwargs (Some (or_default (kw_algorithm kw) (default_algorithm id)))
      (Some (or_default (kw_resolute kw) (hd false (resolute_values r)))) (Some (or_default (kw_max kw) None))
      (kw_completion kw) (kw_lexicographic kw) (kw_other kw)).
Proof.
  intros rnd nx e id r p k x kw Hr. unfold compute. rewrite Hr. cbn [rbind].
  assert (E : compute_fct rnd nx e id p k kw = compute_fct rnd nx e id p k (mkKwargs (Some (or_default (kw_algorithm kw) (default_algorithm id)))
      (Some (or_default (kw_resolute kw) (hd false (resolute_values r)))) (Some (or_default (kw_max kw) None))
      (kw_completion kw) (kw_lexicographic kw) (kw_other kw))).
  { unfold lookup_rule, rule_of_id in Hr. destruct (listed_rule id) as [r'|] eqn:El.
    - inversion Hr; subst r'. apply listed_rule_values. auto.
    - destruct (String.prefix "seq" id || String.prefix "revseq" id) eqn:Ep; [|discriminate].
      assert (Er : resolute_values r = SEQ_RESOLUTE).
      { cbv zeta in Hr. destruct (get_marginal_scorefct _ _ _) as [sf|er]; [|destruct er; discriminate].
        destruct (listed_rule (if String.prefix "seq" id then drop 3 id else drop 6 id)); [|discriminate]. inversion Hr. reflexivity. }
      rewrite Er. cbn [SEQ_RESOLUTE hd].
      unfold listed_rule in El. unfold compute_fct, default_algorithm.
      repeat match type of El with
      | (if ?b then _ else _) = None => destruct b eqn:?; [discriminate El|]
      end.
      cbn [orb]. destruct kw as [[] [] [] [] [] []]; destruct (String.prefix "seq" id); reflexivity. }
  rewrite <- E. destruct (compute_fct rnd nx e id p k kw); [|reflexivity]. destruct x; reflexivity.
Qed.

Lemma compute_expected : forall rnd nx e id r p k expected kw l, lookup_rule e id = Ok r ->
  compute rnd nx e id p k (Some expected) kw = Ok l <->
  compute rnd nx e id p k None kw = Ok l /\ verify_expected l expected (or_default (kw_resolute kw) (hd false (resolute_values r))) = Ok tt.
Proof.
  intros rnd nx e id r p k expected kw l Hr. unfold compute. rewrite Hr. cbn [rbind].
  destruct (compute_fct rnd nx e id p k kw) as [cs|x]; cbn [rbind]; [|split; [|intros [? _]]; discriminate].
  destruct (verify_expected cs expected _) as [[]|x] eqn:E; cbn [rbind]; split; intros H.
  - inversion H; subst; auto.
  - apply H.
  - discriminate.
  - destruct H as [H1 H2]. inversion H1; subst. rewrite E in H2. discriminate.
Qed.

Lemma compute_unknown : forall rnd nx e id x p k expected kw, lookup_rule e id = Err x -> compute rnd nx e id p k expected kw = Err x.
Proof. intros rnd nx e id x p k expected kw H. unfold compute. rewrite H. reflexivity. Qed.

Lemma resolute_only_refuses : forall rnd nx sv e p k id alg maxn, listed_resolute e p id alg -> valid_call p k false maxn ->
  compute rnd nx (with_solvers nx sv e) id p (Z.of_nat k) None (args alg false maxn) = Err NotImplementedError.
Proof.
  intros rnd nx sv e p k id alg maxn Hl (Hw & Hv & Hk & _).
  assert (E1 : (Z.of_nat k <? 1)%Z = false) by (apply Z.ltb_ge; lia).
  assert (E2 : (Z.of_nat (num_cand p) <? Z.of_nat k)%Z = false) by (apply Z.ltb_ge; lia).
  assert (E3 : (length (voters p) =? 0) = false) by (apply Nat.eqb_neq; destruct (voters p); [congruence|discriminate]).
  assert (G : forall r a body, lookup_rule (with_solvers nx sv e) (rule_id r) = Ok r -> String.eqb a "fastest" = false -> str_in a (algorithms r) = true ->
     resolute_values r = [true] -> run (with_solvers nx sv e) (rule_id r) p (Z.of_nat k) a false maxn body = Err NotImplementedError).
  { intros r a body Hr Ha Hin Hres. unfold run. rewrite Hr. cbn [rbind]. unfold prologue. rewrite Ha. cbn [rbind].
    unfold verify_compute_parameters. rewrite E1, E2, E3, Hin, Hres. reflexivity. }
  destruct Hl as [| |alg Ha Hs].
  - rewrite (compute_plain rnd nx sv e "greedy-monroe" (mkRule "greedy-monroe" ["standard"] [true])) by reflexivity.
    apply (G (mkRule "greedy-monroe" ["standard"] [true])); reflexivity.
  - rewrite (compute_plain rnd nx sv e "rsd" (mkRule "rsd" ["standard"] [true])) by reflexivity.
    apply (G (mkRule "rsd" ["standard"] [true])); reflexivity.
  - rewrite (compute_plain rnd nx sv e "equal-shares-with-increment-completion" (mkRule "equal-shares-with-increment-completion" FRACTION_ALGORITHMS [true])) by reflexivity.
    apply (G (mkRule "equal-shares-with-increment-completion" FRACTION_ALGORITHMS [true])); try reflexivity;
      destruct Ha as [-> | [-> _]]; reflexivity.
Qed.
