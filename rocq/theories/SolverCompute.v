(** * The public functions with the solver algorithms *)
From Coq Require Import String.
From Coq Require Import List Arith Bool ZArith QArith Lia Lqa Permutation.
From Verif Require Import Prelude Misc MiscProofs Preferences Scores Spec SpecRules Common ScoresProofs Search Rule RulesThiele ThieleProofs
  BBProofs OptProofs Compute SpecCompute ComputeProofs SpecSeq RulesSeq SeqProofs RulesMonroe SpecMonroe MonroeProofs MonroeRule
  Milp MilpProofs SpecLoads RulesSolver SolverProofs SolverLex SolverMonroe SolverPhragmen SolverLeximax SolverMaximin RefSolver.
Import ListNotations.
Local Open Scope string_scope.
Open Scope nat_scope.
Local Open Scope list_scope.

(** ** All programs are within the assumption about the solvers *)
Definition bounded_decl (B : nat) (d : decl) : Prop :=
  dtype d = Integer -> exists lo hi, dlow d = Some lo /\ dhigh d = Some hi /\ (- inject_Z (Z.of_nat B) <= lo)%Q /\ (hi <= inject_Z (Z.of_nat B))%Q.
Lemma bounded_decls : forall B m, 1 <= B -> Forall (bounded_decl B) (decls m) -> bounded_integers B m.
Proof.
  intros B m HB Hd x v [Fd _] Hv. apply in_map_iff in Hv as (d & <- & Hv). apply filter_In in Hv as [Hv Hi]. rewrite Forall_forall in Hd, Fd.
  specialize (Hd d Hv). destruct (Fd d Hv) as (Ht & Hlo & Hhi).
  assert (H1 : (1 <= inject_Z (Z.of_nat B))%Q) by (change 1%Q with (inject_Z 1); rewrite <- Zle_Qle; lia).
  unfold is_int in Hi. destruct (dtype d) eqn:E; [| |discriminate].
  - destruct Ht as [-> | ->]; split; lra.
  - destruct (Hd E) as (lo & hi & El & Eh & A & C). rewrite El in Hlo. rewrite Eh in Hhi. split; lra.
Qed.
Lemma binary_bounded : forall B v lo hi, bounded_decl B (mkDecl v Binary lo hi).
Proof. intros B v lo hi H. discriminate. Qed.
Lemma continuous_bounded : forall B v lo hi, bounded_decl B (mkDecl v Continuous lo hi).
Proof. intros B v lo hi H. discriminate. Qed.

Lemma excluding_decls : forall m k cs, decls (excluding k m cs) = decls m.
Proof. intros m k cs. unfold excluding. revert m. induction cs as [|W cs IH]; intros m; auto. cbn [fold_left]. rewrite IH. auto. Qed.
Lemma excluding_cons : forall m k cs, cons (excluding k m cs) = cons m ++ map (exclusion k) cs.
Proof.
  intros m k cs. unfold excluding. revert m. induction cs as [|W cs IH]; intros m; [cbn; rewrite app_nil_r; auto|]. cbn [fold_left]. rewrite IH.
  cbn [add_con cons map]. rewrite <- app_assoc. auto.
Qed.
Lemma exact_solves : forall s p k m, exact_solver p s -> guarded m -> bounded_integers (election_size p) m -> solves s p k m.
Proof.
  intros s p k m Hs Hg Hb cs _. apply Hs.
  - intros c v Hc Hv. unfold int_vars. rewrite excluding_decls. rewrite excluding_cons in Hc. apply in_app_or in Hc as [Hc|Hc]; [eapply Hg; eauto|].
    apply in_map_iff in Hc as (W & <- & _). destruct Hv.
  - intros x v [Fd Fc] Hv. unfold int_vars in Hv. rewrite excluding_decls in Fd, Hv. rewrite excluding_cons in Fc. apply Forall_app in Fc as [Fc _]. apply (Hb x v); auto. split; auto.
Qed.
Lemma unguarded : forall m, Forall (fun c => guards c = []) (cons m) -> guarded m.
Proof. intros m H c v Hc Hv. rewrite Forall_forall in H. rewrite (H c Hc) in Hv. destruct Hv. Qed.

Lemma Forall_map_all : forall (A B : Type) (P : B -> Prop) (f : A -> B) l, (forall a, P (f a)) -> Forall P (map f l).
Proof. intros A B P f l H. apply Forall_forall. intros b Hb. apply in_map_iff in Hb as (a & <- & _). auto. Qed.
Lemma Forall_flat_all : forall (A B : Type) (P : B -> Prop) (f : A -> list B) l, (forall a, Forall P (f a)) -> Forall P (flat_map f l).
Proof. intros A B P f l H. apply Forall_forall. intros b Hb. apply in_flat_map in Hb as (a & _ & Hb). specialize (H a). rewrite Forall_forall in H. auto. Qed.

Lemma size_pos : forall p, 1 <= election_size p.
Proof. intros. unfold election_size. lia. Qed.
Lemma committee_vars_bounded : forall B p, Forall (bounded_decl B) (in_committee_vars p).
Proof. intros. apply Forall_map_all. intros. apply binary_bounded. Qed.
Lemma utility_vars_bounded : forall B p k, Forall (bounded_decl B) (utility_decls p k).
Proof. intros. apply Forall_flat_all. intros. apply Forall_map_all. intros. apply binary_bounded. Qed.
Lemma load_vars_bounded : forall B p, Forall (bounded_decl B) (load_decls p).
Proof. intros. apply Forall_flat_all. intros. apply Forall_map_all. intros. apply continuous_bounded. Qed.
Lemma size_le : forall p n, n <= election_size p -> (- inject_Z (Z.of_nat (election_size p)) <= 0)%Q /\ (Qnat n <= inject_Z (Z.of_nat (election_size p)))%Q.
Proof.
  intros p n H. split.
  - change 0%Q with (inject_Z 0). rewrite <- inject_Z_opp, <- Zle_Qle. lia.
  - unfold Qnat. rewrite <- Zle_Qle. lia.
Qed.

Section Posed.
  Variables (s : solver) (p : profile) (k : nat).
  Hypothesis Hs : exact_solver p s.

  Lemma thiele_solves : forall f, solves s p k (thiele_program f p k).
  Proof using Hs.
    intros f. apply exact_solves; auto.
    - apply unguarded. constructor; [reflexivity|]. apply Forall_map_all. reflexivity.
    - apply bounded_decls; [apply size_pos|]. apply Forall_app. split; [apply committee_vars_bounded|apply utility_vars_bounded].
  Qed.
  Lemma cc_solves : solves s p k (cc_program p k).
  Proof using Hs.
    apply exact_solves; auto.
    - apply unguarded. constructor; [reflexivity|]. apply Forall_map_all. reflexivity.
    - apply bounded_decls; [apply size_pos|]. apply Forall_app. split; [apply committee_vars_bounded|]. apply Forall_map_all. intros. apply binary_bounded.
  Qed.
  Lemma lexcc_solves : forall sc, solves s p k (lexcc_program p k sc).
  Proof using Hs.
    intros sc. apply exact_solves; auto.
    - apply unguarded. constructor; [reflexivity|]. apply Forall_app. split; apply Forall_map_all; reflexivity.
    - apply bounded_decls; [apply size_pos|]. apply Forall_app. split; [apply committee_vars_bounded|apply utility_vars_bounded].
  Qed.
  Lemma minimaxav_solves : solves s p k (minimaxav_program p k).
  Proof using Hs.
    apply exact_solves; auto.
    - apply unguarded. constructor; [reflexivity|]. apply Forall_map_all. reflexivity.
    - apply bounded_decls; [apply size_pos|]. apply Forall_app. split; [apply committee_vars_bounded|]. constructor; [|constructor].
      intros _. exists 0%Q, (Qnat (num_cand p)). split; auto. split; auto. apply size_le. unfold election_size. lia.
  Qed.
  Lemma lexminimaxav_solves : forall cn d, solves s p k (lexminimaxav_program p k cn d).
  Proof using Hs.
    intros cn d. apply exact_solves; auto.
    - intros c v Hc Hv. destruct Hc as [<-|Hc]; [destruct Hv|]. apply in_app_or in Hc as [Hc|Hc].
      + apply in_flat_map in Hc as ((i, u) & Hiv & Hc). apply in_map_iff in Hc as (d' & <- & Hd'). apply filter_In in Hd' as [Hd' _]. destruct Hv as [<-|[]].
        apply in_map_iff. exists (mkDecl (AtMost i d') Binary None None). split; auto. apply filter_In. split; auto. apply in_or_app. right.
        apply in_flat_map. exists (i, u). split; auto. apply in_map_iff. exists d'. auto.
      + apply in_map_iff in Hc as (dn & <- & _). destruct Hv.
    - apply bounded_decls; [apply size_pos|]. apply Forall_app. split; [apply committee_vars_bounded|].
      apply Forall_flat_all. intros. apply Forall_map_all. intros. apply binary_bounded.
  Qed.
  Lemma minimaxphragmen_solves : solves s p k (minimaxphragmen_program p k).
  Proof using Hs.
    apply exact_solves; auto.
    - apply unguarded. constructor; [reflexivity|]. apply Forall_app. split; apply Forall_map_all; reflexivity.
    - apply bounded_decls; [apply size_pos|]. apply Forall_app. split; [apply committee_vars_bounded|]. apply Forall_app. split; [apply load_vars_bounded|].
      constructor; [|constructor]. apply continuous_bounded.
  Qed.
  Lemma leximaxphragmen_solves : forall b, solves s p k (leximaxphragmen_program p k b).
  Proof using Hs.
    intros b. apply exact_solves; auto.
    - apply unguarded. apply Forall_app. split; [apply Forall_flat_all; intros; repeat constructor|]. constructor; [reflexivity|].
      apply Forall_app. split; [apply Forall_map_all; reflexivity|]. apply Forall_app. split; [|apply Forall_map_all; reflexivity].
      apply Forall_flat_all. intros. apply Forall_map_all. reflexivity.
    - apply bounded_decls; [apply size_pos|]. apply Forall_app. split; [apply committee_vars_bounded|]. apply Forall_app. split; [apply load_vars_bounded|].
      apply Forall_app. split; [|constructor; [apply continuous_bounded|constructor]]. apply Forall_flat_all. intros. apply Forall_map_all. intros. apply binary_bounded.
  Qed.
  Lemma maximin_solves : maximin_solved_by s p.
  Proof using Hs.
    intros W _ _ _. apply Hs.
    - apply unguarded. apply Forall_app. split; apply Forall_map_all; reflexivity.
    - apply bounded_decls; [apply size_pos|]. constructor; [apply continuous_bounded|]. apply Forall_flat_all. intros. apply Forall_map_all. intros. apply continuous_bounded.
  Qed.

  Lemma satisfaction_bounded : bounded_decl (election_size p) (mkDecl Satisfaction Integer (Some 0%Q) (Some (Qnat (length (voters p))))).
  Proof using. intros _. exists 0%Q, (Qnat (length (voters p))). split; auto. split; auto. apply size_le. unfold election_size. lia. Qed.
  Lemma monroe_binary_bounded : forall districts, bounded_integers (election_size p) (monroe_program (partition_decls p Binary None) districts p k).
  Proof using.
    intros districts. apply bounded_decls; [apply size_pos|]. apply Forall_app. split; [apply committee_vars_bounded|]. constructor; [apply satisfaction_bounded|].
    apply Forall_flat_all. intros. apply Forall_map_all. intros. apply binary_bounded.
  Qed.
  Lemma monroe_guarded : forall parts, guarded (monroe_program parts (district_cons p k) p k).
  Proof using.
    intros parts. apply unguarded. constructor; [reflexivity|]. apply Forall_app. split; [apply Forall_map_all; reflexivity|]. apply Forall_app. split.
    - apply Forall_flat_all. intros. repeat constructor.
    - repeat constructor.
  Qed.
  Lemma monroe_mip_solves : solves s p k (monroe_mip p k).
  Proof using Hs. apply exact_solves; auto; [apply monroe_guarded|apply monroe_binary_bounded]. Qed.
  Lemma monroe_ortools_solves : solves s p k (monroe_ortools p k).
  Proof using Hs.
    apply exact_solves; auto; [|apply monroe_binary_bounded].
    intros c v Hc Hv. destruct Hc as [<-|Hc]; [destruct Hv|]. apply in_app_or in Hc as [Hc|Hc]; [apply in_map_iff in Hc as (i & <- & _); destruct Hv|].
    apply in_app_or in Hc as [Hc|Hc]; [|destruct Hc as [<-|[]]; destruct Hv].
    apply in_flat_map in Hc as (d & Hd & Hc). assert (E : v = InCommittee d).
    { destruct Hc as [<-|[<-|Hc]]; [destruct Hv as [<-|[]]; auto|destruct Hv as [<-|[]]; auto|]. apply in_map_iff in Hc as (j & <- & _). destruct Hv. }
    subst v. apply in_map_iff. exists (mkDecl (InCommittee d) Binary None None). split; auto. apply filter_In. split; auto. apply in_or_app. left. apply in_map_iff. exists d. auto.
  Qed.
  Lemma monroe_gurobi_solves : solves s p k (monroe_gurobi p k).
  Proof using Hs.
    apply exact_solves; auto; [apply monroe_guarded|].
    intros x v Hx Hv. pose proof Hx as [Fd Fc]. rewrite Forall_forall in Fd, Fc.
    assert (H1 : (1 <= inject_Z (Z.of_nat (election_size p)))%Q) by (change 1%Q with (inject_Z 1); rewrite <- Zle_Qle; pose proof (size_pos p); lia).
    apply in_map_iff in Hv as (d & <- & Hv). apply filter_In in Hv as [Hv Hi]. apply in_app_or in Hv as [Hv|[<-|Hv]].
    - apply in_map_iff in Hv as (c & <- & Hc). destruct (Fd (mkDecl (InCommittee c) Binary None None)) as (Ht & _).
      { apply in_or_app. left. apply in_map_iff. exists c. auto. }
      cbn [dtype dvar] in *. destruct Ht as [-> | ->]; split; lra.
    - destruct (Fd (mkDecl Satisfaction Integer (Some 0%Q) (Some (Qnat (length (voters p)))))) as (_ & A & B).
      { apply in_or_app. right. left. auto. }
      cbn [dlow dhigh dvar] in *. destruct (size_le p (length (voters p))) as [C D]; [unfold election_size; lia|]. split; lra.
    - apply in_flat_map in Hv as (c & Hc & Hv). apply in_map_iff in Hv as (j & <- & Hj). cbn [dvar].
      assert (Hnn : forall c', In c' (candidates p) -> (0 <= x (Partition c' j))%Q).
      { intros c' Hc'. destruct (Fd (mkDecl (Partition c' j) Integer (Some 0%Q) None)) as (_ & A & _); [|exact A].
        apply in_or_app. right. right. apply in_flat_map. exists c'. split; auto. apply in_map_iff. exists j. auto. }
      specialize (Fc (CEq (vsum (map (fun c => Partition c j) (candidates p))) (lconst 1))). cbn [holds] in Fc. rewrite ev_vsum, ev_const, map_map in Fc.
      assert (E : (Qsum (map (fun c => x (Partition c j)) (candidates p)) == 1)%Q).
      { apply Fc. right. apply in_or_app. left. apply in_map_iff. exists j. auto. }
      pose proof (Qsum_ge_member _ (fun c => x (Partition c j)) (candidates p) c Hnn Hc) as H. cbv beta in H. specialize (Hnn c Hc). split; lra.
  Qed.
End Posed.

(** ** The public functions *)
Definition exact_solvers (p : profile) (sv : solvers) : Prop :=
  exact_solver p (gurobi sv) /\ (forall id, exact_solver p (python_mip sv id)) /\ exact_solver p (cp_sat sv).
Definition MIP_ALGORITHMS : list string := ["gurobi"; "mip-gurobi"; "mip-cbc"].

(** the reference solver in the place of every solver library *)
Definition ref_solvers (p : profile) : solvers :=
  mkSolvers (ref_solver (election_size p)) (fun _ => ref_solver (election_size p)) (ref_solver (election_size p)).
Theorem ref_solvers_exact : forall p, exact_solvers p (ref_solvers p).
Proof. intros p. split; [|split]; cbn; intros; intros m Hg Hb; apply ref_solver_correct; auto. Qed.

Lemma denotes_with : forall nx sv e id f, denotes e id f -> denotes (with_solvers nx sv e) id f.
Proof. intros nx sv e id f H. destruct H; constructor; auto. Qed.
Lemma denotes_solver_rule : forall e id f, denotes e id f -> exists r,
  lookup_rule e id = Ok r /\ (forall alg, In alg MIP_ALGORITHMS -> str_in alg (algorithms r) = true) /\
  (forall b, existsb (Bool.eqb b) (resolute_values r) = true).
Proof.
  intros e id f H. destruct H.
  1,2,3: eexists; split; [reflexivity|]; split; [intros alg [<-|[<-|[<-|[]]]]; reflexivity|intros []; auto].
  exists (mkRule ("geom" ++ s)%string THIELE_ALGORITHMS OPT_RESOLUTE). split.
  - unfold lookup_rule, rule_of_id, listed_rule. simpl. rewrite prefix_empty. auto.
  - split; [intros alg [<-|[<-|[<-|[]]]]; reflexivity|intros []; auto].
Qed.
(** the identifiers of Thiele methods are sent to the Thiele program *)
Lemma thiele_dispatch : forall nx sv e id f alg p k resolute maxn sf, denotes e id f -> In alg MIP_ALGORITHMS -> lookup_scorefct e id = Ok sf ->
  exists s, (s = gurobi sv \/ exists i, s = python_mip sv i) /\
    solver_rule e nx sv id alg p k resolute maxn = ilp_thiele s (marginal sf) p k resolute maxn.
Proof.
  intros nx sv e id f alg p k resolute maxn sf Hd Ha El.
  destruct Hd; destruct Ha as [<-|[<-|[<-|[]]]]; unfold solver_rule, mip_call; simpl String.eqb; cbv iota; rewrite El; cbn [rbind];
    eexists; (split; [|reflexivity]); eauto.
Qed.

(** strictly decreasing until 0 *)
Definition decreasing_to_zero (f : nat -> Q) : Prop := (0 < f 1%nat)%Q /\ forall i, 1 <= i -> (f (S i) < f i)%Q \/ (f (S i) == 0)%Q.
Lemma decreasing_monotonic : forall f g k, decreasing_to_zero f -> same_fct g f -> (forall i, (0 <= g i)%Q) -> monotonic_decreasing (map g (seq 1 k)) = true.
Proof.
  intros f g k [_ Hd] Hs Hn. unfold monotonic_decreasing. apply forallb_forall. intros (a, b) Hab.
  assert (exists i, 1 <= i /\ a = g i /\ b = g (S i)).
  { assert (G : forall k i, 1 <= i -> In (a, b) (combine (g i :: map g (seq (S i) k)) (map g (seq (S i) k))) -> exists i, 1 <= i /\ a = g i /\ b = g (S i)).
    { clear. induction k as [|k IH]; intros i Hi H; [destruct H|]. cbn [seq map combine] in H. destruct H as [H|H]; [inversion H; subst; eauto|]. apply (IH (S i)); auto. }
    destruct k as [|k]; [destruct Hab|]. apply (G k 1); auto. }
  destruct H as (i & Hi & -> & ->). apply orb_true_iff. cbn [fst snd]. specialize (Hs i Hi) as E. assert (E' : (g (S i) == f (S i))%Q) by (apply Hs; lia).
  specialize (Hd i Hi). specialize (Hn i). destruct (Qlt_le_dec (g (S i)) (g i)) as [H|H]; [left; apply Qltb_lt; auto|].
  right. apply andb_true_iff. rewrite !Qeq_bool_iff. destruct Hd as [Hd|Hd]; [rewrite E, E' in H; lra|]. split; lra.
Qed.

Theorem compute_thiele_solver_correct : forall nx sv e id f p k alg resolute maxn, exact_solvers p sv ->
  denotes e id f -> decreasing_to_zero f -> valid_call p k resolute maxn -> In alg MIP_ALGORITHMS ->
  answers (maximises (Thiele f p) p k) resolute (limit maxn)
          (compute_thiele_method (with_solvers nx sv e) id p (Z.of_nat k) alg resolute maxn).
Proof.
  intros nx sv e id f p k alg resolute maxn (Hs1 & Hs2 & _) Hd Hf Hc Ha.
  destruct (denotes_ok e id f Hd) as (sf & El & Hg & Hsame & _).
  destruct (denotes_solver_rule (with_solvers nx sv e) id f (denotes_with nx sv e id f Hd)) as (r & Er & Hal & Hres).
  destruct (thiele_dispatch nx sv e id f alg p k resolute (limit maxn) sf Hd Ha El) as (s & Hs & E).
  assert (Hex : exact_solver p s) by (destruct Hs as [-> | (i & ->)]; auto).
  unfold compute_thiele_method. erewrite run_ok; eauto; [|destruct Ha as [<-|[<-|[<-|[]]]]; reflexivity]. cbv beta.
  assert (Eb : (if String.eqb alg "gurobi" then external (with_solvers nx sv e) id alg p k resolute (limit maxn)
     else if String.eqb alg "branch-and-bound" then
       do f <- lookup_scorefct (with_solvers nx sv e) id; thiele_branchandbound (marginal f) p k resolute (limit maxn)
     else if String.eqb alg "brute-force" then
       do f <- lookup_scorefct (with_solvers nx sv e) id; thiele_bruteforce (marginal f) p k resolute (limit maxn)
     else if String.prefix "mip-" alg then external (with_solvers nx sv e) id alg p k resolute (limit maxn)
     else if String.eqb alg "ortools-cp" && String.eqb id "cc" then external (with_solvers nx sv e) id alg p k resolute (limit maxn)
     else Err UnknownAlgorithm) = solver_rule e nx sv id alg p k resolute (limit maxn)).
  { destruct Ha as [<-|[<-|[<-|[]]]]; reflexivity. }
  rewrite Eb, E. pose proof (valid_limit _ _ _ _ Hc) as Hm. destruct Hc as (Hw & _ & Hk & _).
  assert (HA : answers (maximises (Thiele f p) p k) resolute (limit maxn) (ilp_thiele s (marginal sf) p k resolute (limit maxn))).
  { eapply answers_ext; [apply thiele_same_maximises; exact Hsame|]. apply ilp_thiele_correct; auto.
    - eapply decreasing_monotonic; eauto. intros i. apply marginal_nonneg. auto.
    - rewrite (Hsame 1%nat) by lia. apply Hf.
    - apply thiele_solves. auto. }
  erewrite answers_nonempty_ok; eauto. apply max_exists. lia.
Qed.

Theorem compute_cc_ortools_correct : forall nx sv e p k resolute maxn, exact_solvers p sv -> valid_call p k resolute maxn ->
  Forall (fun v => weight_is_int v = true) (voters p) ->
  answers (maximises (Thiele cc_w p) p k) resolute (limit maxn)
          (compute_cc (with_solvers nx sv e) p (Z.of_nat k) "ortools-cp" resolute maxn).
Proof.
  intros nx sv e p k resolute maxn (_ & _ & Hs) Hc Hi. unfold compute_cc, compute_thiele_method.
  erewrite run_ok; eauto; try reflexivity; [|destruct resolute; reflexivity].
  pose proof (valid_limit _ _ _ _ Hc) as Hm. destruct Hc as (Hw & _ & Hk & _).
  change (needs_nonempty (ortools_cc (cp_sat sv) p k resolute (limit maxn))) with
    (needs_nonempty (ortools_cc (cp_sat sv) p k resolute (limit maxn))).
  assert (HA : answers (maximises (Thiele cc_w p) p k) resolute (limit maxn) (ortools_cc (cp_sat sv) p k resolute (limit maxn))).
  { apply ortools_cc_correct; auto; [lia|]. apply cc_solves. auto. }
  cbn [String.eqb Ascii.eqb Bool.eqb andb]. simpl String.prefix. cbv iota.
  change (external (with_solvers nx sv e) "cc" "ortools-cp" p k resolute (limit maxn)) with (ortools_cc (cp_sat sv) p k resolute (limit maxn)).
  erewrite answers_nonempty_ok; eauto. apply max_exists. lia.
Qed.

Theorem compute_lexcc_gurobi_correct : forall nx sv e p k resolute maxn, exact_solvers p sv -> valid_call p k resolute maxn -> granular p ->
  answers (lexcc_winner p k) resolute (limit maxn) (compute_lexcc (with_solvers nx sv e) p (Z.of_nat k) "gurobi" resolute maxn).
Proof.
  intros nx sv e p k resolute maxn (Hs & _) Hc (u & Hu). unfold compute_lexcc.
  erewrite run_ok; eauto; try reflexivity; [|destruct resolute; reflexivity].
  pose proof (valid_limit _ _ _ _ Hc) as Hm. destruct Hc as (Hw & _ & Hk & _).
  apply (gurobi_lexcc_correct (gurobi sv) p k u); auto; try lia. intros. apply lexcc_solves. auto.
Qed.

Definition WITH_CP : list string := ["gurobi"; "mip-gurobi"; "mip-cbc"; "ortools-cp"].
Lemma minimaxav_exists : forall p k, k <= num_cand p -> exists W, minimaxav_winner p k W.
Proof. intros p k Hk. destruct (max_exists (fun W => - Qnat (minimaxav_score p W))%Q p k Hk) as (W & HW). exists W. apply minimax_maximises. auto. Qed.
Theorem compute_minimaxav_solver_correct : forall nx sv e p k alg resolute maxn, exact_solvers p sv -> valid_call p k resolute maxn -> In alg WITH_CP ->
  answers (minimaxav_winner p k) resolute (limit maxn) (compute_minimaxav (with_solvers nx sv e) p (Z.of_nat k) alg resolute maxn).
Proof.
  intros nx sv e p k alg resolute maxn (Hs1 & Hs2 & Hs3) Hc Ha. unfold compute_minimaxav.
  assert (Hrun : run (with_solvers nx sv e) "minimaxav" p (Z.of_nat k) alg resolute maxn (fun alg k maxn =>
      needs_nonempty
        (if String.eqb alg "gurobi" then external (with_solvers nx sv e) "minimaxav" alg p k resolute maxn
         else if String.eqb alg "ortools-cp" then external (with_solvers nx sv e) "minimaxav" alg p k resolute maxn
         else if String.prefix "mip-" alg then external (with_solvers nx sv e) "minimaxav" alg p k resolute maxn
         else if String.eqb alg "brute-force" then minimaxav_bruteforce p k resolute maxn
         else Err UnknownAlgorithm)) = needs_nonempty (solver_rule e nx sv "minimaxav" alg p k resolute (limit maxn))).
  { destruct Ha as [<-|[<-|[<-|[<-|[]]]]]; (erewrite run_ok; eauto; try reflexivity; destruct resolute; reflexivity). }
  rewrite Hrun. pose proof (valid_limit _ _ _ _ Hc) as Hm. destruct Hc as (Hw & _ & Hk & _).
  assert (HA : answers (minimaxav_winner p k) resolute (limit maxn) (solver_rule e nx sv "minimaxav" alg p k resolute (limit maxn))).
  { assert (T1 : (0 < MIP_THRESHOLD)%Q /\ (MIP_THRESHOLD <= 1)%Q) by (unfold MIP_THRESHOLD; lra).
    assert (T2 : (0 < CP_THRESHOLD)%Q /\ (CP_THRESHOLD <= 1)%Q) by (unfold CP_THRESHOLD; lra).
    destruct Ha as [<-|[<-|[<-|[<-|[]]]]];
      [change (answers (minimaxav_winner p k) resolute (limit maxn) (solver_minimaxav (gurobi sv) MIP_THRESHOLD p k resolute (limit maxn)))
      |change (answers (minimaxav_winner p k) resolute (limit maxn) (solver_minimaxav (python_mip sv "gurobi") MIP_THRESHOLD p k resolute (limit maxn)))
      |change (answers (minimaxav_winner p k) resolute (limit maxn) (solver_minimaxav (python_mip sv "cbc") MIP_THRESHOLD p k resolute (limit maxn)))
      |change (answers (minimaxav_winner p k) resolute (limit maxn) (solver_minimaxav (cp_sat sv) CP_THRESHOLD p k resolute (limit maxn)))];
      (apply solver_minimaxav_correct; auto; [lia|apply minimaxav_solves; auto]). }
  erewrite answers_nonempty_ok; eauto. apply minimaxav_exists. lia.
Qed.

Theorem compute_lexminimaxav_gurobi_correct : forall nx sv e p k resolute maxn, exact_solvers p sv -> valid_call p k resolute maxn -> unit_weights p ->
  answers (lexminimaxav_winner p k) resolute (limit maxn) (compute_lexminimaxav (with_solvers nx sv e) p (Z.of_nat k) "gurobi" resolute maxn).
Proof.
  intros nx sv e p k resolute maxn (Hs & _) Hc Hu. unfold compute_lexminimaxav.
  erewrite run_ok; eauto; try reflexivity; [|destruct resolute; reflexivity].
  pose proof (valid_limit _ _ _ _ Hc) as Hm. destruct Hc as (Hw & Hv & Hk & _). rewrite unit_weights_b by auto. cbn [negb]. simpl String.eqb. cbv iota.
  apply (gurobi_lexminimaxav_correct (gurobi sv) p k); auto; try lia; [intros; apply lexminimaxav_solves; auto|apply minimaxav_solves; auto].
Qed.

Theorem compute_monroe_solver_correct : forall nx sv e p k alg resolute maxn, networkx_correct nx -> exact_solvers p sv ->
  valid_call p k resolute maxn -> unit_weights p -> In alg WITH_CP ->
  answers (monroe_winner p k) resolute (limit maxn) (compute_monroe nx (with_solvers nx sv e) p (Z.of_nat k) alg resolute maxn).
Proof.
  intros nx sv e p k alg resolute maxn Hx (Hs1 & Hs2 & Hs3) Hc Hu Ha. unfold compute_monroe.
  pose proof (valid_limit _ _ _ _ Hc) as Hm. pose proof Hc as (Hw & _ & Hk & _).
  assert (HA : answers (monroe_winner p k) resolute (limit maxn) (solver_rule e nx sv "monroe" alg p k resolute (limit maxn))).
  { destruct Ha as [<-|[<-|[<-|[<-|[]]]]];
      [change (answers (monroe_winner p k) resolute (limit maxn) (solver_monroe nx (gurobi sv) MIP_THRESHOLD (monroe_gurobi p k) p k resolute (limit maxn)))
      |change (answers (monroe_winner p k) resolute (limit maxn) (solver_monroe nx (python_mip sv "gurobi") MIP_THRESHOLD (monroe_mip p k) p k resolute (limit maxn)))
      |change (answers (monroe_winner p k) resolute (limit maxn) (solver_monroe nx (python_mip sv "cbc") MIP_THRESHOLD (monroe_mip p k) p k resolute (limit maxn)))
      |change (answers (monroe_winner p k) resolute (limit maxn) (solver_monroe nx (cp_sat sv) CP_THRESHOLD (monroe_ortools p k) p k resolute (limit maxn)))].
    - apply monroe_gurobi_correct; auto. apply monroe_gurobi_solves; auto.
    - apply monroe_mip_correct; auto. apply monroe_mip_solves; auto.
    - apply monroe_mip_correct; auto. apply monroe_mip_solves; auto.
    - apply monroe_ortools_correct; auto. apply monroe_ortools_solves; auto. }
  match goal with |- answers _ _ _ ?t => assert (Hrun : t = match solver_rule e nx sv "monroe" alg p k resolute (limit maxn) with
     | Ok cs => match cs with [] => Err IndexError | c :: _ => do _ <- monroescore nx p c; Ok cs end | Err x => Err x end) end.
  { destruct Ha as [<-|[<-|[<-|[<-|[]]]]]; (erewrite run_ok; eauto; try reflexivity; [|destruct resolute; reflexivity]); rewrite unit_weights_b by auto; reflexivity. }
  rewrite Hrun. destruct (answers_nonempty _ _ _ _ (monroe_winner_exists p k Hk) Hm HA) as (l & E & Hne).
  rewrite E in *. destruct l as [|W l]; [congruence|].
  assert (HW : monroe_winner p k W).
  { destruct HA as (l' & E' & _ & _ & HP & _). inversion E'; subst. apply HP. left. auto. }
  destruct HW as ((H1 & H2 & _) & _).
  destruct (monroescore_correct nx p W Hx) as (z & -> & _); auto.
  - apply ascending_NoDup; auto.
  - intros ->. simpl in H2. lia.
Qed.

(** Phragmén's rules *)
Theorem compute_minimaxphragmen_correct : forall nx sv e p k alg resolute maxn, exact_solvers p sv -> valid_call p k resolute maxn ->
  weights_at_least_one p -> k <= length (approved_candidates p) -> In alg MIP_ALGORITHMS ->
  answers (minimaxphragmen_winner CMP_ACCURACY p k) resolute (limit maxn)
          (compute_minimaxphragmen (with_solvers nx sv e) p (Z.of_nat k) alg resolute maxn).
Proof.
  intros nx sv e p k alg resolute maxn (Hs1 & Hs2 & _) Hc Ho Hk Ha. unfold compute_minimaxphragmen.
  pose proof (valid_limit _ _ _ _ Hc) as Hm. pose proof Hc as (Hw & Hv & _ & _).
  assert (E : exists s, exact_solver p s /\ run (with_solvers nx sv e) "minimaxphragmen" p (Z.of_nat k) alg resolute maxn (fun alg k maxn =>
    if String.eqb alg "gurobi" then external (with_solvers nx sv e) "minimaxphragmen" alg p k resolute maxn
    else if String.prefix "mip-" alg then external (with_solvers nx sv e) "minimaxphragmen" alg p k resolute maxn
    else Err UnknownAlgorithm) = ilp_minimaxphragmen s p k resolute (limit maxn)).
  { destruct Ha as [<-|[<-|[<-|[]]]]; [exists (gurobi sv)|exists (python_mip sv "gurobi")|exists (python_mip sv "cbc")]; (split; [auto|]);
      (erewrite run_ok; eauto; try reflexivity; destruct resolute; reflexivity). }
  destruct E as (s & Hex & ->). apply ilp_minimaxphragmen_correct; auto. apply minimaxphragmen_solves. auto.
Qed.

Theorem compute_maximin_support_correct : forall nx sv e p k alg resolute maxn, exact_solvers p sv -> valid_call p k resolute maxn ->
  In alg MIP_ALGORITHMS ->
  answers (maximin_winner CMP_ACCURACY p k) resolute (limit maxn)
          (compute_maximin_support (with_solvers nx sv e) p (Z.of_nat k) alg resolute maxn) /\
  (resolute = true -> exists W, compute_maximin_support (with_solvers nx sv e) p (Z.of_nat k) alg true maxn = Ok [W] /\
     maximin_lex_winner CMP_ACCURACY p k W).
Proof.
  intros nx sv e p k alg resolute maxn (Hs1 & Hs2 & _) Hc Ha. unfold compute_maximin_support.
  pose proof (valid_limit _ _ _ _ Hc) as Hm. pose proof Hc as (Hw & Hv & Hk & _).
  assert (E : exists s, exact_solver p s /\ forall r, r = resolute -> run (with_solvers nx sv e) "maximin-support" p (Z.of_nat k) alg r maxn (fun alg k maxn =>
    if String.eqb alg "gurobi" then external (with_solvers nx sv e) "maximin-support" alg p k r maxn
    else if String.prefix "mip-" alg then external (with_solvers nx sv e) "maximin-support" alg p k r maxn
    else Err UnknownAlgorithm) = maximin_support_rule s p k r (limit maxn)).
  { destruct Ha as [<-|[<-|[<-|[]]]]; [exists (gurobi sv)|exists (python_mip sv "gurobi")|exists (python_mip sv "cbc")]; (split; [auto|]); intros r ->;
      (erewrite run_ok; eauto; try reflexivity; destruct resolute; reflexivity). }
  destruct E as (s & Hex & E). destruct (maximin_correct s p k Hw Hk (maximin_solves s p Hex) resolute (limit maxn) Hm) as [A B].
  rewrite (E resolute eq_refl). split; auto. intros Hr. rewrite (E true (eq_sym Hr)). auto.
Qed.
