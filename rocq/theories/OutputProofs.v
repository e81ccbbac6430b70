(** * Proofs about output.py, [check] and [full_analysis] *)
From Coq Require Import String Ascii.
From Coq Require Import List Arith Bool ZArith QArith Lia Lqa.
From Verif Require Import Prelude Misc Preferences Spec SpecRules Checks SpecAxioms ChecksProofs Guarantees Milp CheckSolver
  CheckSolverProofs SpecPrice PriceProofs Output SpecOutput.
Import ListNotations.
Local Open Scope string_scope.
Open Scope nat_scope.
Local Open Scope list_scope.

Section P.
Variable fill : string -> string -> string.

Lemma run_app : forall h1 h2 o, run fill o (h1 ++ h2) =
  let '(o1, t1) := run fill o h1 in let '(o2, t2) := run fill o1 h2 in
  (o2, mkTrace (printed t1 ++ printed t2) (logged t1 ++ logged t2)).
Proof using.
  induction h1 as [|[v|m] h1 IH]; intros h2 o; cbn [app run].
  - destruct (run fill o h2) as [o2 [a b]]; auto.
  - apply IH.
  - destruct (print_message fill o m) as [a b]. rewrite IH.
    destruct (run fill o h1) as [o1 t1]. destruct (run fill o1 h2) as [o2 t2]. cbn. rewrite <- !app_assoc. auto.
Qed.

Lemma run_state : forall h o, verbosity (fst (run fill o h)) = in_force (verbosity o) h /\
  has_logger (fst (run fill o h)) = has_logger o.
Proof using.
  unfold in_force. induction h as [|[v|m] h IH]; intros o; cbn [run fold_left]; auto.
  - specialize (IH (mkOutput v (has_logger o))). cbn in IH. auto.
  - destruct (print_message fill o m). specialize (IH o). destruct (run fill o h). auto.
Qed.

Lemma run_printed : forall h o, printed (snd (run fill o h)) = shown fill (verbosity o) h.
Proof using.
  induction h as [|[v|m] h IH]; intros o; cbn [run shown]; auto.
  - rewrite IH. auto.
  - unfold print_message. specialize (IH o). destruct (run fill o h) as [o' t] eqn:E.
    cbn [snd printed] in *. rewrite IH. destruct (Z.leb_spec (verbosity o) (level m)); cbn [opt_list].
    + destruct (Z_le_dec (verbosity o) (level m)); [|lia]. cbn. destruct (wrap m); auto.
    + destruct (Z_le_dec (verbosity o) (level m)); [lia|]. auto.
Qed.

Lemma shown_sublist : forall ms v1 v2, (v2 <= v1)%Z -> sublist (shown fill v1 (map Print ms)) (shown fill v2 (map Print ms)).
Proof using.
  induction ms as [|m ms IH]; intros v1 v2 H; cbn [map shown]; [constructor|].
  destruct (Z_le_dec v1 (level m)), (Z_le_dec v2 (level m)); try lia; cbn [app].
  - apply sub_take; auto. - apply sub_skip; auto. - auto.
Qed.

Lemma run_logged : forall h o, has_logger o = true ->
  map fst (logged (snd (run fill o h))) = map log_level (messages h) /\
  Forall2 (fun m e => snd e = text m \/ (wrap m = true /\ snd e = wrapped fill (indent m) (text m)))
          (messages h) (logged (snd (run fill o h))).
Proof using.
  induction h as [|[v|m] h IH]; intros o Ho; cbn [run].
  - split; constructor.
  - apply IH; auto.
  - unfold print_message. rewrite Ho. destruct (IH o Ho) as [A B]. destruct (run fill o h) as [o' t]. cbn -[Z.eqb log_level messages] in *.
    unfold messages in *. cbn [flat_map app map]. rewrite A. split.
    { f_equal. unfold log_level. destruct (Z.eqb (level m) DETAILS), (Z.eqb (level m) DEBUG2); auto. }
    constructor; auto. cbn. destruct (Z.leb (verbosity o) (level m)); cbn; auto.
    destruct (wrap m) eqn:E; auto.
Qed.
Lemma run_no_logger : forall h o, has_logger o = false -> logged (snd (run fill o h)) = [].
Proof using.
  induction h as [|[v|m] h IH]; intros o Ho; cbn [run]; auto.
  unfold print_message. rewrite Ho. specialize (IH o Ho). destruct (run fill o h) as [o' t]. cbn in *. rewrite IH. auto.
Qed.
End P.

(** ** check *)
Lemma check_names : forall gb name p W quota alg, ~ In name PROPERTY_NAMES -> check gb name p W quota alg = Err ValueError.
Proof.
  intros gb name p W quota alg H. unfold check.
  assert (existsb (String.eqb name) PROPERTY_NAMES = false) as ->; auto.
  apply not_true_is_false. intros E. apply existsb_exists in E as (x & Hx & E). apply String.eqb_eq in E. subst. auto.
Qed.

Lemma satisfies_iff : forall p q W,
  (satisfies p q "pareto" W <-> pareto_optimal p W) /\ (satisfies p q "jr" W <-> JR p q W) /\
  (satisfies p q "pjr" W <-> PJR p q W) /\ (satisfies p q "ejr" W <-> EJR p q W) /\
  (satisfies p q "ejr+" W <-> EJR_plus p q W) /\ (satisfies p q "fjr" W <-> FJR p q W) /\
  (satisfies p q "core" W <-> in_core p q W) /\ (satisfies p q "priceability" W <-> passes_price_check p W false) /\
  (satisfies p q "stable-priceability" W <-> passes_price_check p W true).
Proof.
  intros p q W. unfold satisfies. repeat split; intros; try discriminate; intuition.
Qed.

Lemma check_exact : forall s p W quota alg, wf p -> voters p <> [] -> cand_set p W -> W <> [] ->
  (0 < the_quota p W quota)%Q -> exact_solver p s -> uses_gurobi alg ->
  forall name, In name PROPERTY_NAMES -> (quota <> None -> uses_quota name) ->
  (quota <> None -> name = "ejr+" -> forall i, i < length (voters p) ->
     (Qnat (approves_in p i W) * the_quota p W quota <= wsum (voters p))%Q) ->
  exists b, check s name p W quota alg = Ok b /\ (b = true <-> satisfies p (the_quota p W quota) name W).
Proof.
  intros s p W quota alg Hw Hv HW Hne Hq Hs Ha name Hin Hu Hbig.
  destruct (check_gurobi_exact s p W quota alg Hw HW (fun _ => Hne) Hq Hs Ha) as
    ((b1 & A1 & B1) & (b2 & A2 & B2) & (b3 & A3 & B3) & (b4 & A4 & B4)).
  destruct (satisfies_iff p (the_quota p W quota) W) as (S1 & S2 & S3 & S4 & S5 & S6 & S7 & S8 & S9).
  assert (Hnq : ~ uses_quota name -> quota = None).
  { intros N. destruct quota; auto. exfalso. apply N, Hu. discriminate. }
  unfold uses_quota in Hnq.
  destruct Hin as [<-|[<-|[<-|[<-|[<-|[<-|[<-|[<-|[<-|[]]]]]]]]]]; unfold check;
    cbv [existsb PROPERTY_NAMES String.eqb Ascii.eqb Bool.eqb orb negb]; cbv iota.
  - rewrite Hnq in * by (cbn; intuition discriminate).
    destruct (check_pareto_gurobi s p W alg Hw HW Hs Ha) as (b & A & B). exists b. rewrite S1. auto.
  - destruct (check_JR_exact p W quota Hw HW (fun _ => Hne) Hq) as (b & A & B). exists b. rewrite S2. auto.
  - exists b2. rewrite S3. auto.
  - exists b1. rewrite S4. auto.
  - destruct quota as [q|].
    + destruct (check_EJR_plus_exact p W (Some q) Hw HW (fun _ => Hne) Hq) as (b & A & B).
      { apply Hbig; auto. discriminate. }
      exists b. rewrite S5. auto.
    + destruct (check_EJR_plus_default p W Hw HW Hne Hv) as (b & A & B). exists b. rewrite S5. auto.
  - exists b3. rewrite S6. auto.
  - rewrite Hnq in * by (cbn; intuition discriminate).
    destruct (check_priceability_exact s p W alg false Hw HW Hne Hs Ha) as (b & A & B). exists b. rewrite S8. auto.
  - rewrite Hnq in * by (cbn; intuition discriminate).
    destruct (check_priceability_exact s p W alg true Hw HW Hne Hs Ha) as (b & A & B). exists b. rewrite S9. auto.
  - exists b4. rewrite S7. auto.
Qed.

Lemma check_quota_rejected : forall gb name p W q alg, In name PROPERTY_NAMES -> ~ uses_quota name ->
  check gb name p W (Some q) alg = Err ValueError.
Proof.
  intros gb name p W q alg Hin Hn. unfold uses_quota in Hn.
  destruct Hin as [<-|[<-|[<-|[<-|[<-|[<-|[<-|[<-|[<-|[]]]]]]]]]];
    first [exfalso; apply Hn; cbn; tauto | reflexivity].
Qed.

(** ** full_analysis *)
Lemma full_analysis_ok : forall fill s o p W, wf p -> voters p <> [] -> cand_set p W -> W <> [] -> exact_solver p s ->
  exists results, full_analysis s o p W = (Ok results, [SetVerbosity WARNING; SetVerbosity (verbosity o)] ++
       map (fun e => Print (analysis_line e)) results) /\
    map fst results = PROPERTY_NAMES /\
    Forall (fun e => snd e = true <-> satisfies p (default_quota p (length W)) (fst e) W) results /\
    fst (run fill o (snd (full_analysis s o p W))) = o /\
    printed (snd (run fill o (snd (full_analysis s o p W)))) =
      if Z_le_dec (verbosity o) INFO
      then map (fun e => wrapped fill "" (text (analysis_line e))) results else [].
Proof.
  intros fill s o p W Hw Hv HW Hne Hs.
  assert (G : forall names, incl names PROPERTY_NAMES -> exists results,
    rmapM (fun name => do b <- check s name p W None "fastest"; Ok (name, b)) names = Ok results /\
    map fst results = names /\
    Forall (fun e => snd e = true <-> satisfies p (default_quota p (length W)) (fst e) W) results).
  { induction names as [|n names IH]; intros Hi; [exists []; auto|].
    destruct IH as (rs & A & B & C); [intros x Hx; apply Hi; right; auto|].
    destruct (check_exact s p W None "fastest" Hw Hv HW Hne (default_pos p W Hw Hv Hne) Hs (or_intror eq_refl) n)
      as (b & E & H); [apply Hi; left; auto|congruence|congruence|].
    exists ((n, b) :: rs). cbn [rmapM]. rewrite E. cbn [rbind]. rewrite A. cbn [rbind map fst]. rewrite B. auto. }
  destruct (G PROPERTY_NAMES (incl_refl _)) as (results & A & B & C). exists results.
  assert (E : full_analysis s o p W = (Ok results, [SetVerbosity WARNING; SetVerbosity (verbosity o)] ++
       map (fun e => Print (analysis_line e)) results)) by (unfold full_analysis; rewrite A; auto).
  split; auto. split; auto. split; auto. rewrite E. cbn [snd]. split.
  - cbn [app run]. destruct o as [v l]. cbn [verbosity has_logger].
    clear. induction results as [|e rs IH]; cbn [map run]; auto.
    destruct (print_message fill _ _). destruct (run fill _ (map _ rs)). auto.
  - cbn [app run]. rewrite run_printed. cbn [verbosity]. clear.
    destruct (Z_le_dec (verbosity o) INFO) as [H|H].
    + induction results as [|e rs IH]; cbn [map shown]; auto.
      change (level (analysis_line e)) with INFO. destruct (Z_le_dec (verbosity o) INFO); [|tauto].
      change (wrap (analysis_line e)) with true. change (indent (analysis_line e)) with "". cbn [app].
      rewrite IH. auto.
    + induction results as [|e rs IH]; cbn [map shown]; auto.
      change (level (analysis_line e)) with INFO. destruct (Z_le_dec (verbosity o) INFO); [tauto|]. auto.
Qed.

(** an exception leaves the verbosity at WARNING *)
Lemma full_analysis_raises : forall fill gb o p W e, fst (full_analysis gb o p W) = Err e ->
  verbosity (fst (run fill o (snd (full_analysis gb o p W)))) = WARNING.
Proof.
  intros fill gb o p W e H. unfold full_analysis in *.
  destruct (rmapM _ PROPERTY_NAMES) as [rs|e']; [discriminate|]. auto.
Qed.
