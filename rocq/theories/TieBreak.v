(** * Which committee is returned for [resolute=True] (C64), and committee monotonicity (C63) *)
From Coq Require Import String.
From Coq Require Import List Arith Bool ZArith QArith Lia Lqa Permutation Sorted.
From Verif Require Import Prelude Misc Common MiscProofs Preferences Scores ScoresProofs Search Spec SpecRules Rule RulesThiele ThieleProofs OptProofs Compute SpecCompute SpecSeq
  Milp RulesMonroe RulesSolver SpecLoads SolverMaximin SolverCompute PhragmenProofs EnestroemProofs AvPhase MesFinal ComputeProofs ComputeSeqProofs MonroeProofs RulesMore ComputeAll SpecAll AllProofs SpecMono Mono.
Import ListNotations.
Local Open Scope string_scope.
Open Scope nat_scope.
Local Open Scope list_scope.

(** ** the order *)
Lemma number_first_diff : forall A B, ascending A -> ascending B -> number_first A B ->
  exists c, In c A /\ ~ In c B /\ forall d, In d B -> ~ In d A -> c < d.
Proof.
  intros A B HA HB H. revert HA HB. induction H as [a b l l' Hab|a l l' H IH]; intros HA HB.
  - exists a. inversion HB as [|? ? HB1 HB2]; subst. rewrite Forall_forall in HB2. split; [left; auto|]. split.
    + intros [E|Hin]; [lia|]. specialize (HB2 _ Hin). lia.
    + intros d [<-|Hd] _; [auto|]. specialize (HB2 _ Hd). lia.
  - inversion HA as [|? ? HA1 HA2]; inversion HB as [|? ? HB1 HB2]; subst. destruct (IH HA1 HB1) as (c & Hc & Hn & Hd).
    rewrite Forall_forall in HA2. exists c. split; [right; auto|]. split.
    + intros [E|Hin]; [|auto]. specialize (HA2 _ Hc). lia.
    + intros d [<-|Hin] Hnd; [exfalso; apply Hnd; left; auto|]. apply Hd; auto. intros H'. apply Hnd. right. auto.
Qed.
Lemma number_first_total : forall A B, length A = length B -> A = B \/ number_first A B \/ number_first B A.
Proof.
  induction A as [|a A IH]; intros [|b B] E; try discriminate; auto. destruct (lt_eq_lt_dec a b) as [[H|H]|H].
  - right. left. constructor. auto.
  - subst b. destruct (IH B) as [H|[H|H]]; [cbn in E; lia|left; congruence|right; left; constructor 2; auto|right; right; constructor 2; auto].
  - right. right. constructor. auto.
Qed.
Lemma combinations_sorted : forall l k, ascending l -> StronglySorted number_first (combinations l k).
Proof.
  induction l as [|x l IH]; intros [|k] Ha; cbn; try (repeat constructor; fail).
  inversion Ha as [|? ? Ha1 Ha2]; subst. rewrite Forall_forall in Ha2.
  assert (H1 : StronglySorted number_first (map (List.cons x) (combinations l k))).
  { pose proof (IH k Ha1) as H. induction H as [|a r H IHr HF]; cbn; constructor; auto. rewrite Forall_forall in *. intros b Hb. apply in_map_iff in Hb as (c & <- & Hc). constructor 2. auto. }
  assert (H2 : forall a b, In a (map (List.cons x) (combinations l k)) -> In b (combinations l (S k)) -> number_first a b).
  { intros a b Hin Hb. apply in_map_iff in Hin as (c & <- & _). apply combinations_sublist in Hb as [Hb Hl]. destruct b as [|y b]; [discriminate|].
    constructor. apply Ha2. apply (sublist_incl _ _ _ Hb). left. auto. }
  induction H1 as [|a r H1 IHr HF]; cbn; [apply IH; auto|]. constructor.
  - apply IHr. intros; apply H2; auto. right. auto.
  - rewrite Forall_forall in *. intros b Hb. apply in_app_iff in Hb as [Hb|Hb]; [auto|]. apply H2; [left; auto|auto].
Qed.
Lemma first_of_combinations : forall (P : list nat -> Prop) l1 W l2, StronglySorted number_first (l1 ++ W :: l2) ->
  (forall V, In V l1 -> ~ P V) -> forall V, In V (l1 ++ W :: l2) -> P V -> V = W \/ number_first W V.
Proof.
  intros P l1 W l2 HS Hn V Hin HV. apply in_app_iff in Hin as [Hin|[Hin|Hin]]; [exfalso; apply (Hn V); auto|auto|]. right.
  clear Hn. induction l1 as [|a l1 IH]; cbn in HS; inversion HS as [|? ? HS1 HF]; subst; [rewrite Forall_forall in HF; auto|auto].
Qed.

(** ** separable rules *)
(** [c] comes before [d]: larger score, or the same score and a smaller number *)
Definition before (s : nat -> Q) (c d : nat) : Prop := (s d < s c)%Q \/ ((s d == s c)%Q /\ c < d).
Definition first_by (s : nat -> Q) (p : profile) (k : nat) (W : list nat) : Prop :=
  is_committee p k W /\ forall c d, In c W -> d < num_cand p -> ~ In d W -> before s c d.

Lemma firstn_possible : forall l n c d, ascending l -> In c (firstn n l) -> In d l -> ~ In d (firstn n l) -> c < d.
Proof.
  induction l as [|x l IH]; intros [|n] c d Ha Hc Hd Hn; cbn in *; try tauto. inversion Ha as [|? ? Ha1 Ha2]; subst. rewrite Forall_forall in Ha2.
  destruct Hd as [<-|Hd]; [exfalso; auto|]. destruct Hc as [<-|Hc]; [apply Ha2; auto|]. apply (IH n); auto.
Qed.
Lemma sublist_firstn : forall (A : Type) (l : list A) n, sublist (firstn n l) l.
Proof. induction l; destruct n; simpl; constructor; auto. Qed.
Lemma cut_one : forall maxn (W : list nat), valid_max maxn -> cut maxn [W] = [W].
Proof. intros [[|n]|] W H; cbn in *; auto; [lia|]. destruct n; auto. Qed.

Lemma separable_first : forall score k maxn, 1 <= k <= length score ->
  exists W, separable_from_scores score (length score) k true maxn = Ok [W] /\ committee_m (length score) k W /\
    forall c d, In c W -> d < length score -> ~ In d W -> before (nthQ score) c d.
Proof.
  intros score k maxn Hk. destruct (separable_from_scores_correct score k true None Hk I) as (l & El & _ & _ & Hw & Hone).
  unfold separable_from_scores, kth_largest in *.
  destruct (Nat.ltb_spec (length score) k) as [Hlt|_]; [lia|].
  destruct (nth_error (sort_by Qle_bool score) (length score - k)) as [cutoff|] eqn:E; [|discriminate].
  pose proof (combo_nodup score k Hk cutoff E _ (sublist_refl _ _)) as Hn.
  pose proof (certain_few score k Hk cutoff E) as Hcf. pose proof (OptProofs.enough score k Hk cutoff E) as Hen.
  set (certain := filter (fun c => Qltb cutoff (nthQ score c)) (seq 0 (length score))) in *.
  set (possible := filter (fun c => Qeq_bool (nthQ score c) cutoff) (seq 0 (length score))) in *.
  assert (Hpa : ascending possible) by (unfold possible; eapply sublist_ascending; [apply filter_sublist|apply ascending_seq]).
  assert (HC : forall c, In c certain <-> c < length score /\ (cutoff < nthQ score c)%Q).
  { intro c. unfold certain. rewrite filter_In, in_seq, Qltb_lt. intuition lia. }
  assert (HP : forall c, In c possible <-> c < length score /\ (nthQ score c == cutoff)%Q).
  { intro c. unfold possible. rewrite filter_In, in_seq, Qeq_bool_iff. intuition lia. }
  assert (HB : forall S c d, (forall x, In x S <-> In x certain \/ In x (firstn (k - length certain) possible)) -> In c S -> d < length score -> ~ In d S -> before (nthQ score) c d).
  { intros S c d HS Hc Hd Hnd. rewrite HS in Hc, Hnd.
    assert (Hdc : (nthQ score d <= cutoff)%Q). { destruct (Qlt_le_dec cutoff (nthQ score d)); auto. exfalso. apply Hnd. left. apply HC. auto. }
    destruct Hc as [Hc|Hc]; [apply HC in Hc; left; destruct Hc; lra|].
    pose proof (firstn_In _ _ _ _ Hc) as Hc'. apply HP in Hc' as [Hcl Hce]. destruct (Qlt_le_dec (nthQ score d) cutoff) as [Hlt|Hge]; [left; lra|].
    right. split; [lra|]. apply (firstn_possible possible (k - length certain)); auto. apply HP. split; auto. lra. }
  assert (HS : exists S, sorted_committees [S] = Ok l /\ NoDup S /\ forall x, In x S <-> In x certain \/ In x (firstn (k - length certain) possible)).
  { destruct (Nat.eqb_spec (length possible) (k - length certain)) as [El'|_].
    - exists (isort (certain ++ possible) ++ firstn 0 []). split; [exact El|]. cbn. rewrite app_nil_r. split; [apply ascending_NoDup, isort_ascending; auto|].
      intros x. rewrite isort_In, in_app_iff, <- El', firstn_all. tauto.
    - exists (certain ++ firstn (k - length certain) possible). split; [exact El|]. split; [apply combo_nodup with (cutoff := cutoff) (k := k); auto; apply sublist_firstn|].
      intros x. apply in_app_iff. }
  destruct HS as (S & HS1 & HS2 & HS3). rewrite sorted_committees_ok in HS1 by (repeat constructor; auto). cbn in HS1. inversion HS1 as [Hl]. exists (isort S). split.
  - destruct (length possible =? k - length certain); rewrite El, <- Hl; reflexivity.
  - split; [apply Hw; rewrite <- Hl; left; auto|]. intros c d Hc Hd Hnd. apply (HB S); auto; [apply isort_In; auto|]. intros H. apply Hnd, isort_In. auto.
Qed.
Lemma first_by_lex : forall s p k W V, first_by s p k W -> maximises (fun W => Qsum (map s W)) p k V -> V = W \/ number_first W V.
Proof.
  intros s p k W V [HW Hb] HV. apply top_set_maximises in HV as [HV Ht]. pose proof HW as (A & L & R). pose proof HV as (A' & L' & R').
  destruct (number_first_total W V) as [H|[H|H]]; [lia|auto|auto|]. exfalso.
  destruct (number_first_diff V W A' A H) as (c & Hc & Hn & Hd). rewrite Forall_forall in R, R'.
  assert (Hex : exists d, In d W /\ ~ In d V).
  { destruct (existsb (fun d => negb (mem d V)) W) eqn:Ex.
    - apply existsb_exists in Ex as (d & H1 & H2). apply negb_true_iff, mem_false in H2. eauto.
    - exfalso. assert (Hincl : incl W V).
      { intros d Hin. destruct (in_dec Nat.eq_dec d V); auto. exfalso. assert (Ht' : existsb (fun d => negb (mem d V)) W = true); [|congruence].
        apply existsb_exists. exists d. split; auto. apply negb_true_iff, mem_false. auto. }
      apply Hn. assert (HVW : incl V W) by (apply NoDup_length_incl; [apply ascending_NoDup; auto|lia|auto]). apply HVW. auto. }
  destruct Hex as (d & Hd1 & Hd2). specialize (Hd d Hd1 Hd2). specialize (Ht c d Hc (R _ Hd1) Hd2).
  destruct (Hb d c Hd1 (R' _ Hc) Hn) as [Hlt|[_ Hlt]]; [lra|lia].
Qed.
Lemma first_by_grows : forall s p k W V, first_by s p k W -> first_by s p (S k) V -> incl W V.
Proof.
  intros s p k W V [HW Hb] [HV Hb'] c Hc. destruct (in_dec Nat.eq_dec c V) as [|Hn]; auto. exfalso.
  pose proof HW as (A & L & R). pose proof HV as (A' & L' & R'). rewrite Forall_forall in R, R'.
  assert (Hex : exists d, In d V /\ ~ In d W).
  { destruct (existsb (fun d => negb (mem d W)) V) eqn:Ex.
    - apply existsb_exists in Ex as (d & H1 & H2). apply negb_true_iff, mem_false in H2. eauto.
    - exfalso. assert (Hincl : incl V W).
      { intros d Hin. destruct (in_dec Nat.eq_dec d W); auto. exfalso. assert (Ht' : existsb (fun d => negb (mem d W)) V = true); [|congruence].
        apply existsb_exists. exists d. split; auto. apply negb_true_iff, mem_false. auto. }
      apply (NoDup_incl_length (ascending_NoDup _ A')) in Hincl. lia. }
  destruct Hex as (d & Hd1 & Hd2). pose proof (Hb c d Hc (R' _ Hd1) Hd2) as H1. pose proof (Hb' d c Hd1 (R _ Hc) Hn) as H2.
  destruct H1 as [H1|[H1 H1']], H2 as [H2|[H2 H2']]; try lra. lia.
Qed.
Lemma first_by_ext : forall s t p k W, (forall c, c < num_cand p -> (s c == t c)%Q) -> first_by s p k W -> first_by t p k W.
Proof.
  intros s t p k W H [HW Hb]. split; auto. intros c d Hc Hd Hn. assert (Hcl : c < num_cand p) by (destruct HW as (_ & _ & R); rewrite Forall_forall in R; auto).
  destruct (Hb c d Hc Hd Hn) as [H1|[H1 H2]]; [left|right]; rewrite <- !H by auto; auto.
Qed.

Section Sections.
  Variables (rnd : random) (nx : networkx) (sv : solvers) (e : env).
  Notation e' := (with_solvers nx sv e).
  Ltac plain := erewrite compute_plain by reflexivity;
    cbv [compute_fct String.eqb Ascii.eqb Bool.eqb andb str_in existsb orb call call_mes call_leximax args given or_default
         kw_algorithm kw_resolute kw_max kw_completion kw_lexicographic kw_other].

  (** the scores of AV and SAV, as Python computes them *)
  Definition sep_number (p : profile) (id : string) (c : nat) : Q :=
    if String.eqb id "av" then support p c
    else if forallb (fun v => negb (weight_is_int v)) (voters p) then sav_support p c else nth c (sav_float_scores e p) 0%Q.
  Lemma separable_resolute : forall p k id maxn, id = "av" \/ (id = "sav" /\ (fraction_weights p \/ length (sav_float_scores e p) = num_cand p)) ->
    valid_call p k true maxn -> exists W, compute rnd nx e' id p (Z.of_nat k) None (args "standard" true maxn) = Ok [W] /\ first_by (sep_number p id) p k W.
  Proof using.
    intros p k id maxn Hid Hc. pose proof Hc as (Hw & _ & Hk & _).
    assert (HR : forall r, exists W, separable_rule r p k true (limit maxn) = Ok [W] /\ first_by (sep_support r p) p k W).
    { intros r. unfold separable_rule. destruct (separable_first (sep_scores r p) k (limit maxn)) as (W & EW & HW & Hb); rewrite sep_scores_length in *; [auto|].
      exists W. split; [exact EW|]. apply (first_by_ext (nthQ (sep_scores r p))); [intros c Hcl; apply sep_scores_nth; auto|]. split; auto. }
    destruct Hid as [->|[-> Hf]].
    - plain. unfold compute_av, compute_separable_rule. erewrite run_ok; eauto; try reflexivity. destruct (HR SepAV) as (W & EW & HW). exists W. split; [exact EW|]. exact HW.
    - plain. unfold compute_sav, compute_separable_rule. erewrite run_ok; eauto; try reflexivity. unfold sep_number. cbn [String.eqb Ascii.eqb Bool.eqb].
      destruct (forallb (fun v => negb (weight_is_int v)) (voters p)) eqn:Ef.
      + destruct (HR SepSAV) as (W & EW & HW). exists W. split; [exact EW|]. exact HW.
      + destruct Hf as [Hf|Hf].
        { exfalso. assert (Ht : forallb (fun v => negb (weight_is_int v)) (voters p) = true); [|congruence].
          apply forallb_forall. intros v Hv. unfold fraction_weights in Hf. rewrite Forall_forall in Hf. rewrite Hf; auto. }
        destruct (separable_first (sav_float_scores e p) k (limit maxn)) as (W & EW & HW & Hb); [lia|]. rewrite Hf in *.
        exists W. split; [exact EW|]. split; auto.
  Qed.

  Lemma irresolute_list : forall p k id alg P, libraries_ok p rnd nx sv e -> listed_by e p k id alg P -> valid_call p k false None ->
    exists l, compute rnd nx e' id p (Z.of_nat k) None (args alg false None) = Ok l /\ forall W, In W l <-> P W.
  Proof using.
    intros p k id alg P HL Hl Hc. pose proof Hc as (Hw & Hv & Hk & _).
    destruct (listed_by_determined rnd nx sv e p k id alg P HL Hl Hw Hv Hk false None Hc) as (l & El & _ & _ & H1 & H2). exists l. split; [exact El|]. intros W. split; auto.
  Qed.
  Lemma valid_irresolute : forall p k r maxn, valid_call p k r maxn -> valid_call p k false None.
  Proof using. intros p k r maxn (A & B & C & _). unfold valid_call; auto 10. Qed.
  Lemma trivial_first : forall p k W, 1 <= k <= num_cand p -> is_committee p k W -> W = seq 0 k \/ number_first (seq 0 k) W.
  Proof using.
    intros p k W _ HW. assert (G : forall k a W, ascending W -> length W = k -> Forall (fun c => a <= c) W -> W = seq a k \/ number_first (seq a k) W).
    { clear. induction k as [|k IH]; intros a [|c W] HA HL HF; try discriminate; auto. inversion HA as [|? ? HA1 HA2]; subst. inversion HF as [|? ? HF1 HF2]; subst. cbn [seq].
      destruct (Nat.eq_dec c a) as [->|Hne]; [|right; constructor; lia]. destruct (IH (S a) W) as [E|H]; auto.
      - left. congruence.
      - right. constructor 2. auto. }
    destruct HW as (A & L & R). apply G; auto. apply Forall_forall. intros; lia.
  Qed.
  Theorem keeps_first_ok : forall p k id alg, libraries_ok p rnd nx sv e -> keeps_first e p id alg -> valid_call p k true None ->
    exists W l, compute rnd nx e' id p (Z.of_nat k) None (args alg true None) = Ok [W] /\
      compute rnd nx e' id p (Z.of_nat k) None (args alg false None) = Ok l /\ In W l /\ forall V, In V l -> V = W \/ number_first W V.
  Proof using.
    intros p k id alg HL Hid Hc. pose proof (valid_irresolute _ _ _ _ Hc) as Hc'. pose proof Hc as (Hw & Hv & Hk & _).
    assert (HS : forall id s, id = "av" \/ (id = "sav" /\ (fraction_weights p \/ length (sav_float_scores e p) = num_cand p)) ->
      listed_by e p k id "standard" (maximises (fun W => Qsum (map s W)) p k) -> (forall c, sep_number p id c = s c) ->
      exists W l, compute rnd nx e' id p (Z.of_nat k) None (args "standard" true None) = Ok [W] /\
      compute rnd nx e' id p (Z.of_nat k) None (args "standard" false None) = Ok l /\ In W l /\ forall V, In V l -> V = W \/ number_first W V).
    { intros i s Hi Hl Hs. destruct (separable_resolute p k i None Hi Hc) as (W & EW & HW).
      assert (HW' : first_by s p k W) by (apply (first_by_ext (sep_number p i)); auto; intros c _; rewrite Hs; reflexivity). clear HW.
      destruct (irresolute_list p k i "standard" _ HL Hl Hc') as (l & El & Hin).
      exists W, l. split; [exact EW|]. split; [exact El|]. split.
      - apply Hin, top_set_maximises. destruct HW' as [H1 H2]. split; auto. intros c d H3 H4 H5. destruct (H2 c d H3 H4 H5) as [H|[H _]]; lra.
      - intros V HV. apply Hin in HV. apply (first_by_lex s p k); auto. }
    destruct Hid as [|Hf|id f Hd|].
    - apply (HS "av" (support p)); [auto|apply b_av|reflexivity].
    - destruct (forallb (fun v => negb (weight_is_int v)) (voters p)) eqn:Ef.
      + assert (FW : fraction_weights p).
        { apply Forall_forall. intros v Hin. rewrite forallb_forall in Ef. specialize (Ef v Hin). apply negb_true_iff in Ef. exact Ef. }
        apply (HS "sav" (sav_support p)); [auto|apply b_sav; auto|]. intros c. unfold sep_number. rewrite Ef. reflexivity.
      + assert (FW : ~ fraction_weights p).
        { intros F. assert (Ht : forallb (fun v => negb (weight_is_int v)) (voters p) = true); [|congruence].
          apply forallb_forall. intros v Hin. unfold fraction_weights in F. rewrite Forall_forall in F. rewrite F; auto. }
        destruct Hf as [Hf|Hf]; [contradiction|].
        apply (HS "sav" (fun c => nth c (sav_float_scores e p) 0%Q)); [auto|apply b_sav_float; auto|]. intros c. unfold sep_number. rewrite Ef. reflexivity.
    - destruct (irresolute_list p k id "brute-force" _ HL (b_thiele e p k id f Hd) Hc') as (l & El & Hin).
      pose proof (denotes_with nx sv e id f Hd) as Hd'.
      destruct (denotes_ok e' id f Hd') as (sf & Esf & Hg & Hs & _).
      destruct (denotes_rule e' id f Hd') as (r & Er & Ha & _ & Hres).
      destruct (thiele_bruteforce_resolute_first (marginal sf) p k None Hw) as (W & l1 & l2 & EW & HW & Ec & Hl1); [intro; apply marginal_nonneg; auto|lia|exact I|].
      exists W, l. split.
      { rewrite (compute_thiele_id rnd nx sv e id f) by auto. unfold compute_thiele_method. erewrite run_ok by eauto. cbv beta. simpl String.eqb. cbv iota.
        rewrite Esf. cbn [rbind limit]. unfold needs_nonempty. change (limit None) with (@None nat). rewrite EW. reflexivity. }
      split; [exact El|]. split; [apply Hin; apply (thiele_same_maximises _ _ p k Hs); exact HW|].
      intros V HV. apply Hin in HV. apply (thiele_same_maximises _ _ p k Hs) in HV.
      apply (first_of_combinations (maximises (Thiele (marginal sf) p) p k) l1 W l2); auto.
      + rewrite <- Ec. apply combinations_sorted. apply ascending_seq.
      + rewrite <- Ec. apply combos_committee. apply HV.
    - destruct (irresolute_list p k "trivial" "standard" _ HL (b_trivial e p k) Hc') as (l & El & Hin).
      exists (seq 0 k), l. split; [plain; apply compute_trivial_resolute; auto|]. split; [exact El|]. split.
      + apply Hin. split; [apply ascending_seq|]. split; [apply seq_length|]. apply Forall_forall. intros c Hc2. apply in_seq in Hc2. lia.
      + intros V HV. apply Hin in HV. apply (trivial_first p k); auto.
  Qed.

  (** ** the first committee of the sorted list *)
  Theorem keeps_first_printed_ok : forall p k id alg, libraries_ok p rnd nx sv e -> keeps_first_printed e p id alg -> valid_call p k true None ->
    exists W l, compute rnd nx e' id p (Z.of_nat k) None (args alg true None) = Ok [W] /\
      compute rnd nx e' id p (Z.of_nat k) None (args alg false None) = Ok (W :: l).
  Proof using.
    intros p k id alg HL Hid Hc. pose proof (valid_irresolute _ _ _ _ Hc) as Hc'. pose proof Hc as (Hw & Hv & Hk & _).
    assert (HF : listed e p k id alg) by (destruct Hid; [eapply l_thiele_bb; eauto; exact H0|apply l_lexcc|apply l_minimaxav; cbn; tauto|apply l_lexminimaxav; auto; cbn; tauto|apply l_monroe; auto; cbn; tauto]).
    destruct (listed_determined rnd nx sv e p k id alg HL HF Hw Hv Hk) as (P & _ & _ & HD).
    destruct (HD false None Hc') as (l & El & _). destruct (HD true None Hc) as (l1 & El1 & _ & _ & _ & Hone).
    destruct l1 as [|W [|]]; try discriminate. clear Hone.
    assert (G : exists r, l = W :: r); [|destruct G as (r & ->); exists W, r; split; [exact El1|exact El]].
    clear HD HF. destruct Hid as [id f Hd Hf| | |Hu|Hu].
    - pose proof (denotes_with nx sv e id f Hd) as Hd'.
      destruct (denotes_ok e' id f Hd') as (sf & Esf & _ & _ & _). destruct (denotes_rule e' id f Hd') as (r & Er & _ & Ha & Hres).
      rewrite (compute_thiele_id rnd nx sv e id f) in El, El1 by auto. unfold compute_thiele_method in El, El1. erewrite run_ok in El, El1 by eauto. cbv beta in El, El1.
      simpl String.eqb in El, El1. cbv iota in El, El1. rewrite Esf in El, El1. cbn [rbind] in El, El1. unfold needs_nonempty, thiele_branchandbound in El, El1.
      change (limit None) with (@None nat) in El, El1.
      destruct (seq_thiele_resolute (marginal sf) p k) as [init|]; [|discriminate]. cbn [rbind] in El, El1. destruct init as [|ic init]; [discriminate|].
      destruct (bb_loop (marginal sf) p k (tree_size (num_cand p + 1) (k + 1)) [[]] [] (thiele_score (marginal sf) p ic)) as [best|]; [|discriminate]. cbn [rbind] in El, El1.
      destruct (sorted_committees best) as [cs|]; [|discriminate]. cbn [rbind cut] in El, El1.
      destruct cs as [|c cs]; [discriminate|]. cbn in El, El1. inversion El; inversion El1; subst. eauto.
    - erewrite compute_plain in El, El1 by reflexivity. cbv [compute_fct String.eqb Ascii.eqb Bool.eqb andb str_in existsb orb call call_mes call_leximax args given or_default
         kw_algorithm kw_resolute kw_max kw_completion kw_lexicographic kw_other] in El, El1. unfold compute_lexcc in El, El1.
      erewrite run_ok in El, El1; eauto; try reflexivity.
      cbn [String.eqb Ascii.eqb Bool.eqb] in El, El1. unfold lexcc_bruteforce in El, El1. change (limit None) with (@None nat) in El, El1.
      match type of El with context [sorted_committees ?o] => destruct (sorted_committees o) as [cs|]; [|discriminate] end. cbn [rbind cut] in El, El1.
      destruct cs as [|c cs]; [discriminate|]. cbn in El, El1. inversion El; inversion El1; subst. eauto.
    - erewrite compute_plain in El, El1 by reflexivity. cbv [compute_fct String.eqb Ascii.eqb Bool.eqb andb str_in existsb orb call call_mes call_leximax args given or_default
         kw_algorithm kw_resolute kw_max kw_completion kw_lexicographic kw_other] in El, El1. unfold compute_minimaxav in El, El1.
      erewrite run_ok in El, El1; eauto; try reflexivity.
      cbn [String.eqb Ascii.eqb Bool.eqb prefix] in El, El1. unfold needs_nonempty, minimaxav_bruteforce in El, El1. change (limit None) with (@None nat) in El, El1.
      match type of El with context [sorted_committees ?o] => destruct (sorted_committees o) as [cs|]; [|discriminate] end. cbn [rbind cut] in El, El1.
      destruct cs as [|c cs]; [discriminate|]. cbn in El, El1. inversion El; inversion El1; subst. eauto.
    - erewrite compute_plain in El, El1 by reflexivity. cbv [compute_fct String.eqb Ascii.eqb Bool.eqb andb str_in existsb orb call call_mes call_leximax args given or_default
         kw_algorithm kw_resolute kw_max kw_completion kw_lexicographic kw_other] in El, El1. unfold compute_lexminimaxav in El, El1.
      erewrite run_ok in El, El1; eauto; try reflexivity.
      cbn [String.eqb Ascii.eqb Bool.eqb prefix] in El, El1. unfold lexminimaxav_bruteforce in El, El1. change (limit None) with (@None nat) in El, El1.
      destruct (negb (has_unit_weights p)); [discriminate|].
      match type of El with context [sorted_committees ?o] => destruct (sorted_committees o) as [cs|]; [|discriminate] end. cbn [rbind cut] in El, El1.
      destruct cs as [|c cs]; [discriminate|]. cbn in El, El1. inversion El; inversion El1; subst. eauto.
    - erewrite compute_plain in El, El1 by reflexivity. cbv [compute_fct String.eqb Ascii.eqb Bool.eqb andb str_in existsb orb call call_mes call_leximax args given or_default
         kw_algorithm kw_resolute kw_max kw_completion kw_lexicographic kw_other] in El, El1. unfold compute_monroe in El, El1.
      erewrite run_ok in El, El1; eauto; try reflexivity.
      cbn [String.eqb Ascii.eqb Bool.eqb] in El, El1. unfold monroe_bruteforce in El, El1. change (limit None) with (@None nat) in El, El1.
      destruct (negb (has_unit_weights p)); [discriminate|].
      match type of El with context [monroe_scan ?a ?b ?c ?d ?x] => destruct (monroe_scan a b c d x) as [opt|]; [|discriminate] end. cbn [rbind cut] in El, El1.
      match type of El with context [sorted_committees ?o] => destruct (sorted_committees o) as [cs|]; [|discriminate] end. cbn [rbind cut] in El, El1.
      destruct cs as [|c cs]; [discriminate|]. cbn [head_only] in El, El1. change (prefix "mip-" "brute-force") with false in El, El1. cbv iota in El, El1. cbn [rbind] in El, El1.
      destruct (monroescore nx p c); cbn [rbind] in El, El1; [|discriminate]. inversion El; inversion El1; subst. eauto.
  Qed.

  (** ** one more seat *)
  Lemma valid_smaller : forall p k r, valid_call p (S k) r None -> 1 <= k -> valid_call p k r None.
  Proof using. intros p k r (A & B & C & D) Hk. split; auto. split; auto. split; auto. lia. Qed.
  Lemma house_monotone_by : forall p k id alg, wf p -> 1 <= k -> S k <= num_cand p -> house_monotone e p k id alg ->
    exists A B, listed_by e p k id alg A /\ listed_by e p (S k) id alg B /\ grows A B.
  Proof using.
    intros p k id alg Hw Hk Hk' Hh. destruct Hh as [|Hf|id f Hd|id f Hd|alg Ha H1 H2|alg Ha|alg Ha|].
    - exists (maximises (fun W => Qsum (map (support p) W)) p k), (maximises (fun W => Qsum (map (support p) W)) p (S k)).
      split; [apply b_av|]. split; [apply b_av|apply top_set_grows; lia].
    - destruct (forallb (fun v => negb (weight_is_int v)) (voters p)) eqn:Ef.
      + assert (FW : fraction_weights p).
        { apply Forall_forall. intros v Hin. rewrite forallb_forall in Ef. specialize (Ef v Hin). apply negb_true_iff in Ef. exact Ef. }
        exists (maximises (fun W => Qsum (map (sav_support p) W)) p k), (maximises (fun W => Qsum (map (sav_support p) W)) p (S k)).
        split; [apply b_sav; auto|]. split; [apply b_sav; auto|apply top_set_grows; lia].
      + assert (FW : ~ fraction_weights p).
        { intros F. assert (Ht : forallb (fun v => negb (weight_is_int v)) (voters p) = true); [|congruence].
          apply forallb_forall. intros v Hin. unfold fraction_weights in F. rewrite Forall_forall in F. rewrite F; auto. }
        destruct Hf as [Hf|Hf]; [contradiction|]. set (s := fun c => nth c (sav_float_scores e p) 0%Q).
        exists (maximises (fun W => Qsum (map s W)) p k), (maximises (fun W => Qsum (map s W)) p (S k)).
        split; [apply b_sav_float; auto|]. split; [apply b_sav_float; auto|apply top_set_grows; lia].
    - exists (seq_thiele_winner f p k), (seq_thiele_winner f p (S k)). split; [apply b_seq; auto|]. split; [apply b_seq; auto|apply seq_grows; lia].
    - exists (revseq_winner f p k), (revseq_winner f p (S k)). split; [apply b_revseq; auto|]. split; [apply b_revseq; auto|apply revseq_grows; lia].
    - exists (phragmen_winner p k), (phragmen_winner p (S k)). split; [apply b_seqphragmen; auto|]. split; [apply b_seqphragmen; auto|apply phragmen_grows; lia].
    - exists (maximin_winner CMP_ACCURACY p k), (maximin_winner CMP_ACCURACY p (S k)). split; [apply b_maximin; auto|]. split; [apply b_maximin; auto|].
      apply maximin_grows; [discriminate|auto|lia].
    - exists (consensus_winner p k), (consensus_winner p (S k)). split; [apply b_consensus; auto|]. split; [apply b_consensus; auto|apply consensus_grows; lia].
    - exists (is_committee p k), (is_committee p (S k)). split; [apply b_trivial|]. split; [apply b_trivial|apply trivial_grows; lia].
  Qed.
  Theorem house_monotone_ok : forall p k id alg, libraries_ok p rnd nx sv e -> house_monotone e p k id alg -> 1 <= k -> valid_call p (S k) false None ->
    exists l l', compute rnd nx e' id p (Z.of_nat k) None (args alg false None) = Ok l /\
      compute rnd nx e' id p (Z.of_nat (S k)) None (args alg false None) = Ok l' /\
      (forall W, In W l -> exists V, In V l' /\ incl W V) /\ (forall V, In V l' -> exists W, In W l /\ incl W V).
  Proof using.
    intros p k id alg HL Hh Hk Hc. pose proof (valid_smaller p k false Hc Hk) as Hc'. pose proof Hc as (Hw & _ & Hk' & _).
    destruct (house_monotone_by p k id alg Hw Hk ltac:(lia) Hh) as (A & B & HA & HB & G1 & G2).
    destruct (irresolute_list p k id alg A HL HA Hc') as (l & El & Hl). destruct (irresolute_list p (S k) id alg B HL HB Hc) as (l' & El' & Hl').
    exists l, l'. split; [exact El|]. split; [exact El'|]. split.
    - intros W HW. apply Hl in HW. destruct (G1 W HW) as (V & HV & Hi). exists V. split; auto. apply Hl'. auto.
    - intros V HV. apply Hl' in HV. destruct (G2 V HV) as (W & HW & Hi). exists W. split; auto. apply Hl. auto.
  Qed.
  Theorem house_monotone_resolute_ok : forall p k id alg, libraries_ok p rnd nx sv e -> house_monotone e p k id alg -> 1 <= k -> valid_call p (S k) true None ->
    exists W V, compute rnd nx e' id p (Z.of_nat k) None (args alg true None) = Ok [W] /\
      compute rnd nx e' id p (Z.of_nat (S k)) None (args alg true None) = Ok [V] /\ incl W V.
  Proof using.
    intros p k id alg HL Hh Hk Hc. pose proof (valid_smaller p k true Hc Hk) as Hc'. destruct HL as (Hrnd & Hnx & Hsv & Ho1 & Ho2).
    assert (HS : forall id, id = "av" \/ (id = "sav" /\ (fraction_weights p \/ length (sav_float_scores e p) = num_cand p)) ->
      exists W V, compute rnd nx e' id p (Z.of_nat k) None (args "standard" true None) = Ok [W] /\
      compute rnd nx e' id p (Z.of_nat (S k)) None (args "standard" true None) = Ok [V] /\ incl W V).
    { intros i Hi. destruct (separable_resolute p k i None Hi Hc') as (W & EW & HW). destruct (separable_resolute p (S k) i None Hi Hc) as (V & EV & HV).
      exists W, V. split; [exact EW|]. split; [exact EV|]. apply (first_by_grows (sep_number p i) p k); auto. }
    destruct Hh as [|Hf|id f Hd|id f Hd|alg Ha H1 H2|alg Ha|alg Ha|].
    - apply HS. auto.
    - apply HS. auto.
    - rewrite !(compute_seq_id rnd nx sv e id f) by auto. pose proof (denotes_with nx sv e id f Hd) as Hd'.
      destruct (compute_seq_thiele_resolute_lex e' id f p k Hd' Hc') as (L & HL & HLl & EL). destruct (compute_seq_thiele_resolute_lex e' id f p (S k) Hd' Hc) as (L' & HL' & HLl' & EL').
      exists (isort L), (isort L'). split; [exact EL|]. split; [exact EL'|]. apply (seq_lex_grows f p); auto. lia.
    - rewrite !(compute_revseq_id rnd nx sv e id f) by auto. pose proof (denotes_with nx sv e id f Hd) as Hd'.
      destruct (compute_revseq_resolute_last e' id f p k Hd' Hc') as (W & EW & HW & Hl). destruct (compute_revseq_resolute_last e' id f p (S k) Hd' Hc) as (V & EV & HV & Hl').
      exists W, V. split; [exact EW|]. split; [exact EV|]. apply (revseq_last_grows f p); auto. lia.
    - destruct (compute_seqphragmen_correct e' p k alg true None Ha Hc' H1) as [_ HW]. destruct (compute_seqphragmen_correct e' p (S k) alg true None Ha Hc H2) as [_ HV].
      destruct (HW eq_refl) as (W & EW & HW'). destruct (HV eq_refl) as (V & EV & HV'). exists W, V. split; [plain; exact EW|]. split; [plain; exact EV|].
      apply (lex_run_grows p (phragmen_choice p) (phragmen_update p)) with (x0 := fun _ => 0%Q) (k := k); auto.
      + intros U x y c Hxy Hch. eapply (phragmen_choice_ext p U U); eauto. apply set_same_refl.
      + intros U x y c x' y' Hxy Hch Hu Hu'. exact (phragmen_update_fun p U U x y c x' y' (set_same_refl U) Hxy Hch Hu Hu').
    - destruct (compute_maximin_support_correct nx sv e p k alg true None Hsv Hc' Ha) as [_ HW]. destruct (compute_maximin_support_correct nx sv e p (S k) alg true None Hsv Hc Ha) as [_ HV].
      destruct (HW eq_refl) as (W & EW & HW'). destruct (HV eq_refl) as (V & EV & HV'). exists W, V. split; [plain; exact EW|]. split; [plain; exact EV|].
      apply (lex_run_grows p (maximin_choice CMP_ACCURACY p) (no_update p)) with (x0 := fun _ => 0%Q) (k := k); auto.
      intros U x y c x' y' Hxy _ Hu Hu' i Hi. rewrite (Hu i Hi), (Hu' i Hi). apply Hxy. auto.
    - destruct (compute_consensus_correct e' p k alg true None Ha Hc') as [_ HW]. destruct (compute_consensus_correct e' p (S k) alg true None Ha Hc) as [_ HV].
      destruct (HW eq_refl) as (W & EW & HW'). destruct (HV eq_refl) as (V & EV & HV'). exists W, V. split; [plain; exact EW|]. split; [plain; exact EV|].
      apply (lex_run_grows p (consensus_choice p) (consensus_update p)) with (x0 := fun _ => 0%Q) (k := k); auto.
      + intros U x y c Hxy Hch. eapply (consensus_ext p U U); eauto. apply set_same_refl.
      + intros U x y c x' y' Hxy Hch Hu Hu'. exact (consensus_update_fun p U U x y c x' y' (set_same_refl U) Hxy Hch Hu Hu').
    - exists (seq 0 k), (seq 0 (S k)). split; [plain; apply compute_trivial_resolute; auto|]. split; [plain; apply compute_trivial_resolute; auto|].
      intros c H. apply in_seq in H. apply in_seq. lia.
  Qed.
End Sections.
