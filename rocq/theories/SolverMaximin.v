(** * The maximin support method *)
From Coq Require Import String.
From Coq Require Import List Arith Bool ZArith QArith Lia Lqa Permutation.
From Verif Require Import Prelude Misc MiscProofs Preferences Scores Spec SpecRules Common ScoresProofs Search RulesThiele ThieleProofs
  OptProofs ComputeProofs SpecSeq RulesSeq SeqProofs Milp MilpProofs SpecLoads RulesSolver SolverProofs SolverPhragmen.
Import ListNotations.
Open Scope nat_scope.

Lemma inter_same : forall a W W', set_same W W' -> inter a W = inter a W'.
Proof.
  intros a W W' H. unfold inter. apply filter_ext. intros c. destruct (mem c W) eqn:E, (mem c W') eqn:E'; auto; exfalso.
  - apply mem_In, H, mem_In in E. congruence.
  - apply mem_In, H, mem_In in E'. congruence.
Qed.
Lemma maximin_support_same : forall p W W' s, set_same W W' -> maximin_support p W s -> maximin_support p W' s.
Proof.
  intros p W W' s H [(f & [A B] & C) D].
  assert (G : forall f, support_distribution p W f <-> support_distribution p W' f).
  { intros g. unfold support_distribution. split; intros [P R]; split; auto; intros i v Hiv; [rewrite <- (inter_same _ W W' H)|rewrite (inter_same _ W W' H)]; auto. }
  split.
  - exists f. split; [apply G; split; auto|]. intros c Hc. apply C. apply H. auto.
  - intros g s' Hg Hs. apply (D g s'); [apply G; auto|]. intros c Hc. apply Hs, H. auto.
Qed.
Lemma maximin_support_unique : forall p W s s', maximin_support p W s -> maximin_support p W s' -> (s == s')%Q.
Proof.
  intros p W s s' [(f & A & B) C] [(f' & A' & B') C']. apply Qle_antisym; [apply (C' f s)|apply (C f' s')]; auto.
Qed.

Section Program.
  Variables (p : profile) (W : list nat).
  Hypothesis Hw : wf p.
  Hypothesis Hr : Forall (fun c => c < num_cand p) W.
  Hypothesis Hne : W <> [].
  Let m := maximin_program p W.

  Definition assigned_of (x : assignment) (i c : nat) : Q := if (i <? length (voters p)) && (c <? num_cand p) then x (Assigned i c) else 0%Q.

  Lemma assigned_numbered : forall x i v c, In (i, v) (numbered p) -> c < num_cand p -> assigned_of x i c = x (Assigned i c).
  Proof using.
    intros x i v c Hiv Hc. apply numbered_In in Hiv. assert (i < length (voters p)) by (apply nth_error_Some; congruence).
    unfold assigned_of. apply Nat.ltb_lt in H, Hc. rewrite H, Hc. reflexivity.
  Qed.

  Lemma maximin_sound : forall x, feasible m x -> (0 <= x Minimum)%Q /\ support_distribution p W (assigned_of x) /\
    forall c, In c W -> (x Minimum <= received p (assigned_of x) c)%Q.
  Proof using Hw Hr.
    intros x [Hd Hc]. rewrite Forall_forall in Hd, Hc. split; [|split; [split|]].
    - destruct (Hd (mkDecl Minimum Continuous (Some 0%Q) None)) as (_ & H & _); [left; auto|exact H].
    - intros i c. unfold assigned_of. destruct (Nat.ltb_spec i (length (voters p))); [|cbn; lra]. destruct (Nat.ltb_spec c (num_cand p)); [|cbn; lra].
      cbn [andb]. destruct (Hd (mkDecl (Assigned i c) Continuous (Some 0%Q) None)) as (_ & K & _); [|exact K].
      right. apply in_flat_map. exists i. split; [apply in_seq; lia|]. apply in_map_iff. exists c. split; auto. apply in_seq. lia.
    - intros i v Hiv Hint. rewrite with_positions_eq in Hiv. pose proof (numbered_voter _ _ _ Hiv) as Hv.
      specialize (Hc (CEq (vsum (map (Assigned i) (inter (approved v) W))) (lconst (weight v)))). cbn [holds] in Hc.
      rewrite ev_vsum, ev_const, map_map in Hc. rewrite <- Hc.
      + apply Qsum_map_ext. intros c Hcc. rewrite (assigned_numbered x i v c Hiv); [reflexivity|]. unfold inter in Hcc. apply filter_In in Hcc as [Hcc _].
        destruct (wf_approved p v Hw Hv) as (_ & Hrr & _). rewrite Forall_forall in Hrr. auto.
      + apply in_or_app. left. apply in_map_iff. exists (i, v). split; auto. apply filter_In. split; auto. cbn [snd].
        destruct (inter (approved v) W); [congruence|reflexivity].
    - intros c Hcc. rewrite Forall_forall in Hr. specialize (Hr c Hcc).
      specialize (Hc (CGe (vsum (map (fun iv => Assigned (fst iv) c) (filter (fun iv => mem c (approved (snd iv))) (numbered p)))) (lvar Minimum))).
      cbn [holds] in Hc. rewrite ev_vsum, ev_var, map_map in Hc. eapply Qle_trans; [apply Hc|].
      + apply in_or_app. right. apply in_map_iff. exists c. auto.
      + apply Qle_lteq. right. unfold received. change (with_positions p) with (numbered p). apply Qsum_map_ext. intros (i, v) Hiv. apply filter_In in Hiv as [Hiv _].
        cbn [fst]. rewrite (assigned_numbered x i v c Hiv); auto. reflexivity.
  Qed.
  Lemma maximin_complete : forall f s, support_distribution p W f -> (0 <= s)%Q -> (forall c, In c W -> (s <= received p f c)%Q) ->
    feasible m (fun v => match v with Minimum => s | Assigned i c => f i c | _ => 0%Q end).
  Proof using.
    intros f s [F0 F1] Hs Hf. split; apply Forall_forall.
    - intros d [<-|Hd]; [repeat split; cbn; auto|]. apply in_flat_map in Hd as (i & _ & Hd). apply in_map_iff in Hd as (c & <- & _). repeat split; cbn; auto.
    - intros y Hy. apply in_app_or in Hy as [Hy|Hy]; apply in_map_iff in Hy.
      + destruct Hy as ((i, v) & <- & Hiv). apply filter_In in Hiv as [Hiv Hn]. cbn [fst snd] in *. cbn [holds]. rewrite ev_vsum, ev_const, map_map. apply F1; auto.
        intros E. rewrite E in Hn. discriminate.
      + destruct Hy as (c & <- & Hc). cbn [holds]. rewrite ev_vsum, ev_var, map_map. apply Hf. auto.
  Qed.

  Lemma some_distribution : exists f, support_distribution p W f.
  Proof using Hw.
    exists (fun i c => match nth_error (voters p) i with
                       | Some v => match inter (approved v) W with d :: _ => if c =? d then weight v else 0%Q | [] => 0%Q end
                       | None => 0%Q end). split.
    - intros i c. destruct (nth_error (voters p) i) as [v|] eqn:E; [|lra]. destruct (inter (approved v) W) as [|d r]; [lra|]. destruct (c =? d); [|lra].
      apply nth_error_In in E. destruct (wf_approved p v Hw E) as (_ & _ & H). lra.
    - intros i v Hiv Hn. rewrite with_positions_eq in Hiv. pose proof (numbered_voter _ _ _ Hiv) as Hv. apply numbered_In in Hiv. rewrite Hiv.
      assert (Hnd : NoDup (inter (approved v) W)) by (apply NoDup_filter; apply (wf_approved p v Hw Hv)).
      destruct (inter (approved v) W) as [|d r]; [congruence|]. inversion Hnd as [|? ? Hd Hnr]; subst.
      unfold Qsum; cbn [map fold_right]. rewrite Nat.eqb_refl. fold (Qsum (map (fun c => if c =? d then weight v else 0%Q) r)).
      rewrite (Qsum_map_zero _ (fun c => if c =? d then weight v else 0%Q) r); [lra|].
      intros c Hc. destruct (Nat.eqb_spec c d) as [->|]; [tauto|reflexivity].
  Qed.
  Lemma received_le_total : forall f c, support_distribution p W f -> In c W -> (received p f c <= Qsum (map weight (voters p)))%Q.
  Proof using Hw.
    intros f c [F0 F1] Hc. unfold received. rewrite with_positions_eq.
    assert (E : map weight (voters p) = map (fun iv => weight (snd iv)) (numbered p)) by (rewrite <- (numbered_snd p) at 1; rewrite map_map; auto).
    rewrite E. eapply Qle_trans; [apply Qsum_map_le with (g := fun iv => weight (snd iv))|apply Qsum_map_filter_le].
    - intros (i, v) Hiv. apply filter_In in Hiv as [Hiv Ha]. cbn [fst snd] in *.
      assert (Hin : In c (inter (approved v) W)) by (unfold inter; apply filter_In; split; [apply mem_In; exact Ha|apply mem_In; auto]).
      rewrite <- (F1 i v); [|exact Hiv|intros E'; rewrite E' in Hin; destruct Hin].
      apply (Qsum_ge_member _ (f i)); auto.
    - intros (i, v) Hiv. cbn [snd]. destruct (wf_approved p v Hw (numbered_voter _ _ _ Hiv)) as (_ & _ & H). lra.
  Qed.

  Lemma maximin_solved : forall s, correct_on s m -> exists x, s m = Optimal x /\ maximin_support p W (x Minimum).
  Proof using Hw Hr Hne.
    intros s Hs. destruct some_distribution as (f0 & Hf0).
    assert (Hrec : forall f c, support_distribution p W f -> (0 <= received p f c)%Q) by (intros f c [F0 _]; apply Qsum_map_nonneg; auto).
    assert (Hfeas : feasible m (fun v => match v with Minimum => 0%Q | Assigned i c => f0 i c | _ => 0%Q end)).
    { apply maximin_complete; auto. lra. }
    unfold correct_on in Hs. destruct (s m) as [x| |] eqn:E.
    - exists x. split; auto. destruct Hs as [Hx Hopt]. destruct (maximin_sound x Hx) as (H0 & HA & HB). split; [exists (assigned_of x); auto|].
      intros f s' Hf Hs'. destruct (Qlt_le_dec s' 0) as [Hneg|Hpos]; [lra|].
      specialize (Hopt _ (maximin_complete f s' Hf Hpos Hs')). unfold m, maximin_program in Hopt; cbn [objective] in Hopt. rewrite !ev_var in Hopt. exact Hopt.
    - exfalso. exact (Hs _ Hfeas).
    - exfalso. destruct (Hs (Qsum (map weight (voters p)))) as (x & Hx & Hlt). unfold m, maximin_program in Hlt; cbn [objective] in Hlt. rewrite ev_var in Hlt.
      destruct (maximin_sound x Hx) as (_ & HA & HB). assert (Hex : exists c, In c W) by (clear -Hne; destruct W as [|c r]; [congruence|exists c; left; auto]). destruct Hex as (c & Hc).
      specialize (HB c Hc). pose proof (received_le_total (assigned_of x) c HA Hc) as H. lra.
  Qed.
End Program.

(** the programs that the rule has to solve *)
Definition maximin_solved_by (s : solver) (p : profile) : Prop :=
  forall W, NoDup W -> W <> [] -> Forall (fun c => c < num_cand p) W -> correct_on s (maximin_program p W).

Section Rule.
  Variables (s : solver) (p : profile) (k : nat).
  Hypothesis Hw : wf p.
  Hypothesis Hk : 1 <= k <= num_cand p.
  Hypothesis Hs : maximin_solved_by s p.
  Let scorefct := maximin_support_scorefct s p.
  Let select := maximin_select scorefct p.
  Let next := fun (_ : list nat) (a : list Q) (_ : nat) => a.
  Let Good (C : list nat) (a : list Q) : Prop := NoDup C /\ Forall (fun c => c < num_cand p) C.
  Let choice := maximin_choice CMP_ACCURACY p.

  Lemma scores_ok : forall C, NoDup C -> Forall (fun c => c < num_cand p) C ->
    exists scores, scorefct C = Ok scores /\ forall c, fresh p C c -> maximin_support p (c :: C) (nthQ scores c).
  Proof using All.
    intros C HC Hr.
    assert (G : forall l, Forall (fun c => c < num_cand p) l -> exists scores,
      rmapM (fun c => if mem c C then Ok 0%Q else match s (maximin_program p (C ++ [c])) with Optimal x => Ok (x Minimum) | _ => Err RuntimeError end) l = Ok scores /\
      length scores = length l /\ forall j c, nth_error l j = Some c -> ~ In c C -> maximin_support p (c :: C) (nthQ scores j)).
    { induction l as [|c l IH]; intros Hl.
      - exists []. split; [reflexivity|]. split; [reflexivity|]. intros [|j] d Hd; discriminate.
      - inversion Hl as [|? ? Hc Hl']; subst. destruct (IH Hl') as (sc & E & Hlen & Hsc). cbn [rmapM].
        destruct (mem c C) eqn:M.
        + rewrite E. cbn [rbind]. exists (0%Q :: sc). split; [reflexivity|]. split; [cbn; lia|]. intros [|j] d Hd Hn; cbn in Hd.
          * inversion Hd; subst d. apply mem_In in M. tauto.
          * apply (Hsc j d); auto.
        + apply mem_false in M.
          assert (Hnd : NoDup (C ++ [c])) by (apply (Permutation_NoDup (l := c :: C)); [apply Permutation_cons_append|constructor; auto]).
          assert (Hrr : Forall (fun c => c < num_cand p) (C ++ [c])) by (apply Forall_app; split; auto).
          assert (Hnn : C ++ [c] <> []) by (destruct C; discriminate).
          destruct (maximin_solved p (C ++ [c]) Hw Hrr Hnn s (Hs _ Hnd Hnn Hrr)) as (x & Ex & Hx).
          rewrite Ex, E. cbn [rbind]. exists (x Minimum :: sc). split; [reflexivity|]. split; [cbn; lia|]. intros [|j] d Hd Hn; cbn in Hd.
          * inversion Hd; subst d. eapply maximin_support_same; [|exact Hx]. intros y. rewrite in_app_iff. cbn. tauto.
          * apply (Hsc j d); auto. }
    destruct (G (candidates p)) as (sc & E & Hlen & Hsc); [apply Forall_forall; intros c Hc; apply in_seq in Hc; lia|].
    exists sc. split; [exact E|]. intros c [Hc Hn]. apply (Hsc c c); auto. unfold candidates. rewrite (nth_error_nth' _ 0); [rewrite seq_nth; auto|rewrite seq_length; auto].
  Qed.

  Lemma mms_fresh : forall W x c, choice W x c -> fresh p W c.
  Proof using All. intros W x c [H _]. auto. Qed.
  Lemma mms_ext : forall W W' x y c, set_same W W' -> agree p x y -> choice W x c -> choice W' y c.
  Proof using All.
    intros W W' x y c HS _ [[Hc Hn] (sc & Hsc & Hmax)].
    assert (Hcons : forall d, set_same (d :: W) (d :: W')) by (intros d z; cbn; rewrite (HS z); tauto).
    split; [split; auto; intros H; apply Hn, HS; auto|]. exists sc. split; [eapply maximin_support_same; [apply Hcons|exact Hsc]|].
    intros d s' [Hd Hnd] Hs'. apply (Hmax d s'); [split; auto; intros H; apply Hnd, HS; auto|].
    eapply maximin_support_same; [|exact Hs']. intros z. symmetry. apply Hcons.
  Qed.
  Lemma mms_sel_ok : forall C a, Good C a -> length C < k -> exists sel, select C a = Ok sel /\ ascending sel /\ forall c, In c sel <-> choice C (nthQ a) c.
  Proof using All.
    intros C a [HN Hr] Hl. destruct (scores_ok C HN Hr) as (sc & E & Hsc). unfold select, maximin_select. rewrite E. cbn [rbind].
    set (rem := filter (fun c => negb (mem c C)) (candidates p)).
    assert (Hrem : forall c, In c rem <-> fresh p C c).
    { intros c. unfold rem, candidates, fresh. rewrite filter_In, in_seq, negb_true_iff, mem_false. intuition lia. }
    assert (Hne : map (nthQ sc) rem <> []).
    { intros H. apply map_eq_nil in H. assert (Hincl : incl (candidates p) C).
      { intros c Hc. destruct (in_dec Nat.eq_dec c C) as [|Hn]; auto. assert (Hin : In c rem) by (apply Hrem; split; auto; apply in_seq in Hc; lia). rewrite H in Hin. destruct Hin. }
      apply NoDup_incl_length in Hincl; [|apply seq_NoDup]. unfold candidates in Hincl. rewrite seq_length in Hincl. lia. }
    destruct (py_max_spec _ Hne) as (mx & Emx & (i & Hi & Ei) & Hmax). rewrite Emx. cbn [rbind].
    rewrite map_length in Hi, Hmax.
    assert (Hmx : forall c, In c rem -> (nthQ sc c <= mx)%Q).
    { intros c Hc. apply (In_nth _ _ 0%nat) in Hc as (j & Hj & Ej). specialize (Hmax j Hj). unfold nthQ at 1 in Hmax.
      rewrite (nth_indep _ _ (nthQ sc 0)) in Hmax by (rewrite map_length; auto). rewrite map_nth, Ej in Hmax. exact Hmax. }
    assert (Hat : exists c, In c rem /\ (nthQ sc c == mx)%Q).
    { exists (nth i rem 0%nat). split; [apply nth_In; auto|]. unfold nthQ at 1 in Ei.
      rewrite (nth_indep _ _ (nthQ sc 0)) in Ei by (rewrite map_length; auto). rewrite map_nth in Ei. rewrite Ei. reflexivity. }
    eexists. split; [reflexivity|]. split; [apply ascending_filter, ascending_filter, ascending_seq|].
    intros c. rewrite filter_In, Hrem, Qle_bool_iff. unfold choice, maximin_choice. split.
    - intros [Hf Hle]. split; auto. exists (nthQ sc c). split; auto. intros d s' Hd Hs'.
      rewrite (maximin_support_unique p (d :: C) s' (nthQ sc d)) by auto. apply Hrem in Hd. specialize (Hmx d Hd). lra.
    - intros [Hf (s0 & Hs0 & Hm)]. split; auto. destruct Hat as (d & Hd & Ed). apply Hrem in Hd as Hdf. specialize (Hm d (nthQ sc d) Hdf (Hsc d Hdf)).
      rewrite (maximin_support_unique p (c :: C) s0 (nthQ sc c)) in Hm by auto. lra.
  Qed.
  Lemma mms_next_ok : forall C a c, Good C a -> length C < k -> choice C (nthQ a) c ->
    no_update p C (nthQ a) c (nthQ (next C a c)) /\ Good (C ++ [c]) (next C a c).
  Proof using All.
    intros C a c [HN Hr] Hl [[Hc Hn] _]. split; [apply agree_refl|]. split.
    - apply (Permutation_NoDup (l := c :: C)); [apply Permutation_cons_append|constructor; auto].
    - apply Forall_app. split; auto.
  Qed.
  Lemma mms_progress : forall C a, Good C a -> length C < k -> exists c, choice C (nthQ a) c.
  Proof using All.
    intros C a HG Hl. destruct (mms_sel_ok C a HG Hl) as (sel & E & _ & Hin). destruct sel as [|c sel]; [|exists c; apply Hin; left; auto].
    exfalso. destruct HG as [HN Hr]. destruct (scores_ok C HN Hr) as (sc & Es & Hsc). unfold select, maximin_select in E. rewrite Es in E. cbn [rbind] in E.
    set (rem := filter (fun c => negb (mem c C)) (candidates p)) in *.
    destruct (py_max (map (nthQ sc) rem)) as [mx|] eqn:Em; [|discriminate]. cbn [rbind] in E.
    assert (Hne : map (nthQ sc) rem <> []) by (intros H; rewrite H in Em; discriminate).
    destruct (py_max_spec _ Hne) as (mx' & Emx & (i & Hi & Ei) & _). assert (Ei' : nthQ (map (nthQ sc) rem) i = mx) by congruence. clear Ei. rename Ei' into Ei. rewrite map_length in Hi.
    unfold nthQ at 1 in Ei. rewrite (nth_indep _ _ (nthQ sc 0)) in Ei by (rewrite map_length; auto). rewrite map_nth in Ei.
    assert (Hin' : In (nth i rem 0%nat) (filter (fun c => Qle_bool (mx - CMP_ACCURACY) (nthQ sc c)) rem)).
    { apply filter_In. split; [apply nth_In; auto|]. apply Qle_bool_iff. rewrite Ei. unfold CMP_ACCURACY. lra. }
    injection E as E. rewrite E in Hin'. destruct Hin'.
  Qed.

  Lemma mms_loop_ok : forall r C a, fpath k select next [] [] C a -> length C + r = k ->
    exists D b, maximin_loop (fun C => select C []) r C = Ok D /\ fpath k select next [] [] D b /\ length D = k.
  Proof using All.
    induction r as [|r IH]; intros C a Hp Hl.
    - exists C, a. cbn. repeat split; auto. lia.
    - assert (HG : Good C a).
      { destruct (ipath_runs p k select next choice (no_update p) Good mms_ext
                    ltac:(intros; assumption) mms_sel_ok mms_next_ok [] [] C a) as [HG _]; [split; constructor|eapply fpath_ipath; eauto|exact HG]. }
      destruct (mms_sel_ok C a HG ltac:(lia)) as (sel & E & _ & Hin). destruct (mms_progress C a HG ltac:(lia)) as (c0 & Hc0). apply Hin in Hc0.
      destruct sel as [|c sel]; [destruct Hc0|]. cbn [maximin_loop]. change (select C []) with (select C a). rewrite E. cbn [rbind].
      apply (IH (C ++ [c]) (next C a c)); [|rewrite app_length; cbn; lia]. econstructor; [exact Hp|lia|exact E].
  Qed.

  Theorem maximin_correct : forall resolute maxn, valid_max maxn ->
    answers (maximin_winner CMP_ACCURACY p k) resolute maxn (maximin_support_rule s p k resolute maxn) /\
    (resolute = true -> exists W, maximin_support_rule s p k true maxn = Ok [W] /\ maximin_lex_winner CMP_ACCURACY p k W).
  Proof using All.
    intros resolute maxn Hm.
    assert (HG0 : Good [] []) by (split; constructor).
    assert (Hfun : forall W W' x y c x' y', set_same W W' -> agree p x y -> choice W x c -> no_update p W x c x' -> no_update p W' y c y' -> agree p x' y').
    { intros W W' x y c x' y' _ Hxy _ Hx Hy. eapply agree_trans; [exact Hx|]. eapply agree_trans; [exact Hxy|]. apply agree_sym. exact Hy. }
    assert (Hext : forall W W' x c x', set_same W W' -> no_update p W x c x' -> no_update p W' x c x') by (intros; assumption).
    assert (Hfx : forall L x0 y0 L' x, agree p x0 y0 -> runs_from p choice (no_update p) L x0 L' x -> runs_from p choice (no_update p) L y0 L' x).
    { intros L x0 y0 L' x Hxy. induction 1; [constructor; eapply agree_trans; eauto|econstructor; eauto]. }
    assert (Hlex : forall C a, fpath k select next [] [] C a -> length C = k -> maximin_lex_winner CMP_ACCURACY p k (isort C)).
    { intros C a Hp Hl. pose proof (fpath_lex p k select next choice (no_update p) Good mms_ext Hext mms_sel_ok mms_next_ok [] [] C a HG0 Hp) as H.
      exists (rev C), (nthQ a). split; [|split; [rewrite rev_length; auto|rewrite isort_rev; auto]].
      cbn [rev] in H. revert H. generalize (rev C) (nthQ a). intros L x. induction 1; [constructor|econstructor; eauto].
      eapply agree_trans; [exact H|]. intros i Hi. unfold nthQ. destruct i; reflexivity. }
    assert (Hcomm : forall C a, fpath k select next [] [] C a -> length C = k -> is_committee p k (isort C)).
    { intros C a Hp Hl. destruct (ipath_runs p k select next choice (no_update p) Good mms_ext Hext mms_sel_ok mms_next_ok [] [] C a HG0) as [[HN Hr] _];
        [eapply fpath_ipath; eauto|]. apply isort_committee; auto. }
    assert (Hres : exists W, maximin_support_rule s p k true maxn = Ok [W] /\ maximin_lex_winner CMP_ACCURACY p k W /\ is_committee p k W).
    { destruct (mms_loop_ok k [] [] ltac:(constructor) ltac:(cbn; lia)) as (D & b & E & Hp & Hl).
      exists (isort D). unfold maximin_support_rule, maximin_support_resolute. fold scorefct. change (fun C => maximin_select scorefct p C []) with (fun C => select C []).
      rewrite E. cbn [rbind]. pose proof (Hcomm D b Hp Hl) as HC. assert (HND : NoDup D).
      { destruct (ipath_runs p k select next choice (no_update p) Good mms_ext Hext mms_sel_ok mms_next_ok [] [] D b HG0) as [[HN Hr] _]; [eapply fpath_ipath; eauto|auto]. }
      split; [|split; [eapply Hlex; eauto|auto]].
      rewrite sorted_committees_ok by (repeat constructor; auto). cbn [rbind map]. cbn [sort_by fold_right insert_by].
      rewrite sorted_committees_asc by (repeat constructor; apply HC). reflexivity. }
    split.
    - destruct resolute.
      + destruct Hres as (W & E & HW & _). rewrite E. apply answers_resolute_one. destruct HW as (L & x & H & Hl & ->). exists L, x. split; [eapply lex_runs_runs; eauto|auto].
      + unfold maximin_support_rule. cbv beta iota. fold scorefct.
        assert (HA : answers (maximin_winner CMP_ACCURACY p k) false maxn (maximin_support_irresolute scorefct p k maxn)).
        { eapply answers_ext; [|apply (seq_dfs_correct p k select next choice (no_update p) Good mms_fresh mms_ext Hfun Hext mms_sel_ok mms_next_ok [] [] HG0 mms_progress (NoDup_nil _) (Forall_nil _)); [cbn; lia|auto]].
          intros W. split; intros (L & x & H & HL); exists L, x; (split; [|exact HL]); (eapply Hfx; [|exact H]); intros i Hi; unfold nthQ; destruct i; reflexivity. }
        erewrite sorted_again; eauto. intros W (L & x & H & Hl & ->). apply isort_ascending.
        eapply runs_props; [exact mms_fresh|exact H|constructor|constructor].
    - intros _. destruct Hres as (W & E & HW & _). exists W. auto.
  Qed.
End Rule.
