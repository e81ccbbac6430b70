(** * Proofs about the reports of the rules: maximin support *)
From Coq Require Import String.
From Coq Require Import List Arith Bool ZArith QArith Lia Lqa Permutation Sorted.
From Verif Require Import Prelude Misc MiscProofs Preferences Scores ScoresProofs Search Spec SpecRules SpecSeq SpecMonroe SpecLoads SpecText SpecReport
  SpecRuleReport Common SeqProofs PhragmenProofs MesFinal FileProofs Rule RulesThiele Compute RulesSeq Milp RulesSolver MilpProofs SolverProofs SolverMaximin Output CheckReport
  CheckReportProofs StrProfile ComputeProofs RuleReport RuleReportProofs RuleReportSeq RuleReportLoads.
Import ListNotations.
Local Open Scope string_scope.
Open Scope nat_scope.
Local Open Scope list_scope.

Lemma maximin_support_nonneg : forall p W s, wf p -> maximin_support p W s -> (0 <= s)%Q.
Proof.
  intros p W s Hw [_ H]. destruct (some_distribution p W Hw) as (f & Hf). apply (H f); auto. intros c _.
  unfold received. destruct Hf as [H0 _]. induction (filter (fun iv => approves (snd iv) c) (with_positions p)) as [|iv l IH]; [cbn; lra|].
  cbn [map]. unfold Qsum in *. cbn [fold_right]. specialize (H0 (fst iv) c). lra.
Qed.
Lemma maximin_choice_fresh : forall eps p W x c, maximin_choice eps p W x c -> fresh p W c.
Proof. intros eps p W x c [H _]. exact H. Qed.
Lemma maximin_choice_set : forall eps p W W' x y c, set_same W W' -> maximin_choice eps p W x c -> maximin_choice eps p W' y c.
Proof.
  intros eps p W W' x y c HS [[Hc Hn] (sc & Hsc & Hmax)].
  assert (Hcons : forall d, set_same (d :: W) (d :: W')) by (intros d z; cbn; rewrite (HS z); tauto).
  split; [split; auto; intros H; apply Hn, HS; auto|]. exists sc. split; [eapply maximin_support_same; [apply Hcons|exact Hsc]|].
  intros d s' [Hd Hnd] Hs'. apply (Hmax d s'); [split; auto; intros H; apply Hnd, HS; auto|].
  eapply maximin_support_same; [|exact Hs']. intros z. symmetry. apply Hcons.
Qed.
Section Maximin.
  Variables (num : Q -> string) (s : solver) (p : profile) (k : nat).
  Hypothesis Hw : wf p.
  Hypothesis Hn : all_named p.
  Hypothesis Hk : 1 <= k <= num_cand p.
  Hypothesis Hs : maximin_solved_by s p.
  Let scorefct := maximin_support_scorefct s p.
  Lemma scores_members : forall C sc, scorefct C = Ok sc -> length sc = num_cand p /\ forall c, c < num_cand p -> In c C -> nthQ sc c = 0%Q.
  Proof using.
    intros C sc E. unfold scorefct, maximin_support_scorefct in E. apply rmapM_Forall2 in E.
    assert (Hl : length (candidates p) = length sc) by (eapply Forall2_len; eauto). unfold candidates in Hl. rewrite seq_length in Hl. split; auto.
    intros c Hc Hin. apply mem_In in Hin.
    assert (G : forall l r j d, Forall2 (fun x y => (if mem x C then Ok 0%Q else match s (maximin_program p (C ++ [x])) with Optimal x0 => Ok (x0 Minimum) | _ => Err RuntimeError end) = Ok y) l r ->
      nth_error l j = Some d -> mem d C = true -> nthQ r j = 0%Q).
    { intros l r j d F. revert j. induction F as [|x y l r Hxy F IH]; intros [|j] Hj Hd; cbn in Hj; try discriminate.
      - inversion Hj; subst. rewrite Hd in Hxy. inversion Hxy. reflexivity.
      - apply (IH j Hj Hd). }
    apply (G _ _ c c E); auto. unfold candidates. rewrite (nth_error_nth' _ 0); [rewrite seq_nth; auto|rewrite seq_length; auto].
  Qed.
  Lemma maximin_story_ok : forall r C x, NoDup C -> Forall (fun c => c < num_cand p) C -> length C + r = k ->
    exists rounds L ms, maximin_rounds scorefct p r C = Ok rounds /\ maximin_story num p (length C) rounds = Ok ms /\
      told (maximin_choice CMP_ACCURACY p) (no_update p) (maximin_round num CMP_ACCURACY p) (rev C) x L x ms /\ length L = k.
  Proof using Hw Hn Hk Hs.
    induction r as [|r IH]; intros C x HN HR Hl.
    - exists [], (rev C), []. cbn. split; auto. split; auto. split; [constructor|]. rewrite rev_length. lia.
    - cbn [maximin_rounds]. destruct (scores_ok s p k Hw Hk Hs C HN HR) as (sc & E & Hsc). fold scorefct in E. rewrite E. cbn [rbind].
      destruct (scores_members C sc E) as [Hlen Hmem].
      destruct (mms_sel_ok s p k Hw Hk Hs C [] (conj HN HR) ltac:(lia)) as (tied & Et & Hasc & Hin). fold scorefct in Et.
      destruct (mms_progress s p k Hw Hk Hs C [] (conj HN HR) ltac:(lia)) as (c0 & Hc0). apply Hin in Hc0.
      assert (Hnn : sc <> []) by (intros ->; cbn in Hlen; lia).
      destruct (py_max_spec sc Hnn) as (mx & Em & (i & Hi & Ei) & Hmax). rewrite Em. cbn [rbind]. rewrite Et. cbn [rbind].
      destruct tied as [|c tied']; [destruct Hc0|].
      assert (Hc : maximin_choice CMP_ACCURACY p C (nthQ []) c) by (apply Hin; left; auto).
      assert (Hfr : fresh p C c) by apply Hc.
      (* the announced value *)
      assert (Hbest : forall d s', fresh p C d -> maximin_support p (d :: C) s' -> (s' <= mx)%Q).
      { intros d s' Hd Hs'. rewrite (maximin_support_unique p (d :: C) s' (nthQ sc d)); [|exact Hs'|apply Hsc; auto]. apply Hmax. destruct Hd. lia. }
      assert (Hat : exists d, fresh p C d /\ maximin_support p (d :: C) mx).
      { destruct (in_dec Nat.eq_dec i C) as [HiC|HiC].
        - rewrite (Hmem i ltac:(lia) HiC) in Ei. exists c. split; auto. pose proof (Hsc c Hfr) as H1. pose proof (maximin_support_nonneg p _ _ Hw H1) as H2. pose proof (Hmax c ltac:(destruct Hfr; lia)) as H3.
          rewrite <- Ei in H3 |- *. assert (E0 : (nthQ sc c == 0)%Q) by lra. destruct H1 as [(f & Hf & Hf') H1]. split.
          + exists f. split; auto. intros d Hd. rewrite <- E0. apply Hf'. auto.
          + intros f' s' Hf1 Hf2. rewrite <- E0. eapply H1; eauto.
        - exists i. assert (Hif : fresh p C i) by (split; auto; lia). split; auto. rewrite <- Ei. apply Hsc. auto. }
      assert (Hrange : Forall (fun c => c < num_cand p) (c :: tied')) by (apply Forall_forall; intros d Hd; apply Hin in Hd; apply Hd).
      destruct (tie_ok p (c :: tied') (fun t => [details ("tie broken in favor of " ++ str_nat c ++ ",")%string " ";
                         details ("candidates " ++ t ++ " are tied")%string " ";
                         details ("(all would give the same maximin support value " ++ num mx ++ ")")%string " "]) Hn Hrange) as (tie & Etie & Htie).
      destruct (mms_next_ok s p k Hw Hk Hs C [] c (conj HN HR) ltac:(lia) Hc) as [_ [HN' HR']].
      destruct (IH (C ++ [c]) x HN' HR') as (rounds & L & ms & E1 & E2 & E3 & E4); [rewrite app_length; cbn; lia|].
      rewrite E1. cbn [rbind]. eexists _, L, _. split; [reflexivity|]. cbn [maximin_story]. rewrite name_ok' by (auto; apply Hfr). cbn [rbind]. rewrite Etie. cbn [rbind].
      rewrite app_length in E2. cbn [length] in E2. replace (length C + 1) with (S (length C)) in E2 by lia. rewrite E2. cbn [rbind]. split; [reflexivity|]. split; auto.
      rewrite app_snoc_rev in E3.
      pose proof (told_round (maximin_choice CMP_ACCURACY p) (no_update p) (maximin_round num CMP_ACCURACY p) (rev C) x c x (c :: tied') L x
        (adding p (rev C) c :: line " " ("giving a committee with maximin support value " ++ num mx)%string :: tie) ms) as G.
      unfold adding in G. rewrite rev_length in G. apply G; clear G; [| | | | |exact E3].
      + split; auto. intros d. rewrite Hin. split; intros Hd; eapply maximin_choice_set; try exact Hd; [apply rev_same|]. intros y. symmetry. apply rev_same.
      + left. auto.
      + intros d Hd. eapply ascending_head_le; eauto.
      + apply agree_refl.
      + assert (Hset : forall d, set_same (d :: C) (d :: rev C)) by (intros d z; cbn; rewrite (rev_same C z); tauto).
        assert (Hfresh : forall d, fresh p C d <-> fresh p (rev C) d) by (intros d; unfold fresh; rewrite <- in_rev; tauto).
        assert (Hsup : forall d s', maximin_support p (d :: rev C) s' -> maximin_support p (d :: C) s').
        { intros d s' H. eapply maximin_support_same; [|exact H]. intros z. symmetry. apply Hset. }
        exists mx, (num mx), tie. split; [|split; [|split; [|split; [apply shows_eq; reflexivity|split; [exact Htie|unfold adding; rewrite rev_length; reflexivity]]]]].
        * destruct Hat as (d & Hd & Hd'). exists d. split; [apply Hfresh; auto|]. eapply maximin_support_same; [apply Hset|exact Hd'].
        * intros d s' Hd Hd'. apply (Hbest d); auto. apply Hfresh. auto.
        * intros s' Hs'. destruct Hc as [_ (s0 & Hs0 & Hm)]. destruct Hat as (d & Hd & Hd'). specialize (Hm d mx Hd Hd').
          rewrite (maximin_support_unique p (c :: C) s' s0); auto.
  Qed.
  Theorem maximin_report_ok : forall maxn, valid_max maxn -> exists cs rounds story, maximin_support_rule s p k true maxn = Ok cs /\
    maximin_rounds (maximin_support_scorefct s p) p k [] = Ok rounds /\ maximin_story num p 0 rounds = Ok story /\
    maximin_told num CMP_ACCURACY p k cs (line "" ("starting with the empty committee" ++ nl)%string :: story).
  Proof using Hw Hn Hk Hs.
    intros maxn Hm.
    destruct (maximin_story_ok k [] (fun _ => 0%Q) (NoDup_nil _) (Forall_nil _) eq_refl) as (rounds & L & ms & E1 & E2 & E3 & E4).
    destruct (maximin_correct s p k Hw Hk Hs true maxn Hm) as [_ H]. destruct (H eq_refl) as (W & EW & HW).
    exists [W], rounds, ms. split; auto. split; auto. split; auto. exists L, (fun _ => 0%Q), ms. split; auto. split; [|split; auto].
    f_equal. apply (lex_run_winner_unique p (maximin_choice CMP_ACCURACY p) (no_update p)) with (L0 := []) (x0 := fun _ => 0%Q) (k := k).
    - intros W0 x y c _ Hc. eapply maximin_choice_set; [|exact Hc]. intros z. tauto.
    - intros W0 x y c x' y' Hxy _ Hx Hy. eapply agree_trans; [exact Hx|]. eapply agree_trans; [exact Hxy|]. apply agree_sym. exact Hy.
    - exact HW.
    - exists L, (fun _ => 0%Q). split; auto. apply (told_lex p _ _ _ _ _ _ _ _ E3). constructor. apply agree_refl.
  Qed.
End Maximin.
