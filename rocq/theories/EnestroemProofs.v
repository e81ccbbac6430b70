(** * Phragmén-Eneström and the consensus rule: proofs *)
From Coq Require Import String.
From Coq Require Import List Arith Bool ZArith QArith Lia Lqa Permutation Sorted.
From Verif Require Import Prelude Misc MiscProofs Preferences Scores Spec ScoresProofs Search RulesThiele
  Common ThieleProofs SpecRules SpecSeq RulesSeq SeqProofs PhragmenProofs.
Import ListNotations.
Open Scope nat_scope.

Lemma max_entries_spec : forall f cands, cands <> [] -> exists sel, max_entries f cands = Ok sel /\ sel <> [] /\
  sublist sel cands /\
  forall c, In c sel <-> In c cands /\ forall d, In d cands -> (f d <= f c)%Q.
Proof.
  intros f cands Hne. unfold max_entries.
  assert (Hne' : map f cands <> []) by (destruct cands; [congruence|discriminate]).
  destruct (py_max_spec (map f cands) Hne') as (mx & E & (i & Hi & Ei) & Hmax). rewrite E. simpl.
  eexists. split; [reflexivity|].
  assert (Hle : forall d, In d cands -> (f d <= mx)%Q).
  { intros d Hd. apply (in_map f) in Hd. apply In_nthQ in Hd as (j & Hj & <-). auto. }
  rewrite map_length in Hi.
  assert (Hc : exists c, In c cands /\ f c = mx).
  { exists (nth i cands 0). split; [apply nth_In; auto|]. rewrite <- Ei. unfold nthQ.
    rewrite nth_indep with (d' := f 0) by (rewrite map_length; auto). rewrite map_nth. auto. }
  destruct Hc as (c0 & Hc0 & Ec0). split; [|split].
  - intro Z. assert (In c0 (filter (fun c => Qeq_bool (f c) mx) cands)).
    { apply filter_In. split; auto. apply Qeq_bool_iff. rewrite Ec0. reflexivity. }
    rewrite Z in H. destruct H.
  - apply filter_sublist.
  - intro c. rewrite filter_In, Qeq_bool_iff. split.
    + intros [A B]. split; auto. intros d Hd. rewrite B. auto.
    + intros [A B]. split; auto. apply Qle_antisym; auto. rewrite <- Ec0. auto.
Qed.

Lemma available_In : forall p C c, In c (available p C) <-> fresh p C c.
Proof.
  intros. unfold available, fresh, candidates. rewrite filter_In, negb_true_iff, mem_false, in_seq.
  split; intros [A B]; split; auto; lia.
Qed.
Lemma available_asc : forall p C, ascending (available p C).
Proof. intros. apply ascending_filter, ascending_seq. Qed.

Definition BGood (p : profile) (C : list nat) (b : list Q) : Prop :=
  NoDup C /\ Forall (fun c => c < num_cand p) C.

Lemma BGood_snoc : forall p C b b' c, BGood p C b -> fresh p C c -> BGood p (C ++ [c]) b'.
Proof.
  intros p C b b' c [A B] [Hc Hn]. split.
  - apply NoDup_app_intro; auto; [repeat constructor; intros []|]. intros x Hx [<-|[]]. auto.
  - apply Forall_app. split; auto.
Qed.

(** ** Phragmén-Eneström *)
Section Enestroem.
  Variables (p : profile) (k : nat).
  Hypothesis Hw : wf p.
  Hypothesis Hk : 1 <= k <= num_cand p.

  Definition EGood (C : list nat) (b : list Q) : Prop :=
    BGood p C b /\ forall i, i < length (voters p) -> (0 <= nthQ b i)%Q.

  Lemma purse_ext : forall x y c, agree p x y -> (purse p x c == purse p y c)%Q.
  Proof using. intros x y c H. unfold purse. apply sum_fans_agree; auto. Qed.

  Lemma pe_support_eq : forall b c, (forall i, i < length (voters p) -> (0 <= nthQ b i)%Q) ->
    (pe_support p b c == purse p (nthQ b) c)%Q.
  Proof using.
    intros b c Hb. unfold pe_support, purse, sum, fans. rewrite enum_voters_eq.
    rewrite Qsum_filter.
    assert (G : forall l s, (forall i, In i l -> i < length (voters p)) ->
      (fold_left (fun s iv => if Qle_bool (nthQ b (fst iv)) 0 then s
                         else if mem c (approved (snd iv)) then s + nthQ b (fst iv) else s)
        (map (fun i => (i, the_voter p i)) l) s == 
       s + Qsum (map (fun i => if likes p i c then nthQ b i else 0) l))%Q).
    { induction l as [|i l IH]; intros s Hl; simpl; [lra|].
      rewrite IH by (intros; apply Hl; right; auto).
      assert (Hi : (0 <= nthQ b i)%Q) by (apply Hb, Hl; left; auto).
      change (likes p i c) with (mem c (approved (the_voter p i))).
      destruct (Qle_bool (nthQ b i) 0) eqn:E; destruct (mem c (approved (the_voter p i))); qbool; lra. }
    rewrite G; [lra|]. intros i Hi. apply in_voter_ids; auto.
  Qed.

  Lemma richest_fresh : forall W x c, richest_choice p W x c -> fresh p W c.
  Proof using. intros W x c [H _]. auto. Qed.

  Lemma richest_ext : forall W W' x y c, set_same W W' -> agree p x y ->
    richest_choice p W x c -> richest_choice p W' y c.
  Proof using.
    intros W W' x y c HW Ha [Hf H]. split; [eapply fresh_ext; eauto|]. intros d Hd.
    rewrite <- !(purse_ext x y) by auto. apply H. eapply fresh_ext; eauto. intro z; symmetry; apply HW.
  Qed.

  Lemma enestroem_update_fun : forall W W' x y c x' y', set_same W W' -> agree p x y -> richest_choice p W x c ->
    enestroem_update p k W x c x' -> enestroem_update p k W' y c y' -> agree p x' y'.
  Proof using.
    intros W W' x y c x' y' _ Ha _ [H1 H2] [H1' H2'].
    pose proof (purse_ext x y c Ha) as Ep.
    destruct (Qlt_le_dec (wsum (voters p) / Qnat k)%Q (purse p x c)) as [L|L].
    - specialize (H1 L). rewrite Ep in L. specialize (H1' L).
      intros i Hi. rewrite (H1 i Hi), (H1' i Hi). destruct (likes p i c).
      + rewrite (Ha i Hi), Ep. reflexivity.
      + apply Ha; auto.
    - specialize (H2 L). rewrite Ep in L. specialize (H2' L).
      intros i Hi. rewrite (H2 i Hi), (H2' i Hi). destruct (likes p i c); [reflexivity|apply Ha; auto].
  Qed.

  Lemma pe_sel_ok : forall C b, EGood C b -> length C < k ->
    exists sel, pe_select p C b = Ok sel /\ ascending sel /\ forall c, In c sel <-> richest_choice p C (nthQ b) c.
  Proof using Hw Hk.
    intros C b [[HN HR] Hb] Hl. unfold pe_select.
    assert (Hne : available p C <> []).
    { destruct (fresh_exists p C HN ltac:(lia)) as (c & Hc). apply available_In in Hc.
      intro Z. rewrite Z in Hc. destruct Hc. }
    destruct (max_entries_spec (pe_support p b) (available p C) Hne) as (sel & E & Hs & Hsub & Hin).
    rewrite E. simpl. exists sel. destruct sel as [|c0 sel0]; [congruence|]. split; auto. split.
    - eapply sublist_ascending; [exact Hsub|apply available_asc].
    - intro c. rewrite Hin. unfold richest_choice. rewrite available_In. split; intros [A B]; split; auto.
      + intros d Hd. rewrite <- !pe_support_eq by auto. apply B, available_In; auto.
      + intros d Hd. apply available_In in Hd. rewrite !pe_support_eq by auto. auto.
  Qed.

  Lemma price_pos : voters p <> [] -> (0 < wsum (voters p) / Qnat k)%Q.
  Proof using Hw Hk.
    intro Hv. apply Qlt_shift_div_l; [apply Qnat_pos; lia|].
    assert (forall l, Forall (wf_voter (num_cand p)) l -> l <> [] -> (0 < wsum l)%Q) as X.
    { induction l as [|v l IH]; intros HF Hne; [congruence|]. inversion HF; subst. destruct H1 as (_ & _ & H1).
      unfold wsum. simpl. destruct l; [simpl; lra|]. assert (0 < wsum (v0 :: l))%Q by (apply IH; auto; discriminate).
      unfold wsum in H. lra. }
    rewrite Qmult_0_l. apply X; auto. apply Hw.
  Qed.

  Lemma pe_next_ok : forall C b c, EGood C b -> length C < k -> richest_choice p C (nthQ b) c ->
    enestroem_update p k C (nthQ b) c (nthQ (pe_next p (total_weight p / Qnat k) C b c)) /\
    EGood (C ++ [c]) (pe_next p (total_weight p / Qnat k) C b c).
  Proof using Hw Hk.
    intros C b c [HB Hb] Hl Hc.
    set (price := (wsum (voters p) / Qnat k)%Q).
    assert (Epr : (total_weight p / Qnat k == price)%Q) by (unfold price; rewrite total_weight_eq; reflexivity).
    pose proof (pe_support_eq b c Hb) as Es.
    set (P := purse p (nthQ b) c) in *.
    assert (HP : (0 <= P)%Q).
    { unfold P, purse. apply sum_nonneg. intros i Hi. apply in_fans in Hi as [Hi _]. auto. }
    assert (Hpr : (0 <= price)%Q).
    { unfold price. destruct (voters p) eqn:Ev.
      - unfold wsum. simpl. unfold Qdiv. lra.
      - apply Qlt_le_weak. rewrite <- Ev. apply price_pos. rewrite Ev. discriminate. }
    assert (Hn : forall i, i < length (voters p) ->
      (nthQ (pe_next p (total_weight p / Qnat k) C b c) i ==
        if likes p i c then nthQ b i * (if Qltb price P then (P - price) / P else 0) else nthQ b i)%Q).
    { intros i Hi. unfold pe_next. rewrite nthQ_enum by auto. simpl.
      change (mem c (approved (the_voter p i))) with (likes p i c).
      destruct (likes p i c); [|reflexivity].
      rewrite (Qltb_comp _ price _ P Epr Es). destruct (Qltb price P); [|reflexivity].
      rewrite Es, Epr. reflexivity. }
    split; [split|split].
    - fold price. fold P. intros L i Hi. rewrite (Hn i Hi). destruct (likes p i c); [|reflexivity].
      apply Qltb_lt in L as L'. rewrite L'. field. lra.
    - fold price. fold P. intros L i Hi. rewrite (Hn i Hi). destruct (likes p i c); [|reflexivity].
      apply Qltb_ge in L as L'. rewrite L'. ring.
    - eapply BGood_snoc; eauto. apply Hc.
    - intros i Hi. rewrite (Hn i Hi). destruct (likes p i c); auto.
      specialize (Hb i Hi). destruct (Qltb price P) eqn:L; [|lra]. qbool.
      assert (0 <= (P - price) / P)%Q by (apply Qle_shift_div_l; lra). nra.
  Qed.

  Lemma pe_progress : forall C b, EGood C b -> length C < k -> exists c, richest_choice p C (nthQ b) c.
  Proof using Hw Hk.
    intros C b HG Hl. destruct (pe_sel_ok C b HG Hl) as (sel & E & _ & Hin).
    unfold pe_select in E. destruct (max_entries (pe_support p b) (available p C)) as [l|]; [|discriminate]. simpl in E.
    destruct l as [|c l]; [discriminate|]. inversion E; subst. exists c. apply Hin. left; auto.
  Qed.

  Lemma pe_update_ext : forall W W' x c x', set_same W W' -> enestroem_update p k W x c x' -> enestroem_update p k W' x c x'.
  Proof using. intros W W' x c x' _ H. exact H. Qed.

  Lemma weights_nth : forall i, i < length (voters p) -> nthQ (map weight (voters p)) i = w p i.
  Proof using.
    intros i Hi. unfold nthQ, w, the_voter.
    rewrite nth_indep with (d' := weight (mkVoter [] 1 true)) by (rewrite map_length; auto). apply map_nth.
  Qed.

  Lemma E0 : EGood [] (map weight (voters p)).
  Proof using Hw.
    split; [split; constructor|]. intros i Hi. rewrite weights_nth by auto. apply Qlt_le_weak, w_pos; auto.
  Qed.

  Theorem enestroem_correct : forall resolute maxn, valid_max maxn ->
    answers (enestroem_winner p k) resolute maxn (phragmen_enestroem p k resolute maxn) /\
    (resolute = true -> exists W, phragmen_enestroem p k true maxn = Ok [W] /\ enestroem_lex_winner p k W).
  Proof using Hw Hk.
    intros resolute maxn Hm.
    assert (Hag : agree p (nthQ (map weight (voters p))) (w p)).
    { intros i Hi. rewrite weights_nth by auto. reflexivity. }
    assert (Hres : exists W, phragmen_enestroem p k true maxn = Ok [W] /\ enestroem_lex_winner p k W).
    { unfold phragmen_enestroem.
      destruct (seq_dfs_one p k (pe_select p) (pe_next p (total_weight p / Qnat k)) (richest_choice p) (enestroem_update p k) EGood)
        with (C0 := @nil nat) (a0 := map weight (voters p)) as (W & E & HW);
        eauto using richest_fresh, richest_ext, enestroem_update_fun, pe_update_ext, pe_sel_ok, pe_next_ok, pe_progress, E0.
      all: try (constructor; fail). all: try (simpl; lia).
      - exists W. split; auto. eapply lex_run_winner_start_ext; [apply agree_sym; exact Hag|exact HW]. }
    split; [|intros _; auto]. destruct resolute.
    - destruct Hres as (W & E & HW). unfold phragmen_enestroem in *. rewrite E. apply answers_resolute_one.
      destruct HW as (L & x & Hr & Hl & EW). exists L, x. split; auto. apply lex_runs_runs; auto.
    - unfold phragmen_enestroem. eapply answers_equiv.
      2:{ eapply (seq_dfs_correct p k (pe_select p) (pe_next p (total_weight p / Qnat k)) (richest_choice p) (enestroem_update p k) EGood);
          eauto using richest_fresh, richest_ext, enestroem_update_fun, pe_update_ext, pe_sel_ok, pe_next_ok, pe_progress, E0.
          all: try (constructor; fail). all: simpl; lia. }
      intro W. apply run_winner_start_ext; auto.
  Qed.
End Enestroem.

(** ** Consensus rule *)
Section Consensus.
  Variables (p : profile) (k : nat).
  Hypothesis Hw : wf p.
  Hypothesis Hk : 1 <= k <= num_cand p.

  Lemma earned_ext : forall x y, agree p x y -> agree p (earned p x) (earned p y).
  Proof using. intros x y H i Hi. unfold earned. rewrite (H i Hi). reflexivity. Qed.

  Lemma backers_ext : forall x y c, agree p x y -> backers p x c = backers p y c.
  Proof using.
    intros x y c H. unfold backers. apply filter_ext_in. intros i Hi. apply in_fans in Hi as [Hi _].
    apply Qltb_comp; [reflexivity|]. apply earned_ext; auto.
  Qed.

  Lemma in_backers : forall b c i, In i (backers p b c) <->
    i < length (voters p) /\ likes p i c = true /\ (0 < earned p b i)%Q.
  Proof using. clear Hw Hk. intros. unfold backers. rewrite filter_In, in_fans, Qltb_lt. tauto. Qed.

  Lemma backing_ext : forall x y c, agree p x y ->
    (sum (backers p x c) (earned p x) == sum (backers p y c) (earned p y))%Q.
  Proof using.
    intros x y c H. rewrite (backers_ext x y c H). apply sum_ext. intros i Hi. apply in_backers in Hi as [Hi _].
    apply earned_ext; auto.
  Qed.

  Lemma earn_nth : forall b i, i < length (voters p) -> nthQ (cr_earn p b) i = earned p (nthQ b) i.
  Proof using. intros b i Hi. unfold cr_earn. rewrite nthQ_enum by auto. reflexivity. Qed.

  Lemma cr_supporters_eq : forall b c, cr_supporters p (cr_earn p b) c = map (fun i => (i, the_voter p i)) (backers p (nthQ b) c).
  Proof using.
    intros b c. unfold cr_supporters. rewrite enum_voters_eq, filter_map_comm. f_equal.
    unfold backers, fans. simpl.
    assert (G : forall l, (forall i, In i l -> i < length (voters p)) ->
      filter (fun x => negb (Qle_bool (nthQ (cr_earn p b) x) 0) && mem c (approved (the_voter p x))) l =
      filter (fun i => Qltb 0 (earned p (nthQ b) i)) (filter (fun i => likes p i c) l)).
    { induction l as [|i l IH]; intros Hl; simpl; auto.
      rewrite IH by (intros; apply Hl; right; auto). rewrite earn_nth by (apply Hl; left; auto).
      change (likes p i c) with (mem c (approved (the_voter p i))).
      destruct (mem c (approved (the_voter p i))); simpl; unfold Qltb; destruct (Qle_bool _ _); simpl; auto. }
    apply G. intros i Hi. apply in_voter_ids; auto.
  Qed.

  Lemma cr_support_eq : forall b c, (cr_support p (cr_earn p b) c == sum (backers p (nthQ b) c) (earned p (nthQ b)))%Q.
  Proof using.
    intros b c. unfold cr_support. rewrite cr_supporters_eq.
    rewrite (fold_left_sum _ (fun iv => nthQ (cr_earn p b) (fst iv))), map_map. simpl. rewrite Qplus_0_l.
    apply sum_ext. intros i Hi. apply in_backers in Hi as [Hi _]. rewrite earn_nth by auto. reflexivity.
  Qed.

  Lemma consensus_fresh : forall W x c, consensus_choice p W x c -> fresh p W c.
  Proof using. intros W x c [H _]. auto. Qed.

  Lemma consensus_ext : forall W W' x y c, set_same W W' -> agree p x y ->
    consensus_choice p W x c -> consensus_choice p W' y c.
  Proof using.
    intros W W' x y c HW Ha [Hf H]. split; [eapply fresh_ext; eauto|]. intros d Hd.
    rewrite <- !(backing_ext x y) by auto. apply H. eapply fresh_ext; eauto. intro z; symmetry; apply HW.
  Qed.

  Lemma consensus_update_fun : forall W W' x y c x' y', set_same W W' -> agree p x y -> consensus_choice p W x c ->
    consensus_update p W x c x' -> consensus_update p W' y c y' -> agree p x' y'.
  Proof using.
    intros W W' x y c x' y' _ Ha _ H H' i Hi. rewrite (H i Hi), (H' i Hi).
    rewrite (backers_ext x y c Ha). pose proof (earned_ext x y Ha i Hi) as Ee.
    destruct (mem i (backers p y c)); rewrite Ee; reflexivity.
  Qed.

  Lemma cr_sel_ok : forall C b, BGood p C b -> length C < k ->
    exists sel, cr_select p C b = Ok sel /\ ascending sel /\ forall c, In c sel <-> consensus_choice p C (nthQ b) c.
  Proof using Hk.
    intros C b [HN HR] Hl. unfold cr_select.
    assert (Hne : available p C <> []).
    { destruct (fresh_exists p C HN ltac:(lia)) as (c & Hc). apply available_In in Hc.
      intro Z. rewrite Z in Hc. destruct Hc. }
    destruct (max_entries_spec (cr_support p (cr_earn p b)) (available p C) Hne) as (sel & E & Hs & Hsub & Hin).
    rewrite E. simpl. exists sel. destruct sel as [|c0 sel0]; [congruence|]. split; auto. split.
    - eapply sublist_ascending; [exact Hsub|apply available_asc].
    - intro c. rewrite Hin. unfold consensus_choice. rewrite available_In. split; intros [A B]; split; auto.
      + intros d Hd. rewrite <- !cr_support_eq by auto. apply B, available_In; auto.
      + intros d Hd. apply available_In in Hd. rewrite !cr_support_eq by auto. auto.
  Qed.

  Lemma cr_next_ok : forall C b c, BGood p C b -> length C < k -> consensus_choice p C (nthQ b) c ->
    consensus_update p C (nthQ b) c (nthQ (cr_next p C b c)) /\ BGood p (C ++ [c]) (cr_next p C b c).
  Proof using.
    intros C b c HB Hl Hc. split; [|eapply BGood_snoc; eauto; apply Hc].
    intros i Hi. unfold cr_next. rewrite cr_supporters_eq, nthQ_enum by auto. simpl. rewrite map_map. simpl.
    rewrite map_id. rewrite earn_nth by auto. destruct (mem i (backers p (nthQ b) c)); [|reflexivity].
    rewrite (fold_left_sum _ (fun iv : nat * voter => weight (snd iv))), map_map, Qplus_0_l. simpl.
    rewrite total_weight_eq. reflexivity.
  Qed.

  Lemma cr_progress : forall C b, BGood p C b -> length C < k -> exists c, consensus_choice p C (nthQ b) c.
  Proof using Hk.
    intros C b HG Hl. destruct (cr_sel_ok C b HG Hl) as (sel & E & _ & Hin).
    unfold cr_select in E. destruct (max_entries _ (available p C)) as [l|]; [|discriminate]. simpl in E.
    destruct l as [|c l]; [discriminate|]. inversion E; subst. exists c. apply Hin. left; auto.
  Qed.

  Lemma cr_update_ext : forall W W' x c x', set_same W W' -> consensus_update p W x c x' -> consensus_update p W' x c x'.
  Proof using. intros W W' x c x' _ H. exact H. Qed.

  Lemma C0good : BGood p [] (repeat 0%Q (length (voters p))).
  Proof using. split; constructor. Qed.

  Theorem consensus_correct : forall resolute maxn, valid_max maxn ->
    answers (consensus_winner p k) resolute maxn (consensus_rule p k resolute maxn) /\
    (resolute = true -> exists W, consensus_rule p k true maxn = Ok [W] /\ consensus_lex_winner p k W).
  Proof using Hk.
    intros resolute maxn Hm.
    assert (Hag : agree p (nthQ (repeat 0%Q (length (voters p)))) (fun _ => 0%Q)).
    { intros i Hi. rewrite nthQ_repeat0. reflexivity. }
    assert (Hres : exists W, consensus_rule p k true maxn = Ok [W] /\ consensus_lex_winner p k W).
    { unfold consensus_rule.
      destruct (seq_dfs_one p k (cr_select p) (cr_next p) (consensus_choice p) (consensus_update p) (BGood p))
        with (C0 := @nil nat) (a0 := repeat 0%Q (length (voters p))) as (W & E & HW);
        eauto using consensus_fresh, consensus_ext, consensus_update_fun, cr_update_ext, cr_sel_ok, cr_next_ok, cr_progress, C0good.
      all: try (constructor; fail). all: try (simpl; lia).
      - exists W. split; auto. eapply lex_run_winner_start_ext; [apply agree_sym; exact Hag|exact HW]. }
    split; [|intros _; auto]. destruct resolute.
    - destruct Hres as (W & E & HW). unfold consensus_rule in *. rewrite E. apply answers_resolute_one.
      destruct HW as (L & x & Hr & Hl & EW). exists L, x. split; auto. apply lex_runs_runs; auto.
    - unfold consensus_rule. eapply answers_equiv.
      2:{ eapply (seq_dfs_correct p k (cr_select p) (cr_next p) (consensus_choice p) (consensus_update p) (BGood p));
          eauto using consensus_fresh, consensus_ext, consensus_update_fun, cr_update_ext, cr_sel_ok, cr_next_ok, cr_progress, C0good.
          all: try (constructor; fail). all: simpl; lia. }
      intro W. apply run_winner_start_ext; auto.
  Qed.
End Consensus.
