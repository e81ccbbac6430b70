(** * Proofs about the Thiele methods *)
From Coq Require Import List Arith Bool ZArith QArith Lia Lqa Permutation Sorted.
From Verif Require Import Prelude Misc MiscProofs Preferences Scores ScoresProofs Search Spec SpecRules RulesThiele Common.
Import ListNotations.
Open Scope nat_scope.

(** ** Brute force in general *)
Section Brute.
  Context {S : Type} (better same : S -> S -> bool) (score : list nat -> S) (init : S).
  Variable geb : S -> S -> bool.
  Hypothesis geb_trans : forall x y z, geb x y = true -> geb y z = true -> geb x z = true.
  Hypothesis geb_total : forall x y, geb x y = true \/ geb y x = true.
  Hypothesis better_eq : forall x y, better x y = negb (geb y x).
  Hypothesis same_eq : forall x y, better x y = false -> same x y = geb x y.
  Variables (p : profile) (k : nat).
  Hypothesis Hk : k <= num_cand p.
  Let cs := combinations (candidates p) k.
  Hypothesis Hinit : forall c, In c cs -> geb (score c) init = true.

  Lemma brute_all_In : forall W, In W (fst (scan better same score true init cs)) <->
    is_committee p k W /\ forall W', is_committee p k W' -> geb (score W) (score W') = true.
  Proof using geb_trans geb_total better_eq same_eq Hk Hinit.
    intro W. assert (Hne : exists c, In c cs).
    { destruct (committee_exists p k Hk) as (W0 & H0). exists W0. apply combos_committee; auto. }
    rewrite (scan_all better same score geb) by (auto; destruct Hne as (c & Hc); eauto).
    rewrite filter_In, forallb_forall. unfold cs. rewrite combos_committee.
    setoid_rewrite combos_committee. reflexivity.
  Qed.

  Lemma brute_all_props :
    Forall ascending (fst (scan better same score true init cs)) /\
    NoDup (fst (scan better same score true init cs)) /\
    fst (scan better same score true init cs) <> [].
  Proof using geb_trans geb_total better_eq same_eq Hk Hinit.
    assert (Hne : exists c, In c cs).
    { destruct (committee_exists p k Hk) as (W0 & H0). exists W0. apply combos_committee; auto. }
    split; [|split].
    - apply Forall_forall. intros W HW. apply brute_all_In in HW as [[] _]; auto.
    - rewrite (scan_all better same score geb) by (auto; destruct Hne as (c & Hc); eauto).
      apply NoDup_filter, combos_NoDup.
    - destruct Hne as (c0 & Hc0).
      assert (Hm : exists c, In c cs /\ forall x, In x cs -> geb (score c) (score x) = true).
      { clear Hinit. revert c0 Hc0. generalize cs. intro l. induction l as [|a l IH]; intros c0 Hc0; [destruct Hc0|].
        destruct l as [|b l].
        - exists a. split; [left; auto|]. intros x [<-|[]]. apply geb_refl; auto.
        - destruct (IH b (or_introl eq_refl)) as (c & Hc & Hx).
          destruct (geb_total (score a) (score c)).
          + exists a. split; [left; auto|]. intros x [<-|Hxx]; [apply geb_refl; auto|].
            eapply geb_trans; eauto.
          + exists c. split; [right; auto|]. intros x [<-|Hxx]; auto. }
      destruct Hm as (c & Hc & Hx). intro E.
      assert (In c (fst (scan better same score true init cs))).
      { apply brute_all_In. split; [apply combos_committee; auto|].
        intros W' HW'. apply Hx, combos_committee; auto. }
      rewrite E in H. destruct H.
  Qed.
End Brute.

Lemma Qge_trans : forall x y z, Qle_bool y x = true -> Qle_bool z y = true -> Qle_bool z x = true.
Proof. intros. qbool. lra. Qed.
Lemma Qge_total : forall x y, Qle_bool y x = true \/ Qle_bool x y = true.
Proof. intros. destruct (Qle_bool y x) eqn:E; auto. right. qbool. lra. Qed.
Lemma Qbetter_eq : forall x y : Q, Qltb y x = negb (Qle_bool x y).
Proof. reflexivity. Qed.
Lemma Qsame_eq : forall x y, Qltb y x = false -> Qeq_bool x y = Qle_bool y x.
Proof.
  intros x y H. qbool. destruct (Qeq_bool x y) eqn:E; symmetry.
  - qbool. rewrite E. apply Qle_refl.
  - apply not_true_iff_false. intro H2. qbool. apply E. apply Qle_antisym; auto.
Qed.

Theorem thiele_bruteforce_correct : forall f p k resolute maxn,
  wf p -> (forall i, 0 <= f i)%Q -> k <= num_cand p -> valid_max maxn ->
  answers (maximises (Thiele f p) p k) resolute maxn (thiele_bruteforce f p k resolute maxn).
Proof.
  intros f p k resolute maxn Hw Hf Hk Hm. unfold thiele_bruteforce.
  pose proof (wf_nodup p Hw) as Hn.
  assert (Hinit : forall c, In c (combinations (candidates p) k) ->
            Qle_bool (-1) (thiele_score f p c) = true).
  { intros c _. qbool. rewrite thiele_score_correct by auto.
    pose proof (Thiele_nonneg f p c Hw Hf). lra. }
  destruct resolute; cbn [negb].
  - destruct (scan_one (fun s best => Qltb best s) Qeq_bool (thiele_score f p)
              (fun x y => Qle_bool y x) Qge_trans Qge_total Qbetter_eq Qsame_eq (-1)%Q
              (combinations (candidates p) k)) as (c & l1 & l2 & -> & E & Hmax & _).
    { destruct (committee_exists p k Hk) as (W & HW). exists W. split; [apply combos_committee; auto|].
      apply Qle_bool_false. rewrite thiele_score_correct by auto.
      pose proof (Thiele_nonneg f p W Hw Hf). lra. }
    assert (Hc : is_committee p k c).
    { apply combos_committee. rewrite E. apply in_app_iff. right. left. auto. }
    rewrite sorted_committees_asc by (repeat constructor; apply Hc). simpl.
    replace (cut maxn [c]) with [c].
    + simpl. apply answers_resolute_one. split; auto. intros W' HW'.
      specialize (Hmax W' (proj2 (combos_committee p k W') HW')). qbool.
      rewrite !thiele_score_correct in Hmax by auto. auto.
    + destruct maxn as [[|n]|]; simpl in *; auto; [lia|]. destruct n; auto.
  - pose proof (brute_all_props (fun s best => Qltb best s) Qeq_bool (thiele_score f p) (-1)%Q
              (fun x y => Qle_bool y x) Qge_trans Qge_total Qbetter_eq Qsame_eq p k Hk Hinit) as (A & B & C).
    apply (answers_finish _ false); auto. intro W.
    rewrite (brute_all_In (fun s best => Qltb best s) Qeq_bool (thiele_score f p) (-1)%Q
              (fun x y => Qle_bool y x) Qge_trans Qge_total Qbetter_eq Qsame_eq p k Hk Hinit).
    unfold maximises. split; intros [H1 H2]; split; auto; intros W' HW'; specialize (H2 W' HW'); qbool;
      rewrite !thiele_score_correct in * by auto; auto.
Qed.

(** the resolute variant returns the first optimal committee in lexicographic
    (enumeration) order *)
Theorem thiele_bruteforce_resolute_first : forall f p k maxn,
  wf p -> (forall i, 0 <= f i)%Q -> k <= num_cand p -> valid_max maxn ->
  exists W l1 l2, thiele_bruteforce f p k true maxn = Ok [W] /\
    maximises (Thiele f p) p k W /\
    combinations (candidates p) k = l1 ++ W :: l2 /\
    forall W', In W' l1 -> ~ maximises (Thiele f p) p k W'.
Proof.
  intros f p k maxn Hw Hf Hk Hm. unfold thiele_bruteforce. cbn [negb].
  pose proof (wf_nodup p Hw) as Hn.
  destruct (scan_one (fun s best => Qltb best s) Qeq_bool (thiele_score f p)
              (fun x y => Qle_bool y x) Qge_trans Qge_total Qbetter_eq Qsame_eq (-1)%Q
              (combinations (candidates p) k)) as (c & l1 & l2 & -> & E & Hmax & Hfst).
  { destruct (committee_exists p k Hk) as (W & HW). exists W. split; [apply combos_committee; auto|].
    apply Qle_bool_false. rewrite thiele_score_correct by auto.
    pose proof (Thiele_nonneg f p W Hw Hf). lra. }
  assert (Hc : is_committee p k c).
  { apply combos_committee. rewrite E. apply in_app_iff. right. left. auto. }
  exists c, l1, l2. rewrite sorted_committees_asc by (repeat constructor; apply Hc). simpl.
  replace (cut maxn [c]) with [c].
  - split; auto. split; [|split; auto].
    + split; auto. intros W' HW'.
      specialize (Hmax W' (proj2 (combos_committee p k W') HW')). qbool.
      rewrite !thiele_score_correct in Hmax by auto. auto.
    + intros W' HW' [_ Hx]. specialize (Hx c Hc). specialize (Hfst W' HW'). qbool.
      rewrite !thiele_score_correct in Hfst by auto. lra.
  - destruct maxn as [[|n]|]; simpl in *; auto; [lia|]. destruct n; auto.
Qed.

(** ** Sequential Thiele methods *)

Lemma gain_set_same : forall f p W W' c, set_same W W' -> (gain f p W c == gain f p W' c)%Q.
Proof.
  intros. unfold gain. apply Qsum_map_ext. intros v _. rewrite (util_set_same v W W'); auto. reflexivity.
Qed.

Lemma best_addition_set_same : forall f p W W' c, set_same W W' ->
  best_addition f p W c -> best_addition f p W' c.
Proof.
  intros f p W W' c Hs (H1 & H2 & H3). split; auto. split; [rewrite <- (Hs c); auto|].
  intros d Hd Hin. rewrite <- (Hs d) in Hin. specialize (H3 d Hd Hin).
  rewrite <- (Thiele_set_same f p (d :: W) (d :: W')), <- (Thiele_set_same f p (c :: W) (c :: W')); auto;
    intros x; simpl; rewrite (Hs x); tauto.
Qed.

Lemma marg_add_argmax : forall f p W c, wf p -> (forall i, 0 <= f i)%Q ->
  NoDup W -> length W < num_cand p ->
  (is_argmax (marginal_thiele_scores_add f p W) c <-> best_addition f p W c).
Proof.
  intros f p W c Hw Hf Hn Hl. unfold is_argmax, best_addition. rewrite marg_add_length. split.
  - intros [Hc Hm]. split; auto.
    assert (Hout : ~ In c W).
    { intro Hin. destruct (outside_exists (num_cand p) W Hn Hl) as (d & Hd & Hnd).
      specialize (Hm d Hd). rewrite !marg_add_nth in Hm by auto.
      apply mem_In in Hin. apply mem_false in Hnd. rewrite Hin, Hnd in Hm.
      pose proof (gain_nonneg f p W d Hw Hf). lra. }
    split; auto. intros d Hd Hnd. specialize (Hm d Hd). rewrite !marg_add_nth in Hm by auto.
    apply mem_false in Hout as Hout'. apply mem_false in Hnd as Hnd'. rewrite Hout', Hnd' in Hm.
    rewrite !gain_correct in Hm by auto. lra.
  - intros (Hc & Hout & Hm). split; auto. intros d Hd. rewrite !marg_add_nth by auto.
    apply mem_false in Hout as Hout'. rewrite Hout'. destruct (mem d W) eqn:Ed.
    + pose proof (gain_nonneg f p W c Hw Hf). lra.
    + apply mem_false in Ed. specialize (Hm d Hd Ed). rewrite !gain_correct by auto. lra.
Qed.

Lemma marg_add_nonempty : forall f p W, wf p -> marginal_thiele_scores_add f p W <> [].
Proof.
  intros f p W [H _] E. pose proof (marg_add_length f p W) as L. rewrite E in L. simpl in L. lia.
Qed.

Lemma greedy_run_props : forall f p L, greedy_run f p L ->
  NoDup L /\ Forall (fun c => c < num_cand p) L.
Proof.
  induction 1; [split; constructor|]. destruct IHgreedy_run. destruct H0 as (A & B & _).
  split; constructor; auto.
Qed.

Lemma greedy_lex_greedy : forall f p L, greedy_run_lex f p L -> greedy_run f p L.
Proof. induction 1; constructor; auto. Qed.

Lemma rev_set_same : forall l : list nat, set_same (rev l) l.
Proof. intros l x. symmetry. apply in_rev. Qed.

Lemma isort_rev : forall l, isort (rev l) = isort l.
Proof. intros. apply isort_perm_eq. symmetry. apply Permutation_rev. Qed.

Lemma seq_thiele_loop_spec : forall f p, wf p -> (forall i, 0 <= f i)%Q ->
  forall r L, greedy_run_lex f p L -> length L + r <= num_cand p ->
  exists L', seq_thiele_loop f p r (rev L) = Ok (rev L') /\ greedy_run_lex f p L' /\
             length L' = length L + r.
Proof.
  intros f p Hw Hf r. induction r as [|r IH]; intros L HL Hlen.
  - exists L. simpl. repeat split; auto.
  - simpl. destruct (greedy_run_props f p L (greedy_lex_greedy _ _ _ HL)) as [Hnd Hr].
    unfold argmax_all.
    destruct (argmax_filter_eq _ (marg_add_nonempty f p (rev L) Hw)) as (mx & E & Hx).
    specialize (Hx _ eq_refl). destruct Hx as (Hx & _ & (c0 & Hc0)). rewrite E. simpl.
    set (tied := filter _ _) in *.
    assert (Hasc : ascending tied) by (apply ascending_filter, ascending_seq).
    destruct tied as [|c tied'] eqn:Et.
    { apply Hx in Hc0. destruct Hc0. }
    assert (Hb : forall d, is_argmax (marginal_thiele_scores_add f p (rev L)) d <-> best_addition f p L d).
    { intro d. rewrite marg_add_argmax; auto.
      - split; apply best_addition_set_same; [apply rev_set_same|].
        intros x. symmetry. apply rev_set_same.
      - apply NoDup_rev; auto.
      - rewrite rev_length. lia. }
    assert (Hc : best_addition f p L c) by (apply Hb, Hx; left; auto).
    assert (Hmin : forall d, best_addition f p L d -> c <= d).
    { intros d Hd. apply Hb, Hx in Hd. eapply ascending_head_le; eauto. }
    destruct (IH (c :: L)) as (L' & E' & HL' & Hlen'); [constructor; auto|simpl; lia|].
    exists L'. simpl in E'. rewrite E'. split; auto. split; auto. simpl in Hlen'. lia.
Qed.

Theorem seq_thiele_resolute_correct : forall f p k, wf p -> (forall i, 0 <= f i)%Q -> k <= num_cand p ->
  exists L, seq_thiele_resolute f p k = Ok [isort L] /\ greedy_run_lex f p L /\ length L = k.
Proof.
  intros f p k Hw Hf Hk. unfold seq_thiele_resolute.
  destruct (seq_thiele_loop_spec f p Hw Hf k [] (greedy_lex_nil f p) ltac:(simpl; auto)) as (L & E & HL & Hlen).
  simpl in E. rewrite E. simpl. exists L.
  destruct (greedy_run_props f p L (greedy_lex_greedy _ _ _ HL)) as [Hnd Hr].
  rewrite sorted_committees_ok by (constructor; auto using NoDup_rev). simpl. rewrite isort_rev. auto.
Qed.

Section SeqIrresolute.
  Variables (f : nat -> Q) (p : profile) (k : nat).
  Hypothesis Hw : wf p.
  Hypothesis Hf : forall i, (0 <= f i)%Q.
  Hypothesis Hk : k <= num_cand p.
  Let Inv (s : list nat) := greedy_run f p (rev s) /\ length s < k.
  Let rank (s : list nat) := k - 1 - length s.

  Lemma seq_expand_spec : forall s, Inv s ->
    exists sel, seq_thiele_expand f p k s =
        Ok (map (fun c => let nc := s ++ [c] in if length nc =? k then Leaf (isort nc) else Partial nc) sel) /\
      sel <> [] /\ length sel <= num_cand p /\ (forall c, In c sel <-> best_addition f p (rev s) c).
  Proof using Hw Hf Hk.
    intros s [Hr Hl]. unfold seq_thiele_expand.
    destruct (greedy_run_props f p _ Hr) as [Hnd Hrange].
    destruct (argmax_filter_eq _ (marg_add_nonempty f p s Hw)) as (mx & E & Hx).
    specialize (Hx (num_cand p) (eq_sym (marg_add_length f p s))). destruct Hx as (_ & Hx & (c0 & Hc0)).
    rewrite E. simpl. unfold candidates. eexists. split; [reflexivity|].
    assert (Hns : NoDup s) by (rewrite <- (rev_involutive s); apply NoDup_rev; auto).
    split; [|split].
    - intro En. apply Hx in Hc0. rewrite En in Hc0. destruct Hc0.
    - etransitivity; [apply (sublist_length _ _ _ (filter_sublist _ _ _))|]. rewrite seq_length. auto.
    - intro c. rewrite Hx, marg_add_argmax by (auto; lia).
      split; apply best_addition_set_same; [intro x; symmetry|]; apply rev_set_same.
  Qed.

  Lemma seq_expand_ok : forall s, Inv s ->
    exists cs, seq_thiele_expand f p k s = Ok cs /\ length cs <= num_cand p /\ cs <> [] /\
      (forall s', In (Partial s') cs -> Inv s' /\ rank s' < rank s).
  Proof using Hw Hf Hk.
    intros s Hs. destruct (seq_expand_spec s Hs) as (sel & E & Hne & Hl & Hin).
    destruct Hs as [Hr Hlen].
    eexists. split; [exact E|]. split; [rewrite map_length; auto|]. split.
    - destruct sel; [congruence|discriminate].
    - intros s' Hs'. apply in_map_iff in Hs' as (c & Ec & Hc). cbv zeta in Ec.
      destruct (Nat.eqb_spec (length (s ++ [c])) k); [discriminate|]. inversion Ec; subst s'.
      rewrite app_length in n. simpl in n. split.
      + split; [|rewrite app_length; simpl; lia].
        rewrite rev_app_distr. simpl. constructor; auto. apply Hin; auto.
      + unfold rank. rewrite app_length. simpl. lia.
  Qed.

  Lemma seq_reach_sound : forall s W, reach (seq_thiele_expand f p k) s W -> Inv s ->
    seq_thiele_winner f p k W.
  Proof using Hw Hf Hk.
    intros s W H. induction H as [s cs w E Hin|s cs s' w E Hin Hr IH]; intros Hs.
    - destruct (seq_expand_spec s Hs) as (sel & E' & Hne & Hl & Hsel). rewrite E in E'. inversion E'; subst cs.
      apply in_map_iff in Hin as (c & Ec & Hc). cbv zeta in Ec.
      destruct (Nat.eqb_spec (length (s ++ [c])) k); [|discriminate]. inversion Ec; subst w.
      exists (c :: rev s). destruct Hs as [Hs1 Hs2]. split; [constructor; auto; apply Hsel; auto|].
      rewrite app_length in e. simpl in *. rewrite rev_length. split; [lia|].
      rewrite <- isort_rev, rev_app_distr. auto.
    - apply IH. destruct (seq_expand_ok s Hs) as (cs' & E' & _ & _ & Hch).
      assert (cs' = cs) by congruence. subst. apply Hch; auto.
  Qed.

  Lemma seq_reach_complete : forall L2 L1, greedy_run f p (L2 ++ L1) -> L2 <> [] -> length (L2 ++ L1) = k ->
    reach (seq_thiele_expand f p k) (rev L1) (isort (L2 ++ L1)).
  Proof using Hw Hf Hk.
    induction L2 as [|c L2 IH] using rev_ind; intros L1 Hr Hne Hl; [congruence|].
    rewrite <- app_assoc in Hr, Hl. simpl in Hr, Hl.
    assert (Hc : greedy_run f p (c :: L1)).
    { clear -Hr. induction L2; simpl in Hr; auto. inversion Hr; auto. }
    inversion_clear Hc as [|? ? Hr1 Hb1].
    assert (Hs : Inv (rev L1)).
    { split; [rewrite rev_involutive; auto|]. rewrite rev_length. rewrite app_length in Hl. simpl in Hl. lia. }
    destruct (seq_expand_spec _ Hs) as (sel & E & Hn & Hls & Hin).
    assert (In c sel) by (apply Hin; rewrite rev_involutive; auto).
    rewrite <- app_assoc. simpl. destruct L2 as [|d L2'].
    - simpl. eapply reach_leaf; [exact E|]. apply in_map_iff. exists c. split; auto. cbv zeta.
      rewrite app_length, rev_length. simpl in Hl |- *. rewrite Nat.add_1_r, Hl, Nat.eqb_refl.
      f_equal. rewrite <- isort_rev, rev_app_distr, rev_involutive. auto.
    - eapply reach_step; [exact E| |apply (IH (c :: L1)); auto; discriminate].
      apply in_map_iff. exists c. split; auto. cbv zeta. simpl.
      rewrite app_length, rev_length. simpl in Hl |- *. rewrite app_length in Hl. simpl in Hl.
      destruct (Nat.eqb_spec (length L1 + 1) k); [lia|auto].
  Qed.

  Lemma seq_reach_iff : 0 < k -> forall W,
    reach (seq_thiele_expand f p k) [] W <-> seq_thiele_winner f p k W.
  Proof using Hw Hf Hk.
    intros Hk0 W. split.
    - intro H. eapply seq_reach_sound; eauto. split; [constructor|simpl; auto].
    - intros (L & HL & Hlen & ->). rewrite <- (app_nil_r L). apply (seq_reach_complete L []).
      + rewrite app_nil_r; auto.
      + intro E. rewrite E in Hlen. simpl in Hlen. lia.
      + rewrite app_nil_r; auto.
  Qed.
End SeqIrresolute.

Lemma seq_winner_committee : forall f p k W, seq_thiele_winner f p k W -> is_committee p k W.
Proof.
  intros f p k W (L & HL & Hlen & ->). destruct (greedy_run_props f p L HL).
  apply isort_committee; auto.
Qed.

Theorem seq_thiele_correct : forall f p k resolute maxn,
  wf p -> (forall i, 0 <= f i)%Q -> 1 <= k <= num_cand p -> valid_max maxn ->
  answers (seq_thiele_winner f p k) resolute maxn (seq_thiele f p k resolute maxn).
Proof.
  intros f p k resolute maxn Hw Hf Hk Hm. unfold seq_thiele. destruct resolute.
  - destruct (seq_thiele_resolute_correct f p k Hw Hf ltac:(lia)) as (L & E & HL & Hlen).
    rewrite E. apply answers_resolute_one. exists L. repeat split; auto. apply greedy_lex_greedy; auto.
  - unfold seq_thiele_irresolute.
    destruct (dfs_spec (seq_thiele_expand f p k) (fun s => greedy_run f p (rev s) /\ length s < k)
                (fun s => k - 1 - length s) (num_cand p)
                (seq_expand_ok f p k Hw Hf ltac:(lia)) maxn (tree_size (num_cand p) k) [[]] [])
      as (win & E & Hnd & _ & Hat & Hs & Hc).
    + constructor; [|constructor]. split; [constructor|simpl; lia].
    + constructor.
    + destruct maxn; simpl in *; auto.
    + simpl. pose proof (tree_size_mono (num_cand p) (k - 1 - 0) k ltac:(lia)) as [|E0]; [lia|].
      destruct Hw. lia.
    + rewrite E. simpl.
      assert (Hin : forall W, In W win -> seq_thiele_winner f p k W).
      { intros W HW. destruct (Hs W HW) as [[]|(s & [<-|[]] & Hr)].
        apply (seq_reach_iff f p k Hw Hf ltac:(lia) ltac:(lia)); auto. }
      apply answers_dfs; auto.
      * apply Forall_forall. intros W HW. apply Hin, seq_winner_committee in HW. apply HW.
      * intros Hx W HW. apply (Hc Hx [] W); [left; auto|].
        apply (seq_reach_iff f p k Hw Hf ltac:(lia) ltac:(lia)); auto.
Qed.
