(** * Branch and bound for Thiele methods is exact when marginals do not increase *)
From Coq Require Import List Arith Bool ZArith QArith Lia Lqa Permutation Sorted.
From Verif Require Import Prelude Misc MiscProofs Preferences Scores ScoresProofs Search Spec SpecRules RulesThiele Common ThieleProofs.
Import ListNotations.
Open Scope nat_scope.

(** ** The largest [n] entries *)

Lemma sorted_app_le : forall lo hi x y,
  StronglySorted (fun a b => Qle_bool a b = true) (lo ++ hi) -> In x lo -> In y hi -> (x <= y)%Q.
Proof.
  induction lo as [|a lo IH]; simpl; intros hi x y H Hx Hy; [destruct Hx|].
  inversion H; subst. destruct Hx as [<-|Hx].
  - rewrite Forall_forall in H3. assert (Qle_bool a y = true) by (apply H3, in_app_iff; auto). qbool. auto.
  - eapply IH; eauto.
Qed.

Lemma Qsum_top : forall a r lo hi, length a = length hi -> Permutation (a ++ r) (lo ++ hi) ->
  (forall x y, In x lo -> In y hi -> x <= y)%Q ->
  (Qsum a <= Qsum hi)%Q.
Proof.
  intros a r lo hi Hl Hp Hle.
  destruct hi as [|h hi'] eqn:Eh.
  { destruct a; [simpl; lra|discriminate]. }
  rewrite <- Eh in *.
  (* threshold: the smallest element of hi *)
  assert (Hm : exists th, In th hi /\ forall y, In y hi -> (th <= y)%Q).
  { rewrite Eh. exists (Qminl h hi'). destruct (Qminl_spec hi' h) as [A B]. split; auto. }
  destruct Hm as (th & Hth & Hmin).
  set (g := fun x : Q => (if Qle_bool th x then x - th else 0)%Q).
  assert (Hg : forall x, (0 <= g x)%Q).
  { intro x. unfold g. destruct (Qle_bool th x) eqn:E; qbool; lra. }
  assert (H1 : (Qsum a - Qnat (length a) * th <= Qsum (map g a))%Q).
  { clear -Hg. induction a as [|x a IH]; simpl; [change (Qnat 0) with 0%Q; lra|].
    rewrite Qnat_S. assert (x - th <= g x)%Q.
    { unfold g. destruct (Qle_bool th x) eqn:E; qbool; lra. }
    lra. }
  assert (H2 : (Qsum (map g a) <= Qsum (map g lo) + Qsum (map g hi))%Q).
  { rewrite <- Qsum_app, <- map_app, <- (Qsum_perm (map g (a ++ r)) (map g (lo ++ hi))).
    - rewrite map_app, Qsum_app. assert (0 <= Qsum (map g r))%Q by (apply Qsum_map_nonneg; auto). lra.
    - apply Permutation_map; auto. }
  assert (H3 : (Qsum (map g lo) == 0)%Q).
  { apply Qsum_map_zero. intros x Hx. unfold g. destruct (Qle_bool th x) eqn:E; [|reflexivity].
    qbool. specialize (Hle x th Hx Hth). lra. }
  assert (H4 : (Qsum (map g hi) == Qsum hi - Qnat (length hi) * th)%Q).
  { clear -Hmin. induction hi as [|x hi IH]; simpl; [change (Qnat 0) with 0%Q; lra|].
    rewrite IH by (intros; apply Hmin; right; auto). rewrite Qnat_S. unfold g.
    destruct (Qle_bool th x) eqn:E; qbool; [lra|]. specialize (Hmin x (or_introl eq_refl)). lra. }
  rewrite <- Hl in H4. lra.
Qed.

Lemma sublist_perm_app : forall (A:Type) (a l : list A), sublist a l -> exists r, Permutation (a ++ r) l.
Proof.
  induction 1.
  - exists l. auto.
  - destruct IHsublist as (r & Hr). exists r. simpl. constructor; auto.
  - destruct IHsublist as (r & Hr). exists (x :: r). rewrite <- Hr. symmetry. apply Permutation_middle.
Qed.

Lemma sum_largest_ge : forall a l n, sublist a l -> length a = n -> (Qsum a <= sum_largest n l)%Q.
Proof.
  intros a l n Hs Hn. unfold sum_largest. set (s := sort_by Qle_bool l).
  assert (Hls : length s = length l) by apply sort_by_length.
  pose proof (sublist_length _ _ _ Hs) as Hle.
  destruct (sublist_perm_app _ _ _ Hs) as (r & Hr).
  apply (Qsum_top a r (firstn (length s - n) s)).
  - rewrite skipn_length. lia.
  - rewrite firstn_skipn. rewrite Hr. apply sort_by_perm.
  - intros x y Hx Hy. eapply sorted_app_le; eauto. rewrite firstn_skipn.
    apply sort_by_sorted.
    + intros u w. destruct (Qge_total u w); auto.
    + intros u w z H1 H2. eapply Qge_trans; eauto.
Qed.

(** ** Submodularity *)
Section Sub.
  Variables (f : nat -> Q) (p : profile).
  Hypothesis Hw : wf p.
  Hypothesis Hf : forall i, (0 <= f i)%Q.
  Hypothesis Hd : forall i j, 1 <= i -> i <= j -> (f j <= f i)%Q.

  Lemma util_mono : forall v W W', incl W W' -> util v W <= util v W'.
  Proof using.
    intros v W W' Hi. unfold util, inter. induction (approved v) as [|c l IH]; simpl; auto.
    destruct (mem c W) eqn:E.
    - apply mem_In, Hi, mem_In in E. rewrite E. simpl. lia.
    - destruct (mem c W'); simpl; lia.
  Qed.

  Lemma gain_antitone : forall W W' c, incl W W' -> (gain f p W' c <= gain f p W c)%Q.
  Proof using Hw Hd.
    intros W W' c Hi. unfold gain. apply Qsum_map_le. intros v Hv. apply filter_In in Hv as [Hv _].
    destruct (wf_voter_in p v Hw Hv) as (_ & _ & Hp).
    apply (proj2 (Qmult_le_l _ _ _ Hp)). apply Hd; [lia|]. apply le_n_S, util_mono; auto.
  Qed.

  Lemma Thiele_extend : forall t W, NoDup (W ++ t) ->
    (Thiele f p (W ++ t) <= Thiele f p W + Qsum (map (gain f p W) t))%Q.
  Proof using Hw Hd.
    induction t as [|c t IH] using rev_ind; intros W Hn.
    - simpl. rewrite app_nil_r. lra.
    - rewrite app_assoc in Hn. assert (Hc : ~ In c (W ++ t)).
      { apply NoDup_rev in Hn. rewrite rev_app_distr in Hn. simpl in Hn. inversion Hn; subst.
        rewrite <- in_rev in H1. auto. }
      assert (Hn' : NoDup (W ++ t)).
      { clear -Hn. apply NoDup_rev in Hn. rewrite rev_app_distr in Hn. simpl in Hn. inversion Hn; subst.
        rewrite <- (rev_involutive (W ++ t)). apply NoDup_rev; auto. }
      specialize (IH W Hn'). rewrite map_app, Qsum_app. simpl.
      pose proof (gain_correct f p (W ++ t) c Hw Hc) as Hg.
      pose proof (gain_antitone W (W ++ t) c (incl_appl _ (incl_refl W))) as Ha.
      rewrite (Thiele_set_same f p (W ++ t ++ [c]) (c :: W ++ t)).
      + lra.
      + intro x. simpl. rewrite !in_app_iff. simpl. tauto.
  Qed.
End Sub.

(** ** Branch and bound *)
Definition prefix (part W : list nat) : Prop := exists t, W = part ++ t.

Lemma prefix_refl : forall W, prefix W W.
Proof. intros. exists []. rewrite app_nil_r. auto. Qed.

Lemma ascending_app_inv : forall a b, ascending (a ++ b) ->
  ascending a /\ ascending b /\ forall x y, In x a -> In y b -> x < y.
Proof.
  induction a as [|c a IH]; simpl; intros b H.
  - repeat split; auto; [constructor|intros ? ? []].
  - inversion H; subst. destruct (IH b H2) as (A & B & C). rewrite Forall_forall in H3.
    split; [constructor; auto; apply Forall_forall; intros; apply H3, in_app_iff; auto|].
    split; auto. intros x y [<-|Hx] Hy; auto. apply H3, in_app_iff; auto.
Qed.

Lemma ascending_app : forall a b, ascending a -> ascending b ->
  (forall x y, In x a -> In y b -> x < y) -> ascending (a ++ b).
Proof.
  induction a as [|c a IH]; simpl; intros b Ha Hb H; auto. inversion Ha; subst.
  constructor; [apply IH; auto|]. apply Forall_app. split; auto.
  apply Forall_forall. intros. apply H; auto.
Qed.

Definition firstcand (part : list nat) : nat := match rev part with [] => 0 | c :: _ => S c end.

Lemma firstcand_spec : forall part, ascending part ->
  (forall c, In c part -> c < firstcand part) /\
  (forall n, (forall c, In c part -> c < n) -> firstcand part <= n).
Proof.
  intros part. unfold firstcand. destruct part as [|x l] using rev_ind; intro Ha.
  - simpl. split; [intros ? []|lia].
  - rewrite rev_app_distr. simpl. apply ascending_app_inv in Ha as (A & B & C).
    split.
    + intros c Hc. apply in_app_iff in Hc as [Hc|[<-|[]]]; [|lia]. specialize (C c x Hc (or_introl eq_refl)). lia.
    + intros n H. apply H. apply in_app_iff. right. left. auto.
Qed.

(** an ascending list of length n starting at [a], all below [m], forces [a + n <= m] *)
Lemma ascending_room : forall l c m, ascending (c :: l) -> (forall x, In x (c :: l) -> x < m) ->
  c + S (length l) <= m.
Proof.
  induction l as [|d l IH]; intros c m Ha Hm.
  - simpl. specialize (Hm c (or_introl eq_refl)). lia.
  - inversion Ha; subst. specialize (IH d m H1 (fun x Hx => Hm x (or_intror Hx))).
    inversion H2; subst. simpl in *. lia.
Qed.

Section BB.
  Variables (f : nat -> Q) (p : profile) (k : nat).
  Hypothesis Hw : wf p.
  Hypothesis Hf : forall i, (0 <= f i)%Q.
  Hypothesis Hd : forall i j, 1 <= i -> i <= j -> (f j <= f i)%Q.
  Hypothesis Hk : k <= num_cand p.
  Let m := num_cand p.

  Definition part_ok (part : list nat) : Prop :=
    ascending part /\ length part <= k /\ Forall (fun c => c < num_cand p) part.

  Lemma bb_bound : forall part W, part_ok part -> is_committee p k W -> prefix part W ->
    (Thiele f p W <= bb_upper_bound f p k part)%Q.
  Proof using Hw Hf Hd Hk.
    intros part W (Ha & Hl & Hr) (HWa & HWl & HWr) (t & ->).
    unfold bb_upper_bound. fold (firstcand part).
    rewrite thiele_score_correct by (apply wf_nodup; auto).
    apply ascending_app_inv in HWa as HH. destruct HH as (_ & Hta & Hlt).
    assert (Hn : NoDup (part ++ t)) by (apply ascending_NoDup; auto).
    pose proof (Thiele_extend f p Hw Hd t part Hn) as HT.
    set (marg := marginal_thiele_scores_add f p part).
    assert (Hlen : length marg = num_cand p) by apply marg_add_length.
    assert (E1 : (Qsum (map (gain f p part) t) == Qsum (map (nthQ marg) t))%Q).
    { apply Qsum_map_ext. intros c Hc. unfold marg. rewrite marg_add_nth; auto.
      - assert (Hm : mem c part = false).
        { apply mem_false. intro Hp. specialize (Hlt c c Hp Hc). lia. }
        rewrite Hm. reflexivity.
      - rewrite Forall_forall in HWr. apply HWr, in_app_iff. auto. }
    assert (E2 : skipn (firstcand part) marg =
                 map (nthQ marg) (seq (firstcand part) (num_cand p - firstcand part))).
    { assert (G : forall (l : list Q) s, skipn s l = map (nthQ l) (seq s (length l - s))).
      { induction l as [|x l IH]; intros s.
        - destruct s; auto.
        - destruct s.
          + simpl. f_equal. rewrite <- seq_shift, map_map.
            specialize (IH 0). simpl in IH. rewrite Nat.sub_0_r in IH. rewrite IH at 1. apply map_ext. auto.
          + simpl. rewrite IH. rewrite <- seq_shift, map_map. apply map_ext. auto. }
      rewrite G, Hlen. auto. }
    assert (Hsub : sublist t (seq (firstcand part) (num_cand p - firstcand part))).
    { apply ascending_sublist; auto using ascending_seq. intros c Hc. apply in_seq.
      rewrite Forall_forall in HWr. assert (c < num_cand p) by (apply HWr, in_app_iff; auto).
      assert (firstcand part <= c); [|lia].
      apply firstcand_spec; auto. }
    rewrite app_length in HWl.
    assert (Hs : (Qsum (map (nthQ marg) t) <=
            sum_largest (k - length part) (skipn (firstcand part) marg))%Q).
    { apply sum_largest_ge; [|rewrite map_length; lia]. rewrite E2.
      clear -Hsub. induction Hsub; simpl; constructor; auto. }
    lra.
  Qed.

  Lemma bb_children_In : forall part s, In s (bb_children (num_cand p) k part) <->
    exists c, s = part ++ [c] /\ firstcand part <= c < num_cand p - (k - length part) + 1.
  Proof using Hk.
    intros. unfold bb_children. fold (firstcand part). rewrite in_map_iff.
    setoid_rewrite <- in_rev. setoid_rewrite in_seq. split.
    - intros (c & <- & Hc). exists c. split; auto. lia.
    - intros (c & -> & Hc). exists c. split; auto. lia.
  Qed.

  Lemma bb_children_ok : forall part s, part_ok part -> length part < k ->
    In s (bb_children (num_cand p) k part) -> part_ok s /\ length s = S (length part) /\ prefix part s.
  Proof using Hk.
    intros part s (Ha & Hl & Hr) Hlt Hs. apply bb_children_In in Hs as (c & -> & Hc).
    rewrite app_length. simpl. split; [|split; [lia|exists [c]; auto]].
    split; [|split].
    - apply ascending_app; auto; [repeat constructor|]. intros x y Hx [<-|[]].
      apply (proj1 (firstcand_spec part Ha)) in Hx. lia.
    - rewrite app_length. simpl. lia.
    - apply Forall_app. split; auto. constructor; auto. lia.
  Qed.

  Lemma bb_children_cover : forall part W, part_ok part -> length part < k -> is_committee p k W ->
    prefix part W -> exists s, In s (bb_children (num_cand p) k part) /\ prefix s W.
  Proof using Hk.
    intros part W (Ha & Hl & Hr) Hlt (HWa & HWl & HWr) (t & ->).
    rewrite app_length in HWl. destruct t as [|c t]; [simpl in HWl; lia|].
    exists (part ++ [c]). split.
    - apply bb_children_In. exists c. split; auto.
      apply ascending_app_inv in HWa as (_ & B & C). split.
      + apply firstcand_spec; auto. intros x Hx. apply C; auto. left; auto.
      + assert (c + S (length t) <= num_cand p).
        { apply ascending_room; auto. rewrite Forall_forall in HWr. intros x Hx. apply HWr, in_app_iff. auto. }
        simpl in HWl. lia.
    - exists t. rewrite <- app_assoc. auto.
  Qed.

  Definition disjoint (a b : list nat) : Prop := forall W, prefix a W -> prefix b W -> False.

  Lemma children_disjoint : forall part,
    ForallOrdPairs disjoint (bb_children (num_cand p) k part).
  Proof using.
    intro part. unfold bb_children. fold (firstcand part).
    set (l := rev _). assert (Hn : NoDup l) by (apply NoDup_rev, seq_NoDup).
    clearbody l. induction l as [|c l IH]; simpl; [constructor|]. inversion Hn; subst.
    constructor; auto. apply Forall_forall. intros s Hs. apply in_map_iff in Hs as (d & <- & Hdl).
    intros W (t & E1) (t' & E2). rewrite E1 in E2. rewrite <- !app_assoc in E2.
    apply app_inv_head in E2. simpl in E2. inversion E2; subst. auto.
  Qed.

  Lemma FOP_app : forall (A:Type) (R : A -> A -> Prop) a b,
    ForallOrdPairs R a -> ForallOrdPairs R b -> (forall x y, In x a -> In y b -> R x y) ->
    ForallOrdPairs R (a ++ b).
  Proof using.
    induction a; simpl; intros b Ha Hb H; auto. inversion Ha; subst. constructor; auto.
    apply Forall_app. split; auto. apply Forall_forall. intros. apply H; auto.
  Qed.

  Let cost (part : list nat) : nat := tree_size (num_cand p + 1) (k - length part).
  Definition bbcost (l : list (list nat)) : nat := fold_right (fun s n => cost s + n) 0 l.
  Lemma bbcost_app : forall a b, bbcost (a ++ b) = bbcost a + bbcost b.
  Proof using Hk. induction a; simpl; intros; auto. rewrite IHa. lia. Qed.

  Lemma bbcost_children : forall part, part_ok part -> length part < k ->
    S (bbcost (bb_children (num_cand p) k part)) <= cost part.
  Proof using Hk.
    intros part Hp Hlt.
    assert (H : forall l, (forall s, In s l -> length s = S (length part)) ->
              bbcost l = length l * tree_size (num_cand p + 1) (k - S (length part))).
    { induction l as [|s l IH]; simpl; intros H; auto. rewrite IH by auto. unfold cost. rewrite H by auto. auto. }
    rewrite H by (intros s Hs; apply (bb_children_ok part s Hp Hlt Hs)).
    unfold bb_children. rewrite map_length, rev_length, seq_length.
    unfold cost. replace (k - length part) with (S (k - S (length part))) by lia. simpl.
    apply le_n_S. apply Nat.mul_le_mono_r. lia.
  Qed.

  Variable O : list nat.
  Hypothesis HO : maximises (Thiele f p) p k O.

  Lemma bb_loop_spec : forall fuel stack best_coms best_score,
    Forall part_ok stack -> bbcost stack <= fuel ->
    (best_score <= Thiele f p O)%Q ->
    NoDup best_coms ->
    (forall W, In W best_coms -> is_committee p k W /\ (Thiele f p W == best_score)%Q) ->
    (forall W, maximises (Thiele f p) p k W -> In W best_coms \/ exists s, In s stack /\ prefix s W) ->
    ForallOrdPairs disjoint stack ->
    (forall W s, In W best_coms -> In s stack -> ~ prefix s W) ->
    exists res, bb_loop f p k fuel stack best_coms best_score = Ok res /\ NoDup res /\
      forall W, In W res <-> maximises (Thiele f p) p k W.
  Proof using Hw Hf Hd Hk HO.
    intros fuel. induction fuel as [|fuel IH]; intros stack best_coms best_score Hok Hcost Hle Hnd Hb Hc Hdis Hbd.
    - destruct stack as [|s st].
      2:{ simpl in Hcost. unfold cost in Hcost. pose proof (nodes_pos (num_cand p + 1) (k - length s)). lia. }
      exists best_coms. simpl. split; auto. split; auto. intro W. split.
      + intro HW. destruct (Hc O HO) as [HOin|(s & [] & _)].
        destruct (Hb W HW) as [HWc HWs]. destruct (Hb O HOin) as [_ HOs].
        split; auto. intros W' HW'. destruct HO as [_ HOm]. specialize (HOm W' HW'). lra.
      + intro HW. destruct (Hc W HW) as [|(s & [] & _)]; auto.
    - destruct stack as [|s st].
      { exists best_coms. simpl. split; auto. split; auto. intro W. split.
        + intro HW. destruct (Hc O HO) as [HOin|(s & [] & _)].
          destruct (Hb W HW) as [HWc HWs]. destruct (Hb O HOin) as [_ HOs].
          split; auto. intros W' HW'. destruct HO as [_ HOm]. specialize (HOm W' HW'). lra.
        + intro HW. destruct (Hc W HW) as [|(s & [] & _)]; auto. }
      inversion Hok as [|? ? Hs Hst]; subst. inversion Hdis as [|? ? Hsd Hdis']; subst.
      simpl in Hcost. pose proof (nodes_pos (num_cand p + 1) (k - length s)) as Hpos. fold (cost s) in Hpos.
      simpl. pose proof (wf_nodup p Hw) as Hwn.
      destruct (Nat.eqb_spec (length s) k) as [El|Nl].
      + assert (Hsc : is_committee p k s) by (destruct Hs as (A & B & C); repeat split; auto).
        assert (Hpre : forall W, is_committee p k W -> prefix s W -> W = s).
        { intros W (_ & HWl & _) (t & ->). rewrite app_length in HWl.
          destruct t; [rewrite app_nil_r; auto|simpl in HWl; lia]. }
        assert (Hns : ~ In s best_coms).
        { intro Hin. apply (Hbd s s Hin (or_introl eq_refl)). apply prefix_refl. }
        assert (Hsle : (Thiele f p s <= Thiele f p O)%Q) by (apply HO; auto).
        destruct (Qeq_bool (thiele_score f p s) best_score) eqn:E1;
          [|destruct (Qltb best_score (thiele_score f p s)) eqn:E2]; qbool;
          rewrite thiele_score_correct in * by auto.
        * apply IH; auto; try lia.
          -- apply NoDup_app_intro; auto; [repeat constructor; intros []|].
             intros x Hx [<-|[]]. auto.
          -- intros W HW. apply in_app_iff in HW as [HW|[<-|[]]]; auto.
          -- intros W HW. destruct (Hc W HW) as [HW'|(s' & [<-|Hs'] & Hp)].
             ++ left. apply in_app_iff. auto.
             ++ left. apply in_app_iff. right. left. symmetry. apply Hpre; auto. apply HW.
             ++ right. eauto.
          -- intros W s' HW Hs'. apply in_app_iff in HW as [HW|[<-|[]]].
             ++ apply Hbd; auto. right; auto.
             ++ intro Hp. rewrite Forall_forall in Hsd. apply (Hsd s' Hs' s); auto using prefix_refl.
        * apply IH; auto; try lia.
          -- rewrite thiele_score_correct by auto. auto.
          -- repeat constructor. intros [].
          -- intros W [<-|[]]. rewrite thiele_score_correct by auto. split; auto. reflexivity.
          -- intros W HW. destruct (Hc W HW) as [HW'|(s' & [<-|Hs'] & Hp)].
             ++ exfalso. destruct (Hb W HW') as [_ HWs]. destruct HW as [_ HWm].
                specialize (HWm s Hsc). lra.
             ++ left. left. symmetry. apply Hpre; auto. apply HW.
             ++ right. eauto.
          -- intros W s' [<-|[]] Hs' Hp. rewrite Forall_forall in Hsd.
             apply (Hsd s' Hs' s); auto using prefix_refl.
        * apply IH; auto; try lia.
          -- intros W HW. destruct (Hc W HW) as [HW'|(s' & [<-|Hs'] & Hp)]; auto.
             ++ exfalso. assert (W = s) by (apply Hpre; auto; apply HW). subst W.
                destruct HW as [_ HWm]. specialize (HWm O (proj1 HO)). apply E1.
                apply Qle_antisym; auto. eapply Qle_trans; eauto.
             ++ right. eauto.
          -- intros W s' HW Hs'. apply Hbd; auto. right; auto.
      + assert (Hlt : length s < k) by (destruct Hs as (_ & ? & _); lia).
        destruct (Qle_bool best_score (bb_upper_bound f p k s)) eqn:E; qbool.
        * pose proof (bbcost_children s Hs Hlt) as Hcc.
          apply IH; auto.
          -- apply Forall_app. split; auto. apply Forall_forall. intros s' Hs'.
             apply (bb_children_ok s s' Hs Hlt Hs').
          -- rewrite bbcost_app. lia.
          -- intros W HW. destruct (Hc W HW) as [HW'|(s' & [<-|Hs'] & Hp)]; auto.
             ++ right. destruct (bb_children_cover s W Hs Hlt (proj1 HW) Hp) as (s' & Hs' & Hp').
                exists s'. split; auto. apply in_app_iff; auto.
             ++ right. exists s'. split; auto. apply in_app_iff; auto.
          -- apply FOP_app; auto using children_disjoint. intros x y Hx Hy W Hpx Hpy.
             rewrite Forall_forall in Hsd. apply (Hsd y Hy W); auto.
             destruct (bb_children_ok s x Hs Hlt Hx) as (_ & _ & (t & ->)).
             destruct Hpx as (t' & ->). exists (t ++ t'). rewrite app_assoc. auto.
          -- intros W s' HW Hs' Hp. apply in_app_iff in Hs' as [Hs'|Hs'].
             ++ apply (Hbd W s HW (or_introl eq_refl)).
                destruct (bb_children_ok s s' Hs Hlt Hs') as (_ & _ & (t & ->)).
                destruct Hp as (t' & ->). exists (t ++ t'). rewrite app_assoc. auto.
             ++ apply (Hbd W s' HW (or_intror Hs')). auto.
        * apply IH; auto; try lia.
          -- intros W HW. destruct (Hc W HW) as [HW'|(s' & [<-|Hs'] & Hp)]; auto.
             ++ exfalso. pose proof (bb_bound s W Hs (proj1 HW) Hp) as Hub.
                destruct HW as [_ HWm]. specialize (HWm O (proj1 HO)). lra.
             ++ right. eauto.
          -- intros W s' HW Hs'. apply Hbd; auto. right; auto.
  Qed.
End BB.

Lemma max_exists : forall (score : list nat -> Q) p k, k <= num_cand p ->
  exists W, maximises score p k W.
Proof.
  intros score p k Hk.
  destruct (brute_all_props (fun s best => Qltb best s) Qeq_bool score
     (Qminl 0 (map score (combinations (candidates p) k)))
     (fun x y => Qle_bool y x) Qge_trans Qge_total Qbetter_eq Qsame_eq p k Hk) as (_ & _ & Hne).
  { intros c Hc. qbool. apply Qminl_spec. right. apply in_map; auto. }
  destruct (fst _) as [|W l] eqn:E; [congruence|]. exists W.
  assert (HW : In W (W :: l)) by (left; auto). rewrite <- E in HW.
  apply (brute_all_In _ _ _ _ (fun x y => Qle_bool y x) Qge_trans Qge_total Qbetter_eq Qsame_eq p k Hk) in HW.
  - destruct HW as [A B]. split; auto. intros W' HW'. specialize (B W' HW'). qbool. auto.
  - intros c Hc. qbool. apply Qminl_spec. right. apply in_map; auto.
Qed.

Theorem thiele_branchandbound_correct : forall f p k resolute maxn,
  wf p -> (forall i, 0 <= f i)%Q -> (forall i j, 1 <= i -> i <= j -> (f j <= f i)%Q) ->
  k <= num_cand p -> valid_max maxn ->
  answers (maximises (Thiele f p) p k) resolute maxn (thiele_branchandbound f p k resolute maxn).
Proof.
  intros f p k resolute maxn Hw Hf Hd Hk Hm. unfold thiele_branchandbound.
  destruct (seq_thiele_resolute_correct f p k Hw Hf Hk) as (L & -> & HL & Hlen). simpl.
  assert (Hc : is_committee p k (isort L)).
  { apply seq_winner_committee with (f := f). exists L. repeat split; auto. apply greedy_lex_greedy; auto. }
  destruct (max_exists (Thiele f p) p k Hk) as (O & HO).
  destruct (bb_loop_spec f p k Hw Hf Hd Hk O HO (tree_size (num_cand p + 1) (k + 1)) [[]] []
              (thiele_score f p (isort L))) as (res & E & Hnd & Hres).
  - repeat constructor; simpl; lia.
  - simpl. rewrite Nat.sub_0_r. destruct (tree_size_mono (num_cand p + 1) k (k + 1)); lia.
  - rewrite thiele_score_correct by (apply wf_nodup; auto). apply HO; auto.
  - constructor.
  - intros W [].
  - intros W HW. right. exists []. split; [left; auto|]. exists W. auto.
  - repeat constructor.
  - intros W s [].
  - cbn [Nat.add]. unfold Prelude.rbind at 1. fold (tree_size (num_cand p + 1) (k + 1)).
    rewrite E. simpl. apply (answers_finish _ resolute maxn res); auto.
    + apply Forall_forall. intros W HW. apply Hres in HW. apply HW.
    + intro En. assert (HI : In O res) by (apply Hres; auto). rewrite En in HI. destruct HI.
Qed.
