(** * Separable rules, lexcc, minimax AV, lexicographic minimax AV, trivial rule *)
From Coq Require Import List Arith Bool ZArith QArith Lia Lqa Permutation Sorted.
From Verif Require Import Prelude Misc MiscProofs Preferences Scores ScoresProofs Search Spec SpecRules RulesThiele Common ThieleProofs BBProofs.
Import ListNotations.
Open Scope nat_scope.

(** ** Separable rules *)

Definition committee_m (m k : nat) (W : list nat) : Prop :=
  ascending W /\ length W = k /\ Forall (fun c => c < m) W.

Definition sum_over (score : list Q) (W : list nat) : Q := Qsum (map (nthQ score) W).

Lemma filter_index : forall (P : Q -> bool) l,
  length (filter (fun c => P (nthQ l c)) (seq 0 (length l))) = length (filter P l).
Proof.
  intros P l. assert (H : forall l pre, length (filter (fun c => P (nthQ (pre ++ l) c)) (seq (length pre) (length l)))
                            = length (filter P l)).
  { induction l0 as [|x l0 IH]; intros pre; simpl; auto.
    assert (E : nthQ (pre ++ x :: l0) (length pre) = x).
    { unfold nthQ. rewrite app_nth2, Nat.sub_diag; auto. }
    rewrite E. specialize (IH (pre ++ [x])). rewrite <- app_assoc in IH. simpl in IH.
    rewrite app_length in IH. simpl in IH. rewrite Nat.add_1_r in IH.
    destruct (P x); simpl; rewrite IH; auto. }
  apply (H l []).
Qed.

Lemma Qsum_mem : forall g W m, NoDup W -> Forall (fun c => c < m) W ->
  (Qsum (map g W) == Qsum (map (fun c => if mem c W then g c else 0) (seq 0 m)))%Q.
Proof.
  intros g W m Hn Hr. rewrite <- (Qsum_filter _ g (fun c => mem c W)).
  apply Qsum_perm, Permutation_map. apply NoDup_Permutation; auto.
  - apply NoDup_filter, seq_NoDup.
  - intro c. rewrite filter_In, in_seq, mem_In. rewrite Forall_forall in Hr. split.
    + intro H. specialize (Hr c H). split; [lia|auto].
    + tauto.
Qed.

Section Sep.
  Variables (score : list Q) (k : nat).
  Let m := length score.
  Hypothesis Hk : 1 <= k <= length score.
  Variable cutoff : Q.
  Hypothesis Hcut : nth_error (sort_by Qle_bool score) (length score - k) = Some cutoff.
  Let certain := filter (fun c => Qltb cutoff (nthQ score c)) (seq 0 m).
  Let possible := filter (fun c => Qeq_bool (nthQ score c) cutoff) (seq 0 m).
  Let g (c : nat) : Q := (nthQ score c - cutoff)%Q.

  Lemma sort_split : exists lo hi, sort_by Qle_bool score = lo ++ cutoff :: hi /\
    length lo = m - k /\ length hi = k - 1 /\
    (forall x, In x lo -> x <= cutoff)%Q /\ (forall x, In x hi -> cutoff <= x)%Q.
  Proof using Hcut Hk.
    destruct (nth_error_split _ _ Hcut) as (lo & hi & E & Hl). exists lo, hi. split; auto. split; auto.
    assert (HS : StronglySorted (fun a b => Qle_bool a b = true) (sort_by Qle_bool score)).
    { apply sort_by_sorted.
      - intros u w. destruct (Qge_total u w); auto.
      - intros u w z H1 H2. eapply Qge_trans; eauto. }
    assert (HL : length (sort_by Qle_bool score) = m) by apply sort_by_length.
    rewrite E in HL, HS. rewrite app_length in HL. simpl in HL. split; [unfold m in *; lia|]. split.
    - intros x Hx. eapply sorted_app_le; eauto. left; auto.
    - intros x Hx. replace (lo ++ cutoff :: hi) with ((lo ++ [cutoff]) ++ hi) in HS by (rewrite <- app_assoc; auto).
      eapply sorted_app_le; eauto. apply in_app_iff. right; left; auto.
  Qed.

  Lemma certain_few : length certain < k.
  Proof using Hcut Hk.
    destruct sort_split as (lo & hi & E & H1 & H2 & H3 & H4).
    unfold certain, m. rewrite (filter_index (fun x => Qltb cutoff x) score).
    rewrite (Permutation_length (Permutation_filter _ _ _ _ (sort_by_perm _ Qle_bool score))), E.
    rewrite filter_app. simpl.
    assert (E1 : filter (fun x => Qltb cutoff x) lo = []).
    { clear -H3. induction lo; simpl; auto. rewrite IHlo by (intros; apply H3; right; auto).
      destruct (Qltb cutoff a) eqn:E; auto. qbool. specialize (H3 a (or_introl eq_refl)). lra. }
    rewrite E1. destruct (Qltb cutoff cutoff) eqn:E2; [qbool; lra|]. simpl.
    pose proof (sublist_length _ _ _ (filter_sublist _ (fun x => Qltb cutoff x) hi)). lia.
  Qed.

  Lemma enough : k <= length certain + length possible.
  Proof using Hcut Hk.
    destruct sort_split as (lo & hi & E & H1 & H2 & H3 & H4).
    unfold certain, possible, m. rewrite (filter_index (fun x => Qltb cutoff x) score).
    rewrite (filter_index (fun x => Qeq_bool x cutoff) score).
    rewrite (Permutation_length (Permutation_filter _ (fun x => Qltb cutoff x) _ _ (sort_by_perm _ Qle_bool score))).
    rewrite (Permutation_length (Permutation_filter _ (fun x => Qeq_bool x cutoff) _ _ (sort_by_perm _ Qle_bool score))).
    rewrite E, !filter_app, !app_length.
    assert (G : forall l, (forall x, In x l -> cutoff <= x)%Q ->
      length l <= length (filter (fun x => Qltb cutoff x) l) + length (filter (fun x => Qeq_bool x cutoff) l)).
    { induction l as [|x l IH]; simpl; intros H; auto.
      specialize (IH (fun y Hy => H y (or_intror Hy))). specialize (H x (or_introl eq_refl)).
      destruct (Qltb cutoff x) eqn:Ea, (Qeq_bool x cutoff) eqn:Eb; simpl; try lia.
      qbool. exfalso. apply Eb. apply Qle_antisym; auto. }
    specialize (G (cutoff :: hi)). change (length (cutoff :: hi)) with (S (length hi)) in G.
    assert (forall x, In x (cutoff :: hi) -> (cutoff <= x)%Q).
    { intros x [<-|Hx]; [apply Qle_refl|auto]. }
    specialize (G H). lia.
  Qed.

  Lemma sum_over_shift : forall W, (sum_over score W == Qnat (length W) * cutoff + Qsum (map g W))%Q.
  Proof using Hk Hcut.
    intro W. unfold sum_over, g. induction W as [|c W IH]; simpl; [change (Qnat 0) with 0%Q; ring|].
    rewrite IH, Qnat_S. ring.
  Qed.

  Lemma certain_In : forall c, In c certain <-> c < m /\ (cutoff < nthQ score c)%Q.
  Proof using Hk Hcut.
    intro c. unfold certain. rewrite filter_In, in_seq, Qltb_lt. split; intros []; split; auto; lia.
  Qed.
  Lemma possible_In : forall c, In c possible <-> c < m /\ (nthQ score c == cutoff)%Q.
  Proof using Hk Hcut.
    intro c. unfold possible. rewrite filter_In, in_seq, Qeq_bool_iff. split; intros []; split; auto; lia.
  Qed.

  Lemma certain_range : Forall (fun c => c < m) certain.
  Proof using Hk Hcut. apply Forall_forall. intros c Hc. apply certain_In in Hc. tauto. Qed.

  Lemma gsum_le : forall W, NoDup W -> Forall (fun c => c < m) W ->
    (Qsum (map g W) <= Qsum (map g certain))%Q /\
    ((Qsum (map g W) == Qsum (map g certain))%Q -> incl certain W /\ incl W (certain ++ possible)).
  Proof using Hk Hcut.
    intros W Hn Hr. assert (Hnc : NoDup certain) by (apply NoDup_filter, seq_NoDup).
    rewrite (Qsum_mem g W m Hn Hr), (Qsum_mem g certain m Hnc certain_range).
    assert (Hle : forall c, In c (seq 0 m) ->
      ((if mem c W then g c else 0) <= (if mem c certain then g c else 0))%Q).
    { intros c Hc. apply in_seq in Hc. destruct (mem c certain) eqn:Ec.
      - apply mem_In, certain_In in Ec. unfold g. destruct (mem c W); lra.
      - apply mem_false in Ec. rewrite certain_In in Ec. unfold g. destruct (mem c W); [|lra].
        destruct (Qlt_le_dec cutoff (nthQ score c)); [exfalso; apply Ec; split; auto; lia|lra]. }
    split; [apply Qsum_map_le; auto|]. intro Eq.
    assert (Heq : forall c, c < m -> ~ ((if mem c W then g c else 0) < (if mem c certain then g c else 0))%Q).
    { intros c Hc Hlt. assert (Hs : (Qsum (map (fun c => if mem c W then g c else 0) (seq 0 m)) <
            Qsum (map (fun c => if mem c certain then g c else 0) (seq 0 m)))%Q).
      { apply Qsum_map_lt; auto. exists c. split; [apply in_seq; lia|auto]. }
      lra. }
    split.
    - intros c Hc. apply certain_In in Hc as Hc'. specialize (Heq c (proj1 Hc')).
      destruct (mem c W) eqn:E; [apply mem_In; auto|]. exfalso. apply Heq.
      apply mem_In in Hc. rewrite Hc. unfold g. lra.
    - intros c Hc. rewrite Forall_forall in Hr. specialize (Hr c Hc). specialize (Heq c Hr).
      apply in_app_iff. rewrite certain_In, possible_In. apply mem_In in Hc. rewrite Hc in Heq.
      destruct (mem c certain) eqn:E; [apply mem_In, certain_In in E; auto|].
      apply mem_false in E. rewrite certain_In in E. unfold g in Heq.
      destruct (Qlt_le_dec cutoff (nthQ score c)); [tauto|].
      destruct (Qlt_le_dec (nthQ score c) cutoff); [exfalso; apply Heq; lra|].
      right. split; auto. apply Qle_antisym; auto.
  Qed.

  Lemma gsum_eq : forall W, NoDup W -> incl certain W -> incl W (certain ++ possible) ->
    (Qsum (map g W) == Qsum (map g certain))%Q.
  Proof using Hk Hcut.
    intros W Hn Hi1 Hi2. assert (Hnc : NoDup certain) by (apply NoDup_filter, seq_NoDup).
    assert (Hr : Forall (fun c => c < m) W).
    { apply Forall_forall. intros c Hc. apply Hi2, in_app_iff in Hc. rewrite certain_In, possible_In in Hc. tauto. }
    rewrite (Qsum_mem g W m Hn Hr), (Qsum_mem g certain m Hnc certain_range).
    apply Qsum_map_ext. intros c _. destruct (mem c W) eqn:E, (mem c certain) eqn:Ec; try reflexivity.
    - apply mem_In, Hi2, in_app_iff in E. apply mem_false in Ec. destruct E as [E|E]; [tauto|].
      apply possible_In in E as [_ E]. unfold g. rewrite E. ring.
    - apply mem_In, Hi1, mem_In in Ec. congruence.
  Qed.

  Let missing := k - length certain.

  Lemma certain_asc : ascending certain. Proof using Hk Hcut. apply ascending_filter, ascending_seq. Qed.
  Lemma possible_asc : ascending possible. Proof using Hk Hcut. apply ascending_filter, ascending_seq. Qed.
  Lemma cp_disj : forall c, In c certain -> In c possible -> False.
  Proof using Hk Hcut. intros c H1 H2. apply certain_In in H1 as [_ H1]. apply possible_In in H2 as [_ H2]. lra. Qed.

  Lemma combo_nodup : forall s, sublist s possible -> NoDup (certain ++ s).
  Proof using Hk Hcut.
    intros s Hs. apply NoDup_app_intro.
    - apply ascending_NoDup, certain_asc.
    - eapply sublist_NoDup; eauto. apply ascending_NoDup, possible_asc.
    - intros c H1 H2. eapply cp_disj; eauto. eapply sublist_incl; eauto.
  Qed.

  Lemma combo_committee : forall s, In s (combinations possible missing) ->
    committee_m m k (isort (certain ++ s)) /\ incl certain (isort (certain ++ s)) /\
    incl (isort (certain ++ s)) (certain ++ possible).
  Proof using Hcut Hk.
    intros s Hs. apply combinations_sublist in Hs as [Hs Hl].
    pose proof certain_few as Hcf. split; [split; [|split]|split].
    - apply isort_ascending, combo_nodup; auto.
    - rewrite isort_length, app_length. unfold missing in Hl. lia.
    - apply Forall_forall. intros c Hc. apply isort_In, in_app_iff in Hc.
      destruct Hc as [Hc|Hc]; [apply certain_In in Hc; tauto|].
      apply (sublist_incl _ _ _ Hs), possible_In in Hc. tauto.
    - intros c Hc. apply isort_In, in_app_iff. auto.
    - intros c Hc. apply isort_In, in_app_iff in Hc. apply in_app_iff.
      destruct Hc as [Hc|Hc]; auto. right. eapply sublist_incl; eauto.
  Qed.

  Lemma sep_exists_combo : exists s, In s (combinations possible missing).
  Proof using Hcut Hk.
    exists (firstn missing possible). apply combinations_sublist. split.
    - assert (F : forall (l : list nat) n, sublist (firstn n l) l).
      { induction l; destruct n; simpl; constructor; auto. }
      apply F.
    - rewrite firstn_length. pose proof enough. pose proof certain_few. unfold missing. lia.
  Qed.

  Definition sep_max (W : list nat) : Prop :=
    committee_m m k W /\ forall W', committee_m m k W' -> (sum_over score W' <= sum_over score W)%Q.

  Lemma sep_max_iff : forall W, sep_max W <->
    exists s, In s (combinations possible missing) /\ W = isort (certain ++ s).
  Proof using Hcut Hk.
    intro W. split.
    - intros [(Ha & Hl & Hr) Hm].
      destruct sep_exists_combo as (s0 & Hs0). destruct (combo_committee s0 Hs0) as ((A & B & C) & D & E).
      specialize (Hm _ (conj A (conj B C))). rewrite !sum_over_shift, B, Hl in Hm.
      assert (E0 := gsum_eq _ (ascending_NoDup _ A) D E).
      destruct (gsum_le W (ascending_NoDup _ Ha) Hr) as [Hle Heq].
      destruct Heq as [Hi1 Hi2].
      { apply Qle_antisym; auto. rewrite <- E0. lra. }
      set (s := filter (fun c => mem c W) possible). exists s.
      assert (HW : W = isort (certain ++ s)).
      { apply ascending_ext; auto; [apply isort_ascending, combo_nodup, filter_sublist|].
        intro c. rewrite isort_In, in_app_iff. unfold s. rewrite filter_In, mem_In. split.
        - intro Hc. specialize (Hi2 c Hc). apply in_app_iff in Hi2. tauto.
        - intros [Hc|[_ Hc]]; auto. }
      split; auto. apply combinations_sublist. split; [apply filter_sublist|].
      rewrite HW, isort_length, app_length in Hl. unfold missing. lia.
    - intros (s & Hs & ->). destruct (combo_committee s Hs) as ((A & B & C) & D & E).
      split; [split; [|split]; auto|]. intros W' (A' & B' & C').
      rewrite !sum_over_shift, B, B'. rewrite (gsum_eq _ (ascending_NoDup _ A) D E).
      destruct (gsum_le W' (ascending_NoDup _ A') C') as [Hle _]. lra.
  Qed.

  Lemma combos_isort_NoDup : NoDup (map (fun s => isort (certain ++ s)) (combinations possible missing)).
  Proof using Hcut Hk.
    assert (Hnp : NoDup possible) by (apply ascending_NoDup, possible_asc).
    apply NoDup_map_inj; [|apply combinations_NoDup; exact Hnp].
    intros s t Hs Ht E. apply combinations_sublist in Hs as [Hs _]. apply combinations_sublist in Ht as [Ht _].
    apply ascending_ext.
    - eapply sublist_ascending; eauto using possible_asc.
    - eapply sublist_ascending; eauto using possible_asc.
    - assert (G : forall u w x, sublist u possible -> isort (certain ++ u) = isort (certain ++ w) -> In x u -> In x w).
      { intros u w x Hu Eu Hx. assert (Hi : In x (isort (certain ++ w))).
        { rewrite <- Eu. apply isort_In, in_app_iff; auto. }
        apply isort_In, in_app_iff in Hi as [Hi|Hi]; auto. exfalso. eapply cp_disj; eauto. eapply sublist_incl; eauto. }
      intro x. split; [apply (G s t)|apply (G t s)]; auto.
  Qed.

  Lemma cut_map : forall (A : Type) maxn (h : A -> list nat) l, cut maxn (map h l) = 
    map h (match maxn with None => l | Some n => firstn n l end).
  Proof using Hk Hcut. intros. destruct maxn; simpl; auto. apply firstn_map. Qed.

  Lemma sep_core : forall resolute maxn, valid_max maxn ->
    answers sep_max resolute maxn
      (if resolute then sorted_committees [certain ++ firstn missing possible]
       else sorted_committees (cut maxn (map (fun s => certain ++ s) (combinations possible missing)))).
  Proof using Hcut Hk.
    intros resolute maxn Hm. destruct resolute.
    - assert (Hs : In (firstn missing possible) (combinations possible missing)).
      { apply combinations_sublist. split.
        - assert (F : forall (l : list nat) n, sublist (firstn n l) l).
          { induction l; destruct n; simpl; constructor; auto. }
          apply F.
        - rewrite firstn_length. pose proof enough. pose proof certain_few. unfold missing. lia. }
      rewrite sorted_committees_ok.
      + simpl. apply answers_resolute_one. apply sep_max_iff. eauto.
      + constructor; auto. apply combo_nodup. apply combinations_sublist in Hs. apply Hs.
    - set (L := match maxn with None => combinations possible missing | Some n => firstn n (combinations possible missing) end).
      assert (HL : forall s, In s L -> In s (combinations possible missing)).
      { intros s Hs. unfold L in Hs. destruct maxn; auto. eapply firstn_In; eauto. }
      rewrite cut_map. fold L. rewrite sorted_committees_ok.
      2:{ apply Forall_forall. intros x Hx. apply in_map_iff in Hx as (s & <- & Hs). apply combo_nodup.
          apply HL, combinations_sublist in Hs. apply Hs. }
      rewrite map_map. set (cs := map (fun s => isort (certain ++ s)) L).
      exists (sort_by committee_leb cs). split; auto. split; [|split; [apply sort_printed|split]].
      + eapply Permutation_NoDup; [apply sort_by_perm|]. unfold cs, L.
        pose proof combos_isort_NoDup as H. destruct maxn; auto. rewrite <- firstn_map. apply NoDup_firstn; auto.
      + intros W HW. apply sort_by_In in HW. unfold cs in HW. apply in_map_iff in HW as (s & <- & Hs).
        apply sep_max_iff. eauto.
      + destruct maxn as [n|].
        * rewrite sort_by_length. unfold cs. rewrite map_length. unfold L. rewrite firstn_length.
          split; [lia|]. intros Hl W HW. apply sep_max_iff in HW as (s & Hs & ->).
          apply sort_by_In. unfold cs, L. apply in_map_iff. exists s. split; auto.
          rewrite firstn_all2 by lia. auto.
        * intros W HW. apply sep_max_iff in HW as (s & Hs & ->). apply sort_by_In. unfold cs, L.
          apply in_map_iff. eauto.
  Qed.
End Sep.

Lemma combos_full : forall (A:Type) (l : list A), combinations l (length l) = [l].
Proof.
  induction l as [|x l IH]; simpl; auto. rewrite IH. simpl.
  assert (E : combinations l (S (length l)) = []).
  { destruct (combinations l (S (length l))) as [|c r] eqn:E; auto.
    assert (H : In c (combinations l (S (length l)))) by (rewrite E; left; auto).
    apply combinations_sublist in H as [H1 H2]. apply sublist_length in H1. lia. }
  rewrite E. auto.
Qed.

Theorem separable_from_scores_correct : forall score k resolute maxn,
  1 <= k <= length score -> valid_max maxn ->
  answers (fun W => committee_m (length score) k W /\
             forall W', committee_m (length score) k W' -> (sum_over score W' <= sum_over score W)%Q)
          resolute maxn (separable_from_scores score (length score) k resolute maxn).
Proof.
  intros score k resolute maxn Hk Hm. unfold separable_from_scores, kth_largest.
  destruct (Nat.ltb_spec (length score) k) as [Hlt|_]; [lia|].
  destruct (nth_error (sort_by Qle_bool score) (length score - k)) as [cutoff|] eqn:E.
  2:{ apply nth_error_None in E. rewrite sort_by_length in E. lia. }
  pose proof (sep_core score k Hk cutoff E resolute maxn Hm) as H.
  pose proof (combo_nodup score k Hk cutoff E _ (sublist_refl _ _)) as Hn.
  pose proof (certain_few score k Hk cutoff E) as Hcf.
  set (certain := filter (fun c => Qltb cutoff (nthQ score c)) (seq 0 (length score))) in *.
  set (possible := filter (fun c => Qeq_bool (nthQ score c) cutoff) (seq 0 (length score))) in *.
  destruct (Nat.eqb_spec (length possible) (k - length certain)) as [El|Nl]; auto.
  rewrite <- El in H. rewrite combos_full, firstn_all in H.
  assert (E2 : sorted_committees [isort (certain ++ possible)] = sorted_committees [certain ++ possible]).
  { rewrite !sorted_committees_ok; try (constructor; auto).
    - simpl. rewrite (isort_id (isort (certain ++ possible))); auto. apply isort_ascending; auto.
    - apply ascending_NoDup, isort_ascending; auto. }
  destruct resolute.
  - simpl. rewrite app_nil_r. rewrite E2. auto.
  - rewrite combinations_nil0. cbn [map] in *. rewrite app_nil_r.
    replace (cut maxn [isort (certain ++ possible)]) with [isort (certain ++ possible)]
      by (destruct maxn as [[|n]|]; simpl in *; auto; [lia|]; destruct n; auto).
    replace (cut maxn [certain ++ possible]) with [certain ++ possible] in H
      by (destruct maxn as [[|n]|]; simpl in *; auto; [lia|]; destruct n; auto).
    rewrite E2. auto.
Qed.

(** candidate's score under a separable rule *)
Definition sep_support (r : separable) (p : profile) (c : nat) : Q :=
  match r with SepAV => support p c | SepSAV => sav_support p c end.

Lemma sep_scores_length : forall r p, length (sep_scores r p) = num_cand p.
Proof.
  intros. unfold sep_scores.
  fold (accumulate (sep_value r) (voters p) (repeat 0%Q (num_cand p))).
  rewrite accumulate_length, repeat_length. auto.
Qed.

Lemma sep_scores_nth : forall r p c, wf p -> c < num_cand p ->
  (nthQ (sep_scores r p) c == sep_support r p c)%Q.
Proof.
  intros r p c Hw Hc. unfold sep_scores.
  fold (accumulate (sep_value r) (voters p) (repeat 0%Q (num_cand p))).
  rewrite accumulate_nth; [|apply wf_nodup; auto|rewrite repeat_length; auto].
  rewrite nthQ_repeat0, Qplus_0_l. destruct r; reflexivity.
Qed.

Lemma answers_ext : forall (P P' : list nat -> Prop) resolute maxn r,
  (forall W, P W <-> P' W) -> answers P resolute maxn r -> answers P' resolute maxn r.
Proof.
  intros P P' resolute maxn r H (l & E & A & B & C & D). exists l. split; auto. split; auto. split; auto.
  split; [intros; apply H; auto|]. destruct resolute; auto. destruct maxn.
  - destruct D as [D1 D2]. split; auto. intros Hl W HW. apply D2; auto. apply H; auto.
  - intros W HW. apply D, H; auto.
Qed.

Theorem separable_rule_correct : forall r p k resolute maxn,
  wf p -> 1 <= k <= num_cand p -> valid_max maxn ->
  answers (maximises (fun W => Qsum (map (sep_support r p) W)) p k) resolute maxn
          (separable_rule r p k resolute maxn).
Proof.
  intros r p k resolute maxn Hw Hk Hm. unfold separable_rule.
  pose proof (separable_from_scores_correct (sep_scores r p) k resolute maxn) as H.
  rewrite sep_scores_length in H. specialize (H Hk Hm).
  eapply answers_ext; [|exact H].
  assert (G : forall W, committee_m (num_cand p) k W ->
            (sum_over (sep_scores r p) W == Qsum (map (sep_support r p) W))%Q).
  { intros W (_ & _ & Hr). apply Qsum_map_ext. intros c Hc. apply sep_scores_nth; auto.
    rewrite Forall_forall in Hr; auto. }
  intro W. unfold maximises. change (is_committee p k) with (committee_m (num_cand p) k).
  split; intros [H1 H2]; split; auto; intros W' HW'; specialize (H2 W' HW'); rewrite !G in *; auto.
Qed.

(** ** scans whose comparison only makes sense on well-formed scores *)

Lemma scan_ext : forall (S : Type) (ok : S -> Prop) (b s b' s' : S -> S -> bool) score kt init cs,
  (forall x y, ok x -> ok y -> b x y = b' x y /\ s x y = s' x y) ->
  ok init -> (forall c, In c cs -> ok (score c)) ->
  scan b s score kt init cs = scan b' s' score kt init cs.
Proof.
  intros S ok b s b' s' score kt init cs Hx. unfold scan. generalize (@nil (list nat)) as opt.
  revert init. induction cs as [|c cs IH]; intros init opt Hi Hc; cbn [fold_left]; auto.
  assert (Hok : ok (score c)) by (apply Hc; left; auto).
  destruct (Hx (score c) init Hok Hi) as [E1 E2].
  assert (Hc' : forall x, In x cs -> ok (score x)) by (intros; apply Hc; right; auto).
  assert (E : scan_step b s score kt (opt, init) c = scan_step b' s' score kt (opt, init) c).
  { unfold scan_step. rewrite E1, E2. auto. }
  rewrite E. clear E. cbn [scan_step].
  destruct (b' (score c) init); [apply IH; auto|].
  destruct (s' (score c) init); auto. destruct kt; auto.
Qed.

(** ** lexcc *)

Definition pad (k : nat) (x : list Q) : list Q := map (nthQ x) (seq 0 k).
Lemma pad_id : forall x, pad (length x) x = x.
Proof.
  intro x. unfold pad. induction x as [|a x IH]; simpl; auto. f_equal.
  rewrite <- seq_shift, map_map. exact IH.
Qed.

Definition lexQ_ge (x y : list Q) : bool := match lex_compare y x with LexLess => false | _ => true end.

Lemma lex_sym : forall x y, 
  (lex_compare x y = LexLess <-> lex_compare y x = LexGreater) /\
  (lex_compare x y = LexEqual <-> lex_compare y x = LexEqual).
Proof.
  induction x as [|a x IH]; intros [|b y]; simpl; try (split; split; congruence).
  destruct (Qltb b a) eqn:E1, (Qltb a b) eqn:E2; try (split; split; congruence); auto.
  qbool. lra.
Qed.

Lemma lexQ_trans : forall x y z, length x = length y -> length y = length z ->
  lexQ_ge x y = true -> lexQ_ge y z = true -> lexQ_ge x z = true.
Proof.
  unfold lexQ_ge. induction x as [|a x IH]; intros [|b y] [|c z] H1 H2; simpl in *; try discriminate; auto.
  destruct (Qltb a b) eqn:E1; [discriminate|]. destruct (Qltb b c) eqn:E2; [discriminate|].
  destruct (Qltb a c) eqn:E3; [qbool; lra|].
  destruct (Qltb b a) eqn:E4; [|destruct (Qltb c b) eqn:E5]; intros;
    destruct (Qltb c a) eqn:E6; auto; try (qbool; lra).
  apply (IH y z); auto.
Qed.

Lemma lexQ_total : forall x y, lexQ_ge x y = true \/ lexQ_ge y x = true.
Proof.
  intros x y. unfold lexQ_ge. destruct (lex_compare y x) eqn:E; auto. right.
  apply lex_sym in E. rewrite E. auto.
Qed.

Definition lexgeb (k : nat) (x y : list Q) : bool := lexQ_ge (pad k x) (pad k y).
Lemma pad_length : forall k x, length (pad k x) = k.
Proof. intros. unfold pad. rewrite map_length, seq_length. auto. Qed.
Lemma lexgeb_trans : forall k x y z, lexgeb k x y = true -> lexgeb k y z = true -> lexgeb k x z = true.
Proof. intros. unfold lexgeb in *. apply (lexQ_trans _ (pad k y)); auto; rewrite !pad_length; auto. Qed.
Lemma lexgeb_total : forall k x y, lexgeb k x y = true \/ lexgeb k y x = true.
Proof. intros. apply lexQ_total. Qed.

Lemma lex_compare_spec : forall y x, length x = length y ->
  (lexQ_ge x y = true <->
   (forall i, i < length x -> (nthQ x i == nthQ y i)%Q) \/
   exists i, i < length x /\ (nthQ y i < nthQ x i)%Q /\ forall j, j < i -> (nthQ x j == nthQ y j)%Q).
Proof.
  unfold lexQ_ge. induction y as [|b y IH]; intros [|a x] Hl; simpl in *; try discriminate.
  - split; auto. intros _. left. intros; lia.
  - destruct (Qltb a b) eqn:E1; [|destruct (Qltb b a) eqn:E2]; qbool.
    + split; [discriminate|]. intros [H|(i & Hi & H1 & H2)].
      * specialize (H 0 ltac:(lia)). unfold nthQ in H. simpl in H. lra.
      * destruct i; [unfold nthQ in H1; simpl in H1; lra|]. specialize (H2 0 ltac:(lia)).
        unfold nthQ in H2. simpl in H2. lra.
    + split; auto. intros _. right. exists 0. split; [lia|]. split; [unfold nthQ; simpl; auto|intros; lia].
    + rewrite IH by lia. assert (Eab : (a == b)%Q) by (apply Qle_antisym; auto). split.
      * intros [H|(i & Hi & H1 & H2)].
        -- left. intros [|i] Hi; [exact Eab|]. apply (H i). lia.
        -- right. exists (S i). split; [lia|]. split; [exact H1|]. intros [|j] Hj; [exact Eab|]. apply (H2 j). lia.
      * intros [H|(i & Hi & H1 & H2)].
        -- left. intros i Hi. apply (H (S i)). lia.
        -- right. destruct i; [unfold nthQ in H1; simpl in H1; lra|]. exists i. split; [lia|]. split; [exact H1|].
           intros j Hj. apply (H2 (S j)). lia.
Qed.

Lemma atleast_sum : forall ell n, 1 <= ell ->
  (Qsum (map (marginal (AtLeast (Z.of_nat ell))) (seq 1 n)) == if ell <=? n then 1 else 0)%Q.
Proof.
  intros ell n Hl. induction n as [|n IH].
  - simpl. destruct (Nat.leb_spec ell 0); [lia|]. reflexivity.
  - rewrite seq_snoc, map_app, Qsum_app, IH. cbn [map Qsum fold_right].
    unfold marginal. destruct (Z.eqb_spec (Z.of_nat (1 + n)) (Z.of_nat ell)), (Nat.leb_spec ell n), (Nat.leb_spec ell (S n));
      try lia; ring.
Qed.

Lemma lexcc_entry : forall p W ell, wf p -> 1 <= ell ->
  (thiele_score (marginal (AtLeast (Z.of_nat ell))) p W == at_least_weight p W ell)%Q.
Proof.
  intros p W ell Hw Hl. rewrite thiele_score_correct by (apply wf_nodup; auto).
  unfold Thiele, at_least_weight, wsum. rewrite (Qsum_filter _ weight (fun v => ell <=? util v W)).
  apply Qsum_map_ext. intros v _. rewrite atleast_sum by auto. destruct (ell <=? util v W); ring.
Qed.

Lemma lexcc_vector_length : forall p k W, length (lexcc_vector p k W) = k.
Proof. intros. unfold lexcc_vector. rewrite map_length, seq_length. auto. Qed.

Lemma lexcc_vector_nth : forall p k W i, wf p -> i < k ->
  (nthQ (lexcc_vector p k W) i == at_least_weight p W (S i))%Q.
Proof.
  intros p k W i Hw Hi. unfold nthQ, lexcc_vector.
  rewrite nth_indep with (d' := thiele_score (marginal (AtLeast (Z.of_nat 0))) p W)
    by (rewrite map_length, seq_length; auto).
  rewrite (map_nth (fun ell => thiele_score (marginal (AtLeast (Z.of_nat ell))) p W) (seq 1 k) 0 i).
  rewrite seq_nth by auto. rewrite lexcc_entry by (auto; lia). reflexivity.
Qed.

Lemma lexgeb_vectors : forall p k W W', wf p ->
  (lexgeb k (lexcc_vector p k W) (lexcc_vector p k W') = true <->
   lex_ge k (at_least_weight p W) (at_least_weight p W')).
Proof.
  intros p k W W' Hw. unfold lexgeb.
  assert (E : forall W, pad k (lexcc_vector p k W) = lexcc_vector p k W).
  { intro X. rewrite <- (pad_id (lexcc_vector p k X)) at 2. rewrite lexcc_vector_length. auto. }
  rewrite !E, lex_compare_spec by (rewrite !lexcc_vector_length; auto).
  rewrite lexcc_vector_length. unfold lex_ge. split.
  - intros [H|(i & Hi & H1 & H2)].
    + left. intros i Hi. specialize (H (i - 1) ltac:(lia)). rewrite !lexcc_vector_nth in H by (auto; lia).
      replace (S (i - 1)) with i in H by lia. auto.
    + right. exists (S i). rewrite !lexcc_vector_nth in H1 by auto. split; [lia|]. split; auto.
      intros j Hj. specialize (H2 (j - 1) ltac:(lia)). rewrite !lexcc_vector_nth in H2 by (auto; lia).
      replace (S (j - 1)) with j in H2 by lia. auto.
  - intros [H|(i & Hi & H1 & H2)].
    + left. intros i Hi. rewrite !lexcc_vector_nth by auto. apply H. lia.
    + right. exists (i - 1). rewrite !lexcc_vector_nth by (auto; lia). replace (S (i - 1)) with i by lia.
      split; [lia|]. split; auto. intros j Hj. rewrite !lexcc_vector_nth by (auto; lia). apply H2. lia.
Qed.

Theorem lexcc_bruteforce_correct : forall p k resolute maxn,
  wf p -> k <= num_cand p -> valid_max maxn ->
  answers (lexcc_winner p k) resolute maxn (lexcc_bruteforce p k resolute maxn).
Proof.
  intros p k resolute maxn Hw Hk Hm. unfold lexcc_bruteforce.
  set (b := fun s best : list Q => negb (lexgeb k best s)).
  set (s := fun s best : list Q => lexgeb k s best && lexgeb k best s).
  rewrite (scan_ext _ (fun x => length x = k) _ _ b s).
  2:{ intros x y Hx Hy. unfold b, s, lexgeb.
      assert (E : forall z, length z = k -> pad k z = z) by (intros z <-; apply pad_id).
      rewrite !E by auto. unfold lexQ_ge. cbv beta.
      destruct (lex_compare y x) eqn:E1.
      - apply lex_sym in E1. rewrite E1. auto.
      - assert (E2 : lex_compare x y = LexLess) by (apply lex_sym; auto). rewrite E2. auto. 
      - apply lex_sym in E1. rewrite E1. auto. }
  2:{ apply repeat_length. }
  2:{ intros; apply lexcc_vector_length. }
  assert (Hinit : forall c, In c (combinations (candidates p) k) ->
            lexgeb k (lexcc_vector p k c) (repeat 0%Q k) = true).
  { intros c _. unfold lexgeb. apply lex_compare_spec; [rewrite !pad_length; auto|].
    rewrite pad_length.
    assert (Hnn : forall i, (0 <= at_least_weight p c i)%Q).
    { intro i. apply Qsum_map_nonneg. intros v Hv. apply filter_In in Hv as [Hv _].
      destruct (wf_voter_in p v Hw Hv) as (_ & _ & Hp). lra. }
    assert (E : forall x, length x = k -> pad k x = x) by (intros z <-; apply pad_id).
    rewrite (E (lexcc_vector p k c)) by apply lexcc_vector_length.
    rewrite (E (repeat 0%Q k)) by apply repeat_length.
    assert (G : forall n, n <= k ->
      (forall i, i < n -> (nthQ (lexcc_vector p k c) i == 0)%Q) \/
      exists i, i < n /\ (0 < nthQ (lexcc_vector p k c) i)%Q /\ forall j, j < i -> (nthQ (lexcc_vector p k c) j == 0)%Q).
    { induction n as [|n IH]; intros Hn; [left; intros; lia|].
      destruct (IH ltac:(lia)) as [H|(i & Hi & H1 & H2)].
      - destruct (Qlt_le_dec 0 (nthQ (lexcc_vector p k c) n)).
        + right. exists n. repeat split; auto.
        + left. intros i Hi. destruct (Nat.eq_dec i n); [subst|apply H; lia].
          apply Qle_antisym; auto. rewrite lexcc_vector_nth by (auto; lia). auto.
      - right. exists i. repeat split; auto. }
    destruct (G k ltac:(auto)) as [H|(i & Hi & H1 & H2)].
    - left. intros i Hi. rewrite nthQ_repeat0. auto.
    - right. exists i. rewrite nthQ_repeat0. repeat split; auto. intros j Hj. rewrite nthQ_repeat0. auto. }
  assert (Hb : forall x y, b x y = negb (lexgeb k y x)) by reflexivity.
  assert (Hs : forall x y, b x y = false -> s x y = lexgeb k x y).
  { intros x y H. unfold b in H. apply negb_false_iff in H. unfold s. rewrite H. apply andb_true_r. }
  destruct (brute_all_props b s (lexcc_vector p k) (repeat 0%Q k) (lexgeb k) (lexgeb_trans k) (lexgeb_total k)
              Hb Hs p k Hk Hinit) as (A & B & C).
  apply (answers_finish' _ resolute); auto. intro W.
  rewrite (brute_all_In b s (lexcc_vector p k) (repeat 0%Q k) (lexgeb k) (lexgeb_trans k) (lexgeb_total k)
              Hb Hs p k Hk Hinit).
  unfold lexcc_winner. setoid_rewrite lexgeb_vectors; auto. reflexivity.
Qed.

(** ** minimax AV *)

Lemma hamming_distance : forall a b, hamming a b = distance a b.
Proof. intros. unfold hamming, distance, diff. apply app_length. Qed.

Lemma distance_bound : forall a b m, NoDup a -> NoDup b -> Forall (fun c => c < m) a -> Forall (fun c => c < m) b ->
  distance a b <= m.
Proof.
  intros a b m Ha Hb Ra Rb. unfold distance. rewrite <- app_length. rewrite <- (seq_length m 0).
  rewrite Forall_forall in *. apply NoDup_incl_length.
  - apply NoDup_app_intro; auto using NoDup_diff. intros x H1 H2. apply diff_In in H1, H2. tauto.
  - intros x Hx. apply in_seq. apply in_app_iff in Hx as [Hx|Hx]; apply diff_In in Hx as [Hx _].
    + specialize (Ra x Hx). lia.
    + specialize (Rb x Hx). lia.
Qed.

Lemma minimax_max_distance : forall p W, max_distance p W (minimaxav_score p W).
Proof.
  intros p W. destruct (minimaxav_score_max p W) as [A B]. unfold max_distance.
  setoid_rewrite <- hamming_distance. split; auto. split; auto.
  intro E. unfold minimaxav_score. rewrite E. auto.
Qed.

Lemma max_distance_unique : forall p W d d', max_distance p W d -> max_distance p W d' -> d = d'.
Proof.
  intros p W d d' (A & B & C) (A' & B' & C'). destruct (voters p) as [|v vs] eqn:E.
  - rewrite C, C'; auto.
  - destruct (B ltac:(discriminate)) as (x & Hx & <-). destruct (B' ltac:(discriminate)) as (y & Hy & <-).
    specialize (A' x Hx). specialize (A y Hy). lia.
Qed.

Lemma nat_ge_trans : forall x y z, (x <=? y) = true -> (y <=? z) = true -> (x <=? z) = true.
Proof. intros. apply Nat.leb_le. apply Nat.leb_le in H, H0. lia. Qed.

Theorem minimaxav_bruteforce_correct : forall p k resolute maxn,
  wf p -> k <= num_cand p -> valid_max maxn ->
  answers (minimaxav_winner p k) resolute maxn (minimaxav_bruteforce p k resolute maxn).
Proof.
  intros p k resolute maxn Hw Hk Hm. unfold minimaxav_bruteforce.
  assert (Hinit : forall c, In c (combinations (candidates p) k) -> (minimaxav_score p c <=? num_cand p + 1) = true).
  { intros c Hc. apply Nat.leb_le. apply combos_committee in Hc as (Ha & _ & Hr).
    destruct (minimax_max_distance p c) as (_ & B & C). destruct (voters p) as [|v vs] eqn:E.
    - rewrite C; auto; lia.
    - destruct (B ltac:(discriminate)) as (x & Hx & <-). rewrite <- E in Hx.
      destruct (wf_voter_in p x Hw Hx) as (Hn & Hr' & _).
      pose proof (distance_bound (approved x) c (num_cand p) Hn (ascending_NoDup _ Ha) Hr' Hr). lia. }
  assert (Htot : forall x y, (x <=? y) = true \/ (y <=? x) = true).
  { intros. rewrite !Nat.leb_le. lia. }
  assert (Hb : forall x y, (x <? y) = negb (y <=? x)) by (intros; apply Nat.ltb_antisym).
  assert (Hs : forall x y, (x <? y) = false -> (x =? y) = (x <=? y)).
  { intros x y H. apply Nat.ltb_ge in H. destruct (Nat.eqb_spec x y), (Nat.leb_spec x y); auto; lia. }
  destruct (brute_all_props Nat.ltb Nat.eqb (minimaxav_score p) (num_cand p + 1) Nat.leb nat_ge_trans Htot
              Hb Hs p k Hk Hinit) as (A & B & C).
  apply (answers_finish' _ resolute); auto. intro W.
  rewrite (brute_all_In Nat.ltb Nat.eqb (minimaxav_score p) (num_cand p + 1) Nat.leb nat_ge_trans Htot
              Hb Hs p k Hk Hinit).
  unfold minimaxav_winner. split; intros [H1 H2]; split; auto.
  - intros W' d d' HW' Hd Hd'. specialize (H2 W' HW'). apply Nat.leb_le in H2.
    rewrite (max_distance_unique p W d (minimaxav_score p W)) by auto using minimax_max_distance.
    rewrite (max_distance_unique p W' d' (minimaxav_score p W')) by auto using minimax_max_distance. auto.
  - intros W' HW'. apply Nat.leb_le. eapply H2; eauto using minimax_max_distance.
Qed.

(** ** lexicographic minimax AV *)

Definition padn (n : nat) (x : list nat) : list nat := map (fun i => nth i x 0) (seq 0 n).
Lemma padn_id : forall x, padn (length x) x = x.
Proof.
  intro x. unfold padn. induction x as [|a x IH]; simpl; auto. f_equal.
  rewrite <- seq_shift, map_map. exact IH.
Qed.
Lemma padn_length : forall k x, length (padn k x) = k.
Proof. intros. unfold padn. rewrite map_length, seq_length. auto. Qed.

Definition lexN_ge (x y : list nat) : bool := match lex_compare_dist y x with LexLess => false | _ => true end.

Lemma lexN_sym : forall x y,
  (lex_compare_dist x y = LexLess <-> lex_compare_dist y x = LexGreater) /\
  (lex_compare_dist x y = LexEqual <-> lex_compare_dist y x = LexEqual).
Proof.
  induction x as [|a x IH]; intros [|b y]; simpl; try (split; split; congruence).
  destruct (Nat.ltb_spec a b), (Nat.ltb_spec b a); try (split; split; congruence); auto. lia.
Qed.

Lemma lexN_trans : forall x y z, length x = length y -> length y = length z ->
  lexN_ge x y = true -> lexN_ge y z = true -> lexN_ge x z = true.
Proof.
  unfold lexN_ge. induction x as [|a x IH]; intros [|b y] [|c z] H1 H2; simpl in *; try discriminate; auto.
  destruct (Nat.ltb_spec b a), (Nat.ltb_spec a b), (Nat.ltb_spec c b), (Nat.ltb_spec b c),
    (Nat.ltb_spec c a), (Nat.ltb_spec a c); auto; try lia; try discriminate.
  apply (IH y z); auto.
Qed.

Lemma lexN_total : forall x y, lexN_ge x y = true \/ lexN_ge y x = true.
Proof.
  intros x y. unfold lexN_ge. destruct (lex_compare_dist y x) eqn:E; auto. right.
  apply lexN_sym in E. rewrite E. auto.
Qed.

Definition lexngeb (k : nat) (x y : list nat) : bool := lexN_ge (padn k x) (padn k y).

Definition count_ge (l : list nat) (d : nat) : nat := length (filter (fun x => d <=? x) l).

Lemma count_ge_perm : forall a b d, Permutation a b -> count_ge a d = count_ge b d.
Proof. intros. unfold count_ge. apply Permutation_length, Permutation_filter. auto. Qed.

Lemma count_ge_small : forall l d, (forall x, In x l -> x < d) -> count_ge l d = 0.
Proof.
  intros l d H. unfold count_ge. induction l as [|x l IH]; simpl; auto.
  destruct (Nat.leb_spec d x); [specialize (H x (or_introl eq_refl)); lia|]. apply IH. intros; apply H; right; auto.
Qed.

(** for lists sorted in decreasing order, lexicographic comparison is comparison
    of the counts from above *)
Lemma lexN_counts : forall x y, length x = length y ->
  StronglySorted ge x -> StronglySorted ge y ->
  (lexN_ge x y = true <->
   (forall d, count_ge x d = count_ge y d) \/
   exists d, count_ge x d < count_ge y d /\ forall e, d < e -> count_ge x e = count_ge y e).
Proof.
  unfold lexN_ge. induction x as [|a x IH]; intros [|b y] Hl Sx Sy; simpl in Hl; try discriminate.
  - simpl. split; auto.
  - inversion Sx as [|? ? Sx' Fx]; subst. inversion Sy as [|? ? Sy' Fy]; subst.
    rewrite Forall_forall in Fx, Fy. unfold ge in Fx, Fy.
    assert (Cons : forall z l d, count_ge (z :: l) d = (if d <=? z then 1 else 0) + count_ge l d).
    { intros. unfold count_ge. simpl. destruct (d <=? z); auto. }
    simpl. destruct (Nat.ltb_spec b a); [|destruct (Nat.ltb_spec a b)].
    + split; [discriminate|]. intros [Hc|(d & Hc & Hd)].
      * specialize (Hc a). rewrite !Cons in Hc. rewrite (count_ge_small y a) in Hc by (intros z Hz; specialize (Fy z Hz); lia).
        destruct (Nat.leb_spec a a), (Nat.leb_spec a b); lia.
      * destruct (Nat.le_gt_cases a d).
        -- rewrite !Cons in Hc. rewrite (count_ge_small y d) in Hc by (intros z Hz; specialize (Fy z Hz); lia).
           destruct (Nat.leb_spec d b); lia.
        -- specialize (Hd a H0). rewrite !Cons in Hd.
           rewrite (count_ge_small y a) in Hd by (intros z Hz; specialize (Fy z Hz); lia).
           destruct (Nat.leb_spec a a), (Nat.leb_spec a b); lia.
    + split; auto. intros _. right. exists b. rewrite !Cons. split.
      * rewrite (count_ge_small x b) by (intros z Hz; specialize (Fx z Hz); lia).
        destruct (Nat.leb_spec b a), (Nat.leb_spec b b); lia.
      * intros e He. rewrite !Cons. rewrite (count_ge_small x e) by (intros z Hz; specialize (Fx z Hz); lia).
        rewrite (count_ge_small y e) by (intros z Hz; specialize (Fy z Hz); lia).
        destruct (Nat.leb_spec e a), (Nat.leb_spec e b); lia.
    + assert (a = b) by lia. subst b. rewrite IH by (auto; lia). setoid_rewrite Cons. split.
      * intros [Hc|(d & Hc & Hd)]; [left; intros; rewrite Hc; auto|].
        right. exists d. split; [lia|]. intros e He. rewrite (Hd e He). auto.
      * intros [Hc|(d & Hc & Hd)]; [left; intros d; specialize (Hc d); lia|].
        right. exists d. split; [lia|]. intros e He. specialize (Hd e He). lia.
Qed.

Lemma distances_length : forall p W, length (distances p W) = length (voters p).
Proof. intros. unfold distances. rewrite rev_length, isort_length, map_length. auto. Qed.

Lemma SSorted_rev_ge : forall l, StronglySorted (fun x y => (x <=? y) = true) l -> StronglySorted ge (rev l).
Proof.
  induction 1 as [|a l HS IH HF]; simpl; [constructor|].
  assert (G : forall l a, StronglySorted ge l -> (forall x, In x l -> a <= x) -> StronglySorted ge (l ++ [a])).
  { clear. induction l as [|b l IH]; simpl; intros a HS Ha; [repeat constructor|].
    inversion HS; subst. constructor; [apply IH; auto|]. apply Forall_app. split; auto.
    }
  apply G; auto. intros x Hx. apply in_rev in Hx. rewrite Forall_forall in HF. apply Nat.leb_le, HF; auto.
Qed.

Lemma distances_sorted : forall p W, StronglySorted ge (distances p W).
Proof.
  intros. unfold distances. apply SSorted_rev_ge. apply sort_by_sorted.
  - apply leb_total_nat.
  - apply leb_trans_nat.
Qed.

Lemma distances_count : forall p W d, count_ge (distances p W) d = voters_at_least p W d.
Proof.
  intros. unfold distances, voters_at_least.
  rewrite (count_ge_perm _ (map (fun v => hamming (approved v) W) (voters p))).
  - unfold count_ge. induction (voters p) as [|v vs IH]; simpl; auto.
    rewrite hamming_distance. destruct (d <=? distance (approved v) W); simpl; auto.
  - rewrite <- Permutation_rev. symmetry. apply isort_perm.
Qed.

Lemma lexngeb_distances : forall p W W',
  (lexngeb (length (voters p)) (distances p W) (distances p W') = true <-> lexmin_le p W W').
Proof.
  intros. unfold lexngeb.
  assert (E : forall X, padn (length (voters p)) (distances p X) = distances p X).
  { intro X. rewrite <- (padn_id (distances p X)) at 2. rewrite distances_length. auto. }
  rewrite !E, lexN_counts by (auto using distances_sorted; rewrite !distances_length; auto).
  unfold lexmin_le. setoid_rewrite distances_count. reflexivity.
Qed.

Theorem lexminimaxav_bruteforce_correct : forall p k resolute maxn,
  wf p -> k <= num_cand p -> valid_max maxn ->
  answers (lexminimaxav_winner p k) resolute maxn (lexminimaxav_bruteforce p k resolute maxn).
Proof.
  intros p k resolute maxn Hw Hk Hm. unfold lexminimaxav_bruteforce.
  set (n := length (voters p)).
  set (b := fun s best : list nat => negb (lexngeb n best s)).
  set (s := fun s best : list nat => lexngeb n s best && lexngeb n best s).
  rewrite (scan_ext _ (fun x => length x = n) _ _ b s).
  2:{ intros x y Hx Hy. unfold b, s, lexngeb.
      assert (E : forall z, length z = n -> padn n z = z) by (intros z <-; apply padn_id).
      rewrite !E by auto. unfold lexN_ge. cbv beta.
      destruct (lex_compare_dist y x) eqn:E1.
      - apply lexN_sym in E1. rewrite E1. auto.
      - assert (E2 : lex_compare_dist x y = LexLess) by (apply lexN_sym; auto). rewrite E2. auto.
      - apply lexN_sym in E1. rewrite E1. auto. }
  2:{ apply repeat_length. }
  2:{ intros; apply distances_length. }
  assert (Htr : forall x y z, lexngeb n x y = true -> lexngeb n y z = true -> lexngeb n x z = true).
  { intros x y z H1 H2. unfold lexngeb in *. apply (lexN_trans _ (padn n y)); auto; rewrite !padn_length; auto. }
  assert (Htot : forall x y, lexngeb n x y = true \/ lexngeb n y x = true) by (intros; apply lexN_total).
  assert (Hinit : forall c, In c (combinations (candidates p) k) ->
            lexngeb n (distances p c) (repeat (num_cand p + 1) n) = true).
  { intros c Hc. apply combos_committee in Hc as (Ha & _ & Hr). unfold lexngeb.
    assert (E : forall z, length z = n -> padn n z = z) by (intros z <-; apply padn_id).
    rewrite !E by (rewrite ?distances_length, ?repeat_length; auto).
    assert (Hall : forall d, In d (distances p c) -> d <= num_cand p + 1).
    { intros d Hd. unfold distances in Hd. rewrite <- in_rev, isort_In in Hd.
      apply in_map_iff in Hd as (v & <- & Hv). rewrite hamming_distance.
      destruct (wf_voter_in p v Hw Hv) as (Hn & Hr' & _).
      pose proof (distance_bound (approved v) c (num_cand p) Hn (ascending_NoDup _ Ha) Hr' Hr). lia. }
    unfold lexN_ge. generalize dependent (distances p c). intros l. generalize n.
    induction l as [|a l IH]; intros n0 Hl; destruct n0; simpl; auto.
    pose proof (Hl a (or_introl eq_refl)).
    destruct (Nat.ltb_spec (num_cand p + 1) a); [lia|].
    destruct (Nat.ltb_spec a (num_cand p + 1)); auto. apply IH. intros; apply Hl; right; auto. }
  assert (Hb : forall x y, b x y = negb (lexngeb n y x)) by reflexivity.
  assert (Hs : forall x y, b x y = false -> s x y = lexngeb n x y).
  { intros x y H. unfold b in H. apply negb_false_iff in H. unfold s. rewrite H. apply andb_true_r. }
  destruct (brute_all_props b s (distances p) (repeat (num_cand p + 1) n) (lexngeb n) Htr Htot
              Hb Hs p k Hk Hinit) as (A & B & C).
  apply (answers_finish' _ resolute); auto. intro W.
  rewrite (brute_all_In b s (distances p) (repeat (num_cand p + 1) n) (lexngeb n) Htr Htot
              Hb Hs p k Hk Hinit).
  unfold lexminimaxav_winner, n. setoid_rewrite lexngeb_distances. reflexivity.
Qed.

(** ** trivial rule *)

Theorem trivial_rule_correct : forall p k resolute maxn,
  k <= num_cand p ->
  answers (is_committee p k) resolute maxn (trivial_rule p k resolute maxn).
Proof.
  intros p k resolute maxn Hk. unfold trivial_rule. destruct resolute.
  - assert (Ha : ascending (seq 0 k)) by apply ascending_seq.
    simpl. rewrite candidate_set_ok by (apply ascending_NoDup; auto). simpl.
    rewrite isort_id by auto. rewrite sorted_committees_asc by (constructor; auto). simpl.
    apply answers_resolute_one. split; auto. split; [apply seq_length|].
    apply Forall_forall. intros c Hc. apply in_seq in Hc. lia.
  - set (cs := cut maxn (combinations (candidates p) k)).
    assert (Hcs : forall W, In W cs -> is_committee p k W).
    { intros W HW. apply cut_In in HW. apply combos_committee; auto. }
    assert (Hasc : Forall ascending cs) by (apply Forall_forall; intros W HW; apply Hcs; auto).
    rewrite rmapM_candidate_set.
    2:{ eapply Forall_impl; [|exact Hasc]. apply ascending_NoDup. }
    simpl. rewrite map_isort_id by auto. apply answers_dfs; auto.
    + apply cut_NoDup, combos_NoDup.
    + unfold cs. destruct maxn; simpl; auto. apply firstn_le_length.
    + intros Hx W HW. apply combos_committee in HW. unfold cs. destruct maxn as [n|]; simpl; auto.
      destruct Hx as [|(n' & E & Hl)]; [discriminate|]. inversion E; subst n'.
      unfold cs in Hl. simpl in Hl. rewrite firstn_length in Hl. rewrite firstn_all2 by lia. auto.
Qed.
