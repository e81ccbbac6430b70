(** * Representation guarantees of Monroe's rule and Greedy Monroe *)
From Coq Require Import String.
From Coq Require Import List Arith Bool ZArith QArith Lia Lqa Permutation.
From Verif Require Import Prelude Misc MiscProofs Preferences Scores Spec Search Rule RulesThiele Common ThieleProofs
  Compute SpecCompute ComputeProofs Checks SpecAxioms ChecksProofs Guarantees RulesMonroe SpecMonroe MonroeProofs MonroeFlow MonroeRule GreedyMonroe
  Proportional.
Import ListNotations.
Local Open Scope string_scope.
Open Scope nat_scope.
Local Open Scope list_scope.

Definition ceil_div (n k : nat) : nat := (n + (k - 1)) / k.
Lemma ceil_le : forall n k x, k <> 0 -> n <= x * k -> ceil_div n k <= x.
Proof. intros n k x Hk H. unfold ceil_div. apply Nat.lt_succ_r. apply Nat.div_lt_upper_bound; auto. nia. Qed.
Lemma ceil_pos : forall n k, k <> 0 -> 1 <= n -> 1 <= ceil_div n k.
Proof. intros n k Hk Hn. unfold ceil_div. apply Nat.div_le_lower_bound; auto. lia. Qed.

(** ** Groups with unit weights *)
Lemma unit_gweight : forall p S, unit_weights p -> is_group p S -> (gweight p S == Qnat (length S))%Q.
Proof.
  intros p S Hu (_ & _ & HS). unfold gweight. rewrite (Qsum_map_ext _ _ (fun _ => 1%Q)).
  - rewrite Qsum_map_const. lra.
  - intros i Hi. unfold voter_weight. unfold unit_weights in Hu. rewrite Forall_forall in Hu, HS. apply Hu, nth_In, HS. auto.
Qed.
Lemma unit_wsum : forall p, unit_weights p -> (wsum (voters p) == Qnat (length (voters p)))%Q.
Proof.
  intros p Hu. unfold wsum. rewrite (Qsum_map_ext _ _ (fun _ => 1%Q)).
  - rewrite Qsum_map_const. lra.
  - intros v Hv. unfold unit_weights in Hu. rewrite Forall_forall in Hu. auto.
Qed.
Lemma unit_deserves : forall p S l k, unit_weights p -> is_group p S -> 1 <= k -> deserves p (default_quota p k) S l ->
  l * length (voters p) <= length S * k.
Proof.
  intros p S l k Hu HS Hk H. unfold deserves, default_quota in H. rewrite unit_gweight, unit_wsum in H by auto.
  assert (0 < Qnat k)%Q by (apply Qnat_pos; lia).
  apply Qnat_le. rewrite !Qnat_mult.
  apply (Qmult_le_r _ _ (Qnat k)) in H; auto. setoid_replace (Qnat l * Qnat (length (voters p)))%Q with (Qnat l * (Qnat (length (voters p)) / Qnat k) * Qnat k)%Q; auto.
  field. lra.
Qed.

Lemma ballot_approves : forall p i c, i < length (voters p) -> (voter_approves p i c = true <-> In c (ballot p i)).
Proof.
  intros p i c Hi. unfold voter_approves, ballot. rewrite (nth_error_nth' _ (mkVoter [] 1 true)) by auto. apply mem_In.
Qed.

(** ** Partial representation

    [sigma i] is the approved member that represents voter [i], if any. *)
Section Served.
  Variables (p : profile) (k : nat) (W : list nat) (sigma : nat -> option nat).
  Hypothesis Hu : unit_weights p.
  Hypothesis Hk : 1 <= k.
  Hypothesis HW : NoDup W.
  Let n := length (voters p).
  Let served_by c := filter (fun i => match sigma i with Some d => d =? c | None => false end) (seq 0 n).
  Let unserved c := filter (fun i => match sigma i with Some _ => false | None => voter_approves p i c end) (seq 0 n).
  Hypothesis Hin : forall i c, i < n -> sigma i = Some c -> In c W /\ voter_approves p i c = true.
  Hypothesis Hcap : forall c, In c W -> length (served_by c) <= ceil_div n k.
  Hypothesis Hend : forall c, c < num_cand p -> ~ In c W -> length (unserved c) < ceil_div n k.

  Lemma served_JR : JR p (default_quota p k) W.
  Proof using Hu Hk Hin Hend.
    intros S c (HS & Hd & Hc & Hall & Hno).
    assert (Hs : 1 * n <= length S * k) by (apply unit_deserves; auto).
    assert (HSn : forall i, In i S -> i < n). { destruct HS as (_ & _ & H). rewrite Forall_forall in H. auto. }
    assert (Hnone : forall i d, In i S -> In d W -> voter_approves p i d = true -> False).
    { intros i d Hi Hd' Ha. specialize (Hno i Hi). unfold approves_in in Hno. apply length_zero_iff_nil in Hno.
      assert (H : In d (inter (ballot p i) W)). { apply filter_In. split; [apply ballot_approves; auto; apply HSn; auto|apply mem_In; auto]. }
      rewrite Hno in H. destruct H. }
    assert (HcW : ~ In c W).
    { intros H. destruct HS as (Hne & _). destruct S as [|i S]; [congruence|]. apply (Hnone i c); auto; [left; auto|].
      apply ballot_approves; [apply HSn; left; auto|]. apply Hall; left; auto. }
    specialize (Hend c Hc HcW). assert (Hle : length S <= length (unserved c)).
    { apply NoDup_incl_length; [apply HS|]. intros i Hi. apply filter_In. split; [apply in_seq; specialize (HSn i Hi); lia|].
      destruct (sigma i) as [d|] eqn:E; [exfalso; destruct (Hin i d (HSn i Hi) E); eauto|].
      apply ballot_approves; [apply HSn; auto|]. apply Hall; [auto|left; auto]. }
    pose proof (ceil_le n k (length S) ltac:(lia) ltac:(lia)). lia.
  Qed.

  Lemma served_PJR_plus : n mod k = 0 -> PJR_plus p (default_quota p k) W.
  Proof using Hu Hk Hin Hend Hcap HW.
    intros Hm S l c HS Hd Hc HcW Hall.
    assert (Hs : l * n <= length S * k) by (apply unit_deserves; auto).
    assert (HSn : forall i, In i S -> i < n). { destruct HS as (_ & _ & H). rewrite Forall_forall in H. auto. }
    destruct (le_lt_dec l (length (covered p S W))) as [|Hlt]; auto. exfalso.
    assert (Hce : ceil_div n k = n / k) by (apply ceil_exact; auto; lia).
    assert (Hn : k * (n / k) = n) by (apply div_exact'; auto; lia).
    set (A := filter (fun i => match sigma i with Some _ => true | None => false end) S).
    set (B := filter (fun i => match sigma i with Some _ => false | None => true end) S).
    assert (HAB : length S = length A + length B).
    { unfold A, B. clear. induction S as [|i S IH]; simpl; auto. destruct (sigma i); simpl; lia. }
    assert (HB : length B <= length (unserved c)).
    { apply NoDup_incl_length; [apply NoDup_filter, HS|]. intros i Hi. apply filter_In in Hi as [Hi E]. apply filter_In.
      split; [apply in_seq; specialize (HSn i Hi); lia|]. destruct (sigma i); [discriminate|].
      apply ballot_approves; [apply HSn; auto|]. apply Hall; [auto|left; auto]. }
    assert (HA : length A <= length (covered p S W) * ceil_div n k).
    { transitivity (length (flat_map served_by (covered p S W))).
      - apply NoDup_incl_length; [apply NoDup_filter, HS|]. intros i Hi. apply filter_In in Hi as [Hi E]. apply in_flat_map.
        destruct (sigma i) as [d|] eqn:Ed; [|discriminate]. destruct (Hin i d (HSn i Hi) Ed) as [H1 H2]. exists d. split.
        + apply filter_In. split; auto. apply existsb_exists. exists i. split; auto. apply mem_In, ballot_approves; auto.
        + apply filter_In. split; [apply in_seq; specialize (HSn i Hi); lia|]. rewrite Ed. apply Nat.eqb_refl.
      - assert (Hsub : incl (covered p S W) W) by (intros d Hd'; apply filter_In in Hd'; tauto).
        revert Hsub. generalize (covered p S W) as V. induction V as [|d V IH]; intros Hsub; [cbn; lia|].
        cbn [flat_map length]. rewrite app_length. pose proof (Hcap d (Hsub d (or_introl eq_refl))).
        assert (length (flat_map served_by V) <= length V * ceil_div n k) by (apply IH; intros x Hx; apply Hsub; right; auto). lia. }
    specialize (Hend c Hc HcW). rewrite Hce in *. set (s := n / k) in *. clearbody s.
    assert (length S < l * s) by nia. nia.
  Qed.
End Served.

(** ** Greedy Monroe *)
Lemma run_districts : forall p k L rem, greedy_monroe_run p k L rem -> exists D, partial_districts p k L rem D.
Proof.
  intros p k L rem H. induction H as [|L rem c H (D & D1 & D2 & D3 & D4 & D5) Hc Hn Hb].
  - exists []. split; auto. split; [apply Permutation_refl|]. split; [intros ? ? ? []|]. split; intros [|t] c vs E; discriminate.
  - destruct (run_basics p k L rem H) as (B1 & B2 & B3 & B4).
    set (t := length L). set (R := firstn (quota_of (length (voters p)) k t) (fans_among p rem c)).
    destruct (firstn_fans p (quota_of (length (voters p)) k t) rem c B3) as (F1 & F2 & F3). fold R in F1, F2, F3.
    exists (D ++ [(c, R)]). split; [rewrite map_app, D1; reflexivity|]. split; [|split; [|split]].
    + rewrite flat_map_app. cbn [flat_map snd]. rewrite app_nil_r, <- app_assoc.
      eapply perm_trans; [|exact D2]. apply Permutation_app_head. apply split_rem; auto.
    + intros d vs i Hin Hi. apply in_app_iff in Hin as [Hin|[E|[]]]; [eauto|]. inversion E; subst. auto.
    + intros s d vs E. destruct (lt_dec s (length D)) as [Hs|Hs].
      * rewrite nth_error_app1 in E by auto. eauto.
      * rewrite nth_error_app2 in E by lia. destruct (s - length D) as [|m] eqn:Em; [|destruct m; discriminate].
        cbn in E. inversion E; subst d vs. assert (Es : s = t). { unfold t. rewrite <- D1, map_length. lia. } rewrite Es. apply firstn_le_length.
    + intros s d vs E Hlt i Hi. apply filter_In in Hi as [Hi Hi']. apply negb_true_iff, mem_false in Hi'. destruct (lt_dec s (length D)) as [Hs|Hs].
      * rewrite nth_error_app1 in E by auto. eauto.
      * rewrite nth_error_app2 in E by lia. destruct (s - length D) as [|m] eqn:Em; [|destruct m; discriminate].
        cbn in E. inversion E; subst d vs. assert (Es : s = t). { unfold t. rewrite <- D1, map_length. lia. } subst s.
        apply not_true_iff_false. intros Ha. apply Hi'. unfold R in *. rewrite firstn_all2.
        -- rewrite <- fans_among_eq. apply filter_In. auto.
        -- rewrite firstn_length in Hlt. lia.
Qed.

Lemma fans_among_mono : forall p a b c, NoDup a -> incl a b -> length (fans_among p a c) <= length (fans_among p b c).
Proof.
  intros p a b c Hn Hi. apply NoDup_incl_length; [apply NoDup_filter; auto|]. intros i H. apply filter_In in H as [H1 H2].
  apply filter_In. auto.
Qed.

Lemma greedy_full_rounds : forall p k c0, c0 < num_cand p -> forall L rem, greedy_monroe_run p k L rem -> ~ In c0 L ->
  (forall t, quota_of (length (voters p)) k t <= length (fans_among p rem c0)) ->
  length rem + list_sum (map (quota_of (length (voters p)) k) (seq 0 (length L))) = length (voters p).
Proof.
  intros p k c0 Hc0 L rem H. induction H as [|L rem c H IH Hc Hn Hb]; intros Hnot Hq.
  - cbn. rewrite seq_length. lia.
  - destruct (run_basics p k L rem H) as (B1 & B2 & B3 & B4). set (n := length (voters p)) in *.
    set (R := firstn (quota_of n k (length L)) (fans_among p rem c)) in *.
    assert (Hnot' : ~ In c0 L) by (intros Hi; apply Hnot, in_app_iff; auto).
    assert (Hmono : length (fans_among p (diff rem R) c0) <= length (fans_among p rem c0)).
    { apply fans_among_mono; [apply NoDup_filter; auto|]. intros i Hi. apply filter_In in Hi. tauto. }
    assert (IH' := IH Hnot' (fun t => Nat.le_trans _ _ _ (Hq t) Hmono)).
    assert (HR : length R = quota_of n k (length L)).
    { unfold R. apply firstn_length_le. specialize (Hb c0 Hc0 Hnot'). specialize (Hq (length L)). lia. }
    destruct (firstn_fans p (quota_of n k (length L)) rem c B3) as (F1 & F2 & F3). fold R in F1, F2, F3.
    pose proof (Permutation_length (split_rem rem R B3 F1 F2)) as Hlen. rewrite app_length in Hlen.
    rewrite app_length, Nat.add_1_r, seq_S, map_app, list_sum_app. cbn [map list_sum fold_right]. change (0 + length L) with (length L). lia.
Qed.

Lemma quota_ceil : forall n k t, k <> 0 -> quota_of n k t <= ceil_div n k.
Proof. intros n k t Hk. apply (quota_bounds n k t Hk). Qed.

Lemma greedy_end : forall p k L rem, greedy_monroe_run p k L rem -> length L = k -> 1 <= k -> voters p <> [] ->
  forall c, c < num_cand p -> ~ In c L -> length (fans_among p rem c) < ceil_div (length (voters p)) k.
Proof.
  intros p k L rem H HL Hk Hv c Hc Hn. destruct (le_lt_dec (ceil_div (length (voters p)) k) (length (fans_among p rem c))) as [Hle|]; auto.
  exfalso. assert (Hsum := greedy_full_rounds p k c Hc L rem H Hn).
  rewrite HL, sum_quota in Hsum by lia.
  assert (Hr : length rem + length (voters p) = length (voters p)).
  { apply Hsum. intros t. pose proof (quota_ceil (length (voters p)) k t ltac:(lia)). lia. }
  assert (Hp := ceil_pos (length (voters p)) k ltac:(lia) ltac:(destruct (voters p); [congruence|simpl; lia])).
  destruct rem; [cbn in Hle; lia|simpl in Hr; lia].
Qed.

Definition sigma_of (D : list (nat * list nat)) (i : nat) : option nat :=
  match find (fun d => mem i (snd d)) D with Some d => Some (fst d) | None => None end.

Lemma sigma_some : forall D i c, sigma_of D i = Some c -> exists vs, In (c, vs) D /\ In i vs.
Proof.
  intros D i c H. unfold sigma_of in H. destruct (find _ D) as [[d vs]|] eqn:E; [|discriminate]. inversion H; subst.
  apply find_some in E as [E1 E2]. apply mem_In in E2. exists vs. auto.
Qed.
Lemma sigma_none : forall D i, sigma_of D i = None -> ~ In i (flat_map snd D).
Proof.
  intros D i H Hin. unfold sigma_of in H. destruct (find _ D) as [|] eqn:E; [discriminate|].
  apply in_flat_map in Hin as (d & Hd & Hi). apply (find_none _ _ E) in Hd. apply mem_false in Hd. auto.
Qed.

Theorem greedy_monroe_represents : forall p k W, unit_weights p -> 1 <= k -> voters p <> [] -> greedy_monroe_winner p k W ->
  JR p (default_quota p k) W /\ (length (voters p) mod k = 0 -> PJR_plus p (default_quota p k) W).
Proof.
  intros p k W Hu Hk Hv (L & rem & Hrun & HL & ->).
  destruct (run_basics p k L rem Hrun) as (B1 & B2 & B3 & B4).
  destruct (run_districts p k L rem Hrun) as (D & D1 & D2 & D3 & D4 & _).
  set (n := length (voters p)) in *.
  assert (HND : NoDup (flat_map snd D)).
  { eapply NoDup_app_l. eapply Permutation_NoDup; [symmetry; exact D2|apply seq_NoDup]. }
  assert (Hin : forall i c, i < n -> sigma_of D i = Some c -> In c (isort L) /\ voter_approves p i c = true).
  { intros i c Hi E. apply sigma_some in E as (vs & H1 & H2). split; [|eauto]. rewrite isort_In, <- D1. apply in_map_iff. exists (c, vs). auto. }
  assert (Hcap : forall c, In c (isort L) ->
    length (filter (fun i => match sigma_of D i with Some d => d =? c | None => false end) (seq 0 n)) <= ceil_div n k).
  { intros c Hc. rewrite isort_In, <- D1 in Hc. apply in_map_iff in Hc as ([c' vs] & E & Hc). cbn in E. subst c'.
    transitivity (length vs).
    - apply NoDup_incl_length; [apply NoDup_filter, seq_NoDup|]. intros i Hi. apply filter_In in Hi as [_ Hi].
      destruct (sigma_of D i) as [d|] eqn:E; [|discriminate]. apply Nat.eqb_eq in Hi. subst d.
      apply sigma_some in E as (ws & H1 & H2). rewrite (same_district D c vs ws); auto. rewrite D1. auto.
    - apply In_nth_error in Hc as (t & Et). specialize (D4 _ _ _ Et). pose proof (quota_ceil n k t ltac:(lia)). lia. }
  assert (Hend : forall c, c < num_cand p -> ~ In c (isort L) ->
    length (filter (fun i => match sigma_of D i with Some _ => false | None => voter_approves p i c end) (seq 0 n)) < ceil_div n k).
  { intros c Hc Hnot. rewrite isort_In in Hnot.
    eapply Nat.le_lt_trans; [|apply (greedy_end p k L rem Hrun HL Hk Hv c Hc Hnot)].
    apply NoDup_incl_length; [apply NoDup_filter, seq_NoDup|]. intros i Hi. apply filter_In in Hi as [H1 H2].
    destruct (sigma_of D i) eqn:E; [discriminate|]. apply filter_In. split; auto. apply sigma_none in E.
    apply (Permutation_in _ (Permutation_sym D2)) in H1. apply in_app_iff in H1 as [H1|H1]; [contradiction|auto]. }
  assert (HN : NoDup (isort L)) by (eapply Permutation_NoDup; [apply isort_perm|auto]).
  split.
  - apply (served_JR p k (isort L) (sigma_of D)); auto.
  - intros Hm. apply (served_PJR_plus p k (isort L) (sigma_of D)); auto.
Qed.

Theorem greedy_monroe_passes : forall nx gurobi e p k, networkx_correct nx -> valid_call p k true None -> unit_weights p ->
  exists W, compute_greedy_monroe nx e p (Z.of_nat k) "standard" true None = Ok [W] /\ check_JR p W None = Ok true /\
    (length (voters p) mod k = 0 -> PJR_plus p (default_quota p k) W /\ check_PJR gurobi p W None "brute-force" = Ok true).
Proof.
  intros nx g e p k Hx Hc Hu. destruct (compute_greedy_monroe_correct nx e p k Hx Hc Hu) as (W & E & HW & Hcom).
  exists W. split; auto. destruct Hc as (Hw & Hv & Hk & _).
  destruct (greedy_monroe_represents p k W Hu ltac:(lia) Hv HW) as [HJ HP].
  destruct (committee_cand_set p k W (proj1 Hk) Hcom) as [Hcs Hne]. assert (El : length W = k) by apply Hcom.
  split; [apply passes_JR; auto; rewrite El; auto|]. intros Hm. specialize (HP Hm). split; auto.
  apply passes_PJR; auto. rewrite El. apply PJR_plus_PJR; auto.
Qed.

Lemma map_nth_seq_phi : forall l : list nat, map (fun i => nth i l 0) (seq 0 (length l)) = l.
Proof. induction l as [|x l IH]; [reflexivity|]. cbn [length seq map nth]. f_equal. rewrite <- seq_shift, map_map. exact IH. Qed.

(** ** Monroe's rule: exchanging a member improves the assignment *)
Section Improve.
  Variables (p : profile) (W phi : list nat) (c0 : nat) (U : list nat).
  Let n := length (voters p).
  Let k := length W.
  Hypothesis HW : NoDup W.
  Hypothesis Hne : W <> [].
  Hypothesis Hphi : monroe_assignment p W phi.
  Hypothesis Hc0 : ~ In c0 W.
  Hypothesis HU : NoDup U.
  Hypothesis HUn : forall i, In i U -> i < n /\ voter_approves p i c0 = true /\ voter_approves p i (nth i phi 0) = false.
  Hypothesis HUl : ceil_div n k <= length U.
  Hypothesis Hn : 1 <= n.

  Lemma improve : exists w phi', In w W /\ monroe_assignment p (c0 :: remove Nat.eq_dec w W) phi' /\ represented p phi < represented p phi'.
  Proof using HW Hne Hphi Hc0 HU HUn HUl Hn.
    assert (Hk : k <> 0) by (apply k_pos; auto).
    destruct Hphi as (A & B & C). fold n k in A, C.
    assert (Hpos := ceil_pos n k Hk Hn).
    destruct U as [|u U0] eqn:EU; [simpl in HUl; lia|]. rewrite <- EU in *.
    assert (Hu : In u U) by (rewrite EU; left; auto).
    set (w := nth u phi 0).
    assert (Hw : In w W). { rewrite Forall_forall in B. apply B, nth_In. rewrite A. apply HUn; auto. }
    set (s := cnt phi w).
    assert (Hs : s <= length U). { specialize (C w Hw). unfold ceil_div in HUl. subst s. lia. }
    set (U' := firstn s U).
    assert (HU'l : length U' = s) by (apply firstn_length_le; auto).
    assert (HU'n : NoDup U') by (apply NoDup_firstn; auto).
    assert (HU'i : incl U' U) by (intros i Hi; apply firstn_In in Hi; auto).
    set (psi := fun i => if mem i U' then Some c0
                         else if voter_approves p i (nth i phi 0) && negb (nth i phi 0 =? w) then Some (nth i phi 0) else None).
    set (W' := c0 :: remove Nat.eq_dec w W).
    set (q := fun c => if c =? c0 then s else cnt phi c).
    assert (Hrem : forall c, In c (remove Nat.eq_dec w W) <-> In c W /\ c <> w).
    { intros c. split; [apply in_remove|]. intros [H1 H2]. apply in_in_remove; auto. }
    assert (HW' : NoDup W').
    { constructor; [rewrite Hrem; tauto|]. clear - HW. induction W as [|d L IH]; simpl; [constructor|]. inversion HW; subst.
      destruct (Nat.eq_dec w d); auto. constructor; auto. intros H. apply in_remove in H. tauto. }
    assert (Hwl : S (length (remove Nat.eq_dec w W)) = length W).
    { clear - HW Hw. induction W as [|d L IH]; [destruct Hw|]. inversion HW; subst. simpl. destruct (Nat.eq_dec w d) as [->|Hne].
      - rewrite notin_remove; auto.
      - simpl. rewrite IH; auto. destruct Hw; [congruence|auto]. }
    assert (HWl : length W' = k) by exact Hwl.
    assert (Hsum : list_sum (map q W') = n).
    { unfold W'. cbn [map list_sum fold_right]. change (fold_right Nat.add 0) with list_sum.
      replace (q c0) with s by (unfold q; rewrite Nat.eqb_refl; auto).
      assert (E1 : list_sum (map q (remove Nat.eq_dec w W)) = list_sum (map (cnt phi) (remove Nat.eq_dec w W))).
      { apply list_sum_ext. intros c Hc. unfold q. destruct (Nat.eqb_spec c c0) as [->|]; auto. apply Hrem in Hc. tauto. }
      rewrite E1. rewrite <- A. rewrite (length_cnt_sum W phi HW) by (intros c Hc; rewrite Forall_forall in B; auto).
      unfold s. clear - HW Hw. induction W as [|d L IH]; [destruct Hw|]. inversion HW; subst. simpl. destruct (Nat.eq_dec w d) as [->|Hne].
      - rewrite notin_remove by auto. reflexivity.
      - destruct Hw; [congruence|]. cbn [map list_sum fold_right]. change (fold_right Nat.add 0) with list_sum. rewrite <- IH; auto. lia. }
    assert (Hcount : forall c, In c W' -> cnt (used psi (seq 0 n)) c <= q c).
    { intros c Hc. rewrite used_cnt. unfold q. destruct (Nat.eqb_spec c c0) as [->|Hcc].
      - rewrite <- HU'l. apply NoDup_incl_length; [apply NoDup_filter, seq_NoDup|]. intros i Hi. apply filter_In in Hi as [Hi E].
        apply in_seq in Hi. unfold psi in E. destruct (mem i U') eqn:Em; [apply mem_In; auto|].
        destruct (voter_approves p i (nth i phi 0) && negb (nth i phi 0 =? w)); [|discriminate]. apply Nat.eqb_eq in E.
        exfalso. apply Hc0. rewrite <- E. rewrite Forall_forall in B. apply B, nth_In. lia.
      - rewrite <- (map_nth_seq_phi phi), cnt_map, A. apply NoDup_incl_length; [apply NoDup_filter, seq_NoDup|].
        intros i Hi. apply filter_In in Hi as [Hi E]. apply filter_In. split; auto. unfold psi in E.
        destruct (mem i U'); [apply Nat.eqb_eq in E; congruence|].
        destruct (voter_approves p i (nth i phi 0) && negb (nth i phi 0 =? w)); [auto|discriminate]. }
    destruct (extend_assignment W' q n psi HW' Hsum) as (phi' & A' & B' & C' & D'); auto.
    { intros i c Hi E. unfold psi in E. destruct (mem i U'); [inversion E; left; auto|].
      destruct (voter_approves p i (nth i phi 0)) eqn:Ea; [|discriminate]. cbn [andb] in E.
      destruct (Nat.eqb_spec (nth i phi 0) w) as [|Hne']; [discriminate|]. cbn in E. inversion E; subst c. right. apply Hrem.
      split; auto. rewrite Forall_forall in B. apply B, nth_In. lia. }
    exists w, phi'. split; auto. split.
    - split; [exact A'|]. split; auto. fold W'. rewrite HWl. fold n. intros c Hc. rewrite C' by auto. unfold q.
      destruct (Nat.eqb_spec c c0); [apply C; auto|]. destruct Hc as [<-|Hc]; [congruence|]. apply Hrem in Hc. apply C. tauto.
    - rewrite !represented_ids by (auto; exact A'). fold n.
      set (sat := filter (fun i => voter_approves p i (nth i phi 0)) (seq 0 n)).
      set (sat1 := filter (fun i => negb (nth i phi 0 =? w)) sat).
      set (sat2 := filter (fun i => nth i phi 0 =? w) sat).
      assert (E1 : length sat = length sat1 + length sat2).
      { unfold sat1, sat2. clear. induction sat as [|i l IH]; simpl; auto. destruct (nth i phi 0 =? w); simpl; lia. }
      assert (E2 : length sat2 < s).
      { unfold s. rewrite <- (map_nth_seq_phi phi), cnt_map, A.
        assert (Hle : length (u :: sat2) <= length (filter (fun i => nth i phi 0 =? w) (seq 0 n))); [|simpl in Hle; lia].
        apply NoDup_incl_length.
        - constructor; [|apply NoDup_filter, NoDup_filter, seq_NoDup]. intros H. apply filter_In in H as [H _]. apply filter_In in H as [_ H].
          destruct (HUn u Hu) as (_ & _ & H'). congruence.
        - intros i [<-|Hi].
          + apply filter_In. split; [apply in_seq; destruct (HUn u Hu); lia|]. apply Nat.eqb_refl.
          + apply filter_In in Hi as [Hi E]. apply filter_In in Hi as [Hi _]. apply filter_In. auto. }
      assert (E3 : length (U' ++ sat1) <= length (filter (fun i => voter_approves p i (nth i phi' 0)) (seq 0 n))).
      { apply NoDup_incl_length.
        - apply NoDup_app_intro; auto; [apply NoDup_filter, NoDup_filter, seq_NoDup|]. intros i H1 H2.
          apply filter_In in H2 as [H2 _]. apply filter_In in H2 as [_ H2]. destruct (HUn i (HU'i i H1)) as (_ & _ & H'). congruence.
        - intros i Hi. apply in_app_iff in Hi as [Hi|Hi].
          + destruct (HUn i (HU'i i Hi)) as (H1 & H2 & _). apply filter_In. split; [apply in_seq; lia|].
            rewrite (D' i c0); auto. unfold psi. replace (mem i U') with true by (symmetry; apply mem_In; auto). reflexivity.
          + apply filter_In in Hi as [Hi E]. apply filter_In in Hi as [Hi Ea]. apply filter_In. split; auto. apply in_seq in Hi.
            destruct (mem i U') eqn:Em.
            * apply mem_In in Em. destruct (HUn i (HU'i i Em)) as (_ & _ & H'). congruence.
            * rewrite (D' i (nth i phi 0)); auto; [lia|]. unfold psi. rewrite Em, Ea, E. reflexivity. }
      rewrite app_length in E3. lia.
  Qed.
End Improve.

Theorem monroe_represents : forall p k W, unit_weights p -> 1 <= k -> voters p <> [] -> monroe_winner p k W ->
  JR p (default_quota p k) W /\ (length (voters p) mod k = 0 -> PJR_plus p (default_quota p k) W).
Proof.
  intros p k W Hu Hk Hv (Hcom & phi & Hphi & Hbest). set (n := length (voters p)) in *.
  assert (HN : NoDup W) by (apply ascending_NoDup, Hcom).
  assert (Hl : length W = k) by apply Hcom.
  assert (Hne : W <> []) by (intros ->; simpl in Hl; lia).
  assert (Hn1 : 1 <= n) by (subst n; destruct (voters p); [congruence|simpl; lia]).
  set (sigma := fun i => if voter_approves p i (nth i phi 0) then Some (nth i phi 0) else None).
  pose proof Hphi as (A & B & C). fold n in A, C. rewrite Hl in C.
  assert (Hin : forall i c, i < n -> sigma i = Some c -> In c W /\ voter_approves p i c = true).
  { intros i c Hi E. unfold sigma in E. destruct (voter_approves p i (nth i phi 0)) eqn:Ea; [|discriminate]. inversion E; subst c.
    split; auto. rewrite Forall_forall in B. apply B, nth_In. lia. }
  assert (Hcap : forall c, In c W -> length (filter (fun i => match sigma i with Some d => d =? c | None => false end) (seq 0 n)) <= ceil_div n k).
  { intros c Hc. destruct (C c Hc) as [_ Hle]. etransitivity; [|exact Hle]. rewrite <- (map_nth_seq_phi phi), cnt_map, A.
    apply NoDup_incl_length; [apply NoDup_filter, seq_NoDup|]. intros i Hi. apply filter_In in Hi as [Hi E]. apply filter_In. split; auto.
    unfold sigma in E. destruct (voter_approves p i (nth i phi 0)); [auto|discriminate]. }
  assert (Hend : forall c, c < num_cand p -> ~ In c W ->
    length (filter (fun i => match sigma i with Some _ => false | None => voter_approves p i c end) (seq 0 n)) < ceil_div n k).
  { intros c Hc HcW. set (U := filter _ (seq 0 n)). destruct (le_lt_dec (ceil_div n k) (length U)) as [Hle|]; auto. exfalso.
    destruct (improve p W phi c U HN Hne Hphi HcW) as (w & phi' & Hw & Hass & Hlt).
    - apply NoDup_filter, seq_NoDup.
    - intros i Hi. apply filter_In in Hi as [Hi E]. apply in_seq in Hi. split; [fold n; lia|]. unfold sigma in E.
      destruct (voter_approves p i (nth i phi 0)); [discriminate|]. auto.
    - rewrite Hl. exact Hle.
    - exact Hn1.
    - set (W' := c :: remove Nat.eq_dec w W) in *.
      assert (HN' : NoDup W').
      { constructor; [intros H; apply in_remove in H; tauto|]. clear - HN. induction W as [|d L IH]; simpl; [constructor|]. inversion HN; subst.
        destruct (Nat.eq_dec w d); auto. constructor; auto. intros H. apply in_remove in H. tauto. }
      assert (Hl' : length W' = k).
      { rewrite <- Hl. clear - HN Hw. unfold W'. simpl. induction W as [|d L IH]; [destruct Hw|]. inversion HN; subst. simpl. destruct (Nat.eq_dec w d) as [->|Hne].
        - rewrite notin_remove; auto.
        - simpl. rewrite IH; auto. destruct Hw; [congruence|auto]. }
      assert (Hcom' : is_committee p k (isort W')).
      { split; [apply isort_ascending; auto|]. split; [rewrite isort_length; auto|]. apply Forall_forall. intros d Hd. rewrite isort_In in Hd.
        destruct Hd as [<-|Hd]; auto. apply in_remove in Hd as [Hd _]. destruct Hcom as (_ & _ & HF). rewrite Forall_forall in HF. auto. }
      assert (Hass' : monroe_assignment p (isort W') phi').
      { destruct Hass as (X & Y & Z). split; auto. rewrite isort_length. split.
        - eapply Forall_impl; [|exact Y]. intros d Hd. rewrite isort_In. auto.
        - intros d Hd. rewrite isort_In in Hd. auto. }
      specialize (Hbest (isort W') phi' Hcom' Hass'). lia. }
  split.
  - apply (served_JR p k W sigma); auto.
  - intros Hm. apply (served_PJR_plus p k W sigma); auto.
Qed.

Theorem monroe_passes : forall nx gurobi e p k resolute maxn l W, networkx_correct nx -> valid_call p k resolute maxn -> unit_weights p ->
  compute_monroe nx e p (Z.of_nat k) "brute-force" resolute maxn = Ok l -> In W l ->
  check_JR p W None = Ok true /\
  (length (voters p) mod k = 0 -> PJR_plus p (default_quota p k) W /\ check_PJR gurobi p W None "brute-force" = Ok true).
Proof.
  intros nx g e p k resolute maxn l W Hx Hc Hu E Hin.
  assert (HW : monroe_winner p k W). { eapply answers_In; [|exact E|exact Hin]. apply compute_monroe_correct; auto. }
  destruct Hc as (Hw & Hv & Hk & _). assert (Hcom : is_committee p k W) by apply HW.
  destruct (monroe_represents p k W Hu ltac:(lia) Hv HW) as [HJ HP].
  destruct (committee_cand_set p k W (proj1 Hk) Hcom) as [Hcs Hne]. assert (El : length W = k) by apply Hcom.
  split; [apply passes_JR; auto; rewrite El; auto|]. intros Hm. specialize (HP Hm). split; auto.
  apply passes_PJR; auto. rewrite El. apply PJR_plus_PJR; auto.
Qed.
