(** * E Pluribus Hugo *)
From Coq Require Import String.
From Coq Require Import List Arith Bool ZArith QArith Lia Lqa Permutation Sorted.
From Verif Require Import Prelude Misc MiscProofs Preferences Scores Search Rule RulesThiele Spec Common Compute SpecCompute
  ComputeProofs ComputeSeq ComputeSeqProofs MesProofs RulesMore SpecMore.
Import ListNotations.
Local Open Scope string_scope.
Open Scope nat_scope.
Local Open Scope list_scope.

(** ** Scores *)
Lemma fold_if_sum : forall (A : Type) (b : A -> bool) (g : A -> Q) l s,
  (fold_left (fun s v => if b v then s + g v else s) l s == s + Qsum (map g (filter b l)))%Q.
Proof.
  intros A b g l. induction l as [|v l IH]; intros s; cbn [fold_left filter]; [unfold Qsum; cbn; lra|]. rewrite IH.
  destruct (b v); unfold Qsum; cbn; lra.
Qed.

Lemma mem_remaining : forall R c v, In c R -> mem c (filter (fun c => mem c (approved v)) R) = approves v c.
Proof.
  intros R c v Hc. unfold approves. destruct (mem c (approved v)) eqn:E.
  - apply mem_In, filter_In. auto.
  - apply mem_false. intros H. apply filter_In in H as [_ H]. congruence.
Qed.

Lemma sdv_points : forall p R c, In c R -> (sdv_score p R c == points p R c)%Q.
Proof.
  intros p R c Hc. unfold sdv_score, points, supporters.
  rewrite (fold_if_sum _ (fun v => mem c (filter (fun c => mem c (approved v)) R))
             (fun v => weight v / Qnat (length (filter (fun c => mem c (approved v)) R)))%Q).
  rewrite (filter_ext _ (fun v => approves v c)) by (intros; apply mem_remaining; auto). unfold inter. lra.
Qed.
Lemma av_support : forall p R c, In c R -> (eph_av_score p R c == support p c)%Q.
Proof.
  intros p R c Hc. unfold eph_av_score, support, wsum, supporters.
  rewrite (fold_if_sum _ (fun v => mem c (filter (fun c => mem c (approved v)) R)) weight).
  rewrite (filter_ext _ (fun v => approves v c)) by (intros; apply mem_remaining; auto). lra.
Qed.

(** ** The second smallest value *)
Lemma insert_map : forall (f : nat -> Q) x l,
  insert_by Qle_bool (f x) (map f l) = map f (insert_by (fun a b => Qle_bool (f a) (f b)) x l).
Proof. intros f x l. induction l as [|y l IH]; simpl; auto. destruct (Qle_bool (f x) (f y)); simpl; auto. f_equal. auto. Qed.
Lemma sort_map : forall (f : nat -> Q) l, sort_by Qle_bool (map f l) = map f (sort_by (fun a b => Qle_bool (f a) (f b)) l).
Proof. intros f l. induction l as [|y l IH]; simpl; auto. rewrite IH, insert_map. auto. Qed.

Lemma second_smallest : forall (f : nat -> Q) R, NoDup R -> 2 <= length R ->
  exists q, nth_error (sort_by Qle_bool (map f R)) 1 = Some q /\ (exists d, In d R /\ f d = q) /\
    forall c, In c R -> ((f c <= q)%Q <->
      forall d d', In d R -> In d' R -> (f d < f c)%Q -> (f d' < f c)%Q -> d = d').
Proof.
  intros f R HN HR. rewrite sort_map. set (g := fun a b => Qle_bool (f a) (f b)).
  assert (HP : Permutation R (sort_by g R)) by apply sort_by_perm.
  assert (HS : StronglySorted (fun a b => g a b = true) (sort_by g R)).
  { apply sort_by_sorted.
    - intros a b. unfold g. destruct (Qle_bool (f a) (f b)) eqn:E; [auto|]. right. apply Qle_bool_iff.
      destruct (Qlt_le_dec (f b) (f a)); [lra|]. apply Qle_bool_iff in q. congruence.
    - intros a b c. unfold g. rewrite !Qle_bool_iff. lra. }
  pose proof (Permutation_length HP) as HL. pose proof (Permutation_NoDup HP HN) as HN'.
  assert (HI : forall x, In x R <-> In x (sort_by g R)) by (intros; symmetry; apply sort_by_In).
  destruct (sort_by g R) as [|d0 [|d1 l]]; [simpl in HL; lia|simpl in HL; lia|].
  exists (f d1). split; auto. split; [exists d1; split; auto; apply HI; right; left; auto|].
  inversion HS as [|? ? HS1 HF0]; subst. inversion HS1 as [|? ? HS2 HF1]; subst. rewrite Forall_forall in HF0, HF1.
  assert (H01 : (f d0 <= f d1)%Q) by (apply Qle_bool_iff; apply HF0; left; auto).
  assert (H1 : forall x, In x l -> (f d1 <= f x)%Q) by (intros x Hx; apply Qle_bool_iff; apply HF1; auto).
  intros c Hc. split.
  - intros Hle d d' Hd Hd' Hlt Hlt'.
    assert (Hz : forall x, In x R -> (f x < f c)%Q -> x = d0).
    { intros x Hx Hl. apply HI in Hx. destruct Hx as [<-|[<-|Hx]]; auto; [lra|]. specialize (H1 x Hx). lra. }
    rewrite (Hz d), (Hz d'); auto.
  - intros Huniq. destruct (Qlt_le_dec (f d1) (f c)) as [Hl|]; auto. exfalso.
    assert (d0 = d1). { apply Huniq; [apply HI; left; auto|apply HI; right; left; auto|lra|auto]. }
    subst. inversion HN' as [|? ? Hnn _]; subst. apply Hnn. left. auto.
Qed.

Lemma elimination_spec : forall p R, NoDup R -> 2 <= length R ->
  exists E, elimination p R = Ok E /\ sublist E R /\ E <> [] /\ forall c, In c E <-> eliminated p R c.
Proof.
  intros p R HN HR. unfold elimination.
  destruct (second_smallest (sdv_score p R) R HN HR) as (q & -> & (d0 & Hd0 & Ed0) & Hq).
  set (C := filter (fun c => Qle_bool (sdv_score p R c) q) R).
  assert (HC : forall c, In c C <-> weak p R c).
  { intros c. unfold C, weak. rewrite filter_In, Qle_bool_iff. split; intros [Hc H]; split; auto.
    - pose proof (proj1 (Hq c Hc) H) as H'. intros d d' Hd Hd'. rewrite <- !sdv_points by auto. apply H'; auto.
    - apply (Hq c Hc). intros d d' Hd Hd'. rewrite !sdv_points by auto. apply H; auto. }
  assert (Hne : C <> []).
  { intros E0. assert (In d0 C) by (apply filter_In; split; auto; apply Qle_bool_iff; rewrite Ed0; lra). rewrite E0 in H. destruct H. }
  destruct (py_min_In (map (eph_av_score p R) C)) as (mn & -> & Hin & Hmin).
  { destruct C; [congruence|discriminate]. }
  cbn [rbind]. eexists. split; [reflexivity|]. split; [|split].
  - assert (Htr : forall (A : Type) (f g : A -> bool) l, sublist (filter f (filter g l)) l).
    { clear. intros A f g l. induction l as [|x l IH]; simpl; [constructor|]. destruct (g x); simpl; [destruct (f x)|]; constructor; auto. }
    apply Htr.
  - apply in_map_iff in Hin as (c & Ec & Hc). intros E0.
    assert (Hf : In c (filter (fun c => Qle_bool (eph_av_score p R c) mn) C)) by (apply filter_In; split; auto; apply Qle_bool_iff; rewrite Ec; lra).
    rewrite E0 in Hf. destruct Hf.
  - intros c. rewrite filter_In, Qle_bool_iff. unfold eliminated. rewrite HC.
    assert (HCR : forall d, weak p R d -> In d R) by (intros d H; apply H).
    split; intros [Hc H]; split; auto.
    + intros d Hd. rewrite <- (av_support p R c), <- (av_support p R d) by auto.
      eapply Qle_trans; [exact H|]. apply Hmin. apply in_map, HC. auto.
    + apply in_map_iff in Hin as (d & Ed & Hd). rewrite <- Ed. rewrite !av_support by (auto; apply HCR, HC; auto).
      apply H. apply HC. auto.
Qed.

(** ** The loop *)
Definition eph_next (p : profile) (k : nat) (R R' : list nat) : Prop :=
  ascending R' /\ (forall c, In c R' <-> In c R /\ ~ eliminated p R c) /\ k < length R'.
Inductive reaches_from (p : profile) (k : nat) (R0 : list nat) : list nat -> Prop :=
| rf_start : reaches_from p k R0 R0
| rf_step : forall R R', reaches_from p k R0 R -> eph_next p k R R' -> reaches_from p k R0 R'.
Definition winner_from (p : profile) (k : nat) (R0 : list nat) (W : list nat) : Prop :=
  exists R, reaches_from p k R0 R /\ is_committee p k W /\ incl W R /\
    (forall c, In c R -> ~ In c W -> eliminated p R c) /\
    (forall S, ascending S -> (forall c, In c S <-> In c R /\ ~ eliminated p R c) -> length S <= k).

Lemma winner_from_start : forall p k W, eph_winner p k W <-> winner_from p k (candidates p) W.
Proof.
  assert (H : forall p k R, eph_reaches p k R <-> reaches_from p k (candidates p) R).
  { intros p k R. split; intros H.
    - induction H as [|R R' H IH Ha Hc Hl]; [constructor|]. eapply rf_step; [exact IH|]. split; auto.
    - induction H as [|R R' H IH (A & B & C)]; [constructor|]. eapply eph_round; eauto. }
  intros p k W. split; intros (R & HR & H1 & H2 & H3 & H4); exists R; (split; [apply H; exact HR|exact (conj H1 (conj H2 (conj H3 H4)))]).
Qed.

Lemma next_unique : forall p k R A B, eph_next p k R A -> eph_next p k R B -> A = B.
Proof. intros p k R A B (HA & HA' & _) (HB & HB' & _). apply ascending_ext; auto. intros x. rewrite HA', HB'. tauto. Qed.

Lemma reaches_cases : forall p k R0 R, reaches_from p k R0 R -> R = R0 \/ exists R1, eph_next p k R0 R1 /\ reaches_from p k R1 R.
Proof.
  induction 1 as [|R R' H IH Hn]; auto. right. destruct IH as [->|(R1 & H1 & H2)].
  - exists R'. split; auto. constructor.
  - exists R1. split; auto. econstructor; eauto.
Qed.

Lemma winner_from_next : forall p k R R1 W, eph_next p k R R1 -> (winner_from p k R W <-> winner_from p k R1 W).
Proof.
  intros p k R R1 W Hn. split; intros (X & HX & H).
  - apply reaches_cases in HX as [->|(R2 & H2 & HX)].
    + exfalso. destruct H as (_ & _ & _ & H). destruct Hn as (A & B & C). specialize (H R1 A B). lia.
    + rewrite (next_unique _ _ _ _ _ Hn H2). exists X. auto.
  - exists X. split; auto. clear H. induction HX; [econstructor; [constructor|auto]|econstructor; eauto].
Qed.

Lemma diff_diff : forall R S, incl S R -> NoDup R -> forall x, In x (diff R (diff R S)) <-> In x S.
Proof.
  intros R S Hi HN x. unfold diff. rewrite !filter_In, !negb_true_iff, !mem_false, filter_In, negb_true_iff, mem_false.
  split.
  - intros [H1 H2]. destruct (in_dec Nat.eq_dec x S); auto. exfalso. auto.
  - intros H. split; auto. intros [_ H2]. auto.
Qed.

Lemma sublist_filter_eq : forall (l s : list nat), NoDup l -> sublist s l -> filter (fun x => mem x s) l = s.
Proof.
  intros l s Hn H. induction H as [l|x a l H IH|x a l H IH].
  - induction l; simpl; auto. inversion Hn; auto.
  - inversion Hn; subst. cbn [filter]. replace (mem x (x :: a)) with true by (symmetry; apply mem_In; left; auto). f_equal.
    transitivity (filter (fun x => mem x a) l); [|apply IH; auto]. apply filter_ext_in. intros y Hy. simpl. destruct (Nat.eqb_spec y x); [subst; contradiction|reflexivity].
  - inversion Hn; subst. cbn [filter]. replace (mem x a) with false; auto. symmetry. apply mem_false. intros Hx. apply H2.
    eapply sublist_incl; eauto.
Qed.

Lemma diff_length : forall R S, NoDup R -> sublist S R -> length (diff R S) = length R - length S.
Proof.
  intros R S HN HS. rewrite <- (sublist_filter_eq R S HN HS) at 2. unfold diff. clear.
  assert (length (filter (fun x => mem x S) R) + length (filter (fun x => negb (mem x S)) R) = length R); [|lia].
  induction R as [|x R IH]; simpl; auto. destruct (mem x S); simpl; lia.
Qed.

Lemma eph_loop_spec : forall p k maxn, 1 <= k -> forall fuel R, length R < fuel -> ascending R -> incl R (candidates p) -> k <= length R -> 2 <= length R ->
  exists cs, eph_loop p k maxn fuel R = Ok (cut maxn (sort_by committee_leb cs)) /\ NoDup cs /\ cs <> [] /\ Forall ascending cs /\
    forall W, In W cs <-> winner_from p k R W.
Proof.
  intros p k maxn Hk0. induction fuel as [|fuel IH]; intros R Hf Ha Hi Hk H2; [lia|]. cbn [eph_loop].
  assert (HN := ascending_NoDup R Ha). destruct (elimination_spec p R HN H2) as (E & -> & HE & Hne & HEl). cbn [rbind].
  assert (Hlen : length (diff R E) = length R - length E) by (apply diff_length; auto).
  assert (HEn : NoDup E) by (eapply sublist_NoDup; eauto).
  assert (HEi : incl E R) by (apply sublist_incl; auto).
  assert (HD : forall c, In c (diff R E) <-> In c R /\ ~ eliminated p R c).
  { intros c. unfold diff. rewrite filter_In, negb_true_iff, mem_false, HEl. tauto. }
  assert (HDa : ascending (diff R E)) by (apply ascending_filter; auto).
  pose proof (sublist_length _ _ _ HE) as HEl'. assert (length E <> 0) by (destruct E; [congruence|simpl; lia]).
  destruct (Nat.leb_spec (length R - length E) k) as [Hl|Hl].
  - set (cs := map (fun S => diff R S) (combinations E (length R - k))).
    assert (Hcs : Forall ascending cs).
    { apply Forall_forall. intros W HW. apply in_map_iff in HW as (S & <- & _). apply ascending_filter. auto. }
    assert (HSub : forall S, In S (combinations E (length R - k)) -> sublist S E /\ length S = length R - k /\ incl S R).
    { intros S HS. apply combinations_sublist in HS as [H3 H4]. split; auto. split; auto. intros x Hx. apply HEi. eapply sublist_incl; eauto. }
    exists cs. rewrite sorted_committees_asc by auto. cbn [rbind]. split; [reflexivity|]. split; [|split; [|split; auto]].
    + assert (Hinj : forall l, NoDup l -> (forall S, In S l -> sublist S E) -> NoDup (map (fun S => diff R S) l)).
      { induction l as [|S l IHl]; intros Hl1 Hl2; [constructor|]. inversion Hl1; subst. cbn [map]. constructor; [|apply IHl; auto; intros; apply Hl2; right; auto].
        intros Hin. apply in_map_iff in Hin as (T & ET & HT). assert (S = T); [|subst; contradiction].
        rewrite <- (sublist_filter_eq E S), <- (sublist_filter_eq E T); auto; [|apply Hl2; right; auto|apply Hl2; left; auto].
        apply filter_ext_in. intros x Hx.
        assert (HT' : forall y, In y S <-> In y T).
        { intros y. rewrite <- (diff_diff R S), <- (diff_diff R T), ET; auto; [tauto| |].
          - intros z Hz. apply HEi. eapply sublist_incl; [apply Hl2; right; exact HT|auto].
          - intros z Hz. apply HEi. eapply sublist_incl; [apply Hl2; left; auto|auto]. }
        destruct (mem x S) eqn:E1, (mem x T) eqn:E2; auto.
        - apply mem_In, HT', mem_In in E1. congruence.
        - apply mem_In, HT', mem_In in E2. congruence. }
      apply Hinj; [apply combinations_NoDup; auto|intros; apply HSub; auto].
    + pose proof (combinations_nonempty _ E (length R - k) ltac:(lia)) as Hc. intros E0. unfold cs in E0.
      destruct (combinations E (length R - k)); [congruence|discriminate].
    + intros W. split.
      * intros HW. apply in_map_iff in HW as (S & <- & HS). destruct (HSub S HS) as (S1 & S2 & S3).
        exists R. split; [constructor|]. split; [|split; [|split]].
        -- split; [apply ascending_filter; auto|]. split; [rewrite diff_length; auto; [lia|]|].
           ++ apply (ascending_sublist); auto. eapply sublist_ascending; [exact S1|]. eapply sublist_ascending; eauto.
           ++ apply Forall_forall. intros x Hx. apply filter_In in Hx as [Hx _]. apply Hi in Hx. apply in_seq in Hx. lia.
        -- intros x Hx. apply filter_In in Hx. tauto.
        -- intros c Hc Hn. apply HEl. eapply sublist_incl; [exact S1|].
           destruct (in_dec Nat.eq_dec c S); auto. exfalso. apply Hn. apply filter_In. split; auto. apply negb_true_iff, mem_false. auto.
        -- intros T HT HT'. replace T with (diff R E); [lia|]. apply ascending_ext; auto. intros x. rewrite HD, HT'. tauto.
      * intros (X & HX & HW & HWi & HWe & HWf). apply reaches_cases in HX as [->|(R1 & (A & B & C) & _)].
        2:{ exfalso. assert (R1 = diff R E); [|subst; lia]. apply ascending_ext; auto. intros x. rewrite HD, B. tauto. }
        apply in_map_iff. exists (diff R W). assert (HWa : ascending W) by apply HW.
        assert (HWs : sublist W R) by (apply ascending_sublist; auto).
        assert (HDW : length (diff R W) = length R - k). { rewrite diff_length; auto. f_equal. apply HW. }
        split.
        -- apply ascending_ext; [apply ascending_filter; auto|auto|]. intros x. apply diff_diff; auto.
        -- apply combinations_sublist. split; auto. apply ascending_sublist; [apply ascending_filter; auto|eapply sublist_ascending; eauto|].
           intros c Hc. apply filter_In in Hc as [Hc1 Hc2]. apply negb_true_iff, mem_false in Hc2. apply HEl. auto.
  - assert (Hnext : eph_next p k R (diff R E)) by (split; auto; split; auto; lia).
    destruct (IH (diff R E)) as (cs & E1 & E2 & E3 & E4 & E5); auto; try lia.
    { intros x Hx. apply Hi. apply filter_In in Hx. tauto. }
    exists cs. split; auto. split; auto. split; auto. split; auto. intros W. rewrite E5. symmetry. apply winner_from_next. auto.
Qed.

Lemma cut_sorted : forall maxn cs, Forall ascending cs ->
  sorted_committees (cut maxn (sort_by committee_leb cs)) = Ok (cut maxn (sort_by committee_leb cs)).
Proof.
  intros maxn cs Ha. rewrite sorted_committees_asc.
  - rewrite sort_by_id; auto. apply cut_printed, sort_printed.
  - apply Forall_forall. intros W HW. apply cut_In in HW. apply sort_by_In in HW. rewrite Forall_forall in Ha. auto.
Qed.

Theorem compute_eph_correct : forall e p k alg resolute maxn, exact_arithmetic e alg -> valid_call p k resolute maxn -> 2 <= num_cand p ->
  answers (eph_winner p k) resolute (limit maxn) (compute_eph e p (Z.of_nat k) alg resolute maxn) /\
  (resolute = true -> exists W l, compute_eph e p (Z.of_nat k) alg true maxn = Ok [W] /\
                                  compute_eph e p (Z.of_nat k) alg false maxn = Ok (W :: l)).
Proof.
  intros e p k alg resolute maxn Ha Hc H2. pose proof (valid_limit _ _ _ _ Hc) as Hm.
  assert (Hgen : forall b, valid_call p k b maxn -> compute_eph e p (Z.of_nat k) alg b maxn =
     (do cs <- eph_algorithm p k b (limit maxn); sorted_committees cs)).
  { intros b Hb. unfold compute_eph. erewrite (run_fractions e "eph" _ p k alg b maxn (fun k maxn => do cs <- eph_algorithm p k b maxn; sorted_committees cs));
      eauto; try reflexivity. destruct b; reflexivity. }
  destruct Hc as (Hw & Hv & Hk & Hx).
  assert (Hspec : forall mx, exists cs, eph_loop p k mx (S (num_cand p)) (candidates p) = Ok (cut mx (sort_by committee_leb cs)) /\
     NoDup cs /\ cs <> [] /\ Forall ascending cs /\ forall W, In W cs <-> eph_winner p k W).
  { intros mx. destruct (eph_loop_spec p k mx (proj1 Hk) (S (num_cand p)) (candidates p)) as (cs & E & A & B & C & D);
      try (unfold candidates; rewrite seq_length; lia); [apply ascending_seq|intros x; auto|].
    exists cs. split; auto. split; auto. split; auto. split; auto. intros W. rewrite D. symmetry. apply winner_from_start. }
  assert (Hval : valid_call p k resolute maxn) by (split; auto).
  assert (Hmain : forall b, valid_call p k b maxn -> exists cs, compute_eph e p (Z.of_nat k) alg b maxn =
      Ok (cut (if b then Some 1 else limit maxn) (sort_by committee_leb cs)) /\ NoDup cs /\ cs <> [] /\ Forall ascending cs /\ forall W, In W cs <-> eph_winner p k W).
  { intros b Hb. rewrite Hgen by auto. unfold eph_algorithm.
    destruct (Hspec (if b then Some 1 else limit maxn)) as (cs & E & A & B & C & D). exists cs. rewrite E. cbn [rbind].
    rewrite cut_sorted by auto. auto. }
  split.
  - destruct (Hmain resolute Hval) as (cs & -> & A & B & C & D). destruct resolute; [|apply (answers_irresolute_cut (eph_winner p k) _ _ cs); auto].
    destruct (sort_by committee_leb cs) as [|W l] eqn:E; [exfalso; revert E; apply sort_nonempty; auto|].
    cbn. apply answers_resolute_one. apply D. apply (sort_by_In _ committee_leb). rewrite E. left. auto.
  - intros ->. assert (Hval' : valid_call p k false maxn).
    { split; auto. split; auto. split; auto. destruct maxn as [[z|]|]; auto. destruct Hx. split; auto. }
    destruct (Hmain true Hval) as (cs & -> & A & B & C & D), (Hmain false Hval') as (cs' & -> & A' & B' & C' & D').
    replace (sort_by committee_leb cs') with (sort_by committee_leb cs).
    2:{ apply sort_committees_perm; auto. apply NoDup_Permutation; auto. intros W. rewrite D, D'. tauto. }
    destruct (sort_by committee_leb cs) as [|W l] eqn:E; [exfalso; revert E; apply sort_nonempty; auto|].
    exists W. destruct (limit maxn) as [[|n]|]; [simpl in Hm; lia| |]; cbn; eauto.
Qed.

Theorem eph_winner_committee : forall p k W, eph_winner p k W -> is_committee p k W.
Proof. intros p k W (R & _ & H & _). auto. Qed.

(** a profile with one candidate *)
Theorem compute_eph_single : forall e p alg resolute maxn, exact_arithmetic e alg -> valid_call p 1 resolute maxn -> num_cand p = 1 ->
  compute_eph e p 1 alg resolute maxn = Err IndexError.
Proof.
  intros e p alg resolute maxn Ha Hc H1. unfold compute_eph. change 1%Z with (Z.of_nat 1).
  erewrite (run_fractions e "eph" _ p 1 alg resolute maxn (fun k maxn => do cs <- eph_algorithm p k resolute maxn; sorted_committees cs));
      eauto; try reflexivity; [|destruct resolute; reflexivity].
  unfold eph_algorithm. rewrite H1. cbn [eph_loop]. unfold elimination, candidates. rewrite H1. reflexivity.
Qed.
