(** * Renaming candidates, reordering voters and scaling weights

    The specifications of all rules that do not break ties by candidate or voter
    order are invariant; used for C61 (neutrality, anonymity) and C62 (homogeneity). *)
From Coq Require Import List Arith Bool ZArith QArith Qfield Lia Lqa Permutation Sorted.
From Verif Require Import Prelude Misc Preferences Spec SpecRules SpecSeq.
Import ListNotations.
Open Scope nat_scope.

(** candidate [c] of [p] is called [s c] in [q], voter [i] of [p] is voter [r i] of
    [q], and all weights are multiplied by [x]; [t] and [r'] are the inverses *)
Record iso (p q : profile) (s t r r' : nat -> nat) (x : Q) : Prop := mkIso {
  iso_wp : wf p; iso_wq : wf q;
  iso_m : num_cand q = num_cand p;
  iso_n : length (voters q) = length (voters p);
  iso_s : forall c, c < num_cand p -> s c < num_cand p /\ t (s c) = c;
  iso_t : forall c, c < num_cand p -> t c < num_cand p /\ s (t c) = c;
  iso_r : forall i, i < length (voters p) -> r i < length (voters p) /\ r' (r i) = i;
  iso_r' : forall i, i < length (voters p) -> r' i < length (voters p) /\ r (r' i) = i;
  iso_a : forall i c, i < length (voters p) -> c < num_cand p -> likes q (r i) (s c) = likes p i c;
  iso_x : (0 < x)%Q;
  iso_w : forall i, i < length (voters p) -> (w q (r i) == x * w p i)%Q }.

Lemma iso_sym : forall p q s t r r' x, iso p q s t r r' x -> iso q p t s r' r (1 / x).
Proof.
  intros p q s t r r' x [wp wq m n hs ht hr hr' ha hx hw].
  constructor; auto; try (intros; rewrite ?m, ?n in *; auto).
  - destruct (hr' i H) as [Hi E]. destruct (ht c H0) as [Hc E']. rewrite <- (ha (r' i) (t c)) by auto. rewrite E, E'. auto.
  - apply Qlt_shift_div_l; auto. lra.
  - destruct (hr' i H) as [Hi E]. rewrite <- E at 2. rewrite hw by auto. field. lra.
Qed.

Section Iso.
  Context (p q : profile) (s t r r' : nat -> nat) (x : Q) (I : iso p q s t r r' x).

  Lemma in_range_p : forall i c, likes p i c = true -> c < num_cand p.
  Proof using I.
    intros i c H. unfold likes, approves in H. apply mem_In in H. unfold the_voter in H.
    destruct (le_lt_dec (length (voters p)) i) as [Hi|Hi]; [rewrite nth_overflow in H by auto; destruct H|].
    pose proof (iso_wp _ _ _ _ _ _ _ I) as [_ F]. rewrite Forall_forall in F.
    destruct (F _ (nth_In (voters p) (mkVoter [] 1 true) Hi)) as (_ & B & _). rewrite Forall_forall in B. auto.
  Qed.
  Lemma s_inj : forall c d, c < num_cand p -> d < num_cand p -> s c = s d -> c = d.
  Proof using I. intros c d Hc Hd E. destruct (iso_s _ _ _ _ _ _ _ I c Hc) as [_ A]. destruct (iso_s _ _ _ _ _ _ _ I d Hd) as [_ B]. congruence. Qed.
  Lemma r_inj : forall c d, c < length (voters p) -> d < length (voters p) -> r c = r d -> c = d.
  Proof using I. intros c d Hc Hd E. destruct (iso_r _ _ _ _ _ _ _ I c Hc) as [_ A]. destruct (iso_r _ _ _ _ _ _ _ I d Hd) as [_ B]. congruence. Qed.

  (** *** sets of candidates *)
  Definition in_range (W : list nat) : Prop := Forall (fun c => c < num_cand p) W.
  Definition rn (W : list nat) : list nat := isort (map s W).
  (** [U] is the set [W] renamed *)
  Definition img (W U : list nat) : Prop := forall c, c < num_cand p -> (In (s c) U <-> In c W).

  Lemma img_map : forall W, in_range W -> img W (map s W).
  Proof using I.
    intros W HW c Hc. rewrite in_map_iff. split; [|eauto]. intros (d & E & Hd).
    unfold in_range in HW. rewrite Forall_forall in HW. apply s_inj in E; auto. subst; auto.
  Qed.
  Lemma img_rn : forall W, in_range W -> img W (rn W).
  Proof using I. intros W HW c Hc. unfold rn. rewrite isort_In. apply img_map; auto. Qed.
  Lemma map_s_range : forall W, in_range W -> Forall (fun c => c < num_cand q) (map s W).
  Proof using I.
    intros W HW. unfold in_range in HW. rewrite Forall_forall in *. intros d Hd. apply in_map_iff in Hd. destruct Hd as (c & <- & Hc).
    rewrite (iso_m _ _ _ _ _ _ _ I). apply (iso_s _ _ _ _ _ _ _ I). auto.
  Qed.
  Lemma rn_range : forall W, in_range W -> Forall (fun c => c < num_cand q) (rn W).
  Proof using I. intros W HW. rewrite Forall_forall. intros d Hd. unfold rn in Hd. rewrite isort_In in Hd. revert d Hd. apply Forall_forall, map_s_range. auto. Qed.
  Lemma map_s_NoDup : forall W, in_range W -> NoDup W -> NoDup (map s W).
  Proof using I. intros W HW HN. unfold in_range in HW. rewrite Forall_forall in HW. apply NoDup_map_inj; auto. intros a b Ha Hb E. apply s_inj; auto. Qed.
  Lemma rn_ascending : forall W, in_range W -> NoDup W -> ascending (rn W).
  Proof using I. intros W HW HN. apply isort_ascending, map_s_NoDup; auto. Qed.
  Lemma rn_length : forall W, length (rn W) = length W.
  Proof using. intros W. unfold rn. rewrite isort_length, map_length. auto. Qed.
  Lemma rn_committee : forall k W, is_committee p k W -> is_committee q k (rn W).
  Proof using I.
    intros k W (A & B & C). split; [apply rn_ascending; auto; apply ascending_NoDup; auto|]. split; [rewrite rn_length; auto|apply rn_range; auto].
  Qed.
  Lemma rn_isort : forall L, rn (isort L) = isort (map s L).
  Proof using. intros L. unfold rn. apply isort_perm_eq, Permutation_map, Permutation_sym, isort_perm. Qed.
  Lemma s_lt : forall c, c < num_cand p -> s c < num_cand q.
  Proof using I. intros c Hc. rewrite (iso_m _ _ _ _ _ _ _ I). apply (iso_s _ _ _ _ _ _ _ I); auto. Qed.
  Lemma s_onto : forall d, d < num_cand q -> exists c, c < num_cand p /\ d = s c.
  Proof using I. intros d Hd. rewrite (iso_m _ _ _ _ _ _ _ I) in Hd. exists (t d). destruct (iso_t _ _ _ _ _ _ _ I d Hd). auto. Qed.
  Lemma r_lt : forall c, c < length (voters p) -> r c < length (voters q).
  Proof using I. intros c Hc. rewrite (iso_n _ _ _ _ _ _ _ I). apply (iso_r _ _ _ _ _ _ _ I); auto. Qed.
  Lemma r_onto : forall d, d < length (voters q) -> exists c, c < length (voters p) /\ d = r c.
  Proof using I. intros d Hd. rewrite (iso_n _ _ _ _ _ _ _ I) in Hd. exists (r' d). destruct (iso_r' _ _ _ _ _ _ _ I d Hd). auto. Qed.
  Lemma r'_r : forall i, i < length (voters p) -> r' (r i) = i.
  Proof using I. intros i Hi. apply (iso_r _ _ _ _ _ _ _ I). auto. Qed.
  Lemma fresh_s : forall W U c, img W U -> c < num_cand p -> (fresh q U (s c) <-> fresh p W c).
  Proof using I. intros W U c HI Hc. unfold fresh. rewrite (HI c Hc). pose proof (s_lt c Hc). tauto. Qed.
  Lemma fresh_onto : forall W U d, img W U -> fresh q U d -> exists c, fresh p W c /\ d = s c.
  Proof using I. intros W U d HI Hd. destruct (s_onto d) as (c & Hc & ->); [apply Hd|]. exists c. split; auto. apply (fresh_s W U c HI Hc); auto. Qed.

  (** *** sums over voters *)
  Lemma ids_perm : Permutation (map r (voter_ids p)) (voter_ids q).
  Proof using I.
    apply NoDup_Permutation.
    - apply NoDup_map_inj; [|apply seq_NoDup]. unfold voter_ids. intros a b Ha Hb. rewrite in_seq in Ha, Hb. apply r_inj; lia.
    - apply seq_NoDup.
    - intros j. unfold voter_ids. rewrite in_map_iff, in_seq, (iso_n _ _ _ _ _ _ _ I). split.
      + intros (i & <- & Hi). rewrite in_seq in Hi. destruct (iso_r _ _ _ _ _ _ _ I i); lia.
      + intros Hj. exists (r' j). destruct (iso_r' _ _ _ _ _ _ _ I j) as [A B]; [lia|]. rewrite in_seq. split; auto. lia.
  Qed.
  Lemma filter_ids : forall (P Q' : nat -> bool), (forall i, i < length (voters p) -> Q' (r i) = P i) ->
    Permutation (map r (filter P (voter_ids p))) (filter Q' (voter_ids q)).
  Proof using I.
    intros P Q' H. eapply perm_trans; [|apply Permutation_filter, ids_perm].
    assert (E : forall l, (forall i, In i l -> i < length (voters p)) -> map r (filter P l) = filter Q' (map r l)).
    { induction l as [|a l IH]; intros Hl; auto. cbn. rewrite H by (apply Hl; left; auto). destruct (P a); cbn; rewrite IH; auto; intros; apply Hl; right; auto. }
    rewrite E; auto. intros i Hi. unfold voter_ids in Hi. rewrite in_seq in Hi. lia.
  Qed.
  Lemma fans_perm : forall c, c < num_cand p -> Permutation (map r (fans p c)) (fans q (s c)).
  Proof using I. intros c Hc. apply filter_ids. intros i Hi. apply (iso_a _ _ _ _ _ _ _ I); auto. Qed.
  Lemma sum_perm : forall la lb (f g : nat -> Q), Permutation (map r la) lb -> (forall i, In i la -> g (r i) == f i)%Q -> (sum lb g == sum la f)%Q.
  Proof using.
    intros la lb f g HP H. unfold sum. rewrite <- (Qsum_perm _ _ (Permutation_map g HP)). rewrite map_map. apply Qsum_map_ext. auto.
  Qed.
  Lemma fans_lt : forall c i, In i (fans p c) -> i < length (voters p).
  Proof using. intros c i H. apply filter_In in H. destruct H as [H _]. unfold voter_ids in H. rewrite in_seq in H. lia. Qed.
  Lemma sum_fans : forall c (f g : nat -> Q), c < num_cand p -> (forall i, i < length (voters p) -> (g (r i) == f i)%Q) ->
    (sum (fans q (s c)) g == sum (fans p c) f)%Q.
  Proof using I. intros c f g Hc H. apply sum_perm; [apply fans_perm; auto|]. intros i Hi. apply H. eapply fans_lt; eauto. Qed.
  Lemma sum_ids : forall (f g : nat -> Q), (forall i, i < length (voters p) -> (g (r i) == f i)%Q) -> (sum (voter_ids q) g == sum (voter_ids p) f)%Q.
  Proof using I. intros f g H. apply sum_perm; [apply ids_perm|]. intros i Hi. apply H. unfold voter_ids in Hi. rewrite in_seq in Hi. lia. Qed.

  Lemma voters_ids : forall o : profile, voters o = map (the_voter o) (voter_ids o).
  Proof using.
    intros o. unfold voter_ids, the_voter. apply nth_ext with (d := mkVoter [] 1 true) (d' := mkVoter [] 1 true).
    - rewrite map_length, seq_length. auto.
    - intros i Hi. set (f := fun i => nth i (voters o) (mkVoter [] 1 true)).
      rewrite (nth_indep (map f _) _ (f 0)) by (rewrite map_length, seq_length; auto). rewrite map_nth, seq_nth by auto. reflexivity.
  Qed.
  Lemma filter_map : forall (A B : Type) (f : A -> B) (P : B -> bool) l, filter P (map f l) = map f (filter (fun a => P (f a)) l).
  Proof using. induction l as [|a l IH]; auto. cbn. destruct (P (f a)); cbn; rewrite IH; auto. Qed.
  Lemma supporters_fans : forall o c, supporters o c = map (the_voter o) (fans o c).
  Proof using. intros o c. unfold supporters, fans, likes. rewrite (voters_ids o) at 1. rewrite filter_map. auto. Qed.
  Lemma voters_sum : forall (F G : voter -> Q), (forall i, i < length (voters p) -> (G (the_voter q (r i)) == F (the_voter p i))%Q) ->
    (Qsum (map G (voters q)) == Qsum (map F (voters p)))%Q.
  Proof using I.
    intros F G H. rewrite (voters_ids p), (voters_ids q), !map_map.
    exact (sum_ids (fun i => F (the_voter p i)) (fun i => G (the_voter q i)) H).
  Qed.
  Lemma supporters_sum : forall c (F G : voter -> Q), c < num_cand p -> (forall i, i < length (voters p) -> (G (the_voter q (r i)) == F (the_voter p i))%Q) ->
    (Qsum (map G (supporters q (s c))) == Qsum (map F (supporters p c)))%Q.
  Proof using I.
    intros c F G Hc H. rewrite !supporters_fans, !map_map.
    exact (sum_fans c (fun i => F (the_voter p i)) (fun i => G (the_voter q i)) Hc H).
  Qed.
  Lemma Qsum_scal : forall (A : Type) (f : A -> Q) a l, (Qsum (map (fun v => a * f v) l) == a * Qsum (map f l))%Q.
  Proof using. intros. apply Qsum_map_scal. Qed.
  Lemma sum_scal : forall l (f : nat -> Q) a, (sum l (fun v => a * f v) == a * sum l f)%Q.
  Proof using. intros. unfold sum. apply Qsum_map_scal. Qed.
  Lemma support_iso : forall c, c < num_cand p -> (support q (s c) == x * support p c)%Q.
  Proof using I.
    intros c Hc. unfold support, wsum. rewrite <- Qsum_scal. apply supporters_sum; auto. intros i Hi. apply (iso_w _ _ _ _ _ _ _ I); auto.
  Qed.
  Lemma total_iso : (wsum (voters q) == x * wsum (voters p))%Q.
  Proof using I. unfold wsum. rewrite <- Qsum_scal. apply voters_sum. intros i Hi. apply (iso_w _ _ _ _ _ _ _ I); auto. Qed.

  (** *** ballots *)
  Lemma voter_wf_p : forall i, NoDup (approved (the_voter p i)) /\ in_range (approved (the_voter p i)).
  Proof using I.
    intros i. unfold the_voter. destruct (le_lt_dec (length (voters p)) i) as [Hi|Hi]; [rewrite nth_overflow by auto; split; constructor|].
    pose proof (iso_wp _ _ _ _ _ _ _ I) as [_ F]. rewrite Forall_forall in F.
    destruct (F _ (nth_In (voters p) (mkVoter [] 1 true) Hi)) as (A & B & _). split; auto.
  Qed.
  Lemma voter_wf_q : forall i, NoDup (approved (the_voter q i)) /\ Forall (fun c => c < num_cand q) (approved (the_voter q i)).
  Proof using I.
    intros i. unfold the_voter. destruct (le_lt_dec (length (voters q)) i) as [Hi|Hi]; [rewrite nth_overflow by auto; split; constructor|].
    pose proof (iso_wq _ _ _ _ _ _ _ I) as [_ F]. rewrite Forall_forall in F.
    destruct (F _ (nth_In (voters q) (mkVoter [] 1 true) Hi)) as (A & B & _). split; auto.
  Qed.
  Lemma approved_img : forall i, i < length (voters p) -> img (approved (the_voter p i)) (approved (the_voter q (r i))).
  Proof using I.
    intros i Hi c Hc. rewrite <- !mem_In. pose proof (iso_a _ _ _ _ _ _ _ I i c Hi Hc) as E. unfold likes, approves in E. rewrite E. tauto.
  Qed.
  Lemma same_count : forall A B, NoDup A -> in_range A -> NoDup B -> Forall (fun c => c < num_cand q) B -> img A B -> length B = length A.
  Proof using I.
    intros A B NA RA NB RB HI. rewrite <- (map_length s A). apply NoDup_same_length; auto; [apply map_s_NoDup; auto|].
    intros d. split.
    - intros Hd. rewrite Forall_forall in RB. destruct (s_onto d (RB d Hd)) as (c & Hc & ->). apply in_map, (HI c Hc). auto.
    - intros Hd. apply in_map_iff in Hd. destruct Hd as (c & <- & Hc). unfold in_range in RA. rewrite Forall_forall in RA. apply (HI c (RA c Hc)). auto.
  Qed.
  Lemma approved_length : forall i, i < length (voters p) -> length (approved (the_voter q (r i))) = length (approved (the_voter p i)).
  Proof using I. intros i Hi. destruct (voter_wf_p i), (voter_wf_q (r i)). apply same_count; auto. apply approved_img; auto. Qed.
  Lemma inter_range : forall A B, in_range A -> in_range (inter A B).
  Proof using. intros A B H. unfold in_range in *. rewrite Forall_forall in *. intros c Hc. apply inter_In in Hc. apply H, Hc. Qed.
  Lemma inter_range_q : forall A B, Forall (fun c => c < num_cand q) A -> Forall (fun c => c < num_cand q) (inter A B).
  Proof using. intros A B H. rewrite Forall_forall in *. intros c Hc. apply inter_In in Hc. apply H, Hc. Qed.
  Lemma inter_img : forall A B A' B', img A A' -> img B B' -> img (inter A B) (inter A' B').
  Proof using. intros A B A' B' HA HB c Hc. rewrite !inter_In, (HA c Hc), (HB c Hc). tauto. Qed.
  Lemma diff_img : forall A B A' B', img A A' -> img B B' -> img (diff A B) (diff A' B').
  Proof using. intros A B A' B' HA HB c Hc. rewrite !diff_In, (HA c Hc), (HB c Hc). tauto. Qed.
  Lemma util_iso : forall i W U, i < length (voters p) -> img W U -> util (the_voter q (r i)) U = util (the_voter p i) W.
  Proof using I.
    intros i W U Hi HI. destruct (voter_wf_p i), (voter_wf_q (r i)). unfold util. apply same_count; auto using NoDup_inter, inter_range, inter_range_q.
    apply inter_img; auto. apply approved_img; auto.
  Qed.
  Lemma diff_range : forall A B, in_range A -> in_range (diff A B).
  Proof using. intros A B H. unfold in_range in *. rewrite Forall_forall in *. intros c Hc. apply diff_In in Hc. apply H, Hc. Qed.
  Lemma diff_range_q : forall A B, Forall (fun c => c < num_cand q) A -> Forall (fun c => c < num_cand q) (diff A B).
  Proof using. intros A B H. rewrite Forall_forall in *. intros c Hc. apply diff_In in Hc. apply H, Hc. Qed.
  Lemma distance_iso : forall i W, i < length (voters p) -> in_range W -> NoDup W ->
    distance (approved (the_voter q (r i))) (rn W) = distance (approved (the_voter p i)) W.
  Proof using I.
    intros i W Hi RW NW. destruct (voter_wf_p i), (voter_wf_q (r i)). unfold distance. pose proof (rn_range W RW). pose proof (img_rn W RW).
    pose proof (ascending_NoDup _ (rn_ascending W RW NW)). pose proof (approved_img i Hi).
    f_equal; apply same_count; auto using NoDup_diff, diff_range, diff_range_q, diff_img.
  Qed.

  (** *** Thiele methods and other scores *)
  Lemma Thiele_iso : forall f W U, img W U -> (Thiele f q U == x * Thiele f p W)%Q.
  Proof using I.
    intros f W U HI. unfold Thiele. rewrite <- Qsum_scal. apply voters_sum. intros i Hi. rewrite (util_iso i W U Hi HI).
    pose proof (iso_w _ _ _ _ _ _ _ I i Hi) as E. unfold w in E. rewrite E. ring.
  Qed.
  Lemma rn_onto : forall k U, is_committee q k U -> exists W, is_committee p k W /\ U = rn W.
  Proof using I.
    intros k U (A & B & C). pose proof (iso_m _ _ _ _ _ _ _ I) as Em. rewrite Forall_forall in C.
    assert (N : NoDup (map t U)).
    { apply NoDup_map_inj; [|apply ascending_NoDup; auto]. intros a b Ha Hb E. rewrite Em in C.
      destruct (iso_t _ _ _ _ _ _ _ I a (C a Ha)), (iso_t _ _ _ _ _ _ _ I b (C b Hb)). congruence. }
    exists (isort (map t U)). split.
    - split; [apply isort_ascending; auto|]. split; [rewrite isort_length, map_length; auto|]. apply Forall_forall. intros c Hc. rewrite isort_In in Hc.
      apply in_map_iff in Hc. destruct Hc as (d & <- & Hd). apply (iso_t _ _ _ _ _ _ _ I). rewrite <- Em. auto.
    - rewrite rn_isort, map_map. rewrite (map_ext_in _ (fun d => d)); [rewrite map_id, isort_id; auto|].
      intros d Hd. apply (iso_t _ _ _ _ _ _ _ I). rewrite <- Em. auto.
  Qed.
  Lemma maximises_iso : forall (F G : list nat -> Q) k W, (forall V, is_committee p k V -> (G (rn V) == x * F V)%Q) ->
    maximises F p k W -> maximises G q k (rn W).
  Proof using I.
    intros F G k W H [HW Hmax]. split; [apply rn_committee; auto|]. intros U HU. destruct (rn_onto k U HU) as (V & HV & ->).
    rewrite !H by auto. specialize (Hmax V HV). pose proof (iso_x _ _ _ _ _ _ _ I). nra.
  Qed.
  Lemma committee_range : forall k W, is_committee p k W -> in_range W.
  Proof using. intros k W (_ & _ & H). exact H. Qed.
  Lemma thiele_winner_iso : forall f k W, maximises (Thiele f p) p k W -> maximises (Thiele f q) q k (rn W).
  Proof using I. intros f k W. apply maximises_iso. intros V HV. apply Thiele_iso, img_rn. eapply committee_range; eauto. Qed.
  Lemma sum_rn : forall (f g : nat -> Q) V, in_range V -> (forall c, c < num_cand p -> (g (s c) == x * f c)%Q) ->
    (Qsum (map g (rn V)) == x * Qsum (map f V))%Q.
  Proof using I.
    intros f g V HV H. unfold rn. rewrite <- (Qsum_perm _ _ (Permutation_map g (isort_perm (map s V)))), map_map, <- Qsum_scal.
    apply Qsum_map_ext. intros c Hc. apply H. unfold in_range in HV. rewrite Forall_forall in HV. auto.
  Qed.
  Lemma av_winner_iso : forall k W, maximises (fun W => Qsum (map (support p) W)) p k W -> maximises (fun W => Qsum (map (support q) W)) q k (rn W).
  Proof using I. intros k W. apply maximises_iso. intros V HV. apply sum_rn; [eapply committee_range; eauto|]. apply support_iso. Qed.
  Lemma sav_winner_iso : forall k W, maximises (fun W => Qsum (map (sav_support p) W)) p k W -> maximises (fun W => Qsum (map (sav_support q) W)) q k (rn W).
  Proof using I.
    intros k W. apply maximises_iso. intros V HV. apply sum_rn; [eapply committee_range; eauto|]. intros c Hc. unfold sav_support. rewrite <- Qsum_scal.
    apply supporters_sum; auto. intros i Hi. rewrite approved_length by auto. pose proof (iso_w _ _ _ _ _ _ _ I i Hi) as E. unfold w in E. rewrite E. unfold Qdiv. ring.
  Qed.
  Lemma at_least_iso : forall W U j, img W U -> (at_least_weight q U j == x * at_least_weight p W j)%Q.
  Proof using I.
    intros W U j HI. unfold at_least_weight, wsum. rewrite !Qsum_filter, <- Qsum_scal. apply voters_sum. intros i Hi. rewrite (util_iso i W U Hi HI).
    destruct (j <=? util (the_voter p i) W); [apply (iso_w _ _ _ _ _ _ _ I); auto|ring].
  Qed.
  Lemma lexcc_iso : forall k W, lexcc_winner p k W -> lexcc_winner q k (rn W).
  Proof using I.
    intros k W [HW Hbest]. split; [apply rn_committee; auto|]. intros U HU. destruct (rn_onto k U HU) as (V & HV & ->).
    pose proof (fun j => at_least_iso W (rn W) j (img_rn W (committee_range k W HW))) as E1. pose proof (fun j => at_least_iso V (rn V) j (img_rn V (committee_range k V HV))) as E2.
    pose proof (iso_x _ _ _ _ _ _ _ I) as Hx. destruct (Hbest V HV) as [H|(j & Hj & H1 & H2)]; [left|right].
    - intros j Hj. rewrite E1, E2, (H j Hj). reflexivity.
    - exists j. split; auto. split; [rewrite E1, E2; nra|]. intros j' Hj'. rewrite E1, E2, (H2 j' Hj'). reflexivity.
  Qed.

  (** *** distances *)
  Lemma voter_of_p : forall v, In v (voters p) -> exists i, i < length (voters p) /\ v = the_voter p i.
  Proof using. intros v Hv. destruct (In_nth _ _ (mkVoter [] 1 true) Hv) as (i & Hi & E). exists i. auto. Qed.
  Lemma voter_of_q : forall v, In v (voters q) -> exists i, i < length (voters p) /\ v = the_voter q (r i).
  Proof using I.
    intros v Hv. destruct (In_nth _ _ (mkVoter [] 1 true) Hv) as (j & Hj & E). destruct (r_onto j Hj) as (i & Hi & ->). exists i. auto.
  Qed.
  Lemma the_voter_in : forall o i, i < length (voters o) -> In (the_voter o i) (voters o).
  Proof using. intros o i Hi. unfold the_voter. apply nth_In. auto. Qed.
  Lemma max_distance_iso : forall W d, in_range W -> NoDup W -> (max_distance q (rn W) d <-> max_distance p W d).
  Proof using I.
    intros W d RW NW. unfold max_distance.
    assert (E : voters q = [] <-> voters p = []) by (rewrite <- !length_zero_iff_nil, (iso_n _ _ _ _ _ _ _ I); tauto). rewrite E. split; intros (A & B & C); split; auto.
    - intros v Hv. destruct (voter_of_p v Hv) as (i & Hi & ->). rewrite <- distance_iso by auto. apply A, the_voter_in, r_lt; auto.
    - split; auto. intros Hne. destruct (B Hne) as (u & Hu & Hd). destruct (voter_of_q u Hu) as (i & Hi & ->). exists (the_voter p i). split; [apply the_voter_in; auto|].
      rewrite <- Hd. symmetry. apply distance_iso; auto.
    - intros v Hv. destruct (voter_of_q v Hv) as (i & Hi & ->). rewrite distance_iso by auto. apply A, the_voter_in; auto.
    - split; auto. intros Hne. destruct (B Hne) as (u & Hu & Hd). destruct (voter_of_p u Hu) as (i & Hi & ->). exists (the_voter q (r i)). split; [apply the_voter_in, r_lt; auto|].
      rewrite <- Hd. apply distance_iso; auto.
  Qed.
  Lemma minimaxav_iso : forall k W, minimaxav_winner p k W -> minimaxav_winner q k (rn W).
  Proof using I.
    intros k W [HW Hb]. split; [apply rn_committee; auto|]. intros U d d' HU H1 H2. destruct (rn_onto k U HU) as (V & HV & ->).
    apply (Hb V); auto; eapply max_distance_iso; eauto; try (eapply committee_range; eauto); [destruct HW|destruct HV]; apply ascending_NoDup; auto.
  Qed.
  Lemma count_voters : forall (P Q' : voter -> bool), (forall i, i < length (voters p) -> Q' (the_voter q (r i)) = P (the_voter p i)) ->
    length (filter Q' (voters q)) = length (filter P (voters p)).
  Proof using I.
    intros P Q' H. rewrite (voters_ids p), (voters_ids q), !filter_map, !map_length.
    rewrite <- (Permutation_length (filter_ids (fun i => P (the_voter p i)) (fun i => Q' (the_voter q i)) H)), map_length. auto.
  Qed.
  Lemma lexminimaxav_iso : forall k W, lexminimaxav_winner p k W -> lexminimaxav_winner q k (rn W).
  Proof using I.
    intros k W [HW Hb]. split; [apply rn_committee; auto|]. intros U HU. destruct (rn_onto k U HU) as (V & HV & ->).
    assert (E : forall V d, is_committee p k V -> voters_at_least q (rn V) d = voters_at_least p V d).
    { intros V' d HV'. unfold voters_at_least. apply count_voters. intros i Hi. rewrite distance_iso; auto; [eapply committee_range; eauto|apply ascending_NoDup, HV']. }
    destruct (Hb V HV) as [H|(d & H1 & H2)]; [left|right].
    - intros d. rewrite !E; auto.
    - exists d. rewrite !E by auto. split; auto. intros e He. rewrite !E by auto. auto.
  Qed.

  (** *** greedy addition and removal *)
  Lemma best_addition_range : forall f W c, best_addition f p W c -> c < num_cand p.
  Proof using. intros f W c H. apply H. Qed.
  Lemma greedy_range : forall f L, greedy_run f p L -> in_range L.
  Proof using. induction 1; constructor; auto. apply H0. Qed.
  Lemma img_cons : forall W U c, c < num_cand p -> img W U -> img (c :: W) (s c :: U).
  Proof using I.
    intros W U c Hc HI d Hd. cbn. rewrite (HI d Hd). split; intros [E|E]; auto. left. apply s_inj; auto.
  Qed.
  Lemma best_addition_iso : forall f W U c, img W U -> best_addition f p W c -> best_addition f q U (s c).
  Proof using I.
    intros f W U c HI (Hc & HnW & Hb). split; [apply s_lt; auto|]. split; [rewrite (HI c Hc); auto|]. intros d Hd HdU.
    destruct (s_onto d Hd) as (d0 & Hd0 & ->). rewrite (HI d0 Hd0) in HdU.
    rewrite (Thiele_iso f (c :: W) (s c :: U)) by (apply img_cons; auto). rewrite (Thiele_iso f (d0 :: W) (s d0 :: U)) by (apply img_cons; auto).
    specialize (Hb d0 Hd0 HdU). pose proof (iso_x _ _ _ _ _ _ _ I). nra.
  Qed.
  Lemma greedy_iso : forall f L, greedy_run f p L -> greedy_run f q (map s L).
  Proof using I.
    induction 1; cbn; constructor; auto. eapply best_addition_iso; eauto. apply img_map. eapply greedy_range; eauto.
  Qed.
  Lemma seq_winner_iso : forall f k W, seq_thiele_winner f p k W -> seq_thiele_winner f q k (rn W).
  Proof using I.
    intros f k W (L & HL & Hk & ->). exists (map s L). split; [apply greedy_iso; auto|]. split; [rewrite map_length; auto|apply rn_isort].
  Qed.
  Lemma removal_facts : forall f W, removal_run f p W -> in_range W /\ ascending W.
  Proof using.
    induction 1 as [|W c HW [IH1 IH2] Hb].
    - split; [apply Forall_forall; intros c Hc; apply in_seq in Hc; lia|apply ascending_seq].
    - unfold without. split; [|eapply sublist_ascending; [apply filter_sublist|auto]].
      unfold in_range in *. rewrite Forall_forall in *. intros d Hd. apply filter_In in Hd. apply IH1, Hd.
  Qed.
  Lemma without_img : forall W U c, c < num_cand p -> img W U -> img (without c W) (without (s c) U).
  Proof using I.
    intros W U c Hc HI d Hd. unfold without. rewrite !filter_In, (HI d Hd), !negb_true_iff, !Nat.eqb_neq.
    split; (intros [A B]; split; [auto|intros E; apply B]); [subst; auto|apply s_inj; auto].
  Qed.
  Lemma asc_img : forall W U, in_range W -> NoDup W -> ascending U -> Forall (fun c => c < num_cand q) U -> img W U -> U = rn W.
  Proof using I.
    intros W U RW NW AU RU HI. apply ascending_ext; auto; [apply rn_ascending; auto|]. intros d. pose proof (img_rn W RW) as HI'.
    rewrite Forall_forall in RU. pose proof (rn_range W RW) as RR. rewrite Forall_forall in RR. split; intros Hd.
    - destruct (s_onto d (RU d Hd)) as (c & Hc & ->). apply (HI' c Hc), (HI c Hc). auto.
    - destruct (s_onto d (RR d Hd)) as (c & Hc & ->). apply (HI c Hc), (HI' c Hc). auto.
  Qed.
  Lemma rn_all : rn (seq 0 (num_cand p)) = seq 0 (num_cand q).
  Proof using I.
    symmetry. apply asc_img.
    - apply Forall_forall. intros c Hc. apply in_seq in Hc. lia.
    - apply seq_NoDup.
    - apply ascending_seq.
    - apply Forall_forall. intros c Hc. apply in_seq in Hc. lia.
    - intros c Hc. rewrite !in_seq. pose proof (s_lt c Hc). lia.
  Qed.
  Lemma rn_without : forall W c, in_range W -> ascending W -> c < num_cand p -> rn (without c W) = without (s c) (rn W).
  Proof using I.
    intros W c RW AW Hc. symmetry. apply asc_img.
    - unfold in_range, without in *. rewrite Forall_forall in *. intros d Hd. apply filter_In in Hd. apply RW, Hd.
    - apply NoDup_filter, ascending_NoDup. auto.
    - eapply sublist_ascending; [apply filter_sublist|]. apply rn_ascending; auto. apply ascending_NoDup; auto.
    - pose proof (rn_range W RW) as H. unfold without. rewrite Forall_forall in *. intros d Hd. apply filter_In in Hd. apply H, Hd.
    - apply without_img; auto. apply img_rn. auto.
  Qed.
  Lemma removal_iso : forall f W, removal_run f p W -> removal_run f q (rn W).
  Proof using I.
    intros f W H. induction H as [|W c HW IH [Hc Hb]]; [rewrite rn_all; constructor|].
    destruct (removal_facts f W HW) as [RW AW]. pose proof RW as RW'. unfold in_range in RW'. rewrite Forall_forall in RW'. pose proof (img_rn W RW) as HI.
    rewrite rn_without by auto. apply removal_step; auto. split; [apply (HI c); auto|].
    intros d Hd. pose proof (rn_range W RW) as RR. rewrite Forall_forall in RR. destruct (s_onto d (RR d Hd)) as (d0 & Hd0 & ->).
    rewrite (Thiele_iso f (without d0 W) (without (s d0) (rn W))), (Thiele_iso f (without c W) (without (s c) (rn W))) by (apply without_img; auto).
    apply (HI d0) in Hd; auto. specialize (Hb d0 Hd). pose proof (iso_x _ _ _ _ _ _ _ I). nra.
  Qed.
  Lemma revseq_iso : forall f k W, revseq_winner f p k W -> revseq_winner f q k (rn W).
  Proof using I. intros f k W [H Hk]. split; [apply removal_iso; auto|rewrite rn_length; auto]. Qed.
End Iso.
