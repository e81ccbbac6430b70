(** * Facts about the model of scores.py *)
From Coq Require Import List Arith Bool ZArith QArith Lia Lqa Permutation.
From Verif Require Import Prelude Misc Preferences Scores Spec.
Import ListNotations.
Open Scope nat_scope.

Lemma dedup_In : forall x l, In x (dedup l) <-> In x l.
Proof. intros. unfold dedup. apply nodup_In. Qed.
Lemma dedup_NoDup : forall l, NoDup (dedup l).
Proof. intros. apply NoDup_nodup. Qed.

Lemma util_le : forall v W, util v W <= length (approved v).
Proof. intros. apply inter_length_le_l. Qed.

Lemma util_set_same : forall v W W', set_same W W' -> util v W = util v W'.
Proof. intros. apply inter_length_ext. intros. apply H. Qed.

Lemma inner_thiele : forall f w (l : list nat) n s,
  let r := fold_left (fun st (_:nat) => let '(cnt, s) := st in (S cnt, (s + w * f (S cnt))%Q)) l (n, s) in
  fst r = n + length l /\ (snd r == s + w * Qsum (map f (seq (S n) (length l))))%Q.
Proof.
  induction l as [|x l IH]; intros n s; simpl.
  - split; [lia|]. ring.
  - specialize (IH (S n) (s + w * f (S n))%Q). simpl in IH. destruct IH as [IH1 IH2].
    split; [lia|]. rewrite IH2. ring.
Qed.

Theorem thiele_score_correct : forall f p W,
  Forall (fun v => NoDup (approved v)) (voters p) ->
  (thiele_score f p W == Thiele f p W)%Q.
Proof.
  intros f p W Hn. unfold thiele_score, Thiele.
  assert (H : forall vs s, Forall (fun v => NoDup (approved v)) vs ->
    (fold_left (fun score v =>
       snd (fold_left (fun st (_:nat) => let '(cnt, s) := st in (S cnt, (s + weight v * f (S cnt))%Q))
                      (inter (dedup W) (approved v)) (0%nat, score))) vs s ==
     s + Qsum (map (fun v => weight v * Qsum (map f (seq 1 (util v W)))) vs))%Q).
  { induction vs as [|v vs IH]; intros s Hv; simpl; [ring|].
    inversion Hv; subst. rewrite IH by auto.
    destruct (inner_thiele f (weight v) (inter (dedup W) (approved v)) 0 s) as [_ E].
    rewrite E. rewrite (inter_comm_length (dedup W) (approved v)) by auto using dedup_NoDup.
    replace (length (inter (approved v) (dedup W))) with (util v W).
    - ring.
    - apply inter_length_ext. intros. rewrite dedup_In. tauto. }
  rewrite H by auto. ring.
Qed.

Lemma wf_nodup : forall p, wf p -> Forall (fun v => NoDup (approved v)) (voters p).
Proof. intros p [_ H]. eapply Forall_impl; [|eassumption]. intros v []; auto. Qed.

Lemma wf_voter_in : forall p v, wf p -> In v (voters p) -> wf_voter (num_cand p) v.
Proof. intros p v [_ H] Hv. rewrite Forall_forall in H. auto. Qed.

Lemma cumulative_score_correct : forall f n,
  (cumulative_score f n == Qsum (map f (seq 1 n)))%Q.
Proof.
  intros f n. unfold cumulative_score.
  assert (H : forall l s, (fold_left (fun s i => s + f (i + 1)%nat) l s == s + Qsum (map (fun i => f (S i)) l))%Q).
  { induction l; intros s; simpl; [ring|]. rewrite IHl. rewrite Nat.add_1_r. ring. }
  rewrite H. rewrite <- seq_shift, map_map. ring.
Qed.

(** ** Array accumulation: [for voter: for cand in approved: a[cand] += val(voter)] *)

Definition accumulate (val : voter -> Q) (vs : list voter) (a : list Q) : list Q :=
  fold_left (fun a v => fold_left (fun a c => upd (fun x => x + val v)%Q c a) (approved v) a) vs a.

Lemma inner_acc_length : forall q l a,
  length (fold_left (fun a c => upd (fun x => x + q)%Q c a) l a) = length a.
Proof. induction l; simpl; intros; auto. rewrite IHl, upd_length. auto. Qed.

Lemma inner_acc_nth : forall q l a c, NoDup l -> c < length a ->
  (nthQ (fold_left (fun a c => upd (fun x => x + q)%Q c a) l a) c ==
   nthQ a c + (if mem c l then q else 0))%Q.
Proof.
  induction l as [|d l IH]; simpl; intros a c Hn Hc.
  - ring.
  - inversion Hn; subst. rewrite IH by (rewrite ?upd_length; auto).
    unfold nthQ. rewrite nth_upd. destruct (Nat.eqb_spec c d).
    + subst d. apply Nat.ltb_lt in Hc. rewrite Hc. simpl.
      assert (mem c l = false) by (apply mem_false; auto). rewrite H. ring.
    + simpl. reflexivity.
Qed.

Lemma accumulate_length : forall val vs a, length (accumulate val vs a) = length a.
Proof.
  unfold accumulate. induction vs; simpl; intros; auto. rewrite IHvs, inner_acc_length. auto.
Qed.

Lemma accumulate_nth : forall val vs a c,
  Forall (fun v => NoDup (approved v)) vs -> c < length a ->
  (nthQ (accumulate val vs a) c ==
   nthQ a c + Qsum (map val (filter (fun v => approves v c) vs)))%Q.
Proof.
  unfold accumulate. induction vs as [|v vs IH]; simpl; intros a c Hn Hc; [ring|].
  inversion Hn; subst. rewrite IH by (rewrite ?inner_acc_length; auto).
  rewrite inner_acc_nth by auto. unfold approves at 2. destruct (mem c (approved v)); simpl; ring.
Qed.

Lemma nthQ_repeat0 : forall n c, nthQ (repeat 0%Q n) c = 0%Q.
Proof. unfold nthQ. induction n; destruct c; simpl; auto. Qed.

Lemma set_minus1_nth : forall l a c x, c < length a ->
  nthQ (fold_left (fun a c => upd (fun _ => x) c a) l a) c =
  if mem c l then x else nthQ a c.
Proof.
  intros l a c x. revert a. induction l as [|d l IH]; simpl; intros a Hc; auto.
  rewrite IH by (rewrite upd_length; auto). unfold nthQ. rewrite nth_upd.
  destruct (Nat.eqb_spec c d); simpl.
  - subst. apply Nat.ltb_lt in Hc. rewrite Hc. destruct (mem d l); auto.
  - auto.
Qed.

Lemma set_minus1_length : forall l (a : list Q) x,
  length (fold_left (fun a c => upd (fun _ => x) c a) l a) = length a.
Proof. induction l; simpl; intros; auto. rewrite IHl, upd_length. auto. Qed.

(** marginal gain of adding [c] *)
Definition gain (f : nat -> Q) (p : profile) (W : list nat) (c : nat) : Q :=
  Qsum (map (fun v => weight v * f (S (util v W)))%Q (supporters p c)).

Lemma marg_add_length : forall f p W, length (marginal_thiele_scores_add f p W) = num_cand p.
Proof.
  intros. unfold marginal_thiele_scores_add. rewrite set_minus1_length.
  fold (accumulate (fun v => weight v * f (length (inter (approved v) W) + 1)%nat)%Q (voters p) (repeat 0%Q (num_cand p))).
  rewrite accumulate_length, repeat_length. auto.
Qed.

Theorem marg_add_nth : forall f p W c, wf p -> c < num_cand p ->
  (nthQ (marginal_thiele_scores_add f p W) c ==
   if mem c W then -1 else gain f p W c)%Q.
Proof.
  intros f p W c Hw Hc. unfold marginal_thiele_scores_add.
  fold (accumulate (fun v => weight v * f (length (inter (approved v) W) + 1)%nat)%Q (voters p) (repeat 0%Q (num_cand p))).
  rewrite set_minus1_nth by (rewrite accumulate_length, repeat_length; auto).
  destruct (mem c W); [reflexivity|].
  rewrite accumulate_nth; [|apply wf_nodup; auto|rewrite repeat_length; auto].
  rewrite nthQ_repeat0. unfold gain, supporters. rewrite Qplus_0_l.
  apply Qsum_map_ext. intros v _. rewrite Nat.add_1_r. reflexivity.
Qed.

(** Adding a new member raises the utility of exactly its supporters by one. *)
Lemma util_add : forall v W c, NoDup (approved v) -> ~ In c W ->
  util v (c :: W) = util v W + (if approves v c then 1 else 0).
Proof.
  intros v W c Hn Hc. unfold util, approves.
  induction (approved v) as [|d l IH]; simpl; auto.
  inversion Hn; subst. destruct (Nat.eqb_spec d c).
  - subst d. rewrite Nat.eqb_refl. cbn [orb length].
    assert (mem c W = false) by (apply mem_false; auto). rewrite H.
    assert (Hl : mem c l = false) by (apply mem_false; auto).
    rewrite IH, Hl by auto. lia.
  - assert (E : (c =? d) = false) by (apply Nat.eqb_neq; auto). rewrite E. cbn [orb].
    destruct (mem d W); simpl; rewrite IH by auto; auto.
Qed.

Lemma seq_snoc : forall n s, seq s (S n) = seq s n ++ [s + n].
Proof. intros. rewrite <- Nat.add_1_r, seq_app. auto. Qed.

Theorem gain_correct : forall f p W c, wf p -> ~ In c W ->
  (gain f p W c == Thiele f p (c :: W) - Thiele f p W)%Q.
Proof.
  intros f p W c Hw Hc. unfold gain, Thiele, supporters. rewrite Qsum_filter.
  assert (H : forall a b c : Q, (a + b == c -> a == c - b)%Q) by (intros; lra).
  apply H. rewrite <- Qsum_map_plus. apply Qsum_map_ext. intros v Hv.
  destruct (wf_voter_in p v Hw Hv) as (Hn & _ & _).
  rewrite util_add by auto. destruct (approves v c).
  - rewrite Nat.add_1_r, seq_snoc, map_app, Qsum_app. simpl. ring.
  - rewrite Nat.add_0_r. ring.
Qed.

Lemma Thiele_set_same : forall f p W W', set_same W W' -> (Thiele f p W == Thiele f p W')%Q.
Proof.
  intros. unfold Thiele. apply Qsum_map_ext. intros v _. rewrite (util_set_same v W W'); auto. reflexivity.
Qed.

Lemma Thiele_nonneg : forall f p W, wf p -> (forall i, 0 <= f i)%Q -> (0 <= Thiele f p W)%Q.
Proof.
  intros f p W Hw Hf. unfold Thiele. apply Qsum_map_nonneg. intros v Hv.
  destruct (wf_voter_in p v Hw Hv) as (_ & _ & Hp).
  apply Qmult_le_0_compat; [lra|]. apply Qsum_map_nonneg. auto.
Qed.

Lemma gain_nonneg : forall f p W c, wf p -> (forall i, 0 <= f i)%Q -> (0 <= gain f p W c)%Q.
Proof.
  intros f p W c Hw Hf. unfold gain. apply Qsum_map_nonneg. intros v Hv.
  apply filter_In in Hv as [Hv _]. destruct (wf_voter_in p v Hw Hv) as (_ & _ & Hp).
  apply Qmult_le_0_compat; [lra|auto].
Qed.

(** ** The score functions *)

Lemma Qpow_pos : forall b n, (0 < b)%Q -> (0 < Qpow b n)%Q.
Proof. induction n; simpl; intros; [lra|]. apply Qmult_lt_0_compat; auto. Qed.

Lemma Qinv_pos : forall a, (0 < a)%Q -> (0 < 1 / a)%Q.
Proof. intros. unfold Qdiv. rewrite Qmult_1_l. apply Qinv_lt_0_compat; auto. Qed.

Definition good_fct (f : scorefct) : Prop := match f with Geom b => (0 < b)%Q | _ => True end.

Lemma marginal_nonneg : forall f i, good_fct f -> (0 <= marginal f i)%Q.
Proof.
  intros f i Hf. destruct f; simpl in Hf; unfold marginal.
  - destruct i; cbn [Nat.eqb]; [lra|]. apply Qlt_le_weak, Qinv_pos, Qnat_pos. lia.
  - destruct i; cbn [Nat.eqb]; [lra|]. apply Qlt_le_weak, Qinv_pos.
    rewrite Qnat_S. pose proof (Qnat_nonneg i). lra.
  - destruct (i =? 1); lra.
  - destruct (1 <=? i); lra.
  - destruct (i =? 0); [lra|]. apply Qlt_le_weak, Qinv_pos, Qpow_pos; auto.
  - destruct (Z.of_nat i =? ell)%Z; lra.
Qed.

(** Score functions with non-increasing marginals ("concave" Thiele methods). *)
Definition concave_fct (f : scorefct) : Prop :=
  match f with Geom b => (1 <= b)%Q | AtLeast ell => (ell <= 1)%Z | _ => True end.

Lemma Qdiv1_le : forall a b, (0 < a)%Q -> (a <= b)%Q -> (1 / b <= 1 / a)%Q.
Proof.
  intros a b Ha Hb. assert (Hb' : (0 < b)%Q) by lra.
  apply Qle_shift_div_l; auto.
  assert (E : (1 / b * a == a / b)%Q) by (field; lra).
  rewrite E. apply Qle_shift_div_r; auto. lra.
Qed.

Lemma Qpow_mono : forall b n, (1 <= b)%Q -> (Qpow b n <= Qpow b (S n))%Q.
Proof.
  intros. simpl. assert (0 < Qpow b n)%Q by (apply Qpow_pos; lra).
  assert (1 * Qpow b n <= b * Qpow b n)%Q by (apply Qmult_le_compat_r; lra). lra.
Qed.

Lemma marginal_decreasing : forall f i, concave_fct f -> 1 <= i ->
  (marginal f (S i) <= marginal f i)%Q.
Proof.
  intros f i Hf Hi. destruct f; simpl in Hf; unfold marginal.
  - destruct i; [lia|]. cbn [Nat.eqb]. apply Qdiv1_le.
    + apply Qnat_pos; lia.
    + apply Qnat_le. lia.
  - destruct i; [lia|]. cbn [Nat.eqb]. apply Qdiv1_le.
    + rewrite Qnat_S. pose proof (Qnat_nonneg i). lra.
    + rewrite (Qnat_S (S i)). lra.
  - destruct i as [|[|i]]; simpl; try lia; lra.
  - destruct i; simpl; [lia|lra].
  - destruct i; [lia|]. cbn [Nat.eqb]. simpl (S (S i) - 1). simpl (S i - 1). rewrite Nat.sub_0_r.
    apply Qdiv1_le; [apply Qpow_pos; lra|apply Qpow_mono; auto].
  - destruct (Z.eqb_spec (Z.of_nat (S i)) ell); [lia|].
    destruct (Z.eqb_spec (Z.of_nat i) ell); lra.
Qed.

Lemma concave_good : forall f, concave_fct f -> good_fct f.
Proof. intros [] H; simpl in *; auto. lra. Qed.

Lemma antitone_fct : forall f i j, concave_fct f -> 1 <= i -> i <= j ->
  (marginal f j <= marginal f i)%Q.
Proof.
  intros f i j Hf Hi Hj. induction Hj; [lra|].
  eapply Qle_trans; [|eassumption]. apply marginal_decreasing; auto. lia.
Qed.

(** ** Minimax AV score *)
Lemma minimaxav_score_max : forall p W,
  (forall v, In v (voters p) -> hamming (approved v) W <= minimaxav_score p W) /\
  (voters p <> [] -> exists v, In v (voters p) /\ hamming (approved v) W = minimaxav_score p W).
Proof.
  intros p W. unfold minimaxav_score.
  assert (H : forall vs s,
    let r := fold_left (fun score v => let h := hamming (approved v) W in if score <? h then h else score) vs s in
    s <= r /\ (forall v, In v vs -> hamming (approved v) W <= r) /\
    (r = s \/ exists v, In v vs /\ hamming (approved v) W = r)).
  { induction vs as [|v vs IH]; intros s; simpl.
    - repeat split; auto. intros v [].
    - destruct (Nat.ltb_spec s (hamming (approved v) W)).
      + destruct (IH (hamming (approved v) W)) as (A & B & C). simpl in *. split; [lia|]. split.
        * intros x [<-|Hx]; auto.
        * right. destruct C as [C|(x & Hx & C)]; eauto.
      + destruct (IH s) as (A & B & C). simpl in *. split; [lia|]. split.
        * intros x [<-|Hx]; auto. lia.
        * destruct C as [C|(x & Hx & C)]; eauto. }
  destruct (H (voters p) 0) as (A & B & C). split; auto.
  intros Hne. destruct C as [C|C]; auto. simpl in *. rewrite C in *.
  destruct (voters p) as [|v vs] eqn:E; [congruence|]. exists v. split; [left; auto|].
  specialize (B v (or_introl eq_refl)). lia.
Qed.
