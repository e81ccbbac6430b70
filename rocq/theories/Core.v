(** * PAV and the core (C93) *)
From Coq Require Import List Arith Bool ZArith QArith Lia Lqa Permutation Setoid.
From Verif Require Import Prelude Misc Common MiscProofs Preferences Scores ScoresProofs Rule Spec SpecRules SpecAxioms
  Checks ChecksProofs ThieleProofs RevseqProofs BBProofs Guarantees SpecDegree Degree SpecCore.
Import ListNotations.
Open Scope nat_scope.
Local Open Scope list_scope.

Lemma Qsum_ge_count : forall (A : Type) (b : A -> bool) (x : Q) l,
  (Qsum (map (fun a => if b a then x else 0) l) == Qnat (length (filter b l)) * x)%Q.
Proof.
  intros A b x l. induction l as [|a l IH]; [cbn [map filter length]; change (Qnat 0) with 0%Q; change (Qsum []) with 0%Q; ring|]. cbn [map filter].
  change (Qsum ((if b a then x else 0%Q) :: map (fun a => if b a then x else 0%Q) l)) with ((if b a then x else 0%Q) + Qsum (map (fun a => if b a then x else 0%Q) l))%Q.
  rewrite IH. destruct (b a); [cbn [length]; rewrite Qnat_S|]; ring.
Qed.
Lemma Qsum_const_le : forall (A : Type) (f : A -> Q) x l, (forall a, In a l -> (f a <= x)%Q) -> (Qsum (map f l) <= Qnat (length l) * x)%Q.
Proof.
  intros A f x l H. induction l as [|a l IH]; [cbn [map length]; change (Qnat 0) with 0%Q; change (Qsum []) with 0%Q; lra|]. cbn [map length]. rewrite Qnat_S. change (Qsum (f a :: map f l)) with (f a + Qsum (map f l))%Q.
  pose proof (H a (or_introl eq_refl)). assert (Qsum (map f l) <= Qnat (length l) * x)%Q by (apply IH; intros; apply H; right; auto). lra.
Qed.
(** one candidate outside of a PAV committee gains at most n/(k+1) *)
Lemma pav_gain_small : forall p k W c, wf p -> maximises (Thiele pav_w p) p k W ->
  c < num_cand p -> ~ In c W -> (gain pav_w p W c <= wsum (voters p) / Qnat (k + 1))%Q.
Proof.
  intros p k W c Hw Hm Hc Hn.
  pose proof (exchange pav_w p k W c Hw pav_w_nonneg Hm Hc Hn) as X. pose proof (pav_total_loss p W c Hw Hn) as Y.
  assert (Hp : (0 < Qnat (k + 1))%Q) by (apply Qnat_pos; lia). apply Qle_shift_div_l; auto.
  rewrite Qnat_plus. change (Qnat 1) with 1%Q. lra.
Qed.
Lemma gains_of_set : forall p W T, wf p -> NoDup T ->
  (Qsum (map (gain pav_w p W) T) == Qsum (map (fun v => Qnat (util v T) * (weight v * pav_w (S (util v W)))) (voters p)))%Q.
Proof.
  intros p W T Hw HT. transitivity (Qsum (map (fun c => Qsum (map (fun v => if approves v c then weight v * pav_w (S (util v W)) else 0)%Q (voters p))) T)).
  - apply Qsum_map_ext. intros c _. unfold gain, supporters. apply Qsum_filter.
  - rewrite Qsum_swap. apply Qsum_map_ext. intros v Hv. rewrite Qsum_ge_count.
    destruct (wf_voter_in p v Hw Hv) as (NV & _). unfold util at 2. rewrite (inter_comm_length (approved v) T) by auto. unfold inter, approves. reflexivity.
Qed.

Theorem pav_disjoint_core : forall p k W q, wf p -> maximises (Thiele pav_w p) p k W ->
  (wsum (voters p) < Qnat (k + 1) * q)%Q -> disjoint_core p q W.
Proof.
  intros p k W q Hw Hm Hq S T HG [HN HB] Ho Hd. rewrite Forall_forall in HB.
  destruct (existsb (fun i => approves_in p i T <=? approves_in p i W) S) eqn:E.
  { apply existsb_exists in E as (i & Hi & L). apply Nat.leb_le in L. eauto. }
  exfalso. assert (G : forall i, In i S -> approves_in p i W < approves_in p i T).
  { intros i Hi. destruct (Nat.lt_ge_cases (approves_in p i W) (approves_in p i T)) as [L|L]; auto.
    assert (existsb (fun i => approves_in p i T <=? approves_in p i W) S = true); [|congruence].
    apply existsb_exists. exists i. split; auto. apply Nat.leb_le. exact L. }
  clear E. pose proof (group_pos p S Hw HG) as Hp. unfold deserves in Hd.
  assert (A : (Qsum (map (gain pav_w p W) T) <= Qnat (length T) * (wsum (voters p) / Qnat (k + 1)))%Q).
  { apply Qsum_const_le. intros c Hc. apply pav_gain_small; auto. }
  assert (B : (gweight p S <= Qsum (map (gain pav_w p W) T))%Q).
  { rewrite gains_of_set by auto. eapply Qle_trans; [|apply (group_sum_le p S)]; auto.
    2:{ intros v Hv'. pose proof (weight_pos_in p v Hw Hv'). apply Qmult_nonneg; [apply Qnat_nonneg|apply Qmult_nonneg; [lra|apply pav_w_nonneg]]. }
    unfold gweight. apply Qsum_map_le. intros i Hi. specialize (G i Hi).
    destruct HG as (_ & _ & HI). rewrite Forall_forall in HI. pose proof (voter_weight_pos p i Hw (HI i Hi)) as Hpi.
    change (weight (voter_at p i)) with (voter_weight p i). change (util (voter_at p i) W) with (approves_in p i W). change (util (voter_at p i) T) with (approves_in p i T).
    set (w := voter_weight p i) in *. assert (L : (Qnat (approves_in p i W) + 1 <= Qnat (approves_in p i T))%Q).
    { rewrite <- Qnat_S. apply Qnat_le. exact G. }
    unfold pav_w. rewrite Qnat_S. pose proof (Qnat_nonneg (approves_in p i W)) as U.
    set (u := Qnat (approves_in p i W)) in *. set (t := Qnat (approves_in p i T)) in *.
    assert (E : (t * (w * (1 / (u + 1))) == t * w / (u + 1))%Q) by (field; lra). rewrite E. apply Qle_shift_div_l; [lra|]. rewrite (Qmult_comm t w).
    rewrite !(Qmult_comm w). apply Qmult_le_compat_r; lra. }
  assert (Hk : (0 < Qnat (k + 1))%Q) by (apply Qnat_pos; lia).
  assert (C : (wsum (voters p) / Qnat (k + 1) < q)%Q) by (apply Qlt_shift_div_r; auto; rewrite Qmult_comm; exact Hq).
  destruct T as [|c T].
  - cbn [map length] in *. change (Qsum []) with 0%Q in *. lra.
  - assert (P : (0 < Qnat (length (c :: T)))%Q) by (apply Qnat_pos; cbn; lia).
    set (n := Qnat (length (c :: T))) in *. set (x := (wsum (voters p) / Qnat (k + 1))%Q) in *. assert (n * x < n * q)%Q by (rewrite !(Qmult_comm n); apply Qmult_lt_compat_r; auto). lra.
Qed.

Lemma sublist_length : forall (A : Type) (b : A -> bool) (l : list A), length (filter b l) <= length l.
Proof. intros A b l. induction l as [|a l IH]; cbn; [lia|]. destruct (b a); cbn; lia. Qed.
(** leaving out the members of the committee from [T] *)
Lemma disjoint_approximate : forall p q W, wf p -> (0 <= q)%Q -> NoDup W -> disjoint_core p q W -> approximate_core 2 p q W.
Proof.
  intros p q W Hw Hq HW HD S T HG [HN HB] Hd.
  assert (SZ : length (diff T W) <= length T) by (unfold diff; apply sublist_length).
  destruct (HD S (diff T W)) as (i & Hi & L); auto.
  - split; [unfold diff; apply NoDup_filter; auto|]. rewrite Forall_forall in *. intros c Hc. unfold diff in Hc. apply filter_In in Hc. apply HB, Hc.
  - intros c Hc. unfold diff in Hc. apply filter_In in Hc as [_ Hc]. apply negb_true_iff, mem_false in Hc. exact Hc.
  - unfold deserves in *. eapply Qle_trans; [|exact Hd]. apply Qmult_le_compat_r; auto. apply Qnat_le. exact SZ.
  - exists i. split; auto. destruct HG as (_ & _ & HI). rewrite Forall_forall in HI.
    assert (NB : NoDup (ballot p i)) by (apply ballot_wf; auto).
    assert (approves_in p i T <= approves_in p i (diff T W) + approves_in p i W); [|lia].
    unfold approves_in. rewrite <- app_length. apply NoDup_incl_length; [unfold inter; apply NoDup_filter; auto|].
    intros c Hc. unfold inter in *. apply filter_In in Hc as [H1 H2]. apply mem_In in H2. apply in_or_app.
    destruct (mem c W) eqn:E; [right|left]; apply filter_In; split; auto. apply mem_In. unfold diff. apply filter_In. rewrite E. auto.
Qed.
Lemma core_disjoint : forall p q W, in_core p q W -> disjoint_core p q W.
Proof. intros p q W H S T HG HT _ Hd. apply H; auto. Qed.
