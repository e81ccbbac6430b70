(** * Renaming, reordering and scaling: the rules that keep loads or budgets *)
From Coq Require Import List Arith Bool ZArith QArith Qfield Lia Lqa Permutation Sorted.
From Verif Require Import Prelude Misc Preferences Spec SpecRules SpecSeq SpecMore SpecMonroe SpecLoads Iso.
Import ListNotations.
Open Scope nat_scope.

Section IsoSeq.
  Context (p q : profile) (s t r r' : nat -> nat) (x : Q) (I : iso p q s t r r' x).
  Local Notation rn := (rn s).
  Local Notation img := (img p s).
  Local Notation in_range := (in_range p).
  Local Notation n := (length (voters p)).

  Lemma x_pos : (0 < x)%Q. Proof using I. apply (iso_x _ _ _ _ _ _ _ I). Qed.
  Lemma x_nz : ~ (x == 0)%Q. Proof using I. pose proof x_pos. lra. Qed.
  Lemma x_inv : (/ x * x == 1)%Q. Proof using I. field. apply x_nz. Qed.
  Lemma x_inv_pos : (0 < / x)%Q. Proof using I. apply Qinv_lt_0_compat, x_pos. Qed.
  Lemma w_iso : forall i, i < n -> (w q (r i) == x * w p i)%Q. Proof using I. apply (iso_w _ _ _ _ _ _ _ I). Qed.
  Lemma likes_iso : forall i c, i < n -> c < num_cand p -> likes q (r i) (s c) = likes p i c. Proof using I. apply (iso_a _ _ _ _ _ _ _ I). Qed.

  (** the voters' numbers, multiplied by [y], in the other election *)
  Definition tr (y : Q) (b : nat -> Q) : nat -> Q := fun j => (y * b (r' j))%Q.
  Lemma tr_r : forall y b i, i < n -> tr y b (r i) = (y * b i)%Q.
  Proof using I. intros y b i Hi. unfold tr. rewrite (r'_r _ _ _ _ _ _ _ I) by auto. auto. Qed.
  Lemma agree_q : forall b b' : nat -> Q, (forall i, i < n -> (b (r i) == b' (r i))%Q) -> agree q b b'.
  Proof using I. intros b b' H j Hj. destruct (r_onto _ _ _ _ _ _ _ I j Hj) as (i & Hi & ->). auto. Qed.
  Lemma agree_tr : forall y b b', agree p b b' -> agree q (tr y b) (tr y b').
  Proof using I. intros y b b' H. apply agree_q. intros i Hi. rewrite !tr_r by auto. rewrite (H i Hi). reflexivity. Qed.

  Section Runs.
    Variables (y : Q) (choice choice' : list nat -> (nat -> Q) -> nat -> Prop)
              (update update' : list nat -> (nat -> Q) -> nat -> (nat -> Q) -> Prop).
    Hypothesis Hc : forall W b c, in_range W -> choice W b c -> c < num_cand p /\ choice' (map s W) (tr y b) (s c).
    Hypothesis Hu : forall W b c b', in_range W -> choice W b c -> update W b c b' -> update' (map s W) (tr y b) (s c) (tr y b').
    Lemma runs_iso : forall W0 x0 x0' W b, in_range W0 -> agree q (tr y x0) x0' ->
      runs_from p choice update W0 x0 W b -> in_range W /\ runs_from q choice' update' (map s W0) x0' (map s W) (tr y b).
    Proof using I Hc Hu.
      intros W0 x0 x0' W b R0 A0 H. induction H as [b Hb|W b c b' H [IH1 IH2] Hch Hup].
      - split; auto. apply run_start. intros i Hi. rewrite (agree_tr y b x0 Hb i Hi). auto.
      - destruct (Hc _ _ _ IH1 Hch) as [Hlt Hch']. split; [constructor; auto|]. cbn. eapply run_step; eauto.
    Qed.
    Lemma run_winner_iso : forall W0 x0 x0' k W, in_range W0 -> agree q (tr y x0) x0' ->
      run_winner p choice update W0 x0 k W -> run_winner q choice' update' (map s W0) x0' k (rn W).
    Proof using I Hc Hu.
      intros W0 x0 x0' k W R0 A0 (L & b & HL & Hk & ->). destruct (runs_iso W0 x0 x0' L b R0 A0 HL) as [_ H].
      exists (map s L), (tr y b). split; auto. split; [rewrite map_length; auto|apply rn_isort].
    Qed.
  End Runs.

  (** *** sequential Phragmén *)
  Lemma fans_nil : forall c, c < num_cand p -> length (fans q (s c)) = length (fans p c).
  Proof using I. intros c Hc. rewrite <- (Permutation_length (fans_perm _ _ _ _ _ _ _ I c Hc)), map_length. auto. Qed.
  Lemma fans_empty : forall c, c < num_cand p -> (fans q (s c) = [] <-> fans p c = []).
  Proof using I. intros c Hc. rewrite <- !length_zero_iff_nil, fans_nil; tauto. Qed.
  Lemma weight_fans : forall c, c < num_cand p -> (sum (fans q (s c)) (w q) == x * sum (fans p c) (w p))%Q.
  Proof using I. intros c Hc. rewrite <- sum_scal. apply (sum_fans _ _ _ _ _ _ _ I); auto. intros i Hi. apply w_iso; auto. Qed.
  Lemma new_load_iso : forall load c, c < num_cand p -> (new_load q (tr (/ x) load) (s c) == / x * new_load p load c)%Q.
  Proof using I.
    intros load c Hc. unfold new_load.
    rewrite (sum_fans _ _ _ _ _ _ _ I c (fun i => w p i * load i)%Q (fun j => w q j * tr (/ x) load j)%Q Hc).
    2:{ intros i Hi. rewrite tr_r, w_iso by auto. setoid_replace (x * w p i * (/ x * load i))%Q with ((/ x * x) * (w p i * load i))%Q by ring. rewrite x_inv. ring. }
    rewrite weight_fans by auto. unfold Qdiv. rewrite Qinv_mult_distr. ring.
  Qed.
  Lemma phragmen_choice_iso : forall W b c, in_range W -> phragmen_choice p W b c ->
    c < num_cand p /\ phragmen_choice q (map s W) (tr (/ x) b) (s c).
  Proof using I.
    intros W b c RW [Hf H]. pose proof Hf as [Hc _]. pose proof (img_map _ _ _ _ _ _ _ I W RW) as HI. split; auto. split; [apply (fresh_s _ _ _ _ _ _ _ I W); auto|].
    rewrite fans_nil by auto. destruct (0 <? length (fans p c)).
    - intros d Hd Hfd. destruct (fresh_onto _ _ _ _ _ _ _ I W _ d HI Hd) as (d0 & Hd0 & ->). pose proof Hd0 as [Hlt _].
      rewrite !new_load_iso by auto. rewrite fans_empty in Hfd by auto. specialize (H d0 Hd0 Hfd). pose proof x_inv_pos. nra.
    - intros d Hd. destruct (fresh_onto _ _ _ _ _ _ _ I W _ d HI Hd) as (d0 & Hd0 & ->). apply fans_empty; [apply Hd0|]. auto.
  Qed.
  Lemma phragmen_update_iso : forall W b c b', in_range W -> phragmen_choice p W b c -> phragmen_update p W b c b' ->
    phragmen_update q (map s W) (tr (/ x) b) (s c) (tr (/ x) b').
  Proof using I.
    intros W b c b' RW [[Hc _] _] H. apply agree_q. intros i Hi. rewrite !tr_r, likes_iso by auto. specialize (H i Hi). cbn in H. rewrite H.
    destruct (likes p i c); [rewrite new_load_iso by auto|]; reflexivity.
  Qed.
  Lemma phragmen_run_iso : forall W0 x0 x0' k W, in_range W0 -> agree q (tr (/ x) x0) x0' ->
    run_winner p (phragmen_choice p) (phragmen_update p) W0 x0 k W ->
    run_winner q (phragmen_choice q) (phragmen_update q) (map s W0) x0' k (rn W).
  Proof using I. apply run_winner_iso; [apply phragmen_choice_iso|apply phragmen_update_iso]. Qed.
  Lemma zero_tr : forall y, agree q (tr y (fun _ => 0%Q)) (fun _ => 0%Q).
  Proof using. intros y i Hi. unfold tr. ring. Qed.
  Lemma phragmen_iso : forall k W, phragmen_winner p k W -> phragmen_winner q k (rn W).
  Proof using I. intros k W H. unfold phragmen_winner in *. change (@nil nat) with (map s []). eapply phragmen_run_iso; eauto; [constructor|apply zero_tr]. Qed.

  (** *** Eneström *)
  Lemma purse_iso : forall y b c, c < num_cand p -> (purse q (tr y b) (s c) == y * purse p b c)%Q.
  Proof using I. intros y b c Hc. unfold purse. rewrite <- sum_scal. apply (sum_fans _ _ _ _ _ _ _ I); auto. intros i Hi. rewrite tr_r by auto. reflexivity. Qed.
  Lemma richest_iso : forall W b c, in_range W -> richest_choice p W b c -> c < num_cand p /\ richest_choice q (map s W) (tr x b) (s c).
  Proof using I.
    intros W b c RW [Hf H]. pose proof Hf as [Hc _]. pose proof (img_map _ _ _ _ _ _ _ I W RW) as HI. split; auto. split; [apply (fresh_s _ _ _ _ _ _ _ I W); auto|].
    intros d Hd. destruct (fresh_onto _ _ _ _ _ _ _ I W _ d HI Hd) as (d0 & Hd0 & ->). rewrite !purse_iso by (auto; apply Hd0). specialize (H d0 Hd0). pose proof x_pos. nra.
  Qed.
  Lemma enestroem_update_iso : forall k W b c b', in_range W -> richest_choice p W b c -> enestroem_update p k W b c b' ->
    enestroem_update q k (map s W) (tr x b) (s c) (tr x b').
  Proof using I.
    intros k W b c b' RW [[Hc _] _] [H1 H2]. pose proof x_pos as Hx. pose proof (total_iso _ _ _ _ _ _ _ I) as Et. pose proof (purse_iso x b c Hc) as Ep.
    assert (Epr : (wsum (voters q) / Qnat k == x * (wsum (voters p) / Qnat k))%Q) by (rewrite Et; unfold Qdiv; ring). split; intros Hlt.
    - rewrite Ep, Epr in Hlt. assert (Hlt' : (wsum (voters p) / Qnat k < purse p b c)%Q) by nra. specialize (H1 Hlt').
      apply agree_q. intros i Hi. rewrite !tr_r, likes_iso by auto. specialize (H1 i Hi). cbn in H1. rewrite H1. destruct (likes p i c); [|reflexivity].
      rewrite Ep, Epr. unfold Qdiv at 4. rewrite Qinv_mult_distr. unfold Qdiv.
      setoid_replace (x * b i - x * (wsum (voters p) * / Qnat k) * (x * b i * (/ x * / purse p b c)))%Q
        with (x * b i - x * (wsum (voters p) * / Qnat k) * ((/ x * x) * (b i * / purse p b c)))%Q by ring. rewrite x_inv. ring.
    - rewrite Ep, Epr in Hlt. assert (Hlt' : (purse p b c <= wsum (voters p) / Qnat k)%Q) by nra. specialize (H2 Hlt').
      apply agree_q. intros i Hi. rewrite !tr_r, likes_iso by auto. specialize (H2 i Hi). cbn in H2. rewrite H2. destruct (likes p i c); [ring|reflexivity].
  Qed.
  Lemma enestroem_iso : forall k W, enestroem_winner p k W -> enestroem_winner q k (rn W).
  Proof using I.
    intros k W H. unfold enestroem_winner in *. change (@nil nat) with (map s []). eapply (run_winner_iso x); eauto; [apply richest_iso|apply enestroem_update_iso|constructor|].
    apply agree_q. intros i Hi. rewrite tr_r by auto. symmetry. apply w_iso. auto.
  Qed.

  (** *** consensus rule *)
  Lemma earned_iso : forall b i, i < n -> (earned q (tr x b) (r i) == x * earned p b i)%Q.
  Proof using I. intros b i Hi. unfold earned. rewrite tr_r, w_iso by auto. ring. Qed.
  Lemma earned_pos : forall b i, i < n -> Qltb 0 (earned q (tr x b) (r i)) = Qltb 0 (earned p b i).
  Proof using I.
    intros b i Hi. rewrite (Qltb_comp _ 0 _ _ (Qeq_refl 0) (earned_iso b i Hi)). pose proof x_pos as Hx.
    apply eq_true_iff_eq. rewrite !Qltb_lt. split; intros H; nra.
  Qed.
  Lemma filter_filter : forall (f g : nat -> bool) l, filter f (filter g l) = filter (fun i => g i && f i) l.
  Proof using. intros f g. induction l as [|a l IH]; auto. cbn. destruct (g a); cbn; [destruct (f a)|]; rewrite IH; auto. Qed.
  Lemma backers_perm : forall b c, c < num_cand p -> Permutation (map r (backers p b c)) (backers q (tr x b) (s c)).
  Proof using I.
    intros b c Hc. unfold backers, fans. rewrite !filter_filter. apply (filter_ids _ _ _ _ _ _ _ I). intros i Hi. rewrite likes_iso, earned_pos by auto. auto.
  Qed.
  Lemma backers_lt : forall b c i, In i (backers p b c) -> i < n.
  Proof using. intros b c i H. apply filter_In in H. destruct H as [H _]. eapply fans_lt; eauto. Qed.
  Lemma mem_backers : forall b c i, c < num_cand p -> i < n -> mem (r i) (backers q (tr x b) (s c)) = mem i (backers p b c).
  Proof using I.
    intros b c i Hc Hi. apply eq_true_iff_eq. rewrite !mem_In. pose proof (backers_perm b c Hc) as HP. split; intros H.
    - apply (Permutation_in _ (Permutation_sym HP)) in H. apply in_map_iff in H. destruct H as (i' & E & H).
      apply (r_inj _ _ _ _ _ _ _ I) in E; auto; [subst; auto|eapply backers_lt; eauto].
    - eapply Permutation_in; [apply HP|]. apply in_map. auto.
  Qed.
  Lemma backers_sum : forall b c, c < num_cand p -> (sum (backers q (tr x b) (s c)) (earned q (tr x b)) == x * sum (backers p b c) (earned p b))%Q.
  Proof using I.
    intros b c Hc. rewrite <- sum_scal. apply sum_perm with (r := r); [apply backers_perm; auto|]. intros i Hi. apply earned_iso. eapply backers_lt; eauto.
  Qed.
  Lemma backers_weight : forall b c, c < num_cand p -> (sum (backers q (tr x b) (s c)) (w q) == x * sum (backers p b c) (w p))%Q.
  Proof using I.
    intros b c Hc. rewrite <- sum_scal. apply sum_perm with (r := r); [apply backers_perm; auto|]. intros i Hi. apply w_iso. eapply backers_lt; eauto.
  Qed.
  Lemma consensus_choice_iso : forall W b c, in_range W -> consensus_choice p W b c -> c < num_cand p /\ consensus_choice q (map s W) (tr x b) (s c).
  Proof using I.
    intros W b c RW [Hf H]. pose proof Hf as [Hc _]. pose proof (img_map _ _ _ _ _ _ _ I W RW) as HI. split; auto. split; [apply (fresh_s _ _ _ _ _ _ _ I W); auto|].
    intros d Hd. destruct (fresh_onto _ _ _ _ _ _ _ I W _ d HI Hd) as (d0 & Hd0 & ->). rewrite !backers_sum by (auto; apply Hd0). specialize (H d0 Hd0). pose proof x_pos. nra.
  Qed.
  Lemma consensus_update_iso : forall W b c b', in_range W -> consensus_choice p W b c -> consensus_update p W b c b' ->
    consensus_update q (map s W) (tr x b) (s c) (tr x b').
  Proof using I.
    intros W b c b' RW [[Hc _] _] H. apply agree_q. intros i Hi. rewrite tr_r, mem_backers by auto. specialize (H i Hi). cbn in H. rewrite H.
    destruct (mem i (backers p b c)); [|symmetry; apply earned_iso; auto].
    rewrite earned_iso, w_iso, backers_weight, (total_iso _ _ _ _ _ _ _ I) by auto. unfold Qdiv. rewrite Qinv_mult_distr.
    setoid_replace (x * w p i * (x * wsum (voters p) * (/ x * / sum (backers p b c) (w p))))%Q
      with (x * w p i * ((/ x * x) * (wsum (voters p) * / sum (backers p b c) (w p))))%Q by ring. rewrite x_inv. ring.
  Qed.
  Lemma consensus_iso : forall k W, consensus_winner p k W -> consensus_winner q k (rn W).
  Proof using I.
    intros k W H. unfold consensus_winner in *. change (@nil nat) with (map s []). eapply (run_winner_iso x); eauto; [apply consensus_choice_iso|apply consensus_update_iso|constructor|apply zero_tr].
  Qed.

  (** *** Equal Shares *)
  Lemma Qmin_comp : forall a a' b b', (a == a')%Q -> (b == b')%Q -> (Qmin a b == Qmin a' b')%Q.
  Proof using. intros a a' b b' Ha Hb. unfold Qmin. rewrite (Qle_bool_comp' _ _ _ _ Ha Hb). destruct (Qle_bool a' b'); auto. Qed.
  Lemma collected_iso : forall b c rho rho', c < num_cand p -> (rho' == / x * rho)%Q -> (collected q (tr 1 b) (s c) rho' == collected p b c rho)%Q.
  Proof using I.
    intros b c rho rho' Hc E. unfold collected. apply (sum_fans _ _ _ _ _ _ _ I); auto. intros i Hi. rewrite tr_r by auto. apply Qmin_comp; [ring|].
    rewrite w_iso, E by auto. setoid_replace (/ x * rho * (x * w p i))%Q with ((/ x * x) * (rho * w p i))%Q by ring. rewrite x_inv. ring.
  Qed.
  Lemma price_iso : forall b c rho, c < num_cand p -> price_of p b c rho -> price_of q (tr 1 b) (s c) (/ x * rho)%Q.
  Proof using I.
    intros b c rho Hc [H1 H2]. split; [rewrite (collected_iso b c rho) by (auto; reflexivity); auto|]. intros r0 Hr.
    rewrite (collected_iso b c (x * r0)) by (auto; setoid_replace (/ x * (x * r0))%Q with ((/ x * x) * r0)%Q by ring; rewrite x_inv; ring). apply H2.
    pose proof x_pos. assert (Hr' : (x * r0 < x * (/ x * rho))%Q) by nra. setoid_replace (x * (/ x * rho))%Q with ((/ x * x) * rho)%Q in Hr' by ring. rewrite x_inv in Hr'. lra.
  Qed.
  Lemma price_iso_inv : forall b c rho, c < num_cand p -> price_of q (tr 1 b) (s c) rho -> price_of p b c (x * rho)%Q.
  Proof using I.
    intros b c rho Hc [H1 H2].
    assert (E : forall r0, (r0 == / x * (x * r0))%Q) by (intros r0; setoid_replace (/ x * (x * r0))%Q with ((/ x * x) * r0)%Q by ring; rewrite x_inv; ring).
    split; [rewrite <- (collected_iso b c (x * rho) rho) by auto; auto|]. intros r0 Hr.
    rewrite <- (collected_iso b c r0 (/ x * r0)) by (auto; reflexivity). apply H2. pose proof x_inv_pos.
    assert (Hr' : (/ x * r0 < / x * (x * rho))%Q) by nra. rewrite <- E in Hr'. auto.
  Qed.
  Lemma mes_choice_iso : forall W b c, in_range W -> mes_choice p W b c -> c < num_cand p /\ mes_choice q (map s W) (tr 1 b) (s c).
  Proof using I.
    intros W b c RW (Hf & rho & Hp & H). pose proof Hf as [Hc _]. pose proof (img_map _ _ _ _ _ _ _ I W RW) as HI. split; auto. split; [apply (fresh_s _ _ _ _ _ _ _ I W); auto|].
    exists (/ x * rho)%Q. split; [apply price_iso; auto|]. intros d r0 Hd Hpd. destruct (fresh_onto _ _ _ _ _ _ _ I W _ d HI Hd) as (d0 & Hd0 & ->).
    apply price_iso_inv in Hpd; [|apply Hd0]. specialize (H d0 _ Hd0 Hpd). pose proof x_inv_pos.
    assert (H' : (/ x * rho <= / x * (x * r0))%Q) by nra. setoid_replace (/ x * (x * r0))%Q with ((/ x * x) * r0)%Q in H' by ring. rewrite x_inv in H'. lra.
  Qed.
  Lemma mes_update_iso : forall W b c b', in_range W -> mes_choice p W b c -> mes_update p W b c b' -> mes_update q (map s W) (tr 1 b) (s c) (tr 1 b').
  Proof using I.
    intros W b c b' RW [[Hc _] _] (rho & Hp & H). exists (/ x * rho)%Q. split; [apply price_iso; auto|].
    apply agree_q. intros i Hi. rewrite !tr_r, likes_iso by auto. specialize (H i Hi). cbn in H. rewrite H. destruct (likes p i c); [|reflexivity].
    rewrite (Qmin_comp (1 * b i) (b i) (/ x * rho * w q (r i)) (rho * w p i)); [ring|ring|].
    rewrite w_iso by auto. setoid_replace (/ x * rho * (x * w p i))%Q with ((/ x * x) * (rho * w p i))%Q by ring. rewrite x_inv. ring.
  Qed.
  Lemma mes_stuck_iso : forall W b, in_range W -> mes_stuck p W b -> mes_stuck q (map s W) (tr 1 b).
  Proof using I.
    intros W b RW H d Hd. pose proof (img_map _ _ _ _ _ _ _ I W RW) as HI. destruct (fresh_onto _ _ _ _ _ _ _ I W _ d HI Hd) as (d0 & Hd0 & ->).
    rewrite purse_iso by apply Hd0. specialize (H d0 Hd0). lra.
  Qed.
  Lemma share_iso : forall k, agree q (tr 1 (equal_share p k)) (equal_share q k).
  Proof using I.
    intros k. apply agree_q. intros i Hi. rewrite tr_r by auto. unfold equal_share. rewrite w_iso, (total_iso _ _ _ _ _ _ _ I) by auto. unfold Qdiv. rewrite Qinv_mult_distr.
    setoid_replace (x * w p i * Qnat k * (/ x * / wsum (voters p)))%Q with ((/ x * x) * (w p i * Qnat k * / wsum (voters p)))%Q by ring. rewrite x_inv. ring.
  Qed.
  Lemma mes_iso : forall k (fill fill' : completion) W,
    (forall L b V, in_range L -> NoDup L -> fill L b V -> fill' (map s L) (tr 1 b) (rn V)) ->
    mes_winner p k (equal_share p k) fill W -> mes_winner q k (equal_share q k) fill' (rn W).
  Proof using I.
    intros k fill fill' W Hfill (L & b & [Hrun Hend] & H1 & H2).
    destruct (runs_iso 1 (mes_choice p) (mes_choice q) (mes_update p) (mes_update q) mes_choice_iso mes_update_iso [] (equal_share p k) (equal_share q k) L b
                (Forall_nil _) (share_iso k) Hrun) as [RL Hrun'].
    assert (NL : NoDup L).
    { clear - Hrun. induction Hrun; [constructor|]. constructor; auto. apply H. }
    exists (map s L), (tr 1 b). split.
    - split; auto. rewrite map_length. destruct Hend as [E|[E E']]; auto. right. split; auto. apply mes_stuck_iso; auto.
    - rewrite map_length. split; intros Hk; [rewrite (H1 Hk); apply rn_isort|]. apply Hfill; auto.
  Qed.
  Lemma mes_none_iso : forall k W, mes_winner p k (equal_share p k) no_completion W -> mes_winner q k (equal_share q k) no_completion (rn W).
  Proof using I. intros k W. apply mes_iso. intros L b V _ _ ->. apply rn_isort. Qed.
  Lemma mes_phragmen_iso : forall k W, mes_winner p k (equal_share p k) (phragmen_completion p k) W -> mes_winner q k (equal_share q k) (phragmen_completion q k) (rn W).
  Proof using I.
    intros k W. apply mes_iso. intros L b V RL _ H. unfold phragmen_completion in *. eapply phragmen_run_iso; eauto.
    apply agree_q. intros i Hi. rewrite !tr_r, w_iso by auto. unfold Qdiv. rewrite Qinv_mult_distr. ring.
  Qed.
  Lemma mes_av_iso : forall k W, mes_winner p k (equal_share p k) (av_completion p k) W -> mes_winner q k (equal_share q k) (av_completion q k) (rn W).
  Proof using I.
    intros k W. apply mes_iso. intros L b V RL NL (HV & Hincl & H). pose proof HV as (_ & _ & RV). pose proof (img_map _ _ _ _ _ _ _ I L RL) as HIL. pose proof (img_rn _ _ _ _ _ _ _ I V RV) as HIV.
    pose proof RV as RV'. rewrite Forall_forall in RV'. pose proof (rn_range _ _ _ _ _ _ _ I V RV) as RR. rewrite Forall_forall in RR.
    split; [apply (rn_committee _ _ _ _ _ _ _ I); auto|]. split.
    - intros d Hd. apply in_map_iff in Hd. destruct Hd as (c & <- & Hc). apply HIV; auto.
    - intros c d Hc HcL Hd HdV. destruct (s_onto _ _ _ _ _ _ _ I c (RR c Hc)) as (c0 & Hc0 & ->). destruct (s_onto _ _ _ _ _ _ _ I d Hd) as (d0 & Hd0 & ->).
      rewrite !(support_iso _ _ _ _ _ _ _ I) by auto. rewrite (HIV c0 Hc0) in Hc. rewrite (HIV d0 Hd0) in HdV. rewrite (HIL c0 Hc0) in HcL. specialize (H c0 d0 Hc HcL Hd0 HdV). pose proof x_pos. nra.
  Qed.

  (** *** E Pluribus Hugo *)
  Lemma points_iso : forall R c, in_range R -> NoDup R -> c < num_cand p -> (points q (rn R) (s c) == x * points p R c)%Q.
  Proof using I.
    intros R c RR NR Hc. unfold points. rewrite <- Qsum_scal. apply (supporters_sum _ _ _ _ _ _ _ I); auto. intros i Hi.
    assert (E : length (inter (rn R) (approved (the_voter q (r i)))) = length (inter R (approved (the_voter p i)))).
    { apply (same_count _ _ _ _ _ _ _ I).
      - apply NoDup_inter; auto.
      - apply inter_range; auto.
      - apply NoDup_inter, ascending_NoDup, (rn_ascending _ _ _ _ _ _ _ I); auto.
      - apply inter_range_q, (rn_range _ _ _ _ _ _ _ I); auto.
      - apply inter_img; [apply (img_rn _ _ _ _ _ _ _ I); auto|apply (approved_img _ _ _ _ _ _ _ I); auto]. }
    rewrite E. pose proof (w_iso i Hi) as Ew. unfold w in Ew. rewrite Ew. unfold Qdiv. ring.
  Qed.
  Lemma weak_iso : forall R c, in_range R -> NoDup R -> c < num_cand p -> (weak q (rn R) (s c) <-> weak p R c).
  Proof using I.
    intros R c RR NR Hc. pose proof (img_rn _ _ _ _ _ _ _ I R RR) as HI. pose proof x_pos as Hx. unfold weak. rewrite (HI c Hc).
    pose proof RR as RR'. unfold Iso.in_range in RR'. rewrite Forall_forall in RR'. pose proof (rn_range _ _ _ _ _ _ _ I R RR) as RQ. rewrite Forall_forall in RQ.
    split; intros [A B]; split; auto; intros d d' Hd Hd' L1 L2.
    - apply (s_inj _ _ _ _ _ _ _ I); auto. apply B; try (apply HI; auto); rewrite !points_iso by auto; nra.
    - destruct (s_onto _ _ _ _ _ _ _ I d (RQ d Hd)) as (d0 & Hd0 & ->). destruct (s_onto _ _ _ _ _ _ _ I d' (RQ d' Hd')) as (d0' & Hd0' & ->).
      rewrite (HI d0 Hd0) in Hd. rewrite (HI d0' Hd0') in Hd'. rewrite !points_iso in L1, L2 by auto. f_equal. apply B; auto; nra.
  Qed.
  Lemma eliminated_iso : forall R c, in_range R -> NoDup R -> c < num_cand p -> (eliminated q (rn R) (s c) <-> eliminated p R c).
  Proof using I.
    intros R c RR NR Hc. pose proof x_pos as Hx. unfold eliminated. rewrite weak_iso by auto.
    pose proof RR as RR'. unfold Iso.in_range in RR'. rewrite Forall_forall in RR'. pose proof (rn_range _ _ _ _ _ _ _ I R RR) as RQ. rewrite Forall_forall in RQ.
    split; intros [A B]; split; auto; intros d Hd.
    - assert (Hlt : d < num_cand p) by (apply RR', Hd). specialize (B (s d)). rewrite weak_iso, !(support_iso _ _ _ _ _ _ _ I) in B by auto. specialize (B Hd). nra.
    - destruct (s_onto _ _ _ _ _ _ _ I d) as (d0 & Hd0 & ->); [apply RQ, Hd|]. rewrite weak_iso in Hd by auto. rewrite !(support_iso _ _ _ _ _ _ _ I) by auto. specialize (B d0 Hd). nra.
  Qed.
  Lemma reaches_facts : forall k R, eph_reaches p k R -> in_range R /\ ascending R.
  Proof using.
    induction 1 as [|R R' H [IH1 IH2] HA HR HK].
    - split; [apply Forall_forall; intros c Hc; apply in_seq in Hc; lia|apply ascending_seq].
    - split; auto. unfold Iso.in_range in *. rewrite Forall_forall in *. intros c Hc. apply HR in Hc. apply IH1, Hc.
  Qed.
  Lemma remaining_iso : forall R R', in_range R -> NoDup R -> in_range R' -> (forall c, In c R' <-> In c R /\ ~ eliminated p R c) ->
    forall d, In d (rn R') <-> In d (rn R) /\ ~ eliminated q (rn R) d.
  Proof using I.
    intros R R' RR NR RR' H d. pose proof (rn_range _ _ _ _ _ _ _ I R RR) as RQ. rewrite Forall_forall in RQ. pose proof (rn_range _ _ _ _ _ _ _ I R' RR') as RQ'. rewrite Forall_forall in RQ'.
    split.
    - intros Hd. destruct (s_onto _ _ _ _ _ _ _ I d (RQ' d Hd)) as (c & Hc & ->). rewrite (img_rn _ _ _ _ _ _ _ I R' RR' c Hc) in Hd.
      rewrite (img_rn _ _ _ _ _ _ _ I R RR c Hc), eliminated_iso by auto. apply H. auto.
    - intros [Hd He]. destruct (s_onto _ _ _ _ _ _ _ I d (RQ d Hd)) as (c & Hc & ->). rewrite (img_rn _ _ _ _ _ _ _ I R' RR' c Hc).
      rewrite (img_rn _ _ _ _ _ _ _ I R RR c Hc) in Hd. rewrite eliminated_iso in He by auto. apply H. auto.
  Qed.
  Lemma reaches_iso : forall k R, eph_reaches p k R -> eph_reaches q k (rn R).
  Proof using I.
    induction 1 as [|R R' H IH HA HR HK]; [rewrite (rn_all _ _ _ _ _ _ _ I); constructor|].
    destruct (reaches_facts k R H) as [RR AR]. assert (RR' : in_range R').
    { unfold Iso.in_range in *. rewrite Forall_forall in *. intros c Hc. apply HR in Hc. apply RR, Hc. }
    apply eph_round with (R := rn R); auto.
    - apply (rn_ascending _ _ _ _ _ _ _ I); auto. apply ascending_NoDup; auto.
    - apply remaining_iso; auto. apply ascending_NoDup; auto.
    - rewrite rn_length. auto.
  Qed.
  Lemma eph_iso : forall k W, eph_winner p k W -> eph_winner q k (rn W).
  Proof using I.
    intros k W (R & HR & HW & Hincl & He & Hlast). destruct (reaches_facts k R HR) as [RR AR]. pose proof (ascending_NoDup _ AR) as NR. pose proof HW as (_ & _ & RW).
    pose proof (img_rn _ _ _ _ _ _ _ I R RR) as HIR. pose proof (img_rn _ _ _ _ _ _ _ I W RW) as HIW.
    pose proof (rn_range _ _ _ _ _ _ _ I R RR) as RQ. rewrite Forall_forall in RQ. pose proof (rn_range _ _ _ _ _ _ _ I W RW) as RQW. rewrite Forall_forall in RQW.
    exists (rn R). split; [apply reaches_iso; auto|]. split; [apply (rn_committee _ _ _ _ _ _ _ I); auto|]. split; [|split].
    - intros d Hd. destruct (s_onto _ _ _ _ _ _ _ I d (RQW d Hd)) as (c & Hc & ->). apply HIR, Hincl, HIW; auto.
    - intros d Hd HdW. destruct (s_onto _ _ _ _ _ _ _ I d (RQ d Hd)) as (c & Hc & ->). rewrite (HIR c Hc) in Hd. rewrite (HIW c Hc) in HdW.
      apply eliminated_iso; auto.
    - intros S AS HS. assert (HC : is_committee q (length S) S).
      { split; auto. split; auto. apply Forall_forall. intros d Hd. apply RQ. apply HS. auto. }
      destruct (rn_onto _ _ _ _ _ _ _ I _ _ HC) as (S0 & (A0 & L0 & R0) & E). rewrite <- L0. apply Hlast; auto. intros c. pose proof (img_rn _ _ _ _ _ _ _ I S0 R0) as HI0. rewrite <- E in HI0. split.
      + intros Hc. assert (Hlt : c < num_cand p) by (rewrite Forall_forall in R0; auto). rewrite <- (eliminated_iso R c), <- (HIR c) by auto. apply HS, HI0; auto.
      + intros Hc. assert (Hlt : c < num_cand p) by (unfold Iso.in_range in RR; rewrite Forall_forall in RR; apply RR, Hc). rewrite <- (eliminated_iso R c), <- (HIR c) in Hc by auto. apply HI0, HS; auto.
  Qed.

  (** *** Monroe *)
  Lemma count_filter : forall c l, count_occ Nat.eq_dec l c = length (filter (fun d => d =? c) l).
  Proof using.
    intros c. induction l as [|a l IH]; auto. cbn. destruct (Nat.eq_dec a c) as [->|Hne]; [rewrite Nat.eqb_refl; cbn; lia|].
    destruct (Nat.eqb_spec a c); [contradiction|auto].
  Qed.
  Definition carry (phi : list nat) : list nat := map (fun j => s (nth (r' j) phi 0)) (voter_ids q).
  Lemma carry_perm : forall phi, length phi = n -> Permutation (map s phi) (carry phi).
  Proof using I.
    intros phi Hl. unfold carry. eapply perm_trans; [|apply Permutation_map, (ids_perm _ _ _ _ _ _ _ I)]. rewrite map_map.
    assert (E : map s phi = map (fun i => s (nth (r' (r i)) phi 0)) (voter_ids p)); [|rewrite E; apply Permutation_refl]. apply nth_ext with (d := s 0) (d' := (fun i => s (nth (r' (r i)) phi 0)) 0).
    - unfold voter_ids. rewrite !map_length, seq_length. auto.
    - intros i Hi. rewrite map_length in Hi. rewrite (map_nth (fun i => s (nth (r' (r i)) phi 0))), (map_nth s). unfold voter_ids. rewrite seq_nth by lia.
      rewrite (r'_r _ _ _ _ _ _ _ I) by (cbn; lia). auto.
  Qed.
  Lemma monroe_assignment_iso : forall W phi, in_range W -> monroe_assignment p W phi -> monroe_assignment q (rn W) (carry phi).
  Proof using I.
    intros W phi RW (Hl & HF & Hc). pose proof (carry_perm phi Hl) as HP. pose proof RW as RW'. unfold Iso.in_range in RW'. rewrite Forall_forall in RW'. rewrite Forall_forall in HF.
    unfold monroe_assignment. rewrite (iso_n _ _ _ _ _ _ _ I), (rn_length s). split; [rewrite <- (Permutation_length HP), map_length; auto|]. split.
    - apply Forall_forall. intros d Hd. apply (Permutation_in _ (Permutation_sym HP)) in Hd. apply in_map_iff in Hd. destruct Hd as (c & <- & Hd).
      apply (img_rn _ _ _ _ _ _ _ I W RW); auto.
    - intros d Hd. pose proof (rn_range _ _ _ _ _ _ _ I W RW) as RQ. rewrite Forall_forall in RQ. destruct (s_onto _ _ _ _ _ _ _ I d (RQ d Hd)) as (c & Hlt & ->).
      rewrite (img_rn _ _ _ _ _ _ _ I W RW c Hlt) in Hd. specialize (Hc c Hd).
      replace (count_occ Nat.eq_dec (carry phi) (s c)) with (count_occ Nat.eq_dec phi c); auto.
      rewrite (Permutation_count_occ Nat.eq_dec) in HP. rewrite <- HP, !count_filter, filter_map, map_length. f_equal. apply filter_ext_in. intros d' Hd'.
      apply eq_true_iff_eq. rewrite !Nat.eqb_eq. split; [intros ->; auto|]. intros E. apply (s_inj _ _ _ _ _ _ _ I) in E; auto.
  Qed.
  Lemma represented_ids : forall (o : profile) phi, length phi = length (voters o) ->
    represented o phi = length (filter (fun i => likes o i (nth i phi 0)) (voter_ids o)).
  Proof using.
    intros o phi Hl. unfold represented, likes, the_voter, voter_ids. revert phi Hl. generalize (voters o) as vs. induction vs as [|v vs IH]; intros [|c phi] Hl; try discriminate; auto.
    cbn [combine filter fst snd length]. cbn [seq]. cbn [filter nth]. rewrite <- seq_shift, filter_map.
    destruct (approves v c); cbn [length]; rewrite map_length; cbn [nth]; rewrite <- IH by (cbn in Hl; lia); auto.
  Qed.
  Lemma represented_iso : forall phi, length phi = n -> in_range phi -> represented q (carry phi) = represented p phi.
  Proof using I.
    intros phi Hl RP. assert (Hl' : length (carry phi) = length (voters q)) by (unfold carry, voter_ids; rewrite map_length, seq_length; auto).
    rewrite !represented_ids by auto.
    assert (H : forall i, i < n -> likes q (r i) (nth (r i) (carry phi) 0) = likes p i (nth i phi 0)).
    { intros i Hi. pose proof (r_lt _ _ _ _ _ _ _ I i Hi) as Hri.
      assert (E : nth (r i) (carry phi) 0 = s (nth i phi 0)).
      { unfold carry. rewrite (nth_indep _ _ ((fun j => s (nth (r' j) phi 0)) 0)) by (unfold voter_ids; rewrite map_length, seq_length; auto).
        rewrite (map_nth (fun j => s (nth (r' j) phi 0))). unfold voter_ids. rewrite seq_nth by auto. cbn. rewrite (r'_r _ _ _ _ _ _ _ I) by auto. auto. }
      rewrite E. apply likes_iso; auto. unfold Iso.in_range in RP. rewrite Forall_forall in RP. apply RP, nth_In. lia. }
    rewrite <- (Permutation_length (filter_ids _ _ _ _ _ _ _ I (fun i => likes p i (nth i phi 0)) (fun j => likes q j (nth j (carry phi) 0)) H)), map_length. auto.
  Qed.
  Lemma assignment_range : forall W phi, in_range W -> monroe_assignment p W phi -> in_range phi.
  Proof using. intros W phi RW (_ & HF & _). unfold Iso.in_range in *. rewrite Forall_forall in *. auto. Qed.
End IsoSeq.

(** An assignment in the other election comes from one in this election. *)
Lemma monroe_iso : forall p q s t r r' x k W, iso p q s t r r' x -> monroe_winner p k W -> monroe_winner q k (rn s W).
Proof.
  intros p q s t r r' x k W I (HW & phi & Hphi & Hbest). pose proof HW as (_ & _ & RW).
  split; [apply (rn_committee _ _ _ _ _ _ _ I); auto|]. exists (carry q s r' phi). split; [apply (monroe_assignment_iso _ _ _ _ _ _ _ I); auto|].
  intros U psi HU Hpsi. pose proof (iso_sym _ _ _ _ _ _ _ I) as J. pose proof HU as (_ & _ & RU).
  rewrite (represented_iso _ _ _ _ _ _ _ I) by (try apply Hphi; eapply assignment_range; eauto).
  rewrite <- (represented_iso _ _ _ _ _ _ _ J psi) by (try apply Hpsi; eapply assignment_range; eauto).
  apply Hbest with (W' := rn t U); [apply (rn_committee _ _ _ _ _ _ _ J); auto|apply (monroe_assignment_iso _ _ _ _ _ _ _ J); auto].
Qed.

(** *** loads and supports *)
Section Loads.
  Context (p q : profile) (s t r r' : nat -> nat) (x : Q) (I : iso p q s t r r' x).
  Local Notation rn := (rn s).
  Local Notation img := (img p s).
  Local Notation in_range := (in_range p).
  Local Notation n := (length (voters p)).
  Lemma positions_ids : forall o, with_positions o = map (fun i => (i, the_voter o i)) (voter_ids o).
  Proof using.
    intros o. unfold with_positions, the_voter, voter_ids. generalize (voters o) as vs.
    assert (H : forall vs k, combine (seq k (length vs)) vs = map (fun i => (i, nth (i - k) vs (mkVoter [] 1 true))) (seq k (length vs))).
    { induction vs as [|v vs IH]; intros k; auto. cbn [length seq combine map]. f_equal; [rewrite Nat.sub_diag; auto|]. rewrite IH. apply map_ext_in.
      intros i Hi. apply in_seq in Hi. f_equal. replace (i - k) with (S (i - S k)) by lia. auto. }
    intros vs. rewrite H. apply map_ext. intros i. rewrite Nat.sub_0_r. auto.
  Qed.
  Lemma In_positions : forall o i v, In (i, v) (with_positions o) <-> i < length (voters o) /\ v = the_voter o i.
  Proof using.
    intros o i v. rewrite positions_ids, in_map_iff. unfold voter_ids. split.
    - intros (j & E & Hj). injection E as -> <-. apply in_seq in Hj. split; auto. lia.
    - intros [Hi ->]. exists i. split; auto. apply in_seq. lia.
  Qed.
  Lemma positions_fans : forall o c (F : nat * voter -> Q),
    Qsum (map F (filter (fun iv => approves (snd iv) c) (with_positions o))) = sum (fans o c) (fun i => F (i, the_voter o i)).
  Proof using. intros o c F. rewrite positions_ids, filter_map, map_map. reflexivity. Qed.

  (** [l], multiplied by [y], in the other election *)
  Definition tr2 (y : Q) (l : nat -> nat -> Q) : nat -> nat -> Q := fun j d => (y * l (r' j) (t d))%Q.
  Lemma tr2_rs : forall y l i c, i < n -> c < num_cand p -> tr2 y l (r i) (s c) = (y * l i c)%Q.
  Proof using I. intros y l i c Hi Hc. unfold tr2. rewrite (r'_r _ _ _ _ _ _ _ I) by auto. destruct (iso_s _ _ _ _ _ _ _ I c Hc) as [_ ->]. auto. Qed.
  Lemma sum_img : forall A B (f g : nat -> Q) y, NoDup A -> in_range A -> NoDup B -> Forall (fun c => c < num_cand q) B -> img A B ->
    (forall c, c < num_cand p -> (g (s c) == y * f c)%Q) -> (Qsum (map g B) == y * Qsum (map f A))%Q.
  Proof using I.
    intros A B f g y NA RA NB RB HI H.
    assert (HP : Permutation (map s A) B).
    { apply NoDup_Permutation; auto; [apply (map_s_NoDup _ _ _ _ _ _ _ I); auto|]. intros d. split.
      - intros Hd. apply in_map_iff in Hd. destruct Hd as (c & <- & Hc). unfold Iso.in_range in RA. rewrite Forall_forall in RA. apply (HI c (RA c Hc)). auto.
      - intros Hd. rewrite Forall_forall in RB. destruct (s_onto _ _ _ _ _ _ _ I d (RB d Hd)) as (c & Hc & ->). apply in_map, (HI c Hc). auto. }
    rewrite <- (Qsum_perm _ _ (Permutation_map g HP)), map_map, <- Qsum_scal. apply Qsum_map_ext. intros c Hc. apply H. unfold Iso.in_range in RA. rewrite Forall_forall in RA. auto.
  Qed.
  Lemma sum_inter : forall y l i W U, i < n -> in_range W -> img W U ->
    (Qsum (map (tr2 y l (r i)) (inter (approved (the_voter q (r i))) U)) == y * Qsum (map (l i) (inter (approved (the_voter p i)) W)))%Q.
  Proof using I.
    intros y l i W U Hi RW HI. destruct (voter_wf_p _ _ _ _ _ _ _ I i), (voter_wf_q _ _ _ _ _ _ _ I (r i)). apply sum_img; auto using NoDup_inter, inter_range, inter_range_q.
    - apply inter_img; auto. apply (approved_img _ _ _ _ _ _ _ I); auto.
    - intros c Hc. rewrite tr2_rs by auto. reflexivity.
  Qed.
  Lemma load_distribution_iso : forall W U l, in_range W -> Forall (fun c => c < num_cand q) U -> img W U -> load_distribution p W l -> load_distribution q U (tr2 (/ x) l).
  Proof using I.
    intros W U l RW RU HI [H0 H1]. pose proof (x_inv_pos _ _ _ _ _ _ _ I) as Hx. split.
    - intros j d. unfold tr2. specialize (H0 (r' j) (t d)). nra.
    - intros d Hd. rewrite Forall_forall in RU. destruct (s_onto _ _ _ _ _ _ _ I d (RU d Hd)) as (c & Hc & ->). rewrite (HI c Hc) in Hd. rewrite positions_fans. cbn [fst snd].
      rewrite <- (H1 c Hd), positions_fans. cbn [fst snd]. apply (sum_fans _ _ _ _ _ _ _ I); auto. intros i Hi. rewrite tr2_rs by auto.
      pose proof (w_iso _ _ _ _ _ _ _ I i Hi) as E. unfold w in E. rewrite E. pose proof (x_inv _ _ _ _ _ _ _ I) as Ex.
      setoid_replace (x * weight (the_voter p i) * (/ x * l i c))%Q with ((/ x * x) * (weight (the_voter p i) * l i c))%Q by ring. rewrite Ex. ring.
  Qed.
  Lemma voter_load_iso : forall y W l i, i < n -> in_range W ->
    (voter_load (rn W) (tr2 y l) (r i) (the_voter q (r i)) == y * voter_load W l i (the_voter p i))%Q.
  Proof using I. intros y W l i Hi RW. unfold voter_load. apply sum_inter; auto. apply (img_rn _ _ _ _ _ _ _ I); auto. Qed.
  Lemma max_load_iso : forall W b, in_range W -> max_load p W b -> max_load q (rn W) (/ x * b)%Q.
  Proof using I.
    intros W b RW (l & Hl & Hb). exists (tr2 (/ x) l). split; [apply load_distribution_iso with (W := W); auto; [apply (rn_range _ _ _ _ _ _ _ I); auto|apply (img_rn _ _ _ _ _ _ _ I); auto]|].
    intros j v Hj. apply In_positions in Hj. destruct Hj as [Hj ->]. destruct (r_onto _ _ _ _ _ _ _ I j Hj) as (i & Hi & ->). rewrite voter_load_iso by auto.
    specialize (Hb i (the_voter p i)). rewrite In_positions in Hb. specialize (Hb (conj Hi eq_refl)). pose proof (x_inv_pos _ _ _ _ _ _ _ I). nra.
  Qed.
  Lemma sorted_load_iso : forall W bounds bounds' eps b, in_range W -> Forall2 (fun a a' => (a' == / x * a)%Q) bounds bounds' ->
    sorted_load p W bounds eps b -> sorted_load q (rn W) bounds' (/ x * eps)%Q (/ x * b)%Q.
  Proof using I.
    intros W bounds bounds' eps b RW HF (l & order & Hl & HP & Ho). exists (tr2 (/ x) l), (map r order). split; [|split].
    - apply load_distribution_iso with (W := W); auto; [apply (rn_range _ _ _ _ _ _ _ I); auto|apply (img_rn _ _ _ _ _ _ _ I); auto].
    - rewrite HP. apply (ids_perm _ _ _ _ _ _ _ I).
    - intros pos j v Hj Hv. rewrite nth_error_map in Hj. destruct (nth_error order pos) as [i|] eqn:Ei; [|discriminate]. injection Hj as <-.
      assert (Hi : i < n). { apply nth_error_In in Ei. apply (Permutation_in _ HP) in Ei. apply in_seq in Ei. lia. }
      assert (Ev : v = the_voter q (r i)) by (unfold the_voter; symmetry; apply nth_error_nth; auto). subst v.
      specialize (Ho pos i (the_voter p i) Ei (nth_error_nth' (voters p) (mkVoter [] 1 true) Hi)). pose proof (voter_load_iso (/ x) W l i Hi RW) as EV. fold (the_voter p i) in Ho.
      pose proof (x_inv_pos _ _ _ _ _ _ _ I) as Hx.
      assert (HE : match nth_error bounds pos, nth_error bounds' pos with Some a, Some a' => (a' == / x * a)%Q | None, None => True | _, _ => False end).
      { clear - HF. revert pos. induction HF; intros [|pos]; cbn; auto. apply IHHF. }
      destruct (nth_error bounds pos) as [a|], (nth_error bounds' pos) as [a'|]; try contradiction; rewrite EV; [rewrite HE|]; nra.
  Qed.
  Lemma support_distribution_iso : forall W U f, in_range W -> img W U -> support_distribution p W f -> support_distribution q U (tr2 x f).
  Proof using I.
    intros W U f RW HI [H0 H1]. pose proof (x_pos _ _ _ _ _ _ _ I) as Hx. split.
    - intros j d. unfold tr2. specialize (H0 (r' j) (t d)). nra.
    - intros j v Hj Hne. apply In_positions in Hj. destruct Hj as [Hj ->]. destruct (r_onto _ _ _ _ _ _ _ I j Hj) as (i & Hi & ->). rewrite (sum_inter x f i W U) by auto.
      rewrite H1; [symmetry; apply (w_iso _ _ _ _ _ _ _ I); auto|apply In_positions; auto|]. intros E. apply Hne. apply length_zero_iff_nil.
      change (util (the_voter q (r i)) U = 0). rewrite (util_iso _ _ _ _ _ _ _ I i W) by auto. unfold util. rewrite E. auto.
  Qed.
  Lemma received_iso : forall f c, c < num_cand p -> (received q (tr2 x f) (s c) == x * received p f c)%Q.
  Proof using I.
    intros f c Hc. unfold received. rewrite !positions_fans. cbn [fst]. rewrite <- sum_scal. apply (sum_fans _ _ _ _ _ _ _ I); auto. intros i Hi. rewrite tr2_rs by auto. reflexivity.
  Qed.
  Lemma reachable_support_iso : forall W U f b, in_range W -> Forall (fun c => c < num_cand q) U -> img W U ->
    support_distribution p W f -> (forall c, In c W -> (b <= received p f c)%Q) ->
    support_distribution q U (tr2 x f) /\ forall d, In d U -> (x * b <= received q (tr2 x f) d)%Q.
  Proof using I.
    intros W U f b RW RU HI Hf Hb. split; [apply support_distribution_iso with (W := W); auto|]. intros d Hd. rewrite Forall_forall in RU.
    destruct (s_onto _ _ _ _ _ _ _ I d (RU d Hd)) as (c & Hc & ->). rewrite (HI c Hc) in Hd. rewrite received_iso by auto. specialize (Hb c Hd). pose proof (x_pos _ _ _ _ _ _ _ I). nra.
  Qed.
End Loads.

Section Loads2.
  Context (p q : profile) (s t r r' : nat -> nat) (x : Q) (I : iso p q s t r r' x).
  Let J := iso_sym _ _ _ _ _ _ _ I.
  Lemma img_sym : forall W U, img p s W U -> img q t U W.
  Proof using I.
    intros W U HI d Hd. rewrite (iso_m _ _ _ _ _ _ _ I) in Hd. destruct (iso_t _ _ _ _ _ _ _ I d Hd) as [A B]. rewrite <- B at 2. rewrite (HI (t d) A). tauto.
  Qed.
  Lemma x_x : (x * (1 / x) == 1)%Q. Proof using I. field. apply (x_nz _ _ _ _ _ _ _ I). Qed.
  Lemma inv_inv : (/ (1 / x) == x)%Q. Proof using I. unfold Qdiv. rewrite Qinv_mult_distr, Qinv_involutive. change (/ 1)%Q with 1%Q. ring. Qed.
  Lemma rn_back : forall k W, is_committee p k W -> rn t (rn s W) = W.
  Proof using I.
    intros k W (A & _ & R). unfold rn at 2. rewrite rn_isort, map_map. rewrite (map_ext_in _ (fun c => c)); [rewrite map_id; apply isort_id; auto|].
    intros c Hc. rewrite Forall_forall in R. apply (iso_s _ _ _ _ _ _ _ I). auto.
  Qed.

  Lemma minimaxphragmen_iso : forall eps eps' k W, (eps' == / x * eps)%Q -> minimaxphragmen_winner eps p k W -> minimaxphragmen_winner eps' q k (rn s W).
  Proof using I J.
    intros eps eps' k W Ee (HW & b & Hb & Hbest). pose proof HW as (_ & _ & RW). split; [apply (rn_committee _ _ _ _ _ _ _ I); auto|].
    exists (/ x * b)%Q. split; [apply (max_load_iso _ _ _ _ _ _ _ I); auto|]. intros U b' HU Hb'. pose proof HU as (_ & _ & RU).
    pose proof (max_load_iso _ _ _ _ _ _ _ J U b' RU Hb') as H. specialize (Hbest (rn t U) _ (rn_committee _ _ _ _ _ _ _ J _ _ HU) H).
    rewrite inv_inv in Hbest. rewrite Ee. pose proof (x_inv_pos _ _ _ _ _ _ _ I). assert (H' : (/ x * b <= / x * (x * b' + eps))%Q) by nra.
    setoid_replace (/ x * (x * b' + eps))%Q with ((/ x * x) * b' + / x * eps)%Q in H' by ring. rewrite (x_inv _ _ _ _ _ _ _ I) in H'. lra.
  Qed.

  Lemma maximin_support_iso : forall W U b, Forall (fun c => c < num_cand p) W -> Forall (fun c => c < num_cand q) U -> img p s W U ->
    maximin_support p W b -> maximin_support q U (x * b)%Q.
  Proof using I J.
    intros W U b RW RU HI [(f & Hf & Hb) Hmax]. split.
    - exists (tr2 t r' x f). eapply reachable_support_iso; eauto.
    - intros g b' Hg Hb'. destruct (reachable_support_iso _ _ _ _ _ _ _ J U W g b' RU RW (img_sym _ _ HI) Hg Hb') as [H1 H2].
      specialize (Hmax _ _ H1 H2). pose proof (x_pos _ _ _ _ _ _ _ I). assert (H' : (x * (1 / x * b') <= x * b)%Q) by nra.
      setoid_replace (x * (1 / x * b'))%Q with (x * (1 / x) * b')%Q in H' by ring. rewrite x_x in H'. lra.
  Qed.
  Lemma maximin_choice_iso : forall eps eps' y W b c, (eps' == x * eps)%Q -> in_range p W -> maximin_choice eps p W b c ->
    c < num_cand p /\ maximin_choice eps' q (map s W) (tr r' y b) (s c).
  Proof using I J.
    intros eps eps' y W b c Ee RW (Hf & b0 & Hs & H). pose proof Hf as [Hc _]. pose proof (img_map _ _ _ _ _ _ _ I W RW) as HI. split; auto. split; [apply (fresh_s _ _ _ _ _ _ _ I W); auto|].
    pose proof (map_s_range _ _ _ _ _ _ _ I W RW) as RU.
    exists (x * b0)%Q. split.
    - apply maximin_support_iso with (W := c :: W); [constructor; auto|constructor; auto; apply (s_lt _ _ _ _ _ _ _ I); auto|apply (img_cons _ _ _ _ _ _ _ I); auto|auto].
    - intros d b' Hd Hb'. destruct (fresh_onto _ _ _ _ _ _ _ I W _ d HI Hd) as (d0 & Hd0 & ->). pose proof Hd0 as [Hlt _].
      assert (H1 : maximin_support p (d0 :: W) (1 / x * b')%Q).
      { pose proof (iso_sym _ _ _ _ _ _ _ J) as _.
        assert (HI2 : img p s (d0 :: W) (s d0 :: map s W)) by (apply (img_cons _ _ _ _ _ _ _ I); auto). apply img_sym in HI2.
        destruct Hb' as [(f & Hf' & Hb1) Hmax].
        assert (RU' : Forall (fun c => c < num_cand q) (s d0 :: map s W)) by (constructor; auto; apply (s_lt _ _ _ _ _ _ _ I); auto).
        assert (RW' : Forall (fun c => c < num_cand p) (d0 :: W)) by (constructor; auto). split.
        - exists (tr2 s r (1 / x) f). eapply (reachable_support_iso _ _ _ _ _ _ _ J); eauto.
        - intros g b1 Hg Hb2. destruct (reachable_support_iso _ _ _ _ _ _ _ I (d0 :: W) (s d0 :: map s W) g b1 RW' RU' ltac:(apply (img_cons _ _ _ _ _ _ _ I); auto) Hg Hb2) as [H2 H3].
          specialize (Hmax _ _ H2 H3). pose proof (iso_x _ _ _ _ _ _ _ J). assert (H' : (1 / x * (x * b1) <= 1 / x * b')%Q) by nra.
          setoid_replace (1 / x * (x * b1))%Q with (x * (1 / x) * b1)%Q in H' by ring. rewrite x_x in H'. lra. }
      specialize (H d0 _ Hd0 H1). rewrite Ee. pose proof (x_pos _ _ _ _ _ _ _ I). assert (H' : (x * (1 / x * b') <= x * (b0 + eps))%Q) by nra.
      setoid_replace (x * (1 / x * b'))%Q with (x * (1 / x) * b')%Q in H' by ring. rewrite x_x in H'. lra.
  Qed.
  Lemma maximin_iso : forall eps eps' k W, (eps' == x * eps)%Q -> maximin_winner eps p k W -> maximin_winner eps' q k (rn s W).
  Proof using I J.
    intros eps eps' k W Ee H. unfold maximin_winner in *. change (@nil nat) with (map s []).
    eapply (run_winner_iso _ _ _ _ _ _ _ I 1); eauto; [intros; eapply maximin_choice_iso; eauto| |constructor|apply zero_tr].
    intros W' b c b' _ _ Hu. unfold no_update in *. apply (agree_tr _ _ _ _ _ _ _ I). auto.
  Qed.
End Loads2.
