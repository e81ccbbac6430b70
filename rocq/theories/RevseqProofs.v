(** * Reverse sequential Thiele methods *)
From Coq Require Import List Arith Bool ZArith QArith Lia Lqa Permutation Sorted.
From Verif Require Import Prelude Misc MiscProofs Preferences Scores ScoresProofs Search Spec SpecRules RulesThiele Common ThieleProofs.
Import ListNotations.
Open Scope nat_scope.

Lemma without_In : forall c d W, In d (without c W) <-> In d W /\ d <> c.
Proof.
  intros. unfold without. rewrite filter_In, negb_true_iff, Nat.eqb_neq. tauto.
Qed.

Lemma without_notin : forall c W, ~ In c W -> without c W = W.
Proof.
  intros c W. unfold without. induction W as [|x W IH]; simpl; auto. intro H.
  destruct (Nat.eqb_spec x c); simpl; [subst; exfalso; apply H; left; auto|].
  f_equal. apply IH. intro. apply H. right; auto.
Qed.

Lemma without_length : forall c W, NoDup W -> In c W -> length (without c W) = length W - 1.
Proof.
  induction W as [|d W IH]; intros Hn Hc; [destruct Hc|]. inversion Hn; subst.
  unfold without. cbn [filter]. fold (without c W). destruct (Nat.eqb_spec d c); simpl.
  - subst. rewrite without_notin by auto. lia.
  - destruct Hc as [->|Hc]; [congruence|]. rewrite IH by auto.
    destruct W; [destruct Hc|]. simpl. lia.
Qed.

Lemma without_NoDup : forall c W, NoDup W -> NoDup (without c W).
Proof. intros. apply NoDup_filter; auto. Qed.

Lemma without_perm : forall c W W', Permutation W W' -> Permutation (without c W) (without c W').
Proof. intros. apply Permutation_filter; auto. Qed.

(** value lost by removing member [c] *)
Definition loss (f : nat -> Q) (p : profile) (W : list nat) (c : nat) : Q :=
  Qsum (map (fun v => weight v * f (util v W))%Q (supporters p c)).

Lemma loss_correct : forall f p W c, wf p -> In c W ->
  (loss f p W c == Thiele f p W - Thiele f p (without c W))%Q.
Proof.
  intros f p W c Hw Hc.
  assert (Hs : set_same W (c :: without c W)).
  { intro x. simpl. rewrite without_In. destruct (Nat.eq_dec x c); subst; split; auto. intros [H|[H _]]; [congruence|auto]. }
  assert (Hnin : ~ In c (without c W)) by (rewrite without_In; tauto).
  rewrite (Thiele_set_same f p W _ Hs). rewrite <- gain_correct by auto.
  unfold loss, gain. apply Qsum_map_ext. intros v Hv. apply filter_In in Hv as [Hv Ha].
  rewrite (util_set_same v W _ Hs). destruct (wf_voter_in p v Hw Hv) as (Hn & _).
  rewrite util_add, Ha by auto. rewrite Nat.add_1_r. reflexivity.
Qed.

Section Sentinel.
  Variable W : list nat.
  Let step (marg : list Q) (cand : nat) : list Q :=
    if mem cand W then marg
    else match py_max marg with
         | Ok mx => upd (fun _ => mx + 1)%Q cand marg
         | Err _ => marg
         end.

  Lemma sentinel_length : forall l a, length (fold_left step l a) = length a.
  Proof using.
    induction l as [|c l IH]; simpl; intros a; auto. rewrite IH. unfold step.
    destruct (mem c W); auto. destruct (py_max a); auto. apply upd_length.
  Qed.

  Lemma sentinel_member : forall l a c, In c W -> nthQ (fold_left step l a) c = nthQ a c.
  Proof using.
    induction l as [|d l IH]; simpl; intros a c Hc; auto. rewrite IH by auto. unfold step.
    destruct (mem d W) eqn:E; auto. destruct (py_max a); auto.
    unfold nthQ. rewrite nth_upd. destruct (Nat.eqb_spec c d); auto.
    subst. apply mem_false in E. tauto.
  Qed.

  Lemma sentinel_other : forall l a c d, In d W -> d < length a ->
    ~ In c W -> c < length a ->
    (In c l \/ (nthQ a d < nthQ a c)%Q) ->
    (nthQ (fold_left step l a) d < nthQ (fold_left step l a) c)%Q.
  Proof using.
    induction l as [|e l IH]; simpl; intros a c d Hd Hdl Hc Hcl H.
    - destruct H as [[]|H]; auto.
    - assert (Hlen : length (step a e) = length a).
      { unfold step. destruct (mem e W); auto. destruct (py_max a); auto. apply upd_length. }
      apply IH; auto; try (rewrite Hlen; auto).
      assert (Hmem : nthQ (step a e) d = nthQ a d) by (apply (sentinel_member [e] a d Hd)).
      assert (Hnew : ~ In e W -> e = c -> (nthQ a d < nthQ (step a e) c)%Q).
      { intros He ->. unfold step. apply mem_false in He. rewrite He.
        assert (Hne : a <> []) by (destruct a; [simpl in Hdl; lia|discriminate]).
        destruct (py_max_spec a Hne) as (mx & -> & _ & Hmx).
        unfold nthQ at 2. rewrite nth_upd, Nat.eqb_refl. apply Nat.ltb_lt in Hcl. rewrite Hcl. simpl.
        specialize (Hmx d Hdl). lra. }
      destruct (Nat.eq_dec e c) as [E|N].
      + right. rewrite Hmem. apply Hnew; auto. congruence.
      + destruct H as [[H|H]|H]; [congruence|auto|].
        right. rewrite Hmem. unfold step. destruct (mem e W); auto. destruct (py_max a); auto.
        unfold nthQ at 2. rewrite nth_upd. destruct (Nat.eqb_spec c e); [congruence|]. auto.
  Qed.
End Sentinel.

Lemma marg_remove_length : forall f p W, length (marginal_thiele_scores_remove f p W) = num_cand p.
Proof.
  intros. unfold marginal_thiele_scores_remove. rewrite (sentinel_length W).
  fold (accumulate (fun v => weight v * f (length (inter (approved v) W)))%Q (voters p) (repeat 0%Q (num_cand p))).
  rewrite accumulate_length, repeat_length. auto.
Qed.

Lemma marg_remove_member : forall f p W c, wf p -> In c W -> c < num_cand p ->
  (nthQ (marginal_thiele_scores_remove f p W) c == loss f p W c)%Q.
Proof.
  intros f p W c Hw Hin Hc. unfold marginal_thiele_scores_remove. rewrite (sentinel_member W) by auto.
  fold (accumulate (fun v => weight v * f (length (inter (approved v) W)))%Q (voters p) (repeat 0%Q (num_cand p))).
  rewrite accumulate_nth; [|apply wf_nodup; auto|rewrite repeat_length; auto].
  rewrite nthQ_repeat0. unfold loss, supporters. rewrite Qplus_0_l. reflexivity.
Qed.

Lemma marg_remove_other : forall f p W c d, In d W -> d < num_cand p -> ~ In c W -> c < num_cand p ->
  (nthQ (marginal_thiele_scores_remove f p W) d < nthQ (marginal_thiele_scores_remove f p W) c)%Q.
Proof.
  intros f p W c d Hd Hdl Hc Hcl. unfold marginal_thiele_scores_remove.
  fold (accumulate (fun v => weight v * f (length (inter (approved v) W)))%Q (voters p) (repeat 0%Q (num_cand p))).
  apply (sentinel_other W); auto; try (rewrite accumulate_length, repeat_length; auto).
  left. unfold candidates. apply in_seq. lia.
Qed.

Lemma marg_remove_argmin : forall f p W c, wf p -> W <> [] -> Forall (fun c => c < num_cand p) W ->
  (is_argmin (marginal_thiele_scores_remove f p W) c <-> best_removal f p W c).
Proof.
  intros f p W c Hw Hne Hr. rewrite Forall_forall in Hr. unfold is_argmin, best_removal.
  rewrite marg_remove_length. split.
  - intros [Hc Hm].
    assert (Hin : In c W).
    { destruct (in_dec Nat.eq_dec c W) as [|N]; auto. exfalso.
      destruct W as [|d W']; [congruence|]. assert (Hd : In d (d :: W')) by (left; auto).
      specialize (Hm d (Hr d Hd)). pose proof (marg_remove_other f p (d :: W') c d Hd (Hr d Hd) N Hc). lra. }
    split; auto. intros d Hd. specialize (Hm d (Hr d Hd)). rewrite !marg_remove_member in Hm by auto.
    rewrite !loss_correct in Hm by auto. lra.
  - intros [Hin Hm]. split; auto. intros d Hd. destruct (in_dec Nat.eq_dec d W) as [Hdin|N].
    + rewrite !marg_remove_member by auto. rewrite !loss_correct by auto. specialize (Hm d Hdin). lra.
    + apply Qlt_le_weak. apply marg_remove_other; auto.
Qed.

Lemma marg_remove_nonempty : forall f p W, wf p -> marginal_thiele_scores_remove f p W <> [].
Proof.
  intros f p W [H _] E. pose proof (marg_remove_length f p W) as L. rewrite E in L. simpl in L. lia.
Qed.

Lemma removal_run_props : forall f p W, removal_run f p W ->
  ascending W /\ Forall (fun c => c < num_cand p) W.
Proof.
  induction 1 as [|W c H [IH1 IH2] Hb].
  - split; [apply ascending_seq|]. apply Forall_forall. intros c Hc. apply in_seq in Hc. lia.
  - split; [apply ascending_filter; auto|]. apply Forall_forall. intros x Hx. apply without_In in Hx as [Hx _].
    rewrite Forall_forall in IH2. auto.
Qed.

Lemma removal_last_run : forall f p W, removal_run_last f p W -> removal_run f p W.
Proof. induction 1; [constructor|]. eapply removal_step; eauto. Qed.

Lemma rev_head_max : forall l c r, ascending l -> rev l = c :: r -> forall d, In d l -> d <= c.
Proof.
  intros l c r Ha E d Hd. assert (El : l = rev r ++ [c]).
  { rewrite <- (rev_involutive l), E. reflexivity. }
  rewrite El in Ha, Hd. clear E El l. apply in_app_iff in Hd as [Hd|[<-|[]]]; [|lia].
  induction (rev r) as [|x l IH]; simpl in *; [destruct Hd|]. inversion Ha; subst.
  destruct Hd as [->|Hd]; auto. rewrite Forall_forall in H2.
  assert (d < c) by (apply H2, in_app_iff; right; left; auto). lia.
Qed.

Lemma revseq_loop_spec : forall f p, wf p -> forall r W, removal_run_last f p W -> r <= length W ->
  exists W', revseq_loop f p r W = Ok W' /\ removal_run_last f p W' /\ length W' = length W - r.
Proof.
  intros f p Hw r. induction r as [|r IH]; intros W HW Hr.
  - exists W. simpl. repeat split; auto. lia.
  - simpl. destruct (removal_run_props f p W (removal_last_run _ _ _ HW)) as [Ha Hrange].
    assert (Hne : W <> []) by (destruct W; [simpl in Hr; lia|discriminate]).
    destruct (argmin_filter_eq _ (marg_remove_nonempty f p W Hw)) as (mn & E & Hx).
    specialize (Hx (num_cand p) (eq_sym (marg_remove_length f p W))). destruct Hx as (Hx & _ & (c0 & Hc0)).
    rewrite E. simpl. unfold candidates.
    set (tied := filter _ _) in *.
    assert (Hasc : ascending tied) by (apply ascending_filter, ascending_seq).
    destruct (rev tied) as [|c rt] eqn:Er.
    { apply Hx in Hc0. apply in_rev in Hc0. rewrite Er in Hc0. destruct Hc0. }
    assert (Hc : best_removal f p W c).
    { apply marg_remove_argmin, Hx; auto. apply in_rev. rewrite Er. left; auto. }
    assert (Hlast : forall d, best_removal f p W d -> d <= c).
    { intros d Hd. apply (rev_head_max tied c rt); auto. apply Hx, marg_remove_argmin; auto. }
    assert (Hin : In c W) by apply Hc. apply mem_In in Hin as Hm. rewrite Hm.
    destruct (IH (without c W)) as (W' & E' & HW' & Hl').
    + eapply removal_last_step; eauto.
    + rewrite without_length; auto using ascending_NoDup. lia.
    + exists W'. split; auto. split; auto. rewrite Hl', without_length; auto using ascending_NoDup. lia.
Qed.

Theorem revseq_resolute_correct : forall f p k, wf p -> k <= num_cand p ->
  exists W, revseq_resolute f p k = Ok [W] /\ removal_run_last f p W /\ length W = k.
Proof.
  intros f p k Hw Hk. unfold revseq_resolute, candidates.
  destruct (revseq_loop_spec f p Hw (num_cand p - k) (seq 0 (num_cand p)) (removal_last_start f p))
    as (W & E & HW & Hl); [rewrite seq_length; lia|].
  rewrite seq_length in Hl. rewrite E. simpl. exists W.
  destruct (removal_run_props f p W (removal_last_run _ _ _ HW)) as [Ha _].
  rewrite sorted_committees_asc by (constructor; auto). simpl. repeat split; auto. lia.
Qed.

(** ** irresolute, for every iteration order [ord] of Python sets *)

Section Irr.
  Variables (ord : list nat -> list nat) (f : nat -> Q) (p : profile).
  Hypothesis Hord : forall l, Permutation (ord l) l.
  Hypothesis Hw : wf p.

  Lemma util_perm : forall v W W', Permutation W W' -> util v W = util v W'.
  Proof using. intros. apply util_set_same. intro x. split; apply Permutation_in; auto. symmetry; auto. Qed.

  Lemma perm_set_same : forall W W' : list nat, Permutation W W' -> set_same W W'.
  Proof using. intros W W' H x. split; apply Permutation_in; auto. symmetry; auto. Qed.

  Lemma best_removal_perm : forall W W' c, Permutation W W' -> best_removal f p W c -> best_removal f p W' c.
  Proof using.
    intros W W' c H [H1 H2]. split; [eapply Permutation_in; eauto|].
    intros d Hd. rewrite <- (Thiele_set_same f p (without d W) (without d W')), <- (Thiele_set_same f p (without c W) (without c W')).
    - apply H2. eapply Permutation_in; [symmetry|]; eauto.
    - apply perm_set_same, without_perm; auto.
    - apply perm_set_same, without_perm; auto.
  Qed.

  (** the committees of a round, as sets *)
  Definition good (n : nat) (C : list nat) : Prop :=
    exists W, removal_run f p W /\ length W = n /\ Permutation C W.

  Lemma fold_set_add : forall (g : nat -> list nat) l acc x,
    In x (fold_left (fun acc c => set_add (g c) acc) l acc) <-> In x acc \/ exists c, In c l /\ x = g c.
  Proof using.
    induction l as [|a l IH]; simpl; intros acc x.
    - split; auto. intros [|(c & [] & _)]; auto.
    - rewrite IH, set_add_In. split.
      + intros [[->|H]|(c & Hc & ->)]; eauto 6.
      + intros [H|(c & [->|Hc] & ->)]; eauto 6.
  Qed.

  Lemma fold_set_add_NoDup : forall (g : nat -> list nat) l acc, NoDup acc ->
    NoDup (fold_left (fun acc c => set_add (g c) acc) l acc).
  Proof using. induction l; simpl; intros; auto. apply IHl, set_add_NoDup; auto. Qed.

  Lemma revseq_round_spec : forall n comms next, 0 < n ->
    Forall (good n) comms -> NoDup next ->
    exists next', revseq_round ord f p comms next = Ok next' /\ NoDup next' /\
      forall x, In x next' <-> In x next \/
        exists C c, In C comms /\ best_removal f p C c /\ x = ord (without c C).
  Proof using Hord Hw.
    intros n comms. induction comms as [|C comms IH]; intros next Hn Hg Hnd.
    - exists next. simpl. repeat split; auto. intros [|(C & c & [] & _)]; auto.
    - inversion Hg as [|? ? HC Hcs]; subst. simpl.
      destruct HC as (W & HW & Hl & HP).
      destruct (removal_run_props f p W HW) as [Ha Hr].
      assert (HrC : Forall (fun c => c < num_cand p) C) by (eapply Permutation_Forall; [symmetry|]; eauto).
      assert (HneC : C <> []).
      { intros ->. apply Permutation_length in HP. simpl in HP. lia. }
      destruct (argmin_filter_eq _ (marg_remove_nonempty f p C Hw)) as (mn & E & Hx).
      specialize (Hx (num_cand p) (eq_sym (marg_remove_length f p C))). destruct Hx as (Hx & _ & _).
      rewrite E. simpl. unfold candidates.
      destruct (IH _ Hn Hcs (fold_set_add_NoDup (fun c => ord (without c C))
                 (filter (fun c => Qeq_bool (nthQ (marginal_thiele_scores_remove f p C) c) mn)
                   (seq 0 (num_cand p))) next Hnd)) as (next' & E' & Hnd' & Hin').
      exists next'. split; [exact E'|]. split; auto. intro x. rewrite Hin', fold_set_add. split.
      + intros [[H|(c & Hc & ->)]|(D & c & HD & Hb & ->)]; auto.
        * right. exists C, c. split; [left; auto|]. split; auto. apply marg_remove_argmin; auto. apply Hx; auto.
        * right. exists D, c. split; [right; auto|auto].
      + intros [H|(D & c & [<-|HD] & Hb & ->)]; auto.
        * left. right. exists c. split; auto. apply Hx, marg_remove_argmin; auto.
        * right. exists D, c. auto.
  Qed.

  Lemma round_good : forall n C c x, good (S n) C -> best_removal f p C c -> x = ord (without c C) -> good n x.
  Proof using Hord.
    intros n C c x (W & HW & Hl & HP) Hb ->. exists (without c W).
    assert (Hb' : best_removal f p W c) by (eapply best_removal_perm; eauto).
    destruct (removal_run_props f p W HW) as [Ha Hr]. split; [eapply removal_step; eauto|]. split.
    - rewrite without_length; auto using ascending_NoDup; [lia|apply Hb'].
    - rewrite Hord. apply without_perm; auto.
  Qed.

  Lemma run_longer : forall W, removal_run f p W -> length W <= num_cand p /\
    (length W < num_cand p -> exists W' c, removal_run f p W' /\ best_removal f p W' c /\
       W = without c W' /\ length W' = S (length W)).
  Proof using.
    intros W H. destruct H as [|W c H Hb].
    - rewrite seq_length. split; auto. lia.
    - destruct (removal_run_props f p W H) as [Ha Hr].
      assert (Hl := without_length c W (ascending_NoDup _ Ha) (proj1 Hb)).
      assert (0 < length W) by (destruct W; [destruct (proj1 Hb)|simpl; lia]).
      assert (length W <= num_cand p).
      { rewrite <- (seq_length (num_cand p) 0). apply NoDup_incl_length; auto using ascending_NoDup.
        rewrite Forall_forall in Hr. intros x Hx. apply in_seq. specialize (Hr x Hx). lia. }
      split; [lia|]. intros _. exists W, c. repeat split; auto; try apply Hb. lia.
  Qed.

  Lemma revseq_rounds_spec : forall r n comms,
    NoDup comms -> Forall (good (n + r)) comms ->
    (forall W, removal_run f p W -> length W = n + r -> exists C, In C comms /\ Permutation C W) ->
    (n + r <= num_cand p) ->
    exists res, revseq_rounds ord f p r comms = Ok res /\ NoDup res /\ Forall (good n) res /\
      (forall W, removal_run f p W -> length W = n -> exists C, In C res /\ Permutation C W) /\
      (res = comms \/ forall C, In C res -> exists s, C = ord s).
  Proof using Hord Hw.
    induction r as [|r IH]; intros n comms Hnd Hg Hc Hle.
    - exists comms. simpl. rewrite Nat.add_0_r in *. repeat split; auto.
    - simpl. rewrite Nat.add_succ_r in *.
      destruct (revseq_round_spec (S (n + r)) comms [] ltac:(lia) Hg ltac:(constructor)) as (next & E & Hnd' & Hin).
      rewrite E. simpl. destruct (IH n next Hnd') as (res & E' & A & B & C & D).
      + apply Forall_forall. intros x Hx. apply Hin in Hx as [[]|(C & c & HC & Hb & Ex)].
        eapply round_good; eauto. rewrite Forall_forall in Hg. auto.
      + intros W HW Hl. destruct (run_longer W HW) as [_ Hlong].
        destruct Hlong as (W' & c & HW' & Hb & EW & Hl'); [lia|].
        destruct (Hc W' HW' ltac:(lia)) as (C & HC & HP).
        exists (ord (without c C)). split.
        * apply Hin. right. exists C, c. split; auto. split; auto.
          eapply best_removal_perm; [symmetry; eauto|auto].
        * rewrite Hord, EW. apply without_perm; auto.
      + lia.
      + exists res. repeat split; auto. right. destruct D as [->|D]; auto.
        intros x Hx. apply Hin in Hx as [[]|(C0 & c & _ & _ & ->)]. eauto.
  Qed.
End Irr.

Lemma perm_asc_isort : forall C W, ascending W -> Permutation C W -> isort C = W.
Proof. intros C W Ha HP. rewrite (isort_perm_eq C W HP). apply isort_id; auto. Qed.

Lemma revseq_irr_core : forall ord f p k, (forall l, Permutation (ord l) l) -> wf p -> k <= num_cand p ->
  exists comms, revseq_rounds ord f p (num_cand p - k) [candidates p] = Ok comms /\
    Forall (@NoDup nat) comms /\
    (forall W, In W (map isort comms) <-> revseq_winner f p k W) /\
    ((forall l l', Permutation l l' -> ord l = ord l') -> NoDup (map isort comms)) /\
    Forall ascending (map isort comms).
Proof.
  intros ord f p k Hord Hw Hk.
  destruct (revseq_rounds_spec ord f p Hord Hw (num_cand p - k) k [candidates p]) as (comms & E & A & B & C & D).
  - repeat constructor. intros [].
  - constructor; [|constructor]. exists (seq 0 (num_cand p)). split; [constructor|].
    rewrite seq_length. split; [lia|]. reflexivity.
  - intros W HW Hl. exists (candidates p). split; [left; auto|].
    replace (k + (num_cand p - k)) with (num_cand p) in Hl by lia.
    destruct HW as [|W c HW Hb]; [reflexivity|]. exfalso.
    destruct (removal_run_props f p W HW) as [Ha Hr].
    rewrite without_length in Hl; auto using ascending_NoDup; [|apply Hb].
    destruct (run_longer f p W HW) as [Hle _].
    assert (0 < length W) by (destruct W; [destruct (proj1 Hb)|simpl; lia]). lia.
  - lia.
  - exists comms. split; auto. rewrite Forall_forall in B.
    assert (Hasc : Forall ascending (map isort comms)).
    { apply Forall_forall. intros W HW. apply in_map_iff in HW as (x & <- & Hx).
      destruct (B x Hx) as (W & HW & Hl & HP). destruct (removal_run_props f p W HW) as [Ha _].
      rewrite (perm_asc_isort x W); auto. }
    split; [|split; [|split; [|exact Hasc]]].
    + apply Forall_forall. intros x Hx. destruct (B x Hx) as (W & HW & Hl & HP).
      destruct (removal_run_props f p W HW) as [Ha _].
      eapply Permutation_NoDup; [symmetry; exact HP|]. apply ascending_NoDup; auto.
    + intro W. rewrite in_map_iff. split.
      * intros (x & <- & Hx). destruct (B x Hx) as (W & HW & Hl & HP).
        destruct (removal_run_props f p W HW) as [Ha _]. rewrite (perm_asc_isort x W); auto. split; auto.
      * intros [HW Hl]. destruct (C W HW Hl) as (x & Hx & HP). exists x. split; auto.
        apply perm_asc_isort; auto. apply (removal_run_props f p W HW).
    + intro Hcan. apply NoDup_map_inj; auto. intros x y Hx Hy Hxy.
      destruct D as [->|D].
      * destruct Hx as [<-|[]], Hy as [<-|[]]. auto.
      * destruct (D x Hx) as (a & ->), (D y Hy) as (b & ->). apply Hcan.
        rewrite <- (Hord a), <- (Hord b), (isort_perm (ord a)), Hxy. symmetry. apply isort_perm.
Qed.

(** set-level correctness for every iteration order *)
Theorem revseq_irresolute_sound : forall ord f p k maxn,
  (forall l, Permutation (ord l) l) -> wf p -> k <= num_cand p ->
  exists l, revseq_irresolute ord f p k maxn = Ok l /\ in_printed_order l /\
    (forall W, In W l -> revseq_winner f p k W) /\
    (maxn = None -> forall W, revseq_winner f p k W -> In W l).
Proof.
  intros ord f p k maxn Hord Hw Hk.
  destruct (revseq_irr_core ord f p k Hord Hw Hk) as (comms & E & Hn & Hin & _ & Hasc).
  unfold revseq_irresolute. rewrite E. cbn [rbind]. rewrite sorted_committees_ok by auto. cbn [rbind].
  eexists. split; [reflexivity|]. split; [apply cut_printed, sort_printed|]. split.
  - intros W HW. apply cut_In, sort_by_In, Hin in HW. auto.
  - intros -> W HW. simpl. apply sort_by_In, Hin; auto.
Qed.

Theorem revseq_irresolute_correct : forall ord f p k maxn,
  (forall l, Permutation (ord l) l) -> (forall l l', Permutation l l' -> ord l = ord l') ->
  wf p -> k <= num_cand p ->
  answers (revseq_winner f p k) false maxn (revseq_irresolute ord f p k maxn).
Proof.
  intros ord f p k maxn Hord Hcan Hw Hk.
  destruct (revseq_irr_core ord f p k Hord Hw Hk) as (comms & E & Hn & Hin & Hnd & Hasc).
  unfold revseq_irresolute. rewrite E. cbn [rbind]. rewrite sorted_committees_ok by auto. cbn [rbind].
  eapply answers_irresolute_cut; eauto.
Qed.
