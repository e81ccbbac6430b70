(** * The public functions of the sequential rules meet their specifications *)
From Coq Require Import String.
From Coq Require Import List Arith Bool ZArith QArith Lia Lqa Permutation Sorted Setoid.
From Verif Require Import Prelude Misc MiscProofs Preferences Scores Spec ScoresProofs Search Rule RulesThiele
  Common ThieleProofs SpecRules OptProofs Compute SpecCompute ComputeProofs SpecSeq RulesSeq SeqProofs PhragmenProofs
  EnestroemProofs RulesMes PoolProofs MesProofs MesLoop AvPhase MesFinal ComputeSeq.
Import ListNotations.
Local Open Scope string_scope.
Open Scope nat_scope.

(** algorithms that calculate with exact rationals *)
Lemma run_fractions : forall e id r p k alg resolute maxn body, valid_call p k resolute maxn -> exact_arithmetic e alg ->
  lookup_rule e id = Ok r -> algorithms r = FRACTION_ALGORITHMS -> existsb (Bool.eqb resolute) (resolute_values r) = true ->
  run e id p (Z.of_nat k) alg resolute maxn (fun alg k maxn => with_fractions e id alg p k resolute maxn (body k maxn)) =
  body k (limit maxn).
Proof.
  intros e id r p k alg resolute maxn body Hc Ha Hr Hal Hres.
  erewrite run_ok; eauto.
  - destruct Ha as [->|[-> Hg]]; unfold with_fractions; simpl; auto. rewrite Hg. reflexivity.
  - destruct Ha as [->|[-> Hg]]; reflexivity.
  - rewrite Hal. destruct Ha as [->|[-> Hg]]; reflexivity.
Qed.

Lemma heavy_enough : forall p k, wf p -> 1 <= k -> (forall v, In v (voters p) -> (1 <= weight v)%Q) -> enough_support p k /\ unit_support p.
Proof.
  intros p k Hw Hk H.
  assert (Hs : forall c, fans p c <> [] -> (1 <= support p c)%Q).
  { intros c Hc. rewrite support_fans. destruct (fans p c) as [|i l] eqn:E; [congruence|].
    assert (Hin : forall j, In j (i :: l) -> (1 <= w p j)%Q).
    { intros j Hj. rewrite <- E in Hj. apply in_fans in Hj as [Hj _]. apply H. apply the_voter_In. auto. }
    unfold sum. simpl. assert (1 <= w p i)%Q by (apply Hin; left; auto).
    assert (0 <= Qsum (map (w p) l))%Q. { apply sum_nonneg. intros j Hj. specialize (Hin j (or_intror Hj)). lra. }
    lra. }
  split.
  - intros c Hc. destruct (fans p c) as [|i l] eqn:E.
    + left. rewrite support_fans, E. reflexivity.
    + right. assert (1 <= support p c)%Q by (apply Hs; congruence).
      assert (Qnat k < Qnat (k + 1))%Q by (apply -> Qnat_lt; lia). 
      assert (0 <= Qnat (k + 1))%Q by apply Qnat_nonneg. nra.
  - intros c Hc. apply Hs. apply supported_In in Hc. tauto.
Qed.

Theorem compute_seqphragmen_correct : forall e p k alg resolute maxn, exact_arithmetic e alg ->
  valid_call p k resolute maxn -> enough_support p k ->
  answers (phragmen_winner p k) resolute (limit maxn) (compute_seqphragmen e p (Z.of_nat k) alg resolute maxn) /\
  (resolute = true -> exists W, compute_seqphragmen e p (Z.of_nat k) alg true maxn = Ok [W] /\ phragmen_lex_winner p k W).
Proof.
  intros e p k alg resolute maxn Ha Hc Hs.
  assert (E : forall r, resolute = r -> compute_seqphragmen e p (Z.of_nat k) alg r maxn = seqphragmen p k r (limit maxn)).
  { intros r <-. unfold compute_seqphragmen.
    erewrite (run_fractions e "seqphragmen" _ p k alg resolute maxn (fun k maxn => seqphragmen p k resolute maxn)); eauto; try reflexivity.
    destruct resolute; reflexivity. }
  pose proof (valid_limit _ _ _ _ Hc) as Hm. destruct Hc as (Hw & _ & Hk & _).
  destruct (seqphragmen_correct p k resolute (limit maxn) Hw Hk Hs Hm) as [A B].
  rewrite (E resolute eq_refl). split; auto. intros Hr. rewrite (E true Hr). auto.
Qed.

Theorem compute_enestroem_correct : forall e p k alg resolute maxn, exact_arithmetic e alg ->
  valid_call p k resolute maxn ->
  answers (enestroem_winner p k) resolute (limit maxn) (compute_phragmen_enestroem e p (Z.of_nat k) alg resolute maxn) /\
  (resolute = true -> exists W, compute_phragmen_enestroem e p (Z.of_nat k) alg true maxn = Ok [W] /\ enestroem_lex_winner p k W).
Proof.
  intros e p k alg resolute maxn Ha Hc.
  assert (E : forall r, resolute = r -> compute_phragmen_enestroem e p (Z.of_nat k) alg r maxn = phragmen_enestroem p k r (limit maxn)).
  { intros r <-. unfold compute_phragmen_enestroem.
    erewrite (run_fractions e "phragmen-enestroem" _ p k alg resolute maxn (fun k maxn => phragmen_enestroem p k resolute maxn)); eauto; try reflexivity.
    destruct resolute; reflexivity. }
  pose proof (valid_limit _ _ _ _ Hc) as Hm. destruct Hc as (Hw & _ & Hk & _).
  destruct (enestroem_correct p k Hw Hk resolute (limit maxn) Hm) as [A B].
  rewrite (E resolute eq_refl). split; auto. intros Hr. rewrite (E true Hr). auto.
Qed.

Theorem compute_consensus_correct : forall e p k alg resolute maxn, exact_arithmetic e alg ->
  valid_call p k resolute maxn ->
  answers (consensus_winner p k) resolute (limit maxn) (compute_consensus_rule e p (Z.of_nat k) alg resolute maxn) /\
  (resolute = true -> exists W, compute_consensus_rule e p (Z.of_nat k) alg true maxn = Ok [W] /\ consensus_lex_winner p k W).
Proof.
  intros e p k alg resolute maxn Ha Hc.
  assert (E : forall r, resolute = r -> compute_consensus_rule e p (Z.of_nat k) alg r maxn = consensus_rule p k r (limit maxn)).
  { intros r <-. unfold compute_consensus_rule.
    erewrite (run_fractions e "consensus-rule" _ p k alg resolute maxn (fun k maxn => consensus_rule p k resolute maxn)); eauto; try reflexivity.
    destruct resolute; reflexivity. }
  pose proof (valid_limit _ _ _ _ Hc) as Hm. destruct Hc as (Hw & _ & Hk & _).
  destruct (consensus_correct p k Hk resolute (limit maxn) Hm) as [A B].
  rewrite (E resolute eq_refl). split; auto. intros Hr. rewrite (E true Hr). auto.
Qed.

(** ** Equal Shares *)
Lemma compute_equal_shares_exact : forall e p k alg resolute maxn s c, exact_arithmetic e alg ->
  valid_call p k resolute maxn -> (exists id, completion_rule s = Ok (id, c)) -> (c = IncrementCompletion -> resolute = true) ->
  compute_equal_shares e p (Z.of_nat k) alg resolute maxn s = equal_shares_rule p k resolute (limit maxn) c.
Proof.
  intros e p k alg resolute maxn s c Ha Hc (id & Hs) Hr. unfold compute_equal_shares. rewrite Hs. cbn [rbind fst snd].
  assert (Hid : exists r, lookup_rule e id = Ok r /\ algorithms r = FRACTION_ALGORITHMS /\
     existsb (Bool.eqb resolute) (resolute_values r) = true).
  { unfold completion_rule in Hs.
    destruct s as [s|]; [|inversion Hs; subst; eexists; split; [reflexivity|]; split; [reflexivity|destruct resolute; reflexivity]].
    destruct (s =? "")%string; [inversion Hs; subst; eexists; split; [reflexivity|]; split; [reflexivity|destruct resolute; reflexivity]|].
    destruct (s =? "seqphragmen")%string; [inversion Hs; subst; eexists; split; [reflexivity|]; split; [reflexivity|destruct resolute; reflexivity]|].
    destruct (s =? "av")%string; [inversion Hs; subst; eexists; split; [reflexivity|]; split; [reflexivity|destruct resolute; reflexivity]|].
    destruct (s =? "increment")%string; [|discriminate].
    inversion Hs; subst; eexists; split; [reflexivity|]; split; [reflexivity|]. rewrite Hr by reflexivity. reflexivity. }
  destruct Hid as (r & A & B & C).
  apply (run_fractions e id r p k alg resolute maxn (fun k maxn => equal_shares_rule p k resolute maxn c)); auto.
Qed.

Theorem compute_mes_correct : forall e p k alg resolute maxn s c, exact_arithmetic e alg ->
  valid_call p k resolute maxn -> (exists id, completion_rule s = Ok (id, c)) ->
  c <> IncrementCompletion -> completion_needs p k c ->
  answers (mes_winner p k (equal_share p k) (the_completion p k false c)) resolute (limit maxn)
          (compute_equal_shares e p (Z.of_nat k) alg resolute maxn s) /\
  (resolute = true -> exists W, compute_equal_shares e p (Z.of_nat k) alg true maxn s = Ok [W] /\
     mes_lex_winner p k (equal_share p k) (the_completion p k true c) W).
Proof.
  intros e p k alg resolute maxn s c Ha Hc Hs Hi Hn.
  assert (E : forall r, resolute = r -> compute_equal_shares e p (Z.of_nat k) alg r maxn s = equal_shares_rule p k r (limit maxn) c).
  { intros r <-. apply compute_equal_shares_exact; auto; congruence. }
  pose proof (valid_limit _ _ _ _ Hc) as Hm. destruct Hc as (Hw & _ & Hk & _).
  pose proof (equal_shares_rule_correct p k resolute (limit maxn) c Hw Hk Hm Hi Hn) as H.
  rewrite (E resolute eq_refl). destruct resolute.
  - destruct H as (W & EW & HW). rewrite (E true eq_refl), EW. split; [|intros _; eauto].
    apply answers_resolute_one. destruct HW as (L & b & (Hrun & He) & H1 & H2). exists L, b.
    split; [split; auto; apply lex_runs_runs; auto|]. split; auto. intros Hl. specialize (H2 Hl).
    destruct c; simpl in *; auto. destruct H2 as (L' & x & Hr' & Hl'). exists L', x. split; auto. apply lex_runs_runs; auto.
  - split; auto. discriminate.
Qed.

Theorem compute_mes_increment_correct : forall e p k alg, exact_arithmetic e alg ->
  valid_call p k true None -> unit_support p ->
  exists W, compute_equal_shares e p (Z.of_nat k) alg true None (Some "increment") = Ok [W] /\ mes_increment_winner p k W.
Proof.
  intros e p k alg Ha Hc Hu.
  rewrite (compute_equal_shares_exact e p k alg true None (Some "increment") IncrementCompletion); auto.
  - destruct Hc as (Hw & Hv & Hk & _). apply equal_shares_increment_correct; auto.
  - eexists. reflexivity.
Qed.

(** ** Facts about the outcomes *)
Lemma run_step_facts : forall p (ch : list nat -> (nat -> Q) -> nat -> Prop) up, (forall W x c, ch W x c -> fresh p W c) -> forall k W x0,
  run_winner p ch up [] x0 k W -> is_committee p k W.
Proof.
  intros p ch up Hf k W x0 (L & x & Hr & Hl & ->).
  destruct (runs_props p ch up Hf _ _ _ _ Hr ltac:(constructor) ltac:(constructor)) as [HN HF].
  split; [apply isort_ascending; auto|]. split; [rewrite isort_length; auto|].
  apply Forall_forall. intros c Hc. rewrite isort_In in Hc. rewrite Forall_forall in HF. exact (HF c Hc).
Qed.

(** what every voter pays for every bought candidate *)
Lemma mes_payments : forall p start L b, wf p -> runs_from p (mes_choice p) (mes_update p) [] start L b ->
  (forall i, i < length (voters p) -> (0 <= start i)%Q) ->
  exists pay : nat -> nat -> Q,
    (forall i c, i < length (voters p) -> (0 <= pay i c)%Q) /\
    (forall i c, likes p i c = false -> (pay i c == 0)%Q) /\
    (forall c, In c L -> (sum (voter_ids p) (fun i => pay i c) == 1)%Q) /\
    (forall i, i < length (voters p) -> (b i == start i - sum L (pay i))%Q).
Proof.
  intros p start L b Hw Hr H0. induction Hr as [x Hx|W x c x' Hr IH Hc Hu].
  - exists (fun _ _ => 0%Q). split; [intros; lra|]. split; [intros; reflexivity|]. split; [intros c []|].
    intros i Hi. rewrite (Hx i Hi). unfold sum. simpl. ring.
  - destruct IH as (pay & P1 & P2 & P3 & P4).
    assert (Hnn := run_nonneg p _ _ _ Hr H0).
    destruct (mes_run_NoDup _ _ _ _ Hr) as [HN _].
    destruct Hc as ([Hcm Hcn] & _). destruct Hu as (rho & Hp & Ha). pose proof (price_pos p Hw _ _ _ Hp) as Hpos.
    exists (fun i d => if d =? c then (if likes p i c then Qmin (x i) (rho * w p i) else 0%Q) else pay i d).
    split; [|split; [|split]].
    + intros i d Hi. destruct (d =? c); auto. destruct (likes p i c); [|lra]. pose proof (w_pos p i Hw Hi).
      apply Qmin_glb; auto. apply Qmult_le_0_compat; lra.
    + intros i d Hd. destruct (Nat.eqb_spec d c); auto. subst. rewrite Hd. reflexivity.
    + intros d [<-|Hd].
      * rewrite Nat.eqb_refl. destruct Hp as [Hp _]. unfold collected in Hp. rewrite <- Hp.
        rewrite (sum_split (fun i => likes p i c) (voter_ids p)).
        assert (Z : (sum (filter (fun i => negb (likes p i c)) (voter_ids p))
                   (fun i => if likes p i c then Qmin (x i) (rho * w p i) else 0) == 0)%Q).
        { rewrite (sum_ext _ _ (fun _ => 0 * 0)%Q).
          - rewrite (sum_scal _ (fun _ => 0%Q)). ring.
          - intros i Hi. apply filter_In in Hi as [_ Hi]. apply negb_true_iff in Hi. rewrite Hi. reflexivity. }
        rewrite Z, Qplus_0_r. apply sum_ext. intros i Hi. apply in_fans in Hi as [_ ->]. reflexivity.
      * destruct (Nat.eqb_spec d c); [subst; contradiction|]. auto.
    + intros i Hi. rewrite (Ha i Hi).
      set (pay' := fun d => if d =? c then (if likes p i c then Qmin (x i) (rho * w p i) else 0%Q) else pay i d).
      change (sum (c :: W) pay') with (pay' c + sum W pay')%Q.
      assert (E : (sum W pay' == sum W (pay i))%Q).
      { apply sum_ext. intros d Hd. unfold pay'. destruct (Nat.eqb_spec d c); [subst; contradiction|reflexivity]. }
      rewrite E. specialize (P4 i Hi). unfold pay'. rewrite Nat.eqb_refl. cbv beta. destruct (likes p i c); lra.
Qed.

Lemma mes_winner_full : forall p k start c W, c = PhragmenCompletion \/ c = AvCompletion ->
  mes_winner p k start (the_completion p k false c) W ->
  is_committee p k W /\ exists L b, runs_from p (mes_choice p) (mes_update p) [] start L b /\ incl L W.
Proof.
  intros p k start c W Hc (L & b & [Hr He] & H1 & H2). destruct (mes_run_NoDup _ _ _ _ Hr) as [HN HF].
  destruct He as [Hl|[Hl _]].
  - rewrite (H1 Hl). split.
    + split; [apply isort_ascending; auto|]. split; [rewrite isort_length; auto|].
      rewrite Forall_forall in *. intros x Hx. rewrite isort_In in Hx. auto.
    + exists L, b. split; auto. intros x Hx. rewrite isort_In. auto.
  - specialize (H2 Hl). destruct Hc; subst c; simpl in H2.
    + destruct H2 as (L' & x & Hr' & Hl' & ->).
      destruct (runs_props p (phragmen_choice p) (phragmen_update p) (phragmen_choice_fresh p) _ _ _ _ Hr' HN HF) as [HN' HF'].
      destruct (runs_extend p (phragmen_choice p) (phragmen_update p) _ _ _ _ Hr') as (M & ->).
      split.
      * split; [apply isort_ascending; auto|]. split; [rewrite isort_length; auto|].
        rewrite Forall_forall in *. intros y Hy. rewrite isort_In in Hy. auto.
      * exists L, b. split; auto. intros y Hy. rewrite isort_In. apply in_or_app. auto.
    + destruct H2 as (A & B & _). split; auto. exists L, b. auto.
Qed.

(** every committee bought without completion comes with a price system *)
Definition priced (p : profile) (W : list nat) (start : nat -> Q) (pay : nat -> nat -> Q) : Prop :=
  (forall i c, i < length (voters p) -> (0 <= pay i c)%Q) /\
  (forall i c, likes p i c = false -> (pay i c == 0)%Q) /\
  (forall c, In c W -> (sum (voter_ids p) (fun i => pay i c) == 1)%Q) /\
  (forall i, i < length (voters p) -> (sum W (pay i) <= start i)%Q).

Lemma mes_winner_priced : forall p k start W, wf p -> (forall i, i < length (voters p) -> (0 <= start i)%Q) ->
  mes_winner p k start no_completion W ->
  exists pay, priced p W start pay /\
    (length W = k \/ length W < k /\
     forall c, fresh p W c -> (sum (fans p c) (fun i => start i - sum W (pay i)) < 1)%Q).
Proof.
  intros p k start W Hw H0 (L & b & [Hr He] & H1 & H2).
  assert (EW : W = isort L) by (destruct He as [Hl|[Hl _]]; [apply H1|apply H2]; auto).
  destruct (mes_payments p start L b Hw Hr H0) as (pay & P1 & P2 & P3 & P4).
  assert (Es : forall f, (sum W f == sum L f)%Q).
  { intros f. subst W. apply sum_perm. apply Permutation_sym, isort_perm. }
  pose proof (run_nonneg p start L b Hr H0) as Hb.
  exists pay. split.
  - split; auto. split; auto. split.
    + intros c Hc. apply P3. subst W. rewrite isort_In in Hc. auto.
    + intros i Hi. rewrite Es. specialize (P4 i Hi). specialize (Hb i Hi). lra.
  - subst W. rewrite isort_length. destruct He as [He|[He Hs]]; auto. right. split; auto. intros c [Hc Hn].
    rewrite isort_In in Hn. specialize (Hs c (conj Hc Hn)). unfold purse in Hs.
    eapply Qle_lt_trans; [|exact Hs]. apply sum_le. intros i Hi. apply in_fans in Hi as [Hi _].
    rewrite (P4 i Hi), Es. lra.
Qed.

Lemma consensus_conserves : forall p W b c b', wf p -> consensus_update p W b c b' -> backers p b c <> [] ->
  (sum (voter_ids p) b' == sum (voter_ids p) b)%Q.
Proof.
  intros p W b c b' Hw Hu Hne.
  assert (Hb : forall i, In i (backers p b c) -> i < length (voters p)).
  { intros i Hi. apply filter_In in Hi as [Hi _]. apply in_fans in Hi. tauto. }
  pose proof (weights_pos p Hw (backers p b c) Hb Hne) as Hpos.
  set (r := (wsum (voters p) / sum (backers p b c) (w p))%Q).
  assert (E1 : (sum (voter_ids p) b' == sum (voter_ids p) (fun i => earned p b i + (-1) * (if mem i (backers p b c) then w p i * r else 0)))%Q).
  { apply sum_ext. intros i Hi. apply in_voter_ids in Hi. rewrite (Hu i Hi). cbv beta. destruct (mem i (backers p b c)).
    - unfold r. ring.
    - ring. }
  rewrite E1, sum_plus, sum_scal.
  assert (E2 : (sum (voter_ids p) (earned p b) == sum (voter_ids p) b + wsum (voters p))%Q).
  { unfold earned. rewrite (sum_plus (voter_ids p) b (w p)), <- wsum_voter_ids. reflexivity. }
  assert (E3 : (sum (voter_ids p) (fun i => if mem i (backers p b c) then w p i * r else 0) == sum (backers p b c) (w p) * r)%Q).
  { rewrite (sum_split (fun i => mem i (backers p b c)) (voter_ids p)).
    assert (Z : (sum (filter (fun i => negb (mem i (backers p b c))) (voter_ids p))
                  (fun i => if mem i (backers p b c) then w p i * r else 0) == 0)%Q).
    { rewrite (sum_ext _ _ (fun _ => 0 * 0)%Q).
      - rewrite (sum_scal _ (fun _ => 0%Q)). ring.
      - intros i Hi. apply filter_In in Hi as [_ Hi]. apply negb_true_iff in Hi. rewrite Hi. ring. }
    rewrite Z, Qplus_0_r.
    assert (P : Permutation (filter (fun i => mem i (backers p b c)) (voter_ids p)) (backers p b c)).
    { apply NoDup_Permutation.
      - apply NoDup_filter, voter_ids_NoDup.
      - apply NoDup_filter, fans_NoDup.
      - intro i. rewrite filter_In, mem_In, in_voter_ids. split; [tauto|]. intro Hi. auto. }
    rewrite (sum_perm _ _ _ P), Qmult_comm, <- sum_scal. apply sum_ext. intros i Hi. apply mem_In in Hi. rewrite Hi. ring. }
  rewrite E2, E3. unfold r. field. lra.
Qed.
