(** * From the algorithms to the public [compute_*] functions *)
From Coq Require Import String.
From Coq Require Import List Arith Bool ZArith QArith Lia Lqa Permutation Sorted.
From Verif Require Import Prelude Misc MiscProofs Preferences Scores ScoresProofs Search Rule RulesThiele
  Common Spec SpecRules ThieleProofs BBProofs RevseqProofs OptProofs Compute SpecCompute.
Import ListNotations.
Open Scope nat_scope.
Local Open Scope string_scope.

Lemma limit_maxn : forall maxn, maxn_nat maxn = limit maxn.
Proof. intros [[]|]; auto. Qed.

Lemma valid_limit : forall p k resolute maxn, valid_call p k resolute maxn -> valid_max (limit maxn).
Proof.
  intros p k resolute maxn (_ & _ & _ & H). destruct maxn as [[z|]|]; simpl in *; auto. lia.
Qed.

Lemma verify_ok : forall r p k alg resolute maxn, valid_call p k resolute maxn ->
  str_in alg (algorithms r) = true -> existsb (Bool.eqb resolute) (resolute_values r) = true ->
  verify_compute_parameters r p (Z.of_nat k) alg resolute maxn = Ok tt.
Proof.
  intros r p k alg resolute maxn (Hw & Hv & Hk & Hm) Ha Hr. unfold verify_compute_parameters.
  destruct (Z.ltb_spec (Z.of_nat k) 1); [lia|].
  destruct (Z.ltb_spec (Z.of_nat (num_cand p)) (Z.of_nat k)); [lia|].
  destruct (Nat.eqb_spec (length (voters p)) 0) as [E|E].
  { apply length_zero_iff_nil in E. congruence. }
  rewrite Ha, Hr. cbn [negb].
  destruct maxn as [[z|]|]; auto; [|tauto].
  destruct Hm as [Hz ->]. destruct (Z.ltb_spec z 1); [lia|auto].
Qed.

Lemma run_ok : forall e id r p k alg resolute maxn body, valid_call p k resolute maxn ->
  lookup_rule e id = Ok r -> String.eqb alg "fastest" = false ->
  str_in alg (algorithms r) = true -> existsb (Bool.eqb resolute) (resolute_values r) = true ->
  run e id p (Z.of_nat k) alg resolute maxn body = body alg k (limit maxn).
Proof.
  intros e id r p k alg resolute maxn body Hc Hr Hf Ha Hres. unfold run. rewrite Hr. cbn [rbind].
  unfold prologue. rewrite Hf. cbn [rbind]. rewrite verify_ok by auto. cbn [rbind].
  rewrite Nat2Z.id, limit_maxn. auto.
Qed.

(** "fastest" is the first algorithm of the rule that is installed *)
Lemma run_fastest : forall e id r p k alg resolute maxn body, valid_call p k resolute maxn ->
  lookup_rule e id = Ok r -> fastest_available_algorithm (inst e) r = Ok alg ->
  str_in alg (algorithms r) = true -> existsb (Bool.eqb resolute) (resolute_values r) = true ->
  run e id p (Z.of_nat k) "fastest" resolute maxn body = body alg k (limit maxn).
Proof.
  intros e id r p k alg resolute maxn body Hc Hr Hf Ha Hres. unfold run. rewrite Hr. cbn [rbind].
  unfold prologue. replace (String.eqb "fastest" "fastest") with true by reflexivity. rewrite Hf. cbn [rbind].
  rewrite verify_ok by auto. cbn [rbind]. rewrite Nat2Z.id, limit_maxn. auto.
Qed.

Lemma answers_nonempty_ok : forall P resolute maxn r, answers P resolute maxn r ->
  valid_max maxn -> (exists W, P W) -> needs_nonempty r = r.
Proof.
  intros P resolute maxn r (l & -> & _ & _ & _ & H) Hm (W & HW). simpl.
  destruct l as [|x l]; auto. exfalso. destruct resolute; [discriminate|].
  destruct maxn as [n|]; [|apply (H W HW)]. simpl in Hm. destruct H as [_ H]. apply (H ltac:(simpl; lia) W HW).
Qed.

Lemma prefix_empty : forall s, String.prefix "" s = true.
Proof. destruct s; auto. Qed.

Lemma Qpow_power : forall b n, (Qpow b n == Qpower b (Z.of_nat n))%Q.
Proof.
  intros b n. induction n as [|n IH]; [reflexivity|].
  rewrite Nat2Z.inj_succ, <- Z.add_1_r. cbn [Qpow]. rewrite IH.
  destruct n as [|n].
  - simpl. ring.
  - rewrite Nat2Z.inj_succ. replace (Z.succ (Z.of_nat n)) with (Z.pos (Pos.of_succ_nat n)) by lia.
    replace (Z.pos (Pos.of_succ_nat n) + 1)%Z with (Z.pos (Pos.succ (Pos.of_succ_nat n))) by lia.
    simpl Qpower. unfold Qpower_positive.
    rewrite <- (pow_pos_succ Q_Setoid Qmult_comp (fun x y z => Qmult_assoc x y z) b (Pos.of_succ_nat n)).
    reflexivity.
Qed.

Lemma Thiele_ext : forall f g p W, (forall i, 1 <= i -> (f i == g i)%Q) -> (Thiele f p W == Thiele g p W)%Q.
Proof.
  intros f g p W H. unfold Thiele. apply Qsum_map_ext. intros v _.
  assert (E : (Qsum (map f (seq 1 (util v W))) == Qsum (map g (seq 1 (util v W))))%Q).
  { apply Qsum_map_ext. intros i Hi. apply in_seq in Hi. apply H. lia. }
  rewrite E. reflexivity.
Qed.

Definition same_fct (f g : nat -> Q) : Prop := forall i, 1 <= i -> (f i == g i)%Q.

Lemma denotes_ok : forall e id f, denotes e id f -> exists sf,
  lookup_scorefct e id = Ok sf /\ good_fct sf /\ same_fct (marginal sf) f /\
  (concave_fct sf \/ exists b, f = geom_w b /\ sf = Geom b).
Proof.
  intros e id f H. destruct H.
  - exists Pav. repeat split; simpl; auto. intros i Hi. unfold marginal. destruct i; [lia|]. reflexivity.
  - exists Slav. repeat split; simpl; auto. intros i Hi. unfold marginal. destruct i; [lia|]. reflexivity.
  - exists Cc. repeat split; simpl; auto.
  - exists (Geom b). repeat split; simpl; auto.
    + unfold lookup_scorefct, get_marginal_scorefct. simpl. rewrite ?prefix_empty. rewrite H. auto.
    + intros i Hi. unfold marginal, geom_w. destruct i as [|i]; [lia|]. cbn [Nat.eqb].
      replace (S i - 1) with i by lia. replace (Z.of_nat (S i) - 1)%Z with (Z.of_nat i) by lia.
      rewrite Qpow_power. reflexivity.
    + right. exists b. auto.
Qed.

Lemma denotes_rule : forall e id f, denotes e id f -> exists r,
  lookup_rule e id = Ok r /\ str_in "brute-force" (algorithms r) = true /\
  str_in "branch-and-bound" (algorithms r) = true /\
  (forall b, existsb (Bool.eqb b) (resolute_values r) = true).
Proof.
  intros e id f H. destruct H.
  1,2,3: eexists; split; [reflexivity|]; repeat split; auto; intros []; auto.
  exists (mkRule ("geom" ++ s) THIELE_ALGORITHMS OPT_RESOLUTE). split.
  - unfold lookup_rule, rule_of_id, listed_rule. simpl. rewrite prefix_empty. auto.
  - repeat split; auto. intros []; auto.
Qed.

Lemma denotes_seqrule : forall e id f, denotes e id f -> exists r,
  lookup_rule e ("seq" ++ id) = Ok r /\ algorithms r = ["standard"] /\
  (forall b, existsb (Bool.eqb b) (resolute_values r) = true).
Proof.
  intros e id f H. destruct H.
  1,2,3: eexists; split; [reflexivity|]; split; auto; intros []; auto.
  exists (mkRule ("seq" ++ ("geom" ++ s)) ["standard"] SEQ_RESOLUTE). split.
  - unfold lookup_rule, rule_of_id, listed_rule, get_marginal_scorefct. simpl. rewrite ?prefix_empty.
    rewrite H. auto.
  - split; auto. intros []; auto.
Qed.

Lemma denotes_revseqrule : forall e id f, denotes e id f -> exists r,
  lookup_rule e ("revseq" ++ id) = Ok r /\ algorithms r = ["standard"] /\
  (forall b, existsb (Bool.eqb b) (resolute_values r) = true).
Proof.
  intros e id f H. destruct H.
  1,2,3: eexists; split; [reflexivity|]; split; auto; intros []; auto.
  exists (mkRule ("revseq" ++ ("geom" ++ s)) ["standard"] SEQ_RESOLUTE). split.
  - unfold lookup_rule, rule_of_id, listed_rule, get_marginal_scorefct. simpl. rewrite ?prefix_empty.
    rewrite H. auto.
  - split; auto. intros []; auto.
Qed.

Lemma maximises_ext : forall s s' p k, (forall W, is_committee p k W -> (s W == s' W)%Q) ->
  forall W, maximises s p k W <-> maximises s' p k W.
Proof.
  intros s s' p k H W. unfold maximises.
  split; intros [Hc Hm]; split; auto; intros W' HW'; specialize (Hm W' HW').
  - rewrite <- !H by auto. auto.
  - rewrite !H by auto. auto.
Qed.

Lemma thiele_same_maximises : forall f g p k, same_fct f g ->
  forall W, maximises (Thiele f p) p k W <-> maximises (Thiele g p) p k W.
Proof. intros. apply maximises_ext. intros. apply Thiele_ext; auto. Qed.

Theorem compute_thiele_bruteforce_correct : forall e id f p k resolute maxn,
  denotes e id f -> valid_call p k resolute maxn ->
  answers (maximises (Thiele f p) p k) resolute (limit maxn)
          (compute_thiele_method e id p (Z.of_nat k) "brute-force" resolute maxn).
Proof.
  intros e id f p k resolute maxn Hd Hc.
  destruct (denotes_ok e id f Hd) as (sf & El & Hg & Hs & _).
  destruct (denotes_rule e id f Hd) as (r & Er & Ha & _ & Hres).
  unfold compute_thiele_method. erewrite run_ok by eauto. cbv beta. simpl String.eqb. cbv iota.
  rewrite El. cbn [rbind].
  pose proof (valid_limit _ _ _ _ Hc) as Hm. destruct Hc as (Hw & _ & Hk & _).
  assert (HA : answers (maximises (Thiele f p) p k) resolute (limit maxn)
                 (thiele_bruteforce (marginal sf) p k resolute (limit maxn))).
  { eapply answers_ext; [apply thiele_same_maximises; exact Hs|].
    apply thiele_bruteforce_correct; auto; [intro; apply marginal_nonneg; auto|lia]. }
  erewrite answers_nonempty_ok; eauto. apply max_exists. lia.
Qed.

Theorem compute_thiele_branchandbound_correct : forall e id f p k resolute maxn,
  denotes e id f -> (forall i j, 1 <= i -> i <= j -> (f j <= f i)%Q) -> valid_call p k resolute maxn ->
  answers (maximises (Thiele f p) p k) resolute (limit maxn)
          (compute_thiele_method e id p (Z.of_nat k) "branch-and-bound" resolute maxn).
Proof.
  intros e id f p k resolute maxn Hd Hanti Hc.
  destruct (denotes_ok e id f Hd) as (sf & El & Hg & Hs & _).
  destruct (denotes_rule e id f Hd) as (r & Er & _ & Ha & Hres).
  unfold compute_thiele_method. erewrite run_ok by eauto. cbv beta. simpl String.eqb. cbv iota.
  rewrite El. cbn [rbind].
  pose proof (valid_limit _ _ _ _ Hc) as Hm. destruct Hc as (Hw & _ & Hk & _).
  assert (HA : answers (maximises (Thiele f p) p k) resolute (limit maxn)
                 (thiele_branchandbound (marginal sf) p k resolute (limit maxn))).
  { eapply answers_ext; [apply thiele_same_maximises; exact Hs|].
    apply thiele_branchandbound_correct; auto; [intro; apply marginal_nonneg; auto| |lia].
    intros i j Hi Hj. rewrite (Hs i), (Hs j) by lia. auto. }
  erewrite answers_nonempty_ok; eauto. apply max_exists. lia.
Qed.

Lemma same_best_addition : forall f g p W c, same_fct f g -> best_addition f p W c -> best_addition g p W c.
Proof.
  intros f g p W c H (A & B & C). repeat split; auto. intros d Hd Hn.
  rewrite <- !(Thiele_ext f g) by auto. auto.
Qed.
Lemma same_fct_sym : forall f g, same_fct f g -> same_fct g f.
Proof. intros f g H i Hi. symmetry. auto. Qed.
Lemma same_greedy_run : forall f g p L, same_fct f g -> greedy_run f p L -> greedy_run g p L.
Proof. intros f g p L H. induction 1; constructor; auto. eapply same_best_addition; eauto. Qed.
Lemma same_greedy_run_lex : forall f g p L, same_fct f g -> greedy_run_lex f p L -> greedy_run_lex g p L.
Proof.
  intros f g p L H. induction 1; constructor; auto.
  - eapply same_best_addition; eauto.
  - intros d Hd. apply H2. eapply same_best_addition; [apply same_fct_sym|]; eauto.
Qed.
Lemma same_seq_winner : forall f g p k W, same_fct f g -> seq_thiele_winner f p k W <-> seq_thiele_winner g p k W.
Proof.
  intros f g p k W H. split; intros (L & A & B & C); exists L; repeat split; auto.
  - eapply same_greedy_run; eauto.
  - eapply same_greedy_run; [apply same_fct_sym|]; eauto.
Qed.
Lemma same_best_removal : forall f g p W c, same_fct f g -> best_removal f p W c -> best_removal g p W c.
Proof.
  intros f g p W c H (A & C). split; auto. intros d Hd. rewrite <- !(Thiele_ext f g) by auto. auto.
Qed.
Lemma same_removal_run : forall f g p L, same_fct f g -> removal_run f p L -> removal_run g p L.
Proof. intros f g p L H. induction 1; constructor; auto. eapply same_best_removal; eauto. Qed.
Lemma same_removal_run_last : forall f g p L, same_fct f g -> removal_run_last f p L -> removal_run_last g p L.
Proof.
  intros f g p L H. induction 1; constructor; auto.
  - eapply same_best_removal; eauto.
  - intros d Hd. apply H2. eapply same_best_removal; [apply same_fct_sym|]; eauto.
Qed.
Lemma same_revseq_winner : forall f g p k W, same_fct f g -> revseq_winner f p k W <-> revseq_winner g p k W.
Proof.
  intros f g p k W H. split; intros (A & B); split; auto.
  - eapply same_removal_run; eauto.
  - eapply same_removal_run; [apply same_fct_sym|]; eauto.
Qed.

Lemma sort_sorted_id : forall (l : list (list nat)), in_printed_order l -> sort_by committee_leb l = l.
Proof.
  intros l H. apply sort_by_id. exact H.
Qed.

Lemma sorted_again : forall P resolute maxn r, answers P resolute maxn r ->
  (forall W, P W -> ascending W) -> (do cs <- r; sorted_committees cs) = r.
Proof.
  intros P resolute maxn r (l & -> & _ & Hp & HP & _) Ha. simpl. rewrite sorted_committees_asc.
  - rewrite sort_sorted_id; auto.
  - apply Forall_forall. auto.
Qed.

Theorem compute_seq_thiele_correct : forall e id f p k resolute maxn,
  denotes e id f -> valid_call p k resolute maxn ->
  answers (seq_thiele_winner f p k) resolute (limit maxn)
          (compute_seq_thiele_method e id p (Z.of_nat k) "standard" resolute maxn).
Proof.
  intros e id f p k resolute maxn Hd Hc.
  destruct (denotes_ok e id f Hd) as (sf & El & Hg & Hs & _).
  destruct (denotes_seqrule e id f Hd) as (r & Er & Ha & Hres).
  unfold compute_seq_thiele_method. rewrite El. cbn [rbind].
  erewrite run_ok; eauto; [|rewrite Ha; reflexivity]. cbv beta. simpl String.eqb. cbv iota.
  pose proof (valid_limit _ _ _ _ Hc) as Hm. destruct Hc as (Hw & _ & Hk & _).
  assert (HA : answers (seq_thiele_winner f p k) resolute (limit maxn)
                 (seq_thiele (marginal sf) p k resolute (limit maxn))).
  { eapply answers_ext; [intro W; apply same_seq_winner; exact Hs|].
    apply seq_thiele_correct; auto. intro; apply marginal_nonneg; auto. }
  erewrite sorted_again; eauto. intros W (L & HL & _ & ->). apply isort_ascending.
  eapply greedy_run_props; eauto.
Qed.

Theorem compute_seq_thiele_resolute_lex : forall e id f p k,
  denotes e id f -> valid_call p k true None ->
  exists L, greedy_run_lex f p L /\ length L = k /\
    compute_seq_thiele_method e id p (Z.of_nat k) "standard" true None = Ok [isort L].
Proof.
  intros e id f p k Hd Hc.
  destruct (denotes_ok e id f Hd) as (sf & El & Hg & Hs & _).
  destruct (denotes_seqrule e id f Hd) as (r & Er & Ha & Hres).
  unfold compute_seq_thiele_method. rewrite El. cbn [rbind].
  erewrite run_ok; eauto; [|rewrite Ha; reflexivity]. cbv beta. simpl String.eqb. cbv iota.
  destruct Hc as (Hw & _ & Hk & _).
  destruct (seq_thiele_resolute_correct (marginal sf) p k) as (L & E & HL & Hlen); auto;
    [intro; apply marginal_nonneg; auto|lia|].
  exists L. split; [eapply same_greedy_run_lex; eauto|]. split; auto.
  unfold seq_thiele. rewrite E. simpl rbind.
  destruct (greedy_run_props _ _ _ (greedy_lex_greedy _ _ _ HL)) as [Hnd _].
  rewrite sorted_committees_asc; auto. constructor; auto. apply isort_ascending; auto.
Qed.

Theorem compute_revseq_thiele_correct : forall e id f p k resolute maxn,
  (forall l, Permutation (set_order e l) l) ->
  (forall l l', Permutation l l' -> set_order e l = set_order e l') ->
  denotes e id f -> valid_call p k resolute maxn ->
  answers (revseq_winner f p k) resolute (limit maxn)
          (compute_revseq_thiele_method e id p (Z.of_nat k) "standard" resolute maxn).
Proof.
  intros e id f p k resolute maxn Ho Ho' Hd Hc.
  destruct (denotes_ok e id f Hd) as (sf & El & Hg & Hs & _).
  destruct (denotes_revseqrule e id f Hd) as (r & Er & Ha & Hres).
  unfold compute_revseq_thiele_method. rewrite El. cbn [rbind].
  erewrite run_ok; eauto; [|rewrite Ha; reflexivity]. cbv beta. simpl String.eqb. cbv iota.
  pose proof (valid_limit _ _ _ _ Hc) as Hm. destruct Hc as (Hw & _ & Hk & _).
  eapply answers_ext; [intro W; apply same_revseq_winner; exact Hs|]. destruct resolute.
  - destruct (revseq_resolute_correct (marginal sf) p k Hw ltac:(lia)) as (W & E & HW & Hl).
    rewrite E. apply answers_resolute_one. split; auto. apply removal_last_run; auto.
  - apply revseq_irresolute_correct; auto. lia.
Qed.

Theorem compute_revseq_any_order : forall e id f p k maxn,
  (forall l, Permutation (set_order e l) l) ->
  denotes e id f -> valid_call p k false maxn ->
  exists l, compute_revseq_thiele_method e id p (Z.of_nat k) "standard" false maxn = Ok l /\
    in_printed_order l /\ (forall W, In W l -> revseq_winner f p k W) /\
    (maxn = None -> forall W, revseq_winner f p k W -> In W l).
Proof.
  intros e id f p k maxn Ho Hd Hc.
  destruct (denotes_ok e id f Hd) as (sf & El & Hg & Hs & _).
  destruct (denotes_revseqrule e id f Hd) as (r & Er & Ha & Hres).
  unfold compute_revseq_thiele_method. rewrite El. cbn [rbind].
  erewrite run_ok; eauto; [|rewrite Ha; reflexivity]. cbv beta. simpl String.eqb. cbv iota.
  destruct Hc as (Hw & _ & Hk & _).
  destruct (revseq_irresolute_sound (set_order e) (marginal sf) p k (limit maxn) Ho Hw ltac:(lia))
    as (l & E & A & B & C).
  exists l. split; auto. split; auto. split.
  - intros W HW. eapply same_revseq_winner; [apply same_fct_sym; exact Hs|]; auto.
  - intros -> W HW. apply C; auto. eapply same_revseq_winner; eauto.
Qed.

Theorem compute_revseq_resolute_last : forall e id f p k,
  denotes e id f -> valid_call p k true None ->
  exists W, compute_revseq_thiele_method e id p (Z.of_nat k) "standard" true None = Ok [W] /\
    removal_run_last f p W /\ length W = k.
Proof.
  intros e id f p k Hd Hc.
  destruct (denotes_ok e id f Hd) as (sf & El & Hg & Hs & _).
  destruct (denotes_revseqrule e id f Hd) as (r & Er & Ha & Hres).
  unfold compute_revseq_thiele_method. rewrite El. cbn [rbind].
  erewrite run_ok; eauto; [|rewrite Ha; reflexivity]. cbv beta. simpl String.eqb. cbv iota.
  destruct Hc as (Hw & _ & Hk & _).
  destruct (revseq_resolute_correct (marginal sf) p k Hw ltac:(lia)) as (W & E & HW & Hl).
  exists W. split; auto. split; auto. eapply same_removal_run_last; eauto.
Qed.

(** The score of a committee under AV and SAV. *)
Theorem compute_av_correct : forall e p k resolute maxn, valid_call p k resolute maxn ->
  answers (maximises (fun W => Qsum (map (support p) W)) p k) resolute (limit maxn)
          (compute_av e p (Z.of_nat k) "standard" resolute maxn).
Proof.
  intros e p k resolute maxn Hc. unfold compute_av, compute_separable_rule.
  erewrite run_ok; eauto; try reflexivity; [|destruct resolute; reflexivity].
  pose proof (valid_limit _ _ _ _ Hc) as Hm. destruct Hc as (Hw & _ & Hk & _).
  exact (separable_rule_correct SepAV p k resolute (limit maxn) Hw Hk Hm).
Qed.

Theorem compute_sav_correct : forall e p k resolute maxn, valid_call p k resolute maxn ->
  fraction_weights p ->
  answers (maximises (fun W => Qsum (map (sav_support p) W)) p k) resolute (limit maxn)
          (compute_sav e p (Z.of_nat k) "standard" resolute maxn).
Proof.
  intros e p k resolute maxn Hc Hfr. unfold compute_sav, compute_separable_rule.
  erewrite run_ok; eauto; try reflexivity; [|destruct resolute; reflexivity].
  replace (forallb (fun v => negb (weight_is_int v)) (voters p)) with true
    by (symmetry; apply forallb_forall; intros v Hv; unfold fraction_weights in Hfr;
        rewrite Forall_forall in Hfr; rewrite Hfr; auto).
  pose proof (valid_limit _ _ _ _ Hc) as Hm. destruct Hc as (Hw & _ & Hk & _).
  exact (separable_rule_correct SepSAV p k resolute (limit maxn) Hw Hk Hm).
Qed.

Theorem compute_lexcc_correct : forall e p k resolute maxn, valid_call p k resolute maxn ->
  answers (lexcc_winner p k) resolute (limit maxn)
          (compute_lexcc e p (Z.of_nat k) "brute-force" resolute maxn).
Proof.
  intros e p k resolute maxn Hc. unfold compute_lexcc.
  erewrite run_ok; eauto; try reflexivity; [|destruct resolute; reflexivity].
  pose proof (valid_limit _ _ _ _ Hc) as Hm. destruct Hc as (Hw & _ & Hk & _).
  apply (lexcc_bruteforce_correct p k resolute (limit maxn) Hw ltac:(lia) Hm).
Qed.

Lemma minimaxav_exists : forall p k, k <= num_cand p -> exists W, minimaxav_winner p k W.
Proof.
  intros p k Hk.
  destruct (max_exists (fun W => - Qnat (minimaxav_score p W))%Q p k Hk) as (W & HW & Hm).
  exists W. split; auto. intros W' d d' HW' Hd Hd'. specialize (Hm W' HW').
  assert (E : minimaxav_score p W = d) by (eapply max_distance_unique; eauto; apply minimax_max_distance).
  assert (E' : minimaxav_score p W' = d') by (eapply max_distance_unique; eauto; apply minimax_max_distance).
  subst. apply Qnat_le. lra.
Qed.

Theorem compute_minimaxav_correct : forall e p k resolute maxn, valid_call p k resolute maxn ->
  answers (minimaxav_winner p k) resolute (limit maxn)
          (compute_minimaxav e p (Z.of_nat k) "brute-force" resolute maxn).
Proof.
  intros e p k resolute maxn Hc. unfold compute_minimaxav.
  erewrite run_ok; eauto; try reflexivity; [|destruct resolute; reflexivity].
  pose proof (valid_limit _ _ _ _ Hc) as Hm. destruct Hc as (Hw & _ & Hk & _).
  simpl String.eqb. simpl String.prefix. cbv iota.
  pose proof (minimaxav_bruteforce_correct p k resolute (limit maxn) Hw ltac:(lia) Hm) as HA.
  erewrite answers_nonempty_ok; eauto. apply minimaxav_exists. lia.
Qed.

Theorem compute_lexminimaxav_correct : forall e p k resolute maxn, valid_call p k resolute maxn ->
  unit_weights p ->
  answers (lexminimaxav_winner p k) resolute (limit maxn)
          (compute_lexminimaxav e p (Z.of_nat k) "brute-force" resolute maxn).
Proof.
  intros e p k resolute maxn Hc Hu. unfold compute_lexminimaxav.
  erewrite run_ok; eauto; try reflexivity; [|destruct resolute; reflexivity].
  pose proof (valid_limit _ _ _ _ Hc) as Hm. destruct Hc as (Hw & _ & Hk & _).
  replace (has_unit_weights p) with true.
  - apply (lexminimaxav_bruteforce_correct p k resolute (limit maxn) Hw ltac:(lia) Hm).
  - symmetry. unfold has_unit_weights. apply forallb_forall. intros v Hv.
    unfold unit_weights in Hu. rewrite Forall_forall in Hu. apply Qeq_bool_iff. auto.
Qed.

Theorem compute_lexminimaxav_rejects : forall e p k alg resolute maxn, valid_call p k resolute maxn ->
  ~ unit_weights p -> In alg ["gurobi"; "brute-force"] ->
  compute_lexminimaxav e p (Z.of_nat k) alg resolute maxn = Err ValueError.
Proof.
  intros e p k alg resolute maxn Hc Hu Ha. unfold compute_lexminimaxav.
  assert (E : has_unit_weights p = false).
  { apply not_true_iff_false. intro H. apply Hu. unfold has_unit_weights in H.
    rewrite forallb_forall in H. apply Forall_forall. intros v Hv. apply Qeq_bool_iff. auto. }
  destruct Ha as [<-|[<-|[]]];
    (erewrite run_ok; eauto; try reflexivity; [rewrite E; reflexivity|destruct resolute; reflexivity]).
Qed.

Theorem compute_trivial_correct : forall e p k resolute maxn, valid_call p k resolute maxn ->
  answers (is_committee p k) resolute (limit maxn)
          (compute_trivial_rule e p (Z.of_nat k) "standard" resolute maxn).
Proof.
  intros e p k resolute maxn Hc. unfold compute_trivial_rule.
  erewrite run_ok; eauto; try reflexivity; [|destruct resolute; reflexivity].
  destruct Hc as (Hw & _ & Hk & _). apply trivial_rule_correct. lia.
Qed.

Lemma score_denotes_ok : forall e id f, score_denotes e id f -> exists sf,
  lookup_scorefct e id = Ok sf /\ same_fct (marginal sf) f.
Proof.
  intros e id f H. destruct H.
  - destruct (denotes_ok _ _ _ H) as (sf & A & _ & B & _). eauto.
  - exists Av. split; auto. intros i Hi. unfold marginal. destruct i; [lia|]. reflexivity.
  - exists (AtLeast z). split.
    + unfold lookup_scorefct, get_marginal_scorefct. simpl. rewrite ?prefix_empty, H. auto.
    + intros i Hi. reflexivity.
Qed.

Theorem score_of_id_correct : forall e id f p W, score_denotes e id f -> wf p ->
  exists q, score_of_id e id p W = Ok q /\ (q == Thiele f p W)%Q.
Proof.
  intros e id f p W H Hw. destruct (score_denotes_ok e id f H) as (sf & E & Hs).
  unfold score_of_id. rewrite E. simpl. eexists. split; [reflexivity|].
  rewrite thiele_score_correct by (apply wf_nodup; auto). apply Thiele_ext; auto.
Qed.

(** ** The complete answer is unique *)
Lemma answers_unique : forall P Q r r', (forall W, P W <-> Q W) -> (forall W, P W -> ascending W) ->
  answers P false None r -> answers Q false None r' -> r = r'.
Proof.
  intros P Q r r' HPQ Ha (l & -> & N1 & S1 & A1 & C1) (l' & -> & N2 & S2 & A2 & C2). f_equal.
  apply sorted_same_elements; auto.
  - apply Forall_forall. auto.
  - apply Forall_forall. intros W HW. apply Ha, HPQ. auto.
  - intro W. split; intro HW.
    + apply C2, HPQ. auto.
    + apply C1, HPQ. auto.
Qed.

Lemma bb_equals_bruteforce : forall e id f p k,
  denotes e id f -> (forall i j, 1 <= i -> i <= j -> (f j <= f i)%Q) -> valid_call p k false None ->
  compute_thiele_method e id p (Z.of_nat k) "branch-and-bound" false None =
  compute_thiele_method e id p (Z.of_nat k) "brute-force" false None.
Proof.
  intros e id f p k Hd Ha Hc.
  eapply answers_unique; [reflexivity| |exact (compute_thiele_branchandbound_correct e id f p k false None Hd Ha Hc)
    |exact (compute_thiele_bruteforce_correct e id f p k false None Hd Hc)].
  intros W [[H _] _]. auto.
Qed.

Lemma same_antitone : forall sf f, concave_fct sf -> same_fct (marginal sf) f ->
  forall i j, 1 <= i -> i <= j -> (f j <= f i)%Q.
Proof.
  intros sf f Hc Hs i j Hi Hj. rewrite <- (Hs i), <- (Hs j) by lia. apply antitone_fct; auto.
Qed.
Lemma pav_antitone : forall i j, 1 <= i -> i <= j -> (pav_w j <= pav_w i)%Q.
Proof.
  apply (same_antitone Pav); simpl; auto. intros i Hi. unfold marginal. destruct i; [lia|]. reflexivity.
Qed.
Lemma slav_antitone : forall i j, 1 <= i -> i <= j -> (slav_w j <= slav_w i)%Q.
Proof.
  apply (same_antitone Slav); simpl; auto. intros i Hi. unfold marginal. destruct i; [lia|]. reflexivity.
Qed.
Lemma cc_antitone : forall i j, 1 <= i -> i <= j -> (cc_w j <= cc_w i)%Q.
Proof. apply (same_antitone Cc); simpl; auto. intros i Hi. reflexivity. Qed.
Lemma marginal_geom_same : forall b, same_fct (marginal (Geom b)) (geom_w b).
Proof.
  intros b i Hi. unfold marginal, geom_w. destruct i as [|i]; [lia|]. cbn [Nat.eqb].
  replace (S i - 1) with i by lia. replace (Z.of_nat (S i) - 1)%Z with (Z.of_nat i) by lia.
  rewrite Qpow_power. reflexivity.
Qed.
Lemma geom_antitone : forall b, (1 <= b)%Q -> forall i j, 1 <= i -> i <= j -> (geom_w b j <= geom_w b i)%Q.
Proof. intros b Hb. apply (same_antitone (Geom b)); simpl; auto. apply marginal_geom_same. Qed.

Lemma compute_trivial_resolute : forall e p k, valid_call p k true None ->
  compute_trivial_rule e p (Z.of_nat k) "standard" true None = Ok [seq 0 k].
Proof.
  intros e p k Hc. unfold compute_trivial_rule.
  erewrite run_ok; eauto; try reflexivity. simpl String.eqb. cbv iota. unfold trivial_rule.
  assert (Ha : ascending (seq 0 k)) by apply ascending_seq.
  simpl rmapM. rewrite candidate_set_ok by (apply ascending_NoDup; auto). simpl.
  rewrite isort_id by auto. rewrite sorted_committees_asc by (constructor; auto). reflexivity.
Qed.

