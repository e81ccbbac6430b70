(** * The Thiele-type rules see a profile only through weighted sums

    If two profiles are the same election ([same_election]: same candidates, and
    the same total weight behind every family of approval sets) the algorithms
    return the same result, whatever the parameters. *)
From Coq Require Import String.
From Coq Require Import List Arith Bool ZArith QArith Lia Lqa Permutation Sorted.
From Verif Require Import Prelude Misc MiscProofs Preferences Spec SpecRules Scores ScoresProofs Search Rule RulesThiele
  Common ThieleProofs BBProofs RevseqProofs OptProofs Compute PrefProofs.
Import ListNotations.
Open Scope nat_scope.

Definition leq : list Q -> list Q -> Prop := Forall2 Qeq.

Lemma leq_nth : forall a b, length a = length b -> (forall i, i < length a -> (nthQ a i == nthQ b i)%Q) -> leq a b.
Proof.
  induction a as [|x a IH]; intros b Hl H; destruct b as [|y b]; try discriminate; constructor.
  - apply (H 0). simpl. lia.
  - apply IH; [simpl in Hl; lia|]. intros i Hi. apply (H (S i)). simpl. lia.
Qed.

Lemma leq_get : forall a b, leq a b -> forall i, (nthQ a i == nthQ b i)%Q.
Proof.
  induction 1 as [|x y a b Hxy Hab IH]; intros i; [reflexivity|]. destruct i; simpl; auto. apply IH.
Qed.

Lemma leq_length : forall a b, leq a b -> length a = length b.
Proof. induction 1; simpl; auto. Qed.

Lemma Qmaxl_leq : forall a b, leq a b -> forall x y, (x == y)%Q -> (Qmaxl x a == Qmaxl y b)%Q.
Proof.
  induction 1 as [|u v a b Huv Hab IH]; intros x y E; simpl; auto. apply IH.
  rewrite (Qltb_comp x y u v E Huv). destruct (Qltb y v); auto.
Qed.
Lemma Qminl_leq : forall a b, leq a b -> forall x y, (x == y)%Q -> (Qminl x a == Qminl y b)%Q.
Proof.
  induction 1 as [|u v a b Huv Hab IH]; intros x y E; simpl; auto. apply IH.
  rewrite (Qltb_comp u v x y Huv E). destruct (Qltb v y); auto.
Qed.

Definition req (a b : result Q) : Prop :=
  match a, b with Ok x, Ok y => (x == y)%Q | Err e, Err e' => e = e' | _, _ => False end.
Lemma py_max_leq : forall a b, leq a b -> req (py_max a) (py_max b).
Proof. intros a b H. destruct H; simpl; auto. apply Qmaxl_leq; auto. Qed.
Lemma py_min_leq : forall a b, leq a b -> req (py_min a) (py_min b).
Proof. intros a b H. destruct H; simpl; auto. apply Qminl_leq; auto. Qed.

Lemma upd_leq : forall a b f g i, leq a b -> (forall x y, (x == y)%Q -> (f x == g y)%Q) -> leq (upd f i a) (upd g i b).
Proof.
  intros a b f g i H Hfg. revert i. induction H; intros i; destruct i; simpl; constructor; auto. apply IHForall2.
Qed.

Lemma insert_leq : forall a b x y, leq a b -> (x == y)%Q -> leq (insert_by Qle_bool x a) (insert_by Qle_bool y b).
Proof.
  intros a b x y H E. induction H as [|u v a b Huv Hab IH]; simpl; [repeat constructor; auto|].
  rewrite (Qle_bool_comp' x y u v E Huv). destruct (Qle_bool y v); repeat (constructor; auto).
Qed.
Lemma sort_leq : forall a b, leq a b -> leq (sort_by Qle_bool a) (sort_by Qle_bool b).
Proof. induction 1; simpl; [constructor|]. apply insert_leq; auto. Qed.
Lemma skipn_leq : forall n a b, leq a b -> leq (skipn n a) (skipn n b).
Proof. induction n; intros a b H; simpl; auto. destruct H; simpl; auto. constructor. Qed.
Lemma Qsum_leq : forall a b, leq a b -> (Qsum a == Qsum b)%Q.
Proof. induction 1; simpl; [reflexivity|]. apply Qplus_comp; auto. Qed.
Lemma nth_error_leq : forall a b i, leq a b ->
  match nth_error a i, nth_error b i with Some x, Some y => (x == y)%Q | None, None => True | _, _ => False end.
Proof. intros a b i H. revert i. induction H; intros i; destruct i; simpl; auto. apply IHForall2. Qed.

Lemma filter_ext_leq : forall (f g : nat -> bool) l, (forall x, f x = g x) -> filter f l = filter g l.
Proof. intros. apply filter_ext. auto. Qed.

Section Same.
  Variables p q : profile.
  Hypothesis Hp : wf p.
  Hypothesis Hq : wf q.
  Hypothesis Hs : same_election p q.

  Lemma same_num : num_cand p = num_cand q. Proof using Hs. apply Hs. Qed.
  Lemma same_cands : candidates p = candidates q. Proof using Hs. unfold candidates. rewrite same_num. auto. Qed.

  Lemma same_thiele_score : forall f W, (thiele_score f p W == thiele_score f q W)%Q.
  Proof using Hp Hq Hs.
    intros f W. rewrite !thiele_score_correct by (apply wf_nodup; auto). apply same_Thiele; auto.
  Qed.

  (** the inner accumulation [for v: for c in approved: a[c] += h(v)] *)
  Lemma same_accumulate : forall (g : list nat -> Q), set_fun g ->
    leq (accumulate (fun v => weight v * g (approved v))%Q (voters p) (repeat 0%Q (num_cand p)))
        (accumulate (fun v => weight v * g (approved v))%Q (voters q) (repeat 0%Q (num_cand q))).
  Proof using Hp Hq Hs.
    intros g Hg. apply leq_nth.
    - rewrite !accumulate_length, !repeat_length. apply same_num.
    - intros c Hc. rewrite accumulate_length, repeat_length in Hc.
      rewrite !accumulate_nth; try (apply wf_nodup; auto); try (rewrite repeat_length; auto);
        [|rewrite <- same_num; auto].
      rewrite !nthQ_repeat0. apply Qplus_comp; [reflexivity|].
      rewrite !Qsum_filter. destruct Hs as [_ H].
      specialize (H (fun a => if mem c a then g a else 0)%Q).
      assert (E : forall vs, (Qsum (map (fun v => if mem c (approved v) then weight v * g (approved v) else 0) vs)
                              == lin (fun a => if mem c a then g a else 0) vs)%Q).
      { intro vs. unfold lin. apply Qsum_map_ext. intros v _. destruct (mem c (approved v)); ring. }
      unfold approves in *. rewrite !E. apply H.
      intros a b Hab. rewrite (mem_perm c a b Hab). destruct (mem c b); auto. reflexivity.
  Qed.

  Lemma fold_upd_leq : forall l a b x, leq a b ->
    leq (fold_left (fun m c => upd (fun _ => x) c m) l a) (fold_left (fun m c => upd (fun _ => x) c m) l b).
  Proof using. induction l; simpl; intros; auto. apply IHl, upd_leq; auto. intros; reflexivity. Qed.

  Lemma same_marg_add : forall f W,
    leq (marginal_thiele_scores_add f p W) (marginal_thiele_scores_add f q W).
  Proof using Hp Hq Hs.
    intros f W. unfold marginal_thiele_scores_add. apply fold_upd_leq.
    apply (same_accumulate (fun a => f (length (inter a W) + 1))).
    intros a b Hab. rewrite (Permutation_length (Permutation_inter a b W Hab)). reflexivity.
  Qed.

  Lemma fold_sentinel_leq : forall W l a b, leq a b ->
    leq (fold_left (fun marg cand => if mem cand W then marg else match py_max marg with
                    | Ok mx => upd (fun _ => mx + 1)%Q cand marg | Err _ => marg end) l a)
        (fold_left (fun marg cand => if mem cand W then marg else match py_max marg with
                    | Ok mx => upd (fun _ => mx + 1)%Q cand marg | Err _ => marg end) l b).
  Proof using.
    intros W. induction l as [|c l IH]; simpl; intros a b H; auto. apply IH.
    destruct (mem c W); auto. pose proof (py_max_leq a b H) as Hm.
    destruct (py_max a), (py_max b); simpl in Hm; try contradiction; auto.
    apply upd_leq; auto. intros. rewrite Hm. reflexivity.
  Qed.

  Lemma same_marg_remove : forall f W,
    leq (marginal_thiele_scores_remove f p W) (marginal_thiele_scores_remove f q W).
  Proof using Hp Hq Hs.
    intros f W. unfold marginal_thiele_scores_remove. rewrite same_cands. apply fold_sentinel_leq.
    apply (same_accumulate (fun a => f (length (inter a W)))).
    intros a b Hab. rewrite (Permutation_length (Permutation_inter a b W Hab)). reflexivity.
  Qed.

  Lemma same_argmax_all : forall a b, leq a b -> argmax_all a = argmax_all b.
  Proof using.
    intros a b H. unfold argmax_all. pose proof (py_max_leq a b H) as Hm.
    destruct (py_max a), (py_max b); simpl in *; try contradiction; try congruence.
    rewrite (leq_length a b H). f_equal. apply filter_ext. intro c. apply Qeq_bool_comp; auto using leq_get.
  Qed.

  Lemma same_seq_loop : forall f n W, seq_thiele_loop f p n W = seq_thiele_loop f q n W.
  Proof using Hp Hq Hs.
    induction n; simpl; intros W; auto.
    rewrite (same_argmax_all _ _ (same_marg_add f W)). destruct (argmax_all _) as [[|]|]; simpl; auto.
  Qed.

  Lemma same_seq_resolute : forall f k, seq_thiele_resolute f p k = seq_thiele_resolute f q k.
  Proof using Hp Hq Hs. intros. unfold seq_thiele_resolute. rewrite same_seq_loop. auto. Qed.

  Lemma same_seq_expand : forall f k W, seq_thiele_expand f p k W = seq_thiele_expand f q k W.
  Proof using Hp Hq Hs.
    intros. unfold seq_thiele_expand. pose proof (same_marg_add f W) as H. pose proof (py_max_leq _ _ H) as Hm.
    destruct (py_max (marginal_thiele_scores_add f p W)), (py_max (marginal_thiele_scores_add f q W));
      simpl in *; try contradiction; try congruence.
    rewrite same_cands. do 2 f_equal. apply filter_ext. intro c. apply Qle_bool_comp'; auto using leq_get.
  Qed.

  Lemma dfs_congr : forall (St : Type) (e1 e2 : St -> result (list (child St))),
    (forall s, e1 s = e2 s) -> forall maxn fuel stack win, dfs e1 maxn fuel stack win = dfs e2 maxn fuel stack win.
  Proof using.
    intros St e1 e2 H maxn. induction fuel; intros stack win; destruct stack; simpl; auto.
    rewrite H. destruct (e2 s) as [v|]; simpl; auto. destruct (process maxn v win) as [[ps w] []]; auto.
  Qed.

  Lemma same_seq : forall f k resolute maxn, seq_thiele f p k resolute maxn = seq_thiele f q k resolute maxn.
  Proof using Hp Hq Hs.
    intros. unfold seq_thiele. destruct resolute; [apply same_seq_resolute|].
    unfold seq_thiele_irresolute. rewrite same_num. rewrite (dfs_congr _ _ _ (same_seq_expand f k)). auto.
  Qed.

  Lemma scan_congr : forall (S : Type) (R : S -> S -> Prop) better same kt (s1 s2 : list nat -> S),
    (forall a b c d, R a b -> R c d -> better a c = better b d) ->
    (forall a b c d, R a b -> R c d -> same a c = same b d) ->
    (forall W, R (s1 W) (s2 W)) -> forall init, R init init -> forall cs,
    fst (scan better same s1 kt init cs) = fst (scan better same s2 kt init cs).
  Proof using.
    intros S R better same kt s1 s2 Hb Hsm HR init Hi cs. unfold scan.
    cut (forall opt b1 b2, R b1 b2 ->
           fst (fold_left (scan_step better same s1 kt) cs (opt, b1)) =
           fst (fold_left (scan_step better same s2 kt) cs (opt, b2))); auto.
    induction cs as [|c cs IH]; intros opt b1 b2 H12; [reflexivity|]. cbn [fold_left].
    unfold scan_step at 2 4. rewrite (Hb _ _ _ _ (HR c) H12), (Hsm _ _ _ _ (HR c) H12).
    destruct (better (s2 c) b2); auto. destruct (same (s2 c) b2); auto. destruct kt; auto.
  Qed.

  Lemma same_bruteforce : forall f k resolute maxn,
    thiele_bruteforce f p k resolute maxn = thiele_bruteforce f q k resolute maxn.
  Proof using Hp Hq Hs.
    intros. unfold thiele_bruteforce. rewrite same_cands.
    rewrite (scan_congr Q Qeq _ _ _ (thiele_score f p) (thiele_score f q)); auto.
    - intros a b c d H1 H2. apply Qltb_comp; auto.
    - intros a b c d H1 H2. apply Qeq_bool_comp; auto.
    - intro W. apply same_thiele_score.
    - reflexivity.
  Qed.

  Lemma same_bb_ub : forall f k W, (bb_upper_bound f p k W == bb_upper_bound f q k W)%Q.
  Proof using Hp Hq Hs.
    intros. unfold bb_upper_bound, sum_largest. rewrite same_thiele_score.
    apply Qplus_comp; [|reflexivity]. apply Qsum_leq.
    assert (H : leq (sort_by Qle_bool (skipn (match rev W with [] => 0 | c :: _ => S c end) (marginal_thiele_scores_add f p W)))
                    (sort_by Qle_bool (skipn (match rev W with [] => 0 | c :: _ => S c end) (marginal_thiele_scores_add f q W))))
      by (apply sort_leq, skipn_leq, same_marg_add).
    rewrite (leq_length _ _ H). apply skipn_leq. auto.
  Qed.

  Lemma same_bb_loop : forall f k fuel stack best s1 s2, (s1 == s2)%Q ->
    bb_loop f p k fuel stack best s1 = bb_loop f q k fuel stack best s2.
  Proof using Hp Hq Hs.
    intros f k. induction fuel as [|fuel IH]; intros stack best s1 s2 E; destruct stack as [|part rest]; simpl; auto.
    rewrite (Qeq_bool_comp _ _ s1 s2 (same_thiele_score f part) E).
    rewrite (Qltb_comp s1 s2 _ _ E (same_thiele_score f part)).
    rewrite (Qle_bool_comp' s1 s2 _ _ E (same_bb_ub f k part)). rewrite same_num.
    destruct (length part =? k); [|destruct (Qle_bool s2 (bb_upper_bound f q k part)); auto].
    destruct (Qeq_bool (thiele_score f q part) s2); auto.
    destruct (Qltb s2 (thiele_score f q part)); auto. apply IH. apply same_thiele_score.
  Qed.

  Lemma same_bb : forall f k resolute maxn,
    thiele_branchandbound f p k resolute maxn = thiele_branchandbound f q k resolute maxn.
  Proof using Hp Hq Hs.
    intros. unfold thiele_branchandbound. rewrite same_seq_resolute. destruct (seq_thiele_resolute f q k) as [[|l v]|]; simpl; auto.
    rewrite same_num. rewrite (same_bb_loop f k _ _ _ _ _ (same_thiele_score f l)). auto.
  Qed.

  Lemma same_revseq_loop : forall f n W, revseq_loop f p n W = revseq_loop f q n W.
  Proof using Hp Hq Hs.
    intros f. induction n; simpl; intros W; auto.
    pose proof (same_marg_remove f W) as H. pose proof (py_min_leq _ _ H) as Hm.
    destruct (py_min (marginal_thiele_scores_remove f p W)) as [v|], (py_min (marginal_thiele_scores_remove f q W)) as [v0|];
      simpl in *; try contradiction; try congruence.
    rewrite same_cands.
    rewrite (filter_ext _ (fun c => Qeq_bool (nthQ (marginal_thiele_scores_remove f q W) c) v0))
      by (intro c; apply Qeq_bool_comp; auto using leq_get).
    destruct (rev _); auto. destruct (mem n0 W); auto.
  Qed.
  Lemma same_revseq_resolute : forall f k, revseq_resolute f p k = revseq_resolute f q k.
  Proof using Hp Hq Hs.
    intros. unfold revseq_resolute. rewrite same_cands, same_num. rewrite same_revseq_loop. auto.
  Qed.
  Lemma same_revseq_round : forall ord f comms next, revseq_round ord f p comms next = revseq_round ord f q comms next.
  Proof using Hp Hq Hs.
    intros ord f. induction comms as [|W comms IH]; simpl; intros next; auto.
    pose proof (same_marg_remove f W) as H. pose proof (py_min_leq _ _ H) as Hm.
    destruct (py_min (marginal_thiele_scores_remove f p W)) as [v|], (py_min (marginal_thiele_scores_remove f q W)) as [v0|];
      simpl in *; try contradiction; try congruence.
    rewrite same_cands.
    rewrite (filter_ext _ (fun c => Qeq_bool (nthQ (marginal_thiele_scores_remove f q W) c) v0))
      by (intro c; apply Qeq_bool_comp; auto using leq_get).
    apply IH.
  Qed.
  Lemma same_revseq_rounds : forall ord f n comms, revseq_rounds ord f p n comms = revseq_rounds ord f q n comms.
  Proof using Hp Hq Hs.
    intros ord f. induction n; simpl; intros; auto. rewrite same_revseq_round.
    destruct (revseq_round ord f q comms []); simpl; auto.
  Qed.
  Lemma same_revseq_irresolute : forall ord f k maxn, revseq_irresolute ord f p k maxn = revseq_irresolute ord f q k maxn.
  Proof using Hp Hq Hs.
    intros. unfold revseq_irresolute. rewrite same_cands, same_num, same_revseq_rounds. auto.
  Qed.

  Lemma same_sep_scores : forall r, leq (sep_scores r p) (sep_scores r q).
  Proof using Hp Hq Hs.
    intro r. apply leq_nth.
    - rewrite !sep_scores_length. apply same_num.
    - intros c Hc. rewrite sep_scores_length in Hc. rewrite !sep_scores_nth by (auto; rewrite <- same_num; auto).
      destruct r; simpl; [apply same_support|apply same_sav_support]; auto.
  Qed.
  Lemma separable_leq : forall a b m k resolute maxn, leq a b ->
    separable_from_scores a m k resolute maxn = separable_from_scores b m k resolute maxn.
  Proof using.
    intros a b m k resolute maxn H. unfold separable_from_scores, kth_largest. rewrite (leq_length a b H).
    destruct (Nat.ltb (length b) k); auto.
    pose proof (nth_error_leq _ _ (length b - k) (sort_leq a b H)) as Hn.
    destruct (nth_error (sort_by Qle_bool a) (length b - k)), (nth_error (sort_by Qle_bool b) (length b - k));
      try contradiction; auto.
    rewrite (filter_ext (fun c => Qltb q0 (nthQ a c)) (fun c => Qltb q1 (nthQ b c)))
      by (intro c; apply Qltb_comp; auto using leq_get).
    rewrite (filter_ext (fun c => Qeq_bool (nthQ a c) q0) (fun c => Qeq_bool (nthQ b c) q1))
      by (intro c; apply Qeq_bool_comp; auto using leq_get).
    reflexivity.
  Qed.
  Lemma same_separable : forall r k resolute maxn, separable_rule r p k resolute maxn = separable_rule r q k resolute maxn.
  Proof using Hp Hq Hs.
    intros. unfold separable_rule. rewrite same_num. apply separable_leq, same_sep_scores.
  Qed.

  Lemma lex_compare_leq : forall a b c d, leq a b -> leq c d -> lex_compare a c = lex_compare b d.
  Proof using.
    intros a b c d H. revert c d. induction H as [|x y a b Hxy Hab IH]; intros c d H2; simpl; auto.
    destruct H2 as [|u v c d Huv Hcd]; auto.
    rewrite (Qltb_comp u v x y), (Qltb_comp x y u v) by auto.
    destruct (Qltb v y), (Qltb y v); auto.
  Qed.
  Lemma same_lexcc : forall k resolute maxn, lexcc_bruteforce p k resolute maxn = lexcc_bruteforce q k resolute maxn.
  Proof using Hp Hq Hs.
    intros. unfold lexcc_bruteforce. rewrite same_cands.
    rewrite (scan_congr (list Q) leq _ _ _ (lexcc_vector p k) (lexcc_vector q k)); auto.
    - intros a b c d H1 H2. rewrite (lex_compare_leq c d a b); auto.
    - intros a b c d H1 H2. rewrite (lex_compare_leq c d a b); auto.
    - intro W. unfold lexcc_vector. induction (seq 1 k); constructor; auto. apply same_thiele_score.
    - induction k; constructor; auto. reflexivity.
  Qed.

  Lemma same_minimax_score : forall W, minimaxav_score p W = minimaxav_score q W.
  Proof using Hp Hq Hs.
    assert (G : forall p q, wf p -> wf q -> same_election p q -> forall W, minimaxav_score p W <= minimaxav_score q W).
    { clear. intros p q Hp Hq Hs W. destruct (minimaxav_score_max p W) as [A B].
      destruct (voters p) as [|v0 vs0] eqn:Ev.
      { unfold minimaxav_score. rewrite Ev. simpl. lia. }
      rewrite <- Ev in *.
      destruct B as (v & Hv & <-); [rewrite Ev; discriminate|].
      destruct (same_occurs p q v Hp Hq Hs Hv) as (u & Hu & Eu).
      destruct (minimaxav_score_max q W) as [C _]. specialize (C u Hu).
      assert (E : forall x, In x (approved u) <-> In x (approved v)).
      { intro x. rewrite <- (isort_In (approved u)), <- (isort_In (approved v)), Eu. reflexivity. }
      assert (Hperm : Permutation (approved u) (approved v)).
      { rewrite (isort_perm (approved u)), (isort_perm (approved v)), Eu. reflexivity. }
      replace (hamming (approved v) W) with (hamming (approved u) W); auto.
      unfold hamming. rewrite !app_length. f_equal.
      - apply Permutation_length. apply Permutation_filter; auto.
      - f_equal. apply filter_ext. intro x. rewrite (mem_perm x _ _ Hperm). auto. }
    intro W. apply Nat.le_antisymm; apply G; auto using same_election_sym.
  Qed.
  Lemma same_minimaxav : forall k resolute maxn, minimaxav_bruteforce p k resolute maxn = minimaxav_bruteforce q k resolute maxn.
  Proof using Hp Hq Hs.
    intros. unfold minimaxav_bruteforce. rewrite same_cands, same_num.
    rewrite (scan_congr nat eq _ _ _ (minimaxav_score p) (minimaxav_score q)); auto; try congruence.
    apply same_minimax_score.
  Qed.

  Lemma same_trivial : forall k resolute maxn, trivial_rule p k resolute maxn = trivial_rule q k resolute maxn.
  Proof using Hs. intros. unfold trivial_rule. rewrite same_cands. auto. Qed.

  Lemma same_empty : length (voters p) =? 0 = (length (voters q) =? 0).
  Proof using Hp Hq Hs.
    destruct (voters p) as [|v vs] eqn:E1; destruct (voters q) as [|u us] eqn:E2; auto; exfalso.
    - destruct (same_occurs q p u Hq Hp (same_election_sym _ _ Hs)) as (x & Hx & _);
        [rewrite E2; left; auto|rewrite E1 in Hx; destruct Hx].
    - destruct (same_occurs p q v Hp Hq Hs) as (x & Hx & _);
        [rewrite E1; left; auto|rewrite E2 in Hx; destruct Hx].
  Qed.

  Lemma same_prologue : forall i r k alg resolute maxn,
    prologue i r p k alg resolute maxn = prologue i r q k alg resolute maxn.
  Proof using Hp Hq Hs.
    intros. unfold prologue, verify_compute_parameters. rewrite same_num, same_empty. auto.
  Qed.

  Lemma same_run : forall e id k alg resolute maxn body1 body2,
    (forall a k m, body1 a k m = body2 a k m) ->
    run e id p k alg resolute maxn body1 = run e id q k alg resolute maxn body2.
  Proof using Hp Hq Hs.
    intros e id k alg resolute maxn body1 body2 H. unfold run. destruct (lookup_rule e id); simpl; auto.
    rewrite same_prologue. destruct (prologue _ _ _ _ _ _ _); simpl; auto.
  Qed.

  Lemma same_run_alg : forall e id k alg resolute maxn body1 body2, alg <> "fastest"%string ->
    (forall k m, body1 alg k m = body2 alg k m) ->
    run e id p k alg resolute maxn body1 = run e id q k alg resolute maxn body2.
  Proof using Hp Hq Hs.
    intros e id k alg resolute maxn body1 body2 Hne H. unfold run. destruct (lookup_rule e id) as [r|]; simpl; auto.
    rewrite same_prologue. destruct (prologue _ _ _ _ _ _ _) as [a|] eqn:E; simpl; auto.
    assert (a = alg); [|subst; auto].
    unfold prologue in E. apply String.eqb_neq in Hne. rewrite Hne in E. simpl in E.
    destruct (verify_compute_parameters _ _ _ _ _ _); simpl in E; congruence.
  Qed.
End Same.

Local Open Scope string_scope.
From Verif Require Import SpecCompute.

Lemma forallb_flag : forall p, forallb (fun v => negb (weight_is_int v)) (voters p) = true <-> fraction_weights p.
Proof.
  intro p. unfold fraction_weights. rewrite forallb_forall, Forall_forall.
  split; intros H v Hv; specialize (H v Hv); destruct (weight_is_int v); simpl in *; congruence.
Qed.

Lemma same_election_results : forall e p q, wf p -> wf q -> same_election p q -> same_results e p q.
Proof.
  intros e p q Hp Hq Hs k resolute maxn. repeat split.
  - intros id alg Ha. unfold compute_thiele_method. apply same_run_alg; auto.
    { destruct Ha as [<-|[<-|[]]]; discriminate. }
    intros k' m. f_equal. destruct Ha as [<-|[<-|[]]]; simpl String.eqb; cbv iota;
      (destruct (lookup_scorefct e id) as [f|]; [cbn [rbind]|reflexivity]).
    + apply same_bruteforce; auto.
    + apply same_bb; auto.
  - intros id alg. unfold compute_seq_thiele_method. destruct (lookup_scorefct e id) as [f|]; simpl; auto.
    apply same_run; auto. intros. rewrite (same_seq p q); auto.
  - intros id alg. unfold compute_revseq_thiele_method. destruct (lookup_scorefct e id) as [f|]; simpl; auto.
    apply same_run; auto. intros. rewrite (same_revseq_resolute p q), (same_revseq_irresolute p q); auto.
  - intros alg. unfold compute_av, compute_separable_rule. apply same_run; auto. intros.
    simpl String.eqb at 2 3. simpl String.eqb at 2 3. cbv iota.
    rewrite (same_separable p q Hp Hq Hs SepAV). reflexivity.
  - intros Fp Fq alg. unfold compute_sav, compute_separable_rule. apply same_run; auto. intros.
    apply forallb_flag in Fp, Fq. rewrite Fp, Fq.
    rewrite (same_separable p q Hp Hq Hs SepSAV). reflexivity.
  - unfold compute_lexcc. apply same_run_alg; auto; [discriminate|]. intros k' m.
    simpl String.eqb. cbv iota. apply same_lexcc; auto.
  - unfold compute_minimaxav. apply same_run_alg; auto; [discriminate|]. intros k' m.
    simpl String.eqb. cbv iota. f_equal. apply same_minimaxav; auto.
  - intros alg. unfold compute_trivial_rule. apply same_run; auto. intros. rewrite (same_trivial p q); auto.
Qed.

Lemma relisted_lin : forall vs us g, Forall2 relisted vs us -> set_fun g -> (lin g vs == lin g us)%Q.
Proof.
  intros vs us g H Hg. induction H as [|v u vs us (A & B & _) H IH]; [reflexivity|].
  unfold lin in *. simpl. rewrite IH, B, (Hg _ _ A). reflexivity.
Qed.

Lemma relisted_wf : forall m vs us, Forall2 relisted vs us -> Forall (wf_voter m) vs -> Forall (wf_voter m) us.
Proof.
  intros m vs us H. induction H as [|v u vs us (A & B & _) H IH]; intro Hw; constructor; inversion Hw; subst; auto.
  destruct H2 as (N & R & W). split; [eapply Permutation_NoDup; eauto|].
  split; [eapply Permutation_Forall; eauto|]. rewrite <- B. auto.
Qed.

Lemma reordered_same : forall p q, wf p -> reordered p q -> wf q /\ same_election p q.
Proof.
  intros p q [Hm Hv] (En & vs & Hp & Hr). split.
  - split; [congruence|]. rewrite <- En. eapply relisted_wf; eauto. eapply Permutation_Forall; eauto.
  - split; auto. intros g Hg. rewrite <- (relisted_lin vs (voters q) g Hr Hg).
    unfold lin. apply Qsum_perm, Permutation_map. auto.
Qed.

Lemma reordered_results : forall e p q, wf p -> reordered p q -> same_results e p q.
Proof. intros e p q Hw H. destruct (reordered_same p q Hw H). apply same_election_results; auto. Qed.

Lemma copies_same : forall p v vs1 vs2 n, wf p -> voters p = (vs1 ++ v :: vs2)%list ->
  (weight v == Qnat n)%Q ->
  wf (with_voters p (vs1 ++ repeat (mkVoter (approved v) 1 true) n ++ vs2)) /\
  same_election p (with_voters p (vs1 ++ repeat (mkVoter (approved v) 1 true) n ++ vs2)).
Proof.
  intros p v vs1 vs2 n [Hm Hv] E Hn. rewrite E in Hv. apply Forall_app in Hv as [A B]. inversion B; subst.
  split.
  - split; auto. simpl. rewrite !Forall_app. repeat split; auto.
    apply Forall_forall. intros u Hu. apply repeat_spec in Hu. subst u.
    destruct H1 as (N & R & W). repeat split; auto.
  - split; auto. intros g Hg. simpl. rewrite E. rewrite !lin_app, lin_repeat.
    change (v :: vs2) with ([v] ++ vs2)%list. rewrite lin_app.
    assert (L : (lin g [v] == weight v * g (approved v))%Q) by (unfold lin; simpl; ring).
    rewrite L, Hn. ring.
Qed.

Lemma copies_results : forall e p v vs1 vs2 n, wf p -> voters p = (vs1 ++ v :: vs2)%list ->
  (weight v == Qnat n)%Q ->
  same_results e p (with_voters p (vs1 ++ repeat (mkVoter (approved v) 1 true) n ++ vs2)).
Proof.
  intros e p v vs1 vs2 n Hw E Hn. destruct (copies_same p v vs1 vs2 n Hw E Hn). apply same_election_results; auto.
Qed.
