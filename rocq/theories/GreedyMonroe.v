(** * Greedy Monroe *)
From Coq Require Import String.
From Coq Require Import List Arith Bool ZArith QArith Lia Lqa Permutation.
From Verif Require Import Prelude Misc MiscProofs Preferences Scores Spec Search Rule RulesThiele Common ThieleProofs
  Compute SpecCompute ComputeProofs RulesMonroe SpecMonroe MonroeProofs MonroeFlow MonroeRule.
Import ListNotations.
Local Open Scope string_scope.
Open Scope nat_scope.
Local Open Scope list_scope.

Lemma district_quota : forall n k t, k <> 0 -> district_size n k t = quota_of n k t.
Proof.
  intros n k t Hk. unfold district_size, quota_of. pose proof (Nat.div_mod n k Hk) as E. set (a := n / k) in *. set (b := n mod k) in *.
  clearbody a b. destruct (Z.ltb_spec (Z.of_nat t) (Z.of_nat n - Z.of_nat (k * a))), (Nat.ltb_spec t b); lia.
Qed.

Lemma fans_among_eq : forall p vs c, filter (fun i => voter_approves p i c) vs = fans_among p vs c.
Proof. reflexivity. Qed.

(** ** The selected candidate *)
Definition wins (p : profile) (vs cs : list nat) (c : nat) : Prop :=
  In c cs /\ forall d, In d cs -> length (fans_among p vs d) < length (fans_among p vs c) \/
                                  (length (fans_among p vs d) = length (fans_among p vs c) /\ c <= d).

Lemma greedy_select_gen : forall p vs cs mx sel, ascending cs ->
  (greedy_select p vs cs mx sel = sel /\ forall d, In d cs -> (Z.of_nat (length (fans_among p vs d)) <= mx)%Z) \/
  (exists c, greedy_select p vs cs mx sel = Some c /\ wins p vs cs c /\ (mx < Z.of_nat (length (fans_among p vs c)))%Z).
Proof.
  intros p vs cs. induction cs as [|c cs IH]; intros mx sel Ha.
  - left. split; auto. intros d [].
  - inversion Ha as [|? ? Ha' HF]; subst. rewrite Forall_forall in HF. cbn [greedy_select]. rewrite fans_among_eq.
    set (a := Z.of_nat (length (fans_among p vs c))) in *.
    destruct (Z.ltb_spec mx a) as [Hlt|Hge].
    + right. destruct (IH a (Some c) Ha') as [[-> H]|(d & -> & [Hd1 Hd2] & Hd3)].
      * exists c. split; auto. split; [|exact Hlt]. split; [left; auto|]. intros d [<-|Hd]; [right; lia|].
        specialize (H d Hd). specialize (HF d Hd). subst a. lia.
      * exists d. split; auto. split; [|lia]. split; [right; auto|]. intros x [<-|Hx]; [subst a; lia|auto].
    + destruct (IH mx sel Ha') as [[-> H]|(d & -> & [Hd1 Hd2] & Hd3)].
      * left. split; auto. intros d [<-|Hd]; auto.
      * right. exists d. split; auto. split; auto. split; [right; auto|]. intros x [<-|Hx]; [subst a; lia|auto].
Qed.

Lemma greedy_select_spec : forall p vs cs, ascending cs -> cs <> [] -> exists c, greedy_select p vs cs (-1)%Z None = Some c /\ wins p vs cs c.
Proof.
  intros p vs cs Ha Hne. destruct (greedy_select_gen p vs cs (-1)%Z None Ha) as [[_ H]|(c & E & H & _)]; [|eauto].
  destruct cs as [|c cs]; [congruence|]. specialize (H c (or_introl eq_refl)). lia.
Qed.

(** ** Runs *)
Lemma run_basics : forall p k L rem, greedy_monroe_run p k L rem ->
  NoDup L /\ Forall (fun c => c < num_cand p) L /\ NoDup rem /\ (forall i, In i rem -> i < length (voters p)).
Proof.
  intros p k L rem H. induction H as [|L rem c H (IH1 & IH2 & IH3 & IH4) Hc Hn Hbest].
  - split; [constructor|]. split; [constructor|]. split; [apply seq_NoDup|]. intros i Hi. apply in_seq in Hi. lia.
  - split; [apply NoDup_app_intro; auto; [repeat constructor; auto|intros x Hx [<-|[]]; auto]|].
    split; [apply Forall_app; split; auto|]. split; [apply NoDup_filter; auto|].
    intros i Hi. apply filter_In in Hi as [Hi _]. auto.
Qed.

Definition free_cands (p : profile) (L : list nat) : list nat := filter (fun c => negb (mem c L)) (candidates p).
Lemma free_cands_In : forall p L c, In c (free_cands p L) <-> c < num_cand p /\ ~ In c L.
Proof.
  intros p L c. unfold free_cands, candidates. rewrite filter_In, in_seq, negb_true_iff, mem_false. intuition lia.
Qed.
Lemma free_cands_step : forall p L c, filter (fun d => negb (d =? c)) (free_cands p L) = free_cands p (L ++ [c]).
Proof.
  intros p L c. unfold free_cands. induction (candidates p) as [|d l IH]; [reflexivity|]. cbn [filter]. rewrite mem_app.
  destruct (mem d L); cbn [negb orb]; [auto|]. cbn [filter]. cbn [mem existsb]. rewrite orb_false_r. destruct (d =? c); cbn [negb]; rewrite IH; auto.
Qed.
Lemma free_cands_nonempty : forall p L, NoDup L -> length L < num_cand p -> free_cands p L <> [].
Proof.
  intros p L Hn Hl E. destruct (outside_exists (num_cand p) L Hn Hl) as (c & Hc & Hin).
  assert (H : In c (free_cands p L)) by (apply free_cands_In; auto). rewrite E in H. destruct H.
Qed.

(** the districts built so far *)
Definition partial_districts (p : profile) (k : nat) (L rem : list nat) (D : list (nat * list nat)) : Prop :=
  map fst D = L /\ Permutation (flat_map snd D ++ rem) (seq 0 (length (voters p))) /\
  (forall c vs i, In (c, vs) D -> In i vs -> voter_approves p i c = true) /\
  (forall t c vs, nth_error D t = Some (c, vs) -> length vs <= quota_of (length (voters p)) k t) /\
  (* a district that is not full has no further supporters *)
  forall t c vs, nth_error D t = Some (c, vs) -> length vs < quota_of (length (voters p)) k t -> forall i, In i rem -> voter_approves p i c = false.

Lemma split_rem : forall rem R, NoDup rem -> NoDup R -> incl R rem -> Permutation (R ++ diff rem R) rem.
Proof.
  intros rem R Hn HR Hi. apply NoDup_Permutation; auto.
  - apply NoDup_app_intro; auto; [apply NoDup_filter; auto|]. intros x Hx Hx'. apply filter_In in Hx' as [_ Hx'].
    apply negb_true_iff, mem_false in Hx'. auto.
  - intros x. rewrite in_app_iff. unfold diff. rewrite filter_In, negb_true_iff, mem_false. split; [intros [H|[H _]]; auto|].
    intros H. destruct (in_dec Nat.eq_dec x R); auto.
Qed.

Lemma firstn_fans : forall p m rem c, NoDup rem -> NoDup (firstn m (fans_among p rem c)) /\ incl (firstn m (fans_among p rem c)) rem /\
  forall i, In i (firstn m (fans_among p rem c)) -> voter_approves p i c = true.
Proof.
  intros p m rem c Hn. split; [apply NoDup_firstn, NoDup_filter; auto|]. split.
  - intros i Hi. apply firstn_In in Hi. apply filter_In in Hi. tauto.
  - intros i Hi. apply firstn_In in Hi. apply filter_In in Hi. tauto.
Qed.

Lemma greedy_rounds_spec : forall p k rounds t L rem D, k <> 0 -> greedy_monroe_run p k L rem -> length L = t ->
  partial_districts p k L rem D -> t + rounds <= num_cand p ->
  exists L' rem' D', greedy_rounds p k t rounds L rem (free_cands p L) D = Ok (L', rem', D') /\
    greedy_monroe_run p k L' rem' /\ length L' = t + rounds /\ partial_districts p k L' rem' D'.
Proof.
  intros p k rounds. induction rounds as [|r IH]; intros t L rem D Hk Hrun Ht HD Hm.
  - exists L, rem, D. rewrite Nat.add_0_r. auto.
  - cbn [greedy_rounds]. destruct (run_basics p k L rem Hrun) as (B1 & B2 & B3 & B4).
    destruct (greedy_select_spec p rem (free_cands p L)) as (c & -> & Hc1 & Hc2).
    { unfold free_cands. apply ascending_filter, ascending_seq. }
    { apply free_cands_nonempty; auto. lia. }
    apply free_cands_In in Hc1 as [Hc1 Hc3]. rewrite fans_among_eq, free_cands_step.
    rewrite district_quota by auto. set (R := firstn (quota_of (length (voters p)) k t) (fans_among p rem c)).
    change (filter (fun i => negb (mem i R)) rem) with (diff rem R).
    replace (t + S r) with (S t + r) by lia.
    destruct HD as (D1 & D2 & D3 & D4 & D5).
    destruct (firstn_fans p (quota_of (length (voters p)) k t) rem c B3) as (F1 & F2 & F3). fold R in F1, F2, F3.
    apply IH; auto; try lia.
    + unfold R. rewrite <- Ht. apply gm_step; auto. intros d Hd Hd'. apply Hc2. apply free_cands_In. auto.
    + rewrite app_length. simpl. lia.
    + split; [rewrite map_app, D1; reflexivity|]. split; [|split; [|split]].
      * rewrite flat_map_app. cbn [flat_map snd]. rewrite app_nil_r, <- app_assoc.
        eapply perm_trans; [|exact D2]. apply Permutation_app_head. apply split_rem; auto.
      * intros d vs i Hin Hi. apply in_app_iff in Hin as [Hin|[E|[]]]; [eauto|]. inversion E; subst. auto.
      * intros s d vs E. destruct (lt_dec s (length D)) as [Hs|Hs].
        -- rewrite nth_error_app1 in E by auto. eauto.
        -- rewrite nth_error_app2 in E by lia. destruct (s - length D) as [|m] eqn:Em; [|destruct m; discriminate].
           cbn in E. inversion E; subst d vs. assert (s = t). { rewrite <- Ht, <- D1, map_length. lia. } subst s. apply firstn_le_length.
      * intros s d vs E Hlt i Hi. apply filter_In in Hi as [Hi Hi']. apply negb_true_iff, mem_false in Hi'. destruct (lt_dec s (length D)) as [Hs|Hs].
        -- rewrite nth_error_app1 in E by auto. eauto.
        -- rewrite nth_error_app2 in E by lia. destruct (s - length D) as [|m] eqn:Em; [|destruct m; discriminate].
           cbn in E. inversion E; subst d vs. assert (s = t). { rewrite <- Ht, <- D1, map_length. lia. } subst s.
           apply not_true_iff_false. intros Ha. apply Hi'. unfold R in *. rewrite firstn_all2.
           ++ rewrite <- fans_among_eq. apply filter_In. auto.
           ++ rewrite firstn_length in Hlt. lia.
Qed.

(** ** Completing the districts *)
Lemma pop_voters_ok : forall m l, m <= length l -> exists a b, pop_voters m l = Ok (a, b) /\ length a = m /\ Permutation (a ++ b) l.
Proof.
  induction m as [|m IH]; intros l Hl.
  - exists [], l. auto.
  - cbn [pop_voters]. destruct (rev l) as [|v r] eqn:E.
    { rewrite <- (rev_involutive l), E in Hl. simpl in Hl. lia. }
    assert (El : l = rev r ++ [v]) by (rewrite <- (rev_involutive l), E; reflexivity).
    destruct (IH (rev r)) as (a & b & -> & Ha & Hp).
    { rewrite El, app_length in Hl. simpl in Hl. lia. }
    exists (v :: a), b. cbn [rbind fst snd]. split; auto. split; [simpl; lia|]. rewrite El.
    eapply perm_trans; [|apply Permutation_cons_append]. simpl. constructor. auto.
Qed.

Lemma complete_ok : forall n k D t rem, k <> 0 ->
  (forall s c vs, nth_error D s = Some (c, vs) -> length vs <= quota_of n k (t + s)) ->
  length rem + length (flat_map snd D) = list_sum (map (quota_of n k) (seq t (length D))) ->
  exists F, complete_assignment n k t D rem = Ok F /\ map fst F = map fst D /\
    Permutation (flat_map snd F) (flat_map snd D ++ rem) /\
    (forall s c vs, nth_error F s = Some (c, vs) -> length vs = quota_of n k (t + s)) /\
    (forall s c vs, nth_error D s = Some (c, vs) -> exists xs, nth_error F s = Some (c, vs ++ xs)%list /\ incl xs rem).
Proof.
  intros n k D. induction D as [|[c vs] D IH]; intros t rem Hk Hq Hs.
  - exists []. cbn in *. split; auto. split; auto. split; [destruct rem; auto; discriminate|]. split; [intros [|s] ? ? E; discriminate|]. intros [|s] ? ? E; discriminate.
  - cbn [complete_assignment]. rewrite district_quota by auto.
    assert (Hlen : length vs <= quota_of n k t). { specialize (Hq 0 c vs eq_refl). rewrite Nat.add_0_r in Hq. auto. }
    cbn [flat_map snd length seq map list_sum fold_right] in Hs. change (fold_right Nat.add 0) with list_sum in Hs.
    rewrite app_length in Hs.
    assert (Hrest : length (flat_map snd D) <= list_sum (map (quota_of n k) (seq (S t) (length D)))).
    { clear - Hq. assert (H : forall s d ws, nth_error D s = Some (d, ws) -> length ws <= quota_of n k (S t + s)).
      { intros s d ws E. specialize (Hq (S s) d ws E). replace (S t + s) with (t + S s) by lia. auto. }
      clear Hq. revert H. generalize (S t) as u. induction D as [|[d ws] D IH]; intros u H; [cbn; lia|].
      cbn [flat_map snd length seq map list_sum fold_right]. change (fold_right Nat.add 0) with list_sum. rewrite app_length.
      pose proof (H 0 d ws eq_refl) as H0. rewrite Nat.add_0_r in H0. specialize (IH (S u)).
      assert (length (flat_map snd D) <= list_sum (map (quota_of n k) (seq (S u) (length D)))).
      { apply IH. intros s d' ws' E. specialize (H (S s) d' ws' E). replace (S u + s) with (u + S s) by lia. auto. }
      lia. }
    destruct (pop_voters_ok (quota_of n k t - length vs) rem) as (a & b & -> & Ha & Hp); [lia|].
    cbn [rbind fst snd]. pose proof (Permutation_length Hp) as Hpl. rewrite app_length in Hpl.
    destruct (IH (S t) b Hk) as (F & -> & F1 & F2 & F3 & F4).
    { intros s d ws E. specialize (Hq (S s) d ws E). replace (S t + s) with (t + S s) by lia. auto. }
    { lia. }
    cbn [rbind]. exists ((c, vs ++ a)%list :: F). split; auto. split; [cbn; rewrite F1; auto|]. split; [|split].
    + cbn [flat_map snd]. rewrite <- !app_assoc. apply Permutation_app_head.
      eapply perm_trans; [apply Permutation_app_head; exact F2|].
      rewrite app_assoc. eapply perm_trans; [apply Permutation_app_tail; apply Permutation_app_comm|].
      rewrite <- app_assoc. apply Permutation_app_head. exact Hp.
    + intros [|s] d ws E; cbn in E.
      * inversion E; subst. rewrite app_length, Nat.add_0_r. lia.
      * rewrite (F3 s d ws E). f_equal. lia.
    + intros [|s] d ws E; cbn in E.
      * inversion E; subst. exists a. split; auto. intros i Hi. apply (Permutation_in _ Hp), in_or_app. auto.
      * destruct (F4 s d ws E) as (xs & Hx & Hi). exists xs. split; auto. intros i Hin. apply (Permutation_in _ Hp), in_or_app. auto.
Qed.

(** ** Districts and assignments *)
Lemma NoDup_app_disj : forall (A : Type) (a b : list A), NoDup (a ++ b) -> forall x, In x a -> In x b -> False.
Proof.
  intros A a b. induction a as [|y a IH]; intros H x Ha Hb; [destruct Ha|]. simpl in H. inversion H; subst.
  destruct Ha as [<-|Ha]; [apply H2, in_app_iff; auto|eauto].
Qed.
Lemma NoDup_app_r : forall (A : Type) (a b : list A), NoDup (a ++ b) -> NoDup b.
Proof. intros A a b. induction a; simpl; auto. intros H. inversion H; auto. Qed.
Lemma NoDup_app_l : forall (A : Type) (a b : list A), NoDup (a ++ b) -> NoDup a.
Proof.
  intros A a b. induction a; simpl; intros H; [constructor|]. inversion H; subst. constructor; auto.
  intros Hin. apply H2, in_app_iff. auto.
Qed.

Definition rep (D : list (nat * list nat)) (i : nat) : nat :=
  match find (fun d => mem i (snd d)) D with Some d => fst d | None => 0 end.

Lemma rep_In : forall D i c vs, NoDup (flat_map snd D) -> In (c, vs) D -> In i vs -> rep D i = c.
Proof.
  intros D i c vs. unfold rep. induction D as [|[d ws] D IH]; intros Hn Hin Hi; [destruct Hin|].
  cbn [flat_map snd] in Hn. cbn [find snd]. destruct (mem i ws) eqn:E.
  - apply mem_In in E. destruct Hin as [Ee|Hin]; [inversion Ee; auto|]. exfalso.
    apply (NoDup_app_disj _ _ _ Hn i E). apply in_flat_map. exists (c, vs). auto.
  - destruct Hin as [Ee|Hin]; [inversion Ee; subst; apply mem_false in E; contradiction|].
    apply IH; auto. eapply NoDup_app_r. exact Hn.
Qed.

Lemma perm_filter_length : forall (f : nat -> bool) l l', Permutation l l' -> length (filter f l) = length (filter f l').
Proof. intros f l l' H. induction H; simpl; auto; try (destruct (f x)); simpl; auto; try (destruct (f y)); simpl; auto. congruence. Qed.

Lemma cnt_map : forall (f : nat -> nat) l c, cnt (map f l) c = length (filter (fun i => f i =? c) l).
Proof.
  intros f l c. induction l as [|i l IH]; simpl; auto. destruct (Nat.eq_dec (f i) c) as [E|E].
  - rewrite <- E at 2. rewrite Nat.eqb_refl. simpl. auto.
  - apply Nat.eqb_neq in E. rewrite E. auto.
Qed.

Lemma same_district : forall (D : list (nat * list nat)) c vs ws, NoDup (map fst D) -> In (c, vs) D -> In (c, ws) D -> vs = ws.
Proof.
  intros D c vs ws. induction D as [|[d us] D IH]; intros Hn H1 H2; [destruct H1|]. cbn in Hn. inversion Hn; subst.
  destruct H1 as [E1|H1], H2 as [E2|H2].
  - congruence.
  - inversion E1; subst. exfalso. apply H3. apply in_map_iff. exists (c, ws). auto.
  - inversion E2; subst. exfalso. apply H3. apply in_map_iff. exists (c, vs). auto.
  - auto.
Qed.

Lemma length_filter_flat : forall (f : nat -> bool) (D : list (nat * list nat)),
  length (filter f (flat_map snd D)) = list_sum (map (fun d => length (filter f (snd d))) D).
Proof. intros f D. induction D as [|d D IH]; [reflexivity|]. cbn [flat_map map list_sum fold_right]. rewrite filter_app, app_length, IH. reflexivity. Qed.

Lemma districts_assignment : forall p W D, monroe_districts p W D ->
  exists phi, monroe_assignment p W phi /\ represented p phi = districts_score p D.
Proof.
  intros p W D (H1 & H2 & H3 & H4 & H5). set (n := length (voters p)) in *.
  exists (map (rep D) (seq 0 n)).
  assert (Hd : forall i, i < n -> exists vs, In (rep D i, vs) D /\ In i vs).
  { intros i Hi. apply H4 in Hi. apply in_flat_map in Hi as ([c vs] & Hin & Hi). cbn in Hi. exists vs. split; auto.
    rewrite (rep_In D i c vs); auto. }
  split.
  - split; [rewrite map_length, seq_length; auto|]. split.
    + apply Forall_forall. intros c Hc. apply in_map_iff in Hc as (i & <- & Hi). apply in_seq in Hi. apply H1.
      destruct (Hd i) as (vs & Hin & _); [lia|]. apply in_map_iff. exists (rep D i, vs). auto.
    + intros c Hc. apply H1 in Hc. apply in_map_iff in Hc as ([c' vs] & E & Hin). cbn in E. subst c'.
      rewrite cnt_map. replace (length (filter (fun i => rep D i =? c) (seq 0 n))) with (length vs); [apply (H5 c vs Hin)|].
      apply Permutation_length, NoDup_Permutation.
      * clear - H3 Hin. induction D as [|d D IH]; [destruct Hin|]. cbn [flat_map] in H3. destruct Hin as [->|Hin].
        -- eapply NoDup_app_l. exact H3.
        -- apply IH; auto. eapply NoDup_app_r. exact H3.
      * apply NoDup_filter, seq_NoDup.
      * intros i. rewrite filter_In, in_seq, Nat.eqb_eq. split.
        -- intros Hi. split; [|eapply rep_In; eauto]. assert (i < n); [|lia]. apply H4. apply in_flat_map. exists (c, vs). auto.
        -- intros [Hi E]. destruct (Hd i) as (ws & Hin' & Hi'); [lia|]. rewrite E in Hin'.
           rewrite (same_district D c vs ws); auto.
  - rewrite represented_ids by (rewrite map_length, seq_length; auto). fold n.
    assert (HP : Permutation (seq 0 n) (flat_map snd D)).
    { apply NoDup_Permutation; auto; [apply seq_NoDup|]. intros i. rewrite in_seq, H4. lia. }
    rewrite (filter_ext_in (fun i => voter_approves p i (nth i (map (rep D) (seq 0 n)) 0)) (fun i => voter_approves p i (rep D i))).
    2:{ intros i Hi. apply in_seq in Hi. f_equal. rewrite (nth_indep _ 0 (rep D 0)) by (rewrite map_length, seq_length; lia).
        rewrite map_nth, seq_nth by lia. reflexivity. }
    rewrite (perm_filter_length _ _ _ HP), length_filter_flat. unfold districts_score. f_equal. apply map_ext_in.
    intros [c vs] Hin. cbn [fst snd]. f_equal. apply filter_ext_in. intros i Hi. rewrite (rep_In D i c vs); auto.
Qed.

(** ** The whole computation *)
Lemma filter_true : forall (A : Type) (f : A -> bool) l, (forall x, In x l -> f x = true) -> filter f l = l.
Proof. intros A f l H. induction l; simpl; auto. rewrite H by (left; auto). f_equal. apply IHl. intros; apply H; right; auto. Qed.

Theorem greedy_monroe_full : forall nx p k, networkx_correct nx -> 1 <= k <= num_cand p ->
  exists L rem D, greedy_monroe_run p k L rem /\ length L = k /\
    greedy_monroe_with_assignment nx p k = Ok ([isort L], D) /\ is_committee p k (isort L) /\
    monroe_districts p (isort L) D /\ length (voters p) - length rem = districts_score p D /\
    exists D0, greedy_monroe_algorithm p k = Ok ([isort L], (rem, D0)) /\ complete_assignment (length (voters p)) k 0 D0 rem = Ok D.
Proof.
  intros nx p k Hx Hk.
  assert (Hk0 : k <> 0) by lia.
  destruct (greedy_rounds_spec p k k 0 [] (seq 0 (length (voters p))) []) as (L & rem & D & E & Hrun & HL & D1 & D2 & D3 & D4 & D5); auto.
  { constructor. }
  { split; auto. split; [apply Permutation_refl|]. split; [intros ? ? ? []|]. split; intros [|t] c vs E; discriminate. }
  { lia. }
  destruct (run_basics p k L rem Hrun) as (B1 & B2 & B3 & B4).
  assert (Hcom : is_committee p k (isort L)).
  { split; [apply isort_ascending; auto|]. split; [rewrite isort_length; lia|]. apply Forall_forall. intros c Hc.
    rewrite isort_In in Hc. rewrite Forall_forall in B2. auto. }
  assert (HDlen : length D = k) by (rewrite <- (map_length fst), D1; lia).
  pose proof (Permutation_length D2) as Hpl. rewrite app_length, seq_length in Hpl.
  destruct (complete_ok (length (voters p)) k D 0 rem Hk0) as (F & EF & F1 & F2 & F3 & F4); auto.
  { rewrite HDlen, sum_quota by auto. lia. }
  exists L, rem, F. split; auto. split; [lia|].
  assert (EA : greedy_monroe_algorithm p k = Ok ([isort L], (rem, D))).
  { unfold greedy_monroe_algorithm. replace (candidates p) with (free_cands p []).
    2:{ unfold free_cands. apply filter_true. reflexivity. }
    rewrite E. cbn [rbind]. rewrite sorted_committees_ok by (constructor; auto). reflexivity. }
  split; [|split; [auto|split; [|split; [|exists D; auto]]]].
  - unfold greedy_monroe_with_assignment. rewrite EA. cbn [rbind].
    destruct (monroescore_correct nx p (isort L) Hx) as (s & -> & _).
    { apply ascending_NoDup, Hcom. }
    { destruct Hcom as (_ & Hlen & _). intros H0. rewrite H0 in Hlen. simpl in Hlen. lia. }
    cbn [rbind]. rewrite EF. cbn [rbind]. rewrite sorted_committees_asc by (constructor; auto; apply Hcom). reflexivity.
  - assert (HP : Permutation (flat_map snd F) (seq 0 (length (voters p)))) by (eapply perm_trans; eauto).
    split; [|split; [|split; [|split]]].
    + intros c. rewrite isort_In, F1, D1. tauto.
    + rewrite F1, D1. auto.
    + eapply Permutation_NoDup; [symmetry; exact HP|apply seq_NoDup].
    + intros i. split; intros H.
      * apply (Permutation_in _ HP) in H. apply in_seq in H. lia.
      * apply (Permutation_in _ (Permutation_sym HP)). apply in_seq. lia.
    + intros c vs Hin. apply In_nth_error in Hin as (t & Et). apply F3 in Et. rewrite isort_length. replace (length L) with k by lia.
      rewrite Et. apply quota_bounds. auto.
  - replace (length (voters p) - length rem) with (length (flat_map snd D)) by lia.
    unfold districts_score.
    (* every served voter approves its representative, nobody else does *)
    assert (HF : Forall2 (fun d f => exists xs, f = (fst d, snd d ++ xs) /\ (forall i, In i (snd d) -> voter_approves p i (fst d) = true) /\
                                     forall i, In i xs -> voter_approves p i (fst d) = false) D F).
    { assert (G : forall s c vs, nth_error D s = Some (c, vs) -> exists xs, nth_error F s = Some (c, vs ++ xs) /\
                   (forall i, In i vs -> voter_approves p i c = true) /\ forall i, In i xs -> voter_approves p i c = false).
      { intros s c vs Es. destruct (F4 s c vs Es) as (xs & Ex & Hi). exists xs. split; auto. split.
        - intros i Hin. eapply D3; eauto. eapply nth_error_In; eauto.
        - intros i Hin. apply (D5 s c vs Es); auto. pose proof (F3 s c _ Ex) as Hl. rewrite app_length in Hl. destruct xs; [destruct Hin|]. cbn in Hl. lia. }
      assert (HlF : length F = length D) by (rewrite <- (map_length fst F), F1, map_length; auto).
      clear - G HlF. revert F HlF G. induction D as [|[c vs] D IH]; intros [|f F] HlF G; try discriminate; constructor.
      - destruct (G 0 c vs eq_refl) as (xs & Ex & H1 & H2). cbn in Ex. inversion Ex; subst. exists xs. auto.
      - apply IH; [cbn in HlF; lia|]. intros s. exact (G (S s)). }
    clear - HF. induction HF as [|d f D F (xs & -> & H1 & H2) HF IH]; [reflexivity|].
    cbn [flat_map map list_sum fold_right]. change (fold_right Nat.add 0) with list_sum. rewrite app_length, IH. f_equal.
    cbn [fst snd]. rewrite <- fans_among_eq, filter_app, app_length. rewrite (filter_true _ _ (snd d)) by auto.
    assert (E : filter (fun i => voter_approves p i (fst d)) xs = []); [|rewrite E; cbn; lia].
    clear - H2. induction xs as [|i xs IH]; auto. cbn. rewrite H2 by (left; auto). apply IH. intros. apply H2. right. auto.
Qed.

Theorem greedy_monroe_spec : forall nx p k, networkx_correct nx -> 1 <= k <= num_cand p ->
  exists L rem D, greedy_monroe_run p k L rem /\ length L = k /\
    greedy_monroe_with_assignment nx p k = Ok ([isort L], D) /\ is_committee p k (isort L) /\
    monroe_districts p (isort L) D /\ length (voters p) - length rem = districts_score p D.
Proof.
  intros nx p k Hx Hk. destruct (greedy_monroe_full nx p k Hx Hk) as (L & rem & D & H1 & H2 & H3 & H4 & H5 & H6 & _). exists L, rem, D. auto 10.
Qed.

Lemma greedy_run_det : forall p k L rem, greedy_monroe_run p k L rem -> forall L' rem', greedy_monroe_run p k L' rem' ->
  length L = length L' -> L = L' /\ rem = rem'.
Proof.
  intros p k L rem H. induction H as [|L rem c H IH Hc Hn Hb]; intros L' rem' H' Hl.
  - inversion H' as [|L1 rem1 c1 H1 ? ? ? E1 E2]; subst; auto. rewrite app_length in Hl. simpl in Hl. lia.
  - inversion H' as [E1 E2|L1 rem1 c1 H1 Hc1 Hn1 Hb1 E1 E2]; subst.
    + rewrite app_length in Hl. simpl in Hl. lia.
    + rewrite !app_length in Hl. simpl in Hl. destruct (IH L1 rem1 H1) as [-> ->]; [lia|].
      assert (c = c1). { specialize (Hb c1 Hc1 Hn1). specialize (Hb1 c Hc Hn). lia. }
      subst. auto.
Qed.

Theorem greedy_winner_unique : forall p k W W', greedy_monroe_winner p k W -> greedy_monroe_winner p k W' -> W = W'.
Proof.
  intros p k W W' (L & rem & H1 & H2 & ->) (L' & rem' & H1' & H2' & ->).
  destruct (greedy_run_det p k L rem H1 L' rem' H1') as [-> _]; congruence.
Qed.

Theorem compute_greedy_monroe_correct : forall nx e p k, networkx_correct nx -> valid_call p k true None -> unit_weights p ->
  exists W, compute_greedy_monroe nx e p (Z.of_nat k) "standard" true None = Ok [W] /\ greedy_monroe_winner p k W /\ is_committee p k W.
Proof.
  intros nx e p k Hx Hc Hu. unfold compute_greedy_monroe. erewrite run_ok; eauto; try reflexivity.
  destruct Hc as (Hw & _ & Hk & _). rewrite unit_weights_b by auto. simpl String.eqb. cbv iota. cbn [negb].
  destruct (greedy_monroe_spec nx p k Hx Hk) as (L & rem & D & H1 & H2 & -> & H3 & _). exists (isort L). split; auto. split; auto.
  exists L, rem. auto.
Qed.

