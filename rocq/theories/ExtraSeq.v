(** * Candidates approved by nobody (C88): rules that add or remove candidates one at a time, and Monroe's rule *)
From Coq Require Import String.
From Coq Require Import List Arith Bool ZArith QArith Lia Lqa Permutation Sorted.
From Verif Require Import Milp RulesSolver SpecLoads SolverPhragmen SolverCompute SolverLex RulesMonroe RulesMore.
From Verif Require Import Prelude Misc Common MiscProofs Preferences Scores ScoresProofs Rule Spec SpecRules SpecMore Compute SpecCompute SpecSeq
  SpecMonroe ComputeProofs Guarantees ComputeAll SpecAll AllProofs Mono TieBreak SpecVary Vary VaryRuns VaryAll Join Pareto ThieleProofs RevseqProofs SpecExtra Extra GreedyMonroe.
Import ListNotations.
Local Open Scope string_scope.
Open Scope nat_scope.
Local Open Scope list_scope.

Lemma count_occ_map_in : forall (g : nat -> nat) c phi, (forall x, In x phi -> g x = g c -> x = c) -> count_occ Nat.eq_dec (map g phi) (g c) = count_occ Nat.eq_dec phi c.
Proof.
  intros g c phi. induction phi as [|x phi IH]; intros H; [reflexivity|]. cbn. rewrite IH by (intros; apply H; auto; right; auto).
  destruct (Nat.eq_dec (g x) (g c)) as [E|E], (Nat.eq_dec x c) as [E'|E']; auto; [exfalso; apply E', H; [left; reflexivity|exact E]|congruence].
Qed.
Lemma injection_into : forall A B : list nat, NoDup A -> NoDup B -> length A <= length B ->
  exists g, (forall c, In c A -> In (g c) B) /\ forall c d, In c A -> In d A -> g c = g d -> c = d.
Proof.
  intros A. induction A as [|c A IHA]; intros B HN HF HL.
  - exists (fun x => x). split; [intros ? []|intros ? ? []].
  - destruct B as [|f F]; [cbn in HL; lia|]. apply NoDup_cons_iff in HN. apply NoDup_cons_iff in HF. destruct HN as [Nc HN'], HF as [Nf HF'].
    cbn in HL. destruct (IHA F HN' HF' ltac:(lia)) as (g & G1 & G2). exists (fun x => if x =? c then f else g x).
    assert (H : forall x, In x (c :: A) -> x <> c -> In x A) by (intros x [E|Hx] Hne; [congruence|exact Hx]). split.
    + intros x Hx. destruct (Nat.eqb_spec x c); [left; reflexivity|right; apply G1, H; auto].
    + intros x y Hx Hy. destruct (Nat.eqb_spec x c) as [Ex|Ex], (Nat.eqb_spec y c) as [Ey|Ey]; intros E.
      * congruence.
      * exfalso. apply Nf. rewrite E. apply G1, H; auto.
      * exfalso. apply Nf. rewrite <- E. apply G1, H; auto.
      * apply G2; auto.
Qed.

Section ExtraSeq.
  Variables p q : profile.
  Hypothesis HE : extra_candidates p q.
  Hypothesis Hw : wf p.

  Lemma thiele_q : forall f W, Thiele f q W = Thiele f p W.
  Proof using HE. intros. unfold Thiele. rewrite (same_voters p q HE). reflexivity. Qed.
  Lemma util_same_old : forall v V U, In v (voters p) -> (forall c, c < num_cand p -> In c V <-> In c U) -> util v V = util v U.
  Proof using Hw.
    intros v V U Hv H. apply Nat.le_antisymm; apply (replace_util p Hw); auto; intros c H1 H2; apply H; auto.
  Qed.
  Lemma thiele_old : forall f V U, (forall c, c < num_cand p -> In c V <-> In c U) -> (Thiele f p V == Thiele f p U)%Q.
  Proof using Hw. intros f V U H. unfold Thiele. apply Qsum_map_ext. intros v Hv. rewrite (util_same_old v V U); auto. reflexivity. Qed.
  Lemma thiele_more : forall f V U, (forall i, 1 <= i -> (0 <= f i)%Q) -> (forall c, In c V -> c < num_cand p -> In c U) -> (Thiele f p V <= Thiele f p U)%Q.
  Proof using Hw.
    intros f V U Hf H. unfold Thiele. apply Qsum_map_le. intros v Hv. pose proof (weights_nonneg p Hw v Hv).
    pose proof (prefix_sum_le f _ _ Hf (replace_util p Hw V U H v Hv)). nra.
  Qed.
  Lemma isort_old : forall L, candidates_of p (isort L) <-> candidates_of p L.
  Proof using. intros L. unfold candidates_of. split; intros H c Hc; apply H; [rewrite isort_In|rewrite isort_In in Hc]; auto. Qed.
  Lemma tail_old : forall c L, candidates_of p (c :: L) <-> c < num_cand p /\ candidates_of p L.
  Proof using.
    intros c L. unfold candidates_of. split; [intros H; split; [apply H; left; auto|intros; apply H; right; auto]|]. intros [A B] d [<-|Hd]; auto.
  Qed.

  (** sequential Thiele methods *)
  Lemma extra_greedy : forall f L, (forall i, 1 <= i -> (0 <= f i)%Q) -> greedy_run f p L <-> greedy_run f q L /\ candidates_of p L.
  Proof using HE Hw.
    intros f L Hf. pose proof (num_le p q HE) as NL. split.
    - intros H. induction H as [|W c H [IH IH'] (A & B & C)]; [split; [constructor|intros ? []]|]. split; [|apply tail_old; auto]. constructor; auto.
      split; [lia|]. split; [exact B|]. intros d Hd Nd. rewrite !thiele_q. destruct (Nat.lt_ge_cases d (num_cand p)) as [Hl|Hl]; [auto|].
      apply thiele_more; auto. intros x [<-|Hx] Hx'; [lia|right; auto].
    - intros [H HO]. induction H as [|W c H IH (A & B & C)]; [constructor|]. apply tail_old in HO. destruct HO as [Hc HO]. constructor; [auto|].
      split; [exact Hc|]. split; [exact B|]. intros d Hd Nd. specialize (C d ltac:(lia) Nd). rewrite !thiele_q in C. exact C.
  Qed.
  Lemma extra_seq : forall f k W, (forall i, 1 <= i -> (0 <= f i)%Q) -> seq_thiele_winner f p k W <-> seq_thiele_winner f q k W /\ candidates_of p W.
  Proof using HE Hw.
    intros f k W Hf. unfold seq_thiele_winner. split.
    - intros (L & H & HL & ->). apply (extra_greedy f L Hf) in H. destruct H as [H HO]. split; [exists L; auto|apply isort_old; auto].
    - intros [(L & H & HL & ->) HO]. apply (proj1 (isort_old _)) in HO. exists L. split; [apply (extra_greedy f L Hf); split; auto|split; auto].
  Qed.

  (** reverse-sequential Thiele methods *)
  Definition old_part (W : list nat) : list nat := filter (fun c => c <? num_cand p) W.
  Lemma old_part_In : forall W c, In c (old_part W) <-> In c W /\ c < num_cand p.
  Proof using. intros. unfold old_part. rewrite filter_In, Nat.ltb_lt. tauto. Qed.
  Lemma old_part_id : forall W, candidates_of p W -> old_part W = W.
  Proof using. intros W H. unfold old_part. apply GreedyMonroe.filter_true. intros c Hc. apply Nat.ltb_lt. auto. Qed.
  Lemma old_part_seq : forall n, num_cand p <= n -> old_part (seq 0 n) = seq 0 (num_cand p).
  Proof using.
    intros n Hn. apply ascending_ext; [apply ascending_filter, ascending_seq|apply ascending_seq|]. intros c. rewrite old_part_In, !in_seq. lia.
  Qed.
  Lemma without_In : forall c W d, In d (without c W) <-> In d W /\ d <> c.
  Proof using. intros. unfold without. rewrite filter_In, negb_true_iff, Nat.eqb_neq. tauto. Qed.
  Lemma old_part_without : forall c W, old_part (without c W) = without c (old_part W).
  Proof using.
    intros c W. unfold old_part, without. induction W as [|x W IH]; [reflexivity|]. cbn [filter].
    destruct (x =? c) eqn:E1, (x <? num_cand p) eqn:E2; cbn [filter negb]; rewrite ?E1, ?E2; cbn [negb]; rewrite ?IH; reflexivity.
  Qed.
  Lemma removal_down : forall f W, removal_run f q W -> removal_run f p (old_part W).
  Proof using HE Hw.
    intros f W H. induction H as [|W c H IH [Hc Hb]]; [rewrite old_part_seq by apply HE; constructor|].
    rewrite old_part_without. destruct (Nat.lt_ge_cases c (num_cand p)) as [Hl|Hl].
    - constructor; [exact IH|]. split; [apply old_part_In; auto|]. intros d Hd. apply old_part_In in Hd. destruct Hd as [Hd Hd'].
      specialize (Hb d Hd). rewrite !thiele_q in Hb. rewrite (thiele_old f (without d (old_part W)) (without d W)), (thiele_old f (without c (old_part W)) (without c W)); auto;
        intros x Hx; rewrite !without_In, old_part_In; tauto.
    - assert (E : without c (old_part W) = old_part W). { unfold without. apply GreedyMonroe.filter_true. intros x Hx. apply old_part_In in Hx. apply negb_true_iff, Nat.eqb_neq. lia. }
      rewrite E. exact IH.
  Qed.
  Lemma removal_new : forall f n, num_cand p <= n -> n <= num_cand q -> (forall i, 1 <= i -> (0 <= f i)%Q) -> removal_run f q (seq 0 n).
  Proof using HE Hw.
    intros f n H1 H2 Hf. remember (num_cand q - n) as d eqn:Ed. revert n H1 H2 Ed. induction d as [|d IH]; intros n H1 H2 Ed; [replace n with (num_cand q) by lia; constructor|].
    specialize (IH (S n) ltac:(lia) ltac:(lia) ltac:(lia)).
    assert (E : seq 0 n = without n (seq 0 (S n))).
    { apply ascending_ext; [apply ascending_seq|apply ascending_filter, ascending_seq|]. intros c. rewrite without_In, !in_seq. lia. }
    rewrite E. constructor; [exact IH|]. split; [apply in_seq; lia|]. intros c Hc. rewrite !thiele_q. apply thiele_more; auto. intros x Hx Hx'. rewrite without_In in *. split; [tauto|lia].
  Qed.
  Lemma removal_up : forall f W, (forall i, 1 <= i -> (0 <= f i)%Q) -> removal_run f p W -> removal_run f q W.
  Proof using HE Hw.
    intros f W Hf H. induction H as [|W c H IH [Hc Hb]]; [apply removal_new; auto; apply HE|]. constructor; [exact IH|]. split; [exact Hc|]. intros d Hd. rewrite !thiele_q. auto.
  Qed.
  Lemma extra_revseq : forall f k W, (forall i, 1 <= i -> (0 <= f i)%Q) -> revseq_winner f p k W <-> revseq_winner f q k W /\ candidates_of p W.
  Proof using HE Hw.
    intros f k W Hf. unfold revseq_winner. split.
    - intros [H HL]. split; [split; [apply removal_up; auto|exact HL]|]. destruct (removal_run_props f p W H) as [_ R]. rewrite Forall_forall in R. exact R.
    - intros [[H HL] HO]. split; [|exact HL]. apply removal_down in H. rewrite old_part_id in H; auto.
  Qed.

  (** rules that keep numbers for the voters *)
  Lemma agree_q : forall x y, agree q x y <-> agree p x y.
  Proof using HE. intros. unfold agree. rewrite (same_voters p q HE). tauto. Qed.
  Lemma extra_runs : forall (cp cq : list nat -> (nat -> Q) -> nat -> Prop) (up uq : list nat -> (nat -> Q) -> nat -> (nat -> Q) -> Prop) W0 x0,
    candidates_of p W0 ->
    (forall W x c, cp W x c -> c < num_cand p) -> (forall W x c, candidates_of p W -> cq W x c -> c < num_cand p -> cp W x c) ->
    (forall W x c, runs_from p cp up W0 x0 W x -> cp W x c -> cq W x c) -> (forall W x c x', uq W x c x' <-> up W x c x') ->
    forall L x, runs_from p cp up W0 x0 L x <-> runs_from q cq uq W0 x0 L x /\ candidates_of p L.
  Proof using HE.
    intros cp cq up uq W0 x0 H0 Hc Hback Hup Hu L x. split.
    - intros H. induction H as [x Hx|W x c x' H [IH IH'] Hch Hupd]; [split; [constructor; apply agree_q; auto|auto]|]. split; [|apply tail_old; eauto].
      eapply run_step; [exact IH|apply Hup; auto|apply Hu; exact Hupd].
    - intros [H HO]. induction H as [x Hx|W x c x' H IH Hch Hupd]; [constructor; apply agree_q; auto|]. apply tail_old in HO. destruct HO as [A B].
      eapply run_step; [apply IH; exact B|apply Hback; auto|apply Hu; exact Hupd].
  Qed.
  Lemma extra_run_winner : forall (cp cq : list nat -> (nat -> Q) -> nat -> Prop) (up uq : list nat -> (nat -> Q) -> nat -> (nat -> Q) -> Prop) W0 x0 k,
    candidates_of p W0 ->
    (forall W x c, cp W x c -> c < num_cand p) -> (forall W x c, candidates_of p W -> cq W x c -> c < num_cand p -> cp W x c) ->
    (forall W x c, runs_from p cp up W0 x0 W x -> cp W x c -> cq W x c) -> (forall W x c x', uq W x c x' <-> up W x c x') ->
    forall W, run_winner p cp up W0 x0 k W <-> run_winner q cq uq W0 x0 k W /\ candidates_of p W.
  Proof using HE.
    intros cp cq up uq W0 x0 k H0 H1 H2 H3 H4 W. pose proof (extra_runs cp cq up uq W0 x0 H0 H1 H2 H3 H4) as E. unfold run_winner. split.
    - intros (L & x & H & HL & ->). apply E in H. destruct H as [H HO]. split; [exists L, x; auto|apply isort_old; auto].
    - intros [(L & x & H & HL & ->) HO]. apply (proj1 (isort_old _)) in HO. exists L, x. split; [apply E; auto|auto].
  Qed.
  Lemma fans_q : forall c, fans q c = fans p c.
  Proof using HE. intros. unfold fans, voter_ids, likes, the_voter. rewrite (same_voters p q HE). reflexivity. Qed.
  Lemma likes_q : forall i c, likes q i c = likes p i c.
  Proof using HE. intros. unfold likes, the_voter. rewrite (same_voters p q HE). reflexivity. Qed.
  Lemma w_q : forall i, w q i = w p i.
  Proof using HE. intros. unfold w, the_voter. rewrite (same_voters p q HE). reflexivity. Qed.
  Lemma fans_new : forall c, num_cand p <= c -> fans p c = [].
  Proof using Hw.
    intros c Hc. unfold fans, voter_ids. assert (G : forall l, (forall i, In i l -> i < length (voters p)) -> filter (fun i => likes p i c) l = []).
    { intros l. induction l as [|i l IH]; intros H; [reflexivity|]. cbn. unfold likes at 1. rewrite (approves_new p Hw).
      - apply IH. intros. apply H. right. auto.
      - apply nth_In. apply H. left. reflexivity.
      - exact Hc. }
    apply G. intros i Hi. apply in_seq in Hi. lia.
  Qed.
  Lemma new_load_q : forall x c, new_load q x c = new_load p x c.
  Proof using HE. intros. unfold new_load, sum. rewrite fans_q. f_equal; [f_equal|]; f_equal; apply map_ext; intros i; rewrite ?w_q; reflexivity. Qed.
  Lemma fresh_up : forall W c, fresh p W c -> fresh q W c.
  Proof using HE. intros W c [A B]. split; [pose proof (num_le p q HE); lia|exact B]. Qed.
  Lemma fresh_old : forall W c, fresh q W c -> c < num_cand p -> fresh p W c.
  Proof using. intros W c [A B] C. split; auto. Qed.

  Lemma phragmen_choice_up : forall W x c, phragmen_choice p W x c -> phragmen_choice q W x c.
  Proof using HE Hw.
    intros W x c [Hf H]. split; [apply fresh_up; auto|]. rewrite fans_q. destruct (0 <? length (fans p c)).
    - intros d Hd Nd. rewrite fans_q in Nd. rewrite !new_load_q. destruct (Nat.lt_ge_cases d (num_cand p)) as [Hl|Hl]; [apply H; auto; apply fresh_old; auto|]. exfalso. apply Nd, fans_new. auto.
    - intros d Hd. rewrite fans_q. destruct (Nat.lt_ge_cases d (num_cand p)) as [Hl|Hl]; [apply H; auto; apply fresh_old; auto|apply fans_new; auto].
  Qed.
  Lemma phragmen_choice_down : forall W x c, phragmen_choice q W x c -> c < num_cand p -> phragmen_choice p W x c.
  Proof using HE.
    intros W x c [Hf H] Hc. split; [apply fresh_old; auto|]. rewrite fans_q in H. destruct (0 <? length (fans p c)).
    - intros d Hd Nd. rewrite <- !new_load_q. apply H; [apply fresh_up; auto|rewrite fans_q; auto].
    - intros d Hd. rewrite <- fans_q. apply H, fresh_up. auto.
  Qed.
  Lemma phragmen_update_q : forall W x c x', phragmen_update q W x c x' <-> phragmen_update p W x c x'.
  Proof using HE.
    intros. unfold phragmen_update. rewrite agree_q. unfold agree. split; intros H i Hi; specialize (H i Hi); rewrite likes_q, new_load_q in *; exact H.
  Qed.
  Lemma extra_phragmen_from : forall W0 x0 k, candidates_of p W0 -> forall W,
    run_winner p (phragmen_choice p) (phragmen_update p) W0 x0 k W <-> run_winner q (phragmen_choice q) (phragmen_update q) W0 x0 k W /\ candidates_of p W.
  Proof using HE Hw.
    intros W0 x0 k H0. apply extra_run_winner; auto.
    - intros W x c [[H _] _]. exact H.
    - intros W x c _. apply phragmen_choice_down.
    - intros W x c _. apply phragmen_choice_up.
    - apply phragmen_update_q.
  Qed.
  Lemma extra_phragmen : forall k W, phragmen_winner p k W <-> phragmen_winner q k W /\ candidates_of p W.
  Proof using HE Hw. intros k W. apply extra_phragmen_from. intros ? []. Qed.

  Lemma purse_q : forall b c, purse q b c = purse p b c.
  Proof using HE. intros. unfold purse. rewrite fans_q. reflexivity. Qed.
  Lemma purse_new : forall b c, num_cand p <= c -> purse p b c = 0%Q.
  Proof using Hw. intros. unfold purse. rewrite fans_new by auto. reflexivity. Qed.
  Lemma enestroem_update_q : forall k W x c x', enestroem_update q k W x c x' <-> enestroem_update p k W x c x'.
  Proof using HE.
    intros k W x c x'. unfold enestroem_update. cbv zeta. rewrite (same_voters p q HE), purse_q, !agree_q. unfold agree.
    split; intros [A B]; split; intros H i Hi; [specialize (A H i Hi)|specialize (B H i Hi)|specialize (A H i Hi)|specialize (B H i Hi)]; rewrite likes_q in *; assumption.
  Qed.
  Lemma run_ext_start : forall (cp : list nat -> (nat -> Q) -> nat -> Prop) up W0 x0 x1 L x, agree p x0 x1 -> runs_from p cp up W0 x0 L x -> runs_from p cp up W0 x1 L x.
  Proof using.
    intros cp up W0 x0 x1 L x E H. induction H as [x Hx|W x c x' H IH Hc Hu]; [constructor; intros i Hi; rewrite (Hx i Hi); apply E; auto|eapply run_step; eauto].
  Qed.
  Lemma extra_enestroem : forall k W, 1 <= k -> voters p <> [] -> enestroem_winner p k W <-> enestroem_winner q k W /\ candidates_of p W.
  Proof using HE Hw.
    intros k W Hk Hne. unfold enestroem_winner.
    assert (E : run_winner q (richest_choice q) (enestroem_update q k) [] (w q) k W <-> run_winner q (richest_choice q) (enestroem_update q k) [] (w p) k W).
    { assert (G : forall x0 x1, agree q x0 x1 -> run_winner q (richest_choice q) (enestroem_update q k) [] x0 k W -> run_winner q (richest_choice q) (enestroem_update q k) [] x1 k W).
      { intros x0 x1 Hx (L & x & H & R). exists L, x. split; [|exact R]. clear R. induction H as [y Hy|V y c y' H IH Hc Hu]; [constructor; intros i Hi; rewrite (Hy i Hi); apply Hx; auto|eapply run_step; eauto]. }
      split; apply G; intros i Hi; rewrite w_q; reflexivity. }
    rewrite E. apply extra_run_winner.
    - intros ? [].
    - intros V x c [[H _] _]. exact H.
    - intros V x c _ [Hf H] Hc. split; [apply fresh_old; auto|]. intros d Hd. rewrite <- !purse_q. apply H, fresh_up. auto.
    - intros V x c Hr [Hf H]. split; [apply fresh_up; auto|]. intros d Hd. rewrite !purse_q. destruct (Nat.lt_ge_cases d (num_cand p)) as [Hl|Hl]; [apply H, fresh_old; auto|].
      rewrite purse_new by auto. unfold purse. apply Qsum_map_nonneg. intros i Hi. unfold fans in Hi. apply filter_In in Hi. destruct Hi as [Hi _]. apply in_seq in Hi.
      apply (enestroem_nonneg p Hw k V x Hk Hne Hr). lia.
    - apply enestroem_update_q.
  Qed.

  Lemma backers_q : forall b c, backers q b c = backers p b c.
  Proof using HE. intros. unfold backers, earned. rewrite fans_q. apply filter_ext. intros i. rewrite w_q. reflexivity. Qed.
  Lemma backing_q : forall b c, sum (backers q b c) (earned q b) = sum (backers p b c) (earned p b).
  Proof using HE. intros. unfold sum. rewrite backers_q. f_equal. apply map_ext. intros i. unfold earned. rewrite w_q. reflexivity. Qed.
  Lemma consensus_update_q : forall W x c x', consensus_update q W x c x' <-> consensus_update p W x c x'.
  Proof using HE.
    intros W x c x'. unfold consensus_update. rewrite (same_voters p q HE), backers_q, agree_q. unfold agree.
    assert (E : sum (backers p x c) (w q) = sum (backers p x c) (w p)) by (unfold sum; f_equal; apply map_ext; intros; apply w_q). rewrite E.
    split; intros H i Hi; specialize (H i Hi); unfold earned in *; rewrite w_q in *; exact H.
  Qed.
  Lemma extra_consensus : forall k W, consensus_winner p k W <-> consensus_winner q k W /\ candidates_of p W.
  Proof using HE Hw.
    intros k W. unfold consensus_winner. apply extra_run_winner.
    - intros ? [].
    - intros V x c [[H _] _]. exact H.
    - intros V x c _ [Hf H] Hc. split; [apply fresh_old; auto|]. intros d Hd. rewrite <- !backing_q. apply H, fresh_up. auto.
    - intros V x c _ [Hf H]. split; [apply fresh_up; auto|]. intros d Hd. rewrite !backing_q. destruct (Nat.lt_ge_cases d (num_cand p)) as [Hl|Hl]; [apply H, fresh_old; auto|].
      assert (Z : backers p x d = []) by (unfold backers; rewrite fans_new by auto; reflexivity). rewrite Z. apply backing_nonneg.
    - apply consensus_update_q.
  Qed.

  (** maximin support *)
  Lemma supports_q : forall W f, support_distribution q W f <-> support_distribution p W f.
  Proof using HE. intros. unfold support_distribution, with_positions. rewrite (same_voters p q HE). tauto. Qed.
  Lemma received_q : forall f c, received q f c = received p f c.
  Proof using HE. intros. unfold received, with_positions. rewrite (same_voters p q HE). reflexivity. Qed.
  Lemma maximin_q : forall W s, maximin_support q W s <-> maximin_support p W s.
  Proof using HE.
    intros W s. unfold maximin_support. split; intros [(f & A & B) C]; (split; [exists f; split; [apply supports_q; exact A|intros c Hc; specialize (B c Hc); rewrite received_q in *; exact B]|]);
      intros g s' Hg Hs; apply (C g s'); try (apply supports_q; exact Hg); intros c Hc; specialize (Hs c Hc); rewrite received_q in *; exact Hs.
  Qed.
  Lemma received_new : forall f c, num_cand p <= c -> received p f c = 0%Q.
  Proof using Hw.
    intros f c Hc. unfold received. assert (G : forall l, (forall iv, In iv l -> In (snd iv) (voters p)) -> filter (fun iv : nat * voter => approves (snd iv) c) l = []).
    { intros l0. induction l0 as [|iv l0 IH]; intros HI; cbn; [reflexivity|]. rewrite (approves_new p Hw (snd iv) c) by (auto; apply HI; left; reflexivity). apply IH. intros. apply HI. right. auto. }
    rewrite G; [reflexivity|]. intros [i v] Hi. apply in_combine_r in Hi. exact Hi.
  Qed.
  Lemma received_nonneg : forall W f c, support_distribution p W f -> (0 <= received p f c)%Q.
  Proof using. intros W f c [H _]. unfold received. apply Qsum_map_nonneg. intros iv _. apply H. Qed.
  Lemma extra_maximin : forall eps k W, (0 <= eps)%Q -> maximin_winner eps p k W <-> maximin_winner eps q k W /\ candidates_of p W.
  Proof using HE Hw.
    intros eps k W Heps. unfold maximin_winner. apply extra_run_winner.
    - intros ? [].
    - intros V x c [[H _] _]. exact H.
    - intros V x c _ (Hf & s & Hs & H) Hc. split; [apply fresh_old; auto|]. exists s. split; [apply maximin_q; auto|]. intros d s' Hd Hs'. apply (H d); [apply fresh_up; auto|apply maximin_q; auto].
    - intros V x c _ (Hf & s & Hs & H). split; [apply fresh_up; auto|]. exists s. split; [apply maximin_q; auto|]. intros d s' Hd Hs'. apply maximin_q in Hs'.
      destruct (Nat.lt_ge_cases d (num_cand p)) as [Hl|Hl]; [apply (H d); auto; apply fresh_old; auto|].
      destruct Hs' as [(g & Hg & Hg') _]. specialize (Hg' d (or_introl eq_refl)). rewrite received_new in Hg' by auto.
      destruct Hs as [(f & Hf' & _) Hmax]. assert (0 <= s)%Q by (apply (Hmax f 0%Q Hf'); intros y _; eapply received_nonneg; eauto). lra.
    - intros. unfold no_update. apply agree_q.
  Qed.

  (** Equal Shares *)
  Lemma collected_q : forall b c rho, collected q b c rho = collected p b c rho.
  Proof using HE. intros. unfold collected, sum. rewrite fans_q. f_equal. apply map_ext. intros i. rewrite w_q. reflexivity. Qed.
  Lemma price_q : forall b c rho, price_of q b c rho <-> price_of p b c rho.
  Proof using HE. intros. unfold price_of. split; intros [A B]; (split; [rewrite collected_q in *; exact A|]); intros r Hr; specialize (B r Hr); rewrite collected_q in *; exact B. Qed.
  Lemma price_new : forall b c rho, num_cand p <= c -> ~ price_of p b c rho.
  Proof using Hw. intros b c rho Hc [A _]. unfold collected in A. rewrite fans_new in A by auto. cbn in A. discriminate A. Qed.
  Lemma mes_update_q : forall W x c x', mes_update q W x c x' <-> mes_update p W x c x'.
  Proof using HE.
    intros W x c x'. unfold mes_update. split; intros (rho & A & B); exists rho; (split; [apply price_q; exact A|]); (intros i Hi; rewrite ?(same_voters p q HE) in *; specialize (B i); rewrite ?(same_voters p q HE) in B; specialize (B Hi); cbn beta in *; rewrite ?likes_q, ?w_q in *; exact B).
  Qed.
  Lemma extra_mes_runs : forall x0 L x, runs_from p (mes_choice p) (mes_update p) [] x0 L x <-> runs_from q (mes_choice q) (mes_update q) [] x0 L x /\ candidates_of p L.
  Proof using HE Hw.
    intros x0. apply extra_runs.
    - intros ? [].
    - intros V x c [[H _] _]. exact H.
    - intros V x c _ (Hf & rho & Hr & H) Hc. split; [apply fresh_old; auto|]. exists rho. split; [apply price_q; auto|]. intros d r Hd Hd'. apply (H d); [apply fresh_up; auto|apply price_q; auto].
    - intros V x c _ (Hf & rho & Hr & H). split; [apply fresh_up; auto|]. exists rho. split; [apply price_q; auto|]. intros d r Hd Hd'. apply price_q in Hd'.
      destruct (Nat.lt_ge_cases d (num_cand p)) as [Hl|Hl]; [apply (H d); auto; apply fresh_old; auto|]. exfalso. apply (price_new x d r Hl Hd').
    - apply mes_update_q.
  Qed.
  Lemma mes_no_new : forall x0 L x, runs_from q (mes_choice q) (mes_update q) [] x0 L x -> candidates_of p L.
  Proof using HE Hw.
    intros x0 L x H. induction H as [x Hx|W x c x' H IH (Hf & rho & Hr & _) Hu]; [intros ? []|]. apply tail_old. split; [|exact IH].
    destruct (Nat.lt_ge_cases c (num_cand p)) as [Hl|Hl]; [exact Hl|]. apply price_q in Hr. exfalso. apply (price_new x c rho Hl Hr).
  Qed.
  Lemma stuck_q : forall L b, mes_stuck q L b <-> mes_stuck p L b.
  Proof using HE Hw.
    intros L b. unfold mes_stuck. split; intros H c Hc.
    - rewrite <- purse_q. apply H, fresh_up. auto.
    - rewrite purse_q. destruct (Nat.lt_ge_cases c (num_cand p)) as [Hl|Hl]; [apply H, fresh_old; auto|]. rewrite purse_new by auto. reflexivity.
  Qed.
  Lemma run_start_q : forall x0 x1 L b, agree q x0 x1 -> runs_from q (mes_choice q) (mes_update q) [] x0 L b -> runs_from q (mes_choice q) (mes_update q) [] x1 L b.
  Proof using. intros x0 x1 L b Hx H. induction H as [y Hy|V y c y' H IH Hc Hu]; [constructor; intros i Hi; rewrite (Hy i Hi); apply Hx; auto|eapply run_step; eauto]. Qed.
  Lemma share_q : forall k i, (equal_share q k i == equal_share p k i)%Q.
  Proof using HE. intros. unfold equal_share. rewrite w_q, (same_voters p q HE). reflexivity. Qed.
  Lemma mes_ends_q : forall k L b, mes_ends q k (equal_share q k) L b <-> mes_ends p k (equal_share p k) L b.
  Proof using HE Hw.
    intros k L b. unfold mes_ends. rewrite stuck_q. 
    assert (E : runs_from q (mes_choice q) (mes_update q) [] (equal_share q k) L b <-> runs_from p (mes_choice p) (mes_update p) [] (equal_share p k) L b).
    { rewrite extra_mes_runs. split; intros H.
      - pose proof (run_start_q _ (equal_share p k) L b ltac:(intros i _; apply share_q) H) as H'. split; [exact H'|apply (mes_no_new _ _ _ H')].
      - destruct H as [H _]. apply (run_start_q (equal_share p k)); auto. intros i _. symmetry. apply share_q. }
    rewrite E. tauto.
  Qed.
  Lemma extra_mes : forall k (fp fq : completion), (forall L b W, candidates_of p L -> length L < k -> fp L b W <-> fq L b W /\ candidates_of p W) ->
    forall W, mes_winner p k (equal_share p k) fp W <-> mes_winner q k (equal_share q k) fq W /\ candidates_of p W.
  Proof using HE Hw.
    intros k fp fq Hf W. unfold mes_winner. split.
    - intros (L & b & H & A & B). assert (HO : candidates_of p L) by (destruct H as [H _]; apply extra_mes_runs in H; apply H).
      assert (D : length L = k \/ length L < k) by (destruct H as [_ [H|[H _]]]; auto). split.
      + exists L, b. split; [apply mes_ends_q; auto|]. split; [exact A|]. intros HL. apply (Hf L b W HO HL). auto.
      + destruct D as [D|D]; [rewrite (A D); apply isort_old; auto|]. apply (Hf L b W HO D). auto.
    - intros [(L & b & H & A & B) HW]. apply mes_ends_q in H. assert (HO : candidates_of p L) by (destruct H as [H _]; apply extra_mes_runs in H; apply H).
      exists L, b. split; [exact H|]. split; [exact A|]. intros HL. apply (Hf L b W HO HL). auto.
  Qed.
  Lemma extra_mes_phragmen : forall k W, mes_winner p k (equal_share p k) (phragmen_completion p k) W <-> mes_winner q k (equal_share q k) (phragmen_completion q k) W /\ candidates_of p W.
  Proof using HE Hw.
    intros k. apply extra_mes. intros L b W HO _. unfold phragmen_completion. rewrite (extra_phragmen_from L _ k HO W).
    assert (G : forall x0 x1, agree q x0 x1 -> run_winner q (phragmen_choice q) (phragmen_update q) L x0 k W -> run_winner q (phragmen_choice q) (phragmen_update q) L x1 k W).
    { intros x0 x1 Hx (M & x & H & R). exists M, x. split; [|exact R]. clear R. induction H as [y Hy|V y c y' H IH Hc Hu]; [constructor; intros i Hi; rewrite (Hy i Hi); apply Hx; auto|eapply run_step; eauto]. }
    split; intros [A B]; (split; [|exact B]); (eapply G; [|exact A]); intros i Hi; rewrite w_q; reflexivity.
  Qed.
  Lemma support_q : forall c, support q c = support p c.
  Proof using HE. intros. unfold support, supporters. rewrite (same_voters p q HE). reflexivity. Qed.
  Lemma support_new : forall c, num_cand p <= c -> support p c = 0%Q.
  Proof using Hw.
    intros c Hc. unfold support, supporters. assert (G : forall l, (forall v, In v l -> In v (voters p)) -> filter (fun v => approves v c) l = []).
    { intros l. induction l as [|v l IH]; intros HI; cbn; [reflexivity|]. rewrite (approves_new p Hw v c) by (auto; apply HI; left; reflexivity). apply IH. intros. apply HI. right. auto. }
    rewrite G by auto. reflexivity.
  Qed.
  Lemma support_nonneg : forall c, (0 <= support p c)%Q.
  Proof using Hw. intros c. unfold support, wsum. apply Qsum_map_nonneg. intros v Hv. apply filter_In in Hv. destruct Hv as [Hv _]. pose proof (weights_nonneg p Hw v Hv). lra. Qed.
  Lemma extra_mes_av : forall k W, mes_winner p k (equal_share p k) (av_completion p k) W <-> mes_winner q k (equal_share q k) (av_completion q k) W /\ candidates_of p W.
  Proof using HE Hw.
    intros k. apply extra_mes. intros L b W HO _. unfold av_completion. rewrite (old_committee p q HE). split.
    - intros ((A & B) & I & H). split; [|exact B]. split; [exact A|]. split; [exact I|]. intros c d Hc Nc Hd Nd. rewrite !support_q.
      destruct (Nat.lt_ge_cases d (num_cand p)) as [Hl|Hl]; [auto|]. rewrite (support_new d Hl). apply support_nonneg.
    - intros ((A & I & H) & B). split; [auto|]. split; [exact I|]. intros c d Hc Nc Hd Nd. rewrite <- !support_q. apply H; auto. pose proof (num_le p q HE). lia.
  Qed.
  Lemma extra_mes_short : forall k W, mes_winner p k (equal_share p k) no_completion W <-> mes_winner q k (equal_share q k) no_completion W /\ candidates_of p W.
  Proof using HE Hw. intros k. apply extra_mes. intros L b W HO _. unfold no_completion. split; [intros ->; split; [reflexivity|apply isort_old; auto]|tauto]. Qed.

  (** Monroe's rule *)
  Lemma assignment_q : forall W phi, monroe_assignment q W phi <-> monroe_assignment p W phi.
  Proof using HE. intros. unfold monroe_assignment. rewrite (same_voters p q HE). tauto. Qed.
  Lemma represented_q : forall phi, represented q phi = represented p phi.
  Proof using HE. intros. unfold represented. rewrite (same_voters p q HE). reflexivity. Qed.
  Lemma monroe_replace : forall k V phi, k <= num_cand p -> is_committee q k V -> monroe_assignment p V phi ->
    exists U psi, is_committee p k U /\ monroe_assignment p U psi /\ represented p phi <= represented p psi.
  Proof using Hw.
    intros k V phi Hk (HA & HL & _) (P1 & P2 & P3). pose proof (ascending_NoDup V HA) as ND.
    set (N := filter (fun c => negb (c <? num_cand p)) V). set (F := filter (fun c => negb (mem c V)) (seq 0 (num_cand p))).
    assert (NN : NoDup N) by (apply NoDup_filter; auto). assert (NF : NoDup F) by (apply NoDup_filter, seq_NoDup).
    assert (NI : forall c, In c N <-> In c V /\ num_cand p <= c). { intros c. unfold N. rewrite filter_In, negb_true_iff, Nat.ltb_ge. tauto. }
    assert (FI : forall c, In c F <-> c < num_cand p /\ ~ In c V). { intros c. unfold F. rewrite filter_In, in_seq, negb_true_iff, <- not_true_iff_false, mem_In. intuition lia. }
    assert (LN : length N <= length F).
    { assert (E1 : length (old_part V) + length N = length V). { unfold old_part, N. clear. induction V as [|x V IH]; [reflexivity|]. cbn [filter]. destruct (x <? num_cand p); cbn [length negb]; lia. }
      assert (E2 : num_cand p <= length (old_part V ++ F)).
      { rewrite <- (seq_length (num_cand p) 0). apply NoDup_incl_length; [apply seq_NoDup|]. intros c Hc. apply in_seq in Hc. apply in_or_app.
        destruct (in_dec Nat.eq_dec c V); [left; apply old_part_In; split; [auto|lia]|right; apply FI; split; [lia|auto]]. }
      rewrite app_length in E2. lia. }
    destruct (injection_into N F NN NF LN) as (h & H1 & H2).
    set (g := fun c => if c <? num_cand p then c else h c).
    assert (G0 : forall c, c < num_cand p -> g c = c) by (intros c Hc; unfold g; apply Nat.ltb_lt in Hc; rewrite Hc; reflexivity).
    assert (G1 : forall c, In c V -> g c < num_cand p).
    { intros c Hc. unfold g. destruct (Nat.ltb_spec c (num_cand p)); auto. assert (I : In (h c) F) by (apply H1, NI; auto). apply FI in I. tauto. }
    assert (G2 : forall c d, In c V -> In d V -> g c = g d -> c = d).
    { intros c d Hc Hd. unfold g. destruct (Nat.ltb_spec c (num_cand p)) as [Lc|Lc], (Nat.ltb_spec d (num_cand p)) as [Ld|Ld]; intros E; auto.
      - exfalso. assert (I : In (h d) F) by (apply H1, NI; auto). apply FI in I. rewrite <- E in I. tauto.
      - exfalso. assert (I : In (h c) F) by (apply H1, NI; auto). apply FI in I. rewrite E in I. tauto.
      - apply H2; auto; apply NI; auto. }
    assert (NM : NoDup (map g V)). { clear - ND G2. induction ND as [|x V Hx ND IH]; cbn; constructor.
      - rewrite in_map_iff. intros (y & E & Hy). apply Hx. rewrite <- (G2 y x); auto; [right; auto|left; auto].
      - apply IH. intros. apply G2; auto; right; auto. }
    rewrite Forall_forall in P2. exists (isort (map g V)), (map g phi). split; [|split].
    - split; [apply isort_ascending; auto|]. split; [rewrite isort_length, map_length; auto|]. apply Forall_forall. intros c Hc. rewrite isort_In in Hc. apply in_map_iff in Hc. destruct Hc as (d & <- & Hd). auto.
    - unfold monroe_assignment. cbv zeta. rewrite isort_length, !map_length. split; [exact P1|]. split.
      + apply Forall_forall. intros c Hc. apply in_map_iff in Hc. destruct Hc as (d & <- & Hd). rewrite isort_In. apply in_map. auto.
      + intros c Hc. rewrite isort_In in Hc. apply in_map_iff in Hc. destruct Hc as (d & <- & Hd). rewrite count_occ_map_in; [apply P3; auto|]. intros x Hx E. apply G2; auto.
    - unfold represented. clear - Hw G0. assert (G : forall vs, (forall v, In v vs -> In v (voters p)) -> forall phi,
        length (filter (fun vc : voter * nat => approves (fst vc) (snd vc)) (combine vs phi)) <= length (filter (fun vc : voter * nat => approves (fst vc) (snd vc)) (combine vs (map g phi)))).
      { intros vs. induction vs as [|v vs IH]; intros HI [|c ph]; cbn; try lia. specialize (IH ltac:(intros; apply HI; right; auto) ph).
        destruct (approves v c) eqn:E; [|destruct (approves v (g c)); cbn; lia].
        assert (L : c < num_cand p). { destruct (Nat.lt_ge_cases c (num_cand p)) as [L|L]; [exact L|]. rewrite (approves_new p Hw v c) in E; [discriminate|apply HI; left; reflexivity|exact L]. }
        rewrite (G0 c L), E. cbn. lia. }
      apply G. auto.
  Qed.
  Lemma extra_monroe : forall k W, k <= num_cand p -> monroe_winner p k W <-> monroe_winner q k W /\ candidates_of p W.
  Proof using HE Hw.
    intros k W Hk. unfold monroe_winner. split.
    - intros (HC & phi & Hp & H). split; [|apply (old_committee p q HE) in HC; tauto]. split; [apply (committee_up p q HE); auto|]. exists phi. split; [apply assignment_q; auto|].
      intros V psi HV Hpsi. apply assignment_q in Hpsi. rewrite !represented_q. destruct (monroe_replace k V psi Hk HV Hpsi) as (U & chi & HU & Hchi & L). specialize (H U chi HU Hchi). lia.
    - intros [(HC & phi & Hp & H) HO]. split; [apply (old_committee p q HE); auto|]. exists phi. split; [apply assignment_q; auto|]. intros V psi HV Hpsi. rewrite <- !represented_q.
      apply (H V); [apply (committee_up p q HE); auto|apply assignment_q; auto].
  Qed.
End ExtraSeq.
