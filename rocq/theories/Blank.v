(** * Voters without a preference (C87) *)
From Coq Require Import String.
From Coq Require Import List Arith Bool ZArith QArith Lia Lqa Permutation Sorted.
From Verif Require Import Milp RulesSolver SpecLoads SolverCompute SolverLex RulesMonroe RulesMore.
From Verif Require Import Prelude Misc Common MiscProofs Preferences Scores ScoresProofs Rule Spec SpecRules SpecMore Compute SpecCompute SpecSeq
  SpecMonroe ComputeProofs Guarantees ComputeAll SpecAll AllProofs Mono TieBreak SpecVary Vary VaryAll Join Pareto SingleSeat ThieleProofs RevseqProofs SpecBlank.
Import ListNotations.
Local Open Scope string_scope.
Open Scope nat_scope.
Local Open Scope list_scope.

Section Blank.
  Variables p a q : profile.
  Hypothesis HJ : joined p a q.
  Hypothesis HI : indifferent a.
  Hypothesis Hwf : wf q.

  Let m := num_cand p.
  Lemma num_a : num_cand a = num_cand p. Proof using HJ. apply HJ. Qed.
  Lemma num_q : num_cand q = num_cand p. Proof using HJ. apply HJ. Qed.
  Definition cset (W : list nat) : Prop := NoDup W /\ forall c, In c W -> c < num_cand p.

  Lemma blank_wf : forall u, In u (voters a) -> NoDup (approved u) /\ forall c, In c (approved u) -> c < num_cand p.
  Proof using HJ Hwf.
    intros u Hu. destruct Hwf as [_ HF]. rewrite Forall_forall in HF. assert (I : In u (voters q)) by (destruct HJ as (_ & _ & ->); apply in_or_app; auto).
    destruct (HF u I) as (A & B & _). rewrite num_q in *. split; auto. intros c Hc. try (rewrite Forall_forall in *); auto.
  Qed.
  Lemma blank_all : forall u W, In u (voters a) -> (forall c, c < num_cand a -> In c (approved u)) -> cset W -> util u W = length W.
  Proof using HJ Hwf.
    intros u W Hu E [ND HR]. destruct (blank_wf u Hu) as [HN _]. unfold util, inter. apply Permutation_length. apply NoDup_Permutation; auto.
    - apply NoDup_filter. auto.
    - intros c. rewrite filter_In. rewrite mem_In. split; [tauto|]. intros Hc. split; auto. apply E. rewrite num_a. auto.
  Qed.
  Lemma blank_util : forall u W V, In u (voters a) -> cset W -> cset V -> length W = length V -> util u W = util u V.
  Proof using HJ HI Hwf.
    intros u W V Hu HW HV HL. destruct (HI u Hu) as [E|E]; [unfold util; rewrite E; reflexivity|]. rewrite !blank_all; auto.
  Qed.
  Lemma blank_approves : forall u c d, In u (voters a) -> c < num_cand p -> d < num_cand p -> approves u c = approves u d.
  Proof using HJ HI.
    intros u c d Hu Hc Hd. unfold approves. destruct (HI u Hu) as [E|E]; [rewrite E; reflexivity|].
    assert (A : forall x, x < num_cand p -> mem x (approved u) = true). { intros x Hx. apply mem_In, E. rewrite num_a. auto. } rewrite !A; auto.
  Qed.
  Lemma committee_cset : forall k W, is_committee p k W -> cset W /\ length W = k.
  Proof using. intros k W (A & B & C). split; auto. split; [apply ascending_NoDup; auto|]. rewrite Forall_forall in C. auto. Qed.
  Lemma blank_committee : forall k W, is_committee q k W <-> is_committee p k W.
  Proof using HJ. intros. apply (join_committee p a q HJ). Qed.

  Lemma blank_thiele : forall f W V, cset W -> cset V -> length W = length V -> (Thiele f a W == Thiele f a V)%Q.
  Proof using HJ HI Hwf. intros f W V HW HV HL. unfold Thiele. apply Qsum_map_ext. intros u Hu. rewrite (blank_util u W V); auto. reflexivity. Qed.
  Lemma blank_sum : forall (g : voter -> Q) c d, c < num_cand p -> d < num_cand p -> (Qsum (map g (supporters a c)) == Qsum (map g (supporters a d)))%Q.
  Proof using HJ HI.
    intros g c d Hc Hd. unfold supporters. rewrite !Qsum_filter. apply Qsum_map_ext. intros u Hu. rewrite (blank_approves u c d); auto. reflexivity.
  Qed.
  Lemma blank_support : forall c d, c < num_cand p -> d < num_cand p -> (support a c == support a d)%Q.
  Proof using HJ HI. intros. apply blank_sum; auto. Qed.
  Lemma blank_sav : forall c d, c < num_cand p -> d < num_cand p -> (sav_support a c == sav_support a d)%Q.
  Proof using HJ HI. intros. apply blank_sum; auto. Qed.
  Lemma blank_over : forall (t : nat -> Q) W V, (forall c d, c < num_cand p -> d < num_cand p -> (t c == t d)%Q) -> cset W -> cset V -> length W = length V ->
    (Qsum (map t W) == Qsum (map t V))%Q.
  Proof using.
    intros t W V Ht [_ HW] [_ HV]. revert V HV. induction W as [|c W IH]; intros [|d V] HV HL; cbn in HL; try lia; [reflexivity|].
    unfold Qsum in *. cbn [map fold_right]. assert (E : (t c == t d)%Q) by (apply Ht; [apply HW|apply HV]; left; reflexivity). rewrite E.
    assert (E' : (fold_right Qplus 0 (map t W) == fold_right Qplus 0 (map t V))%Q) by (apply IH; [intros; apply HW; right; auto|intros; apply HV; right; auto|lia]). rewrite E'. reflexivity.
  Qed.
  Lemma blank_maximises : forall k (s t u : list nat -> Q), (forall W, (u W == s W + t W)%Q) ->
    (forall W V, is_committee p k W -> is_committee p k V -> (t W == t V)%Q) -> forall W, maximises s p k W <-> maximises u q k W.
  Proof using HJ.
    intros k s t u E Ht W. unfold maximises. rewrite blank_committee. split; intros [HC H]; split; auto; intros V HV.
    - apply blank_committee in HV. rewrite !E. specialize (H V HV). specialize (Ht W V HC HV). lra.
    - pose proof (H V (proj2 (blank_committee k V) HV)) as HH. rewrite !E in HH. specialize (Ht W V HC HV). lra.
  Qed.
  Lemma blank_max_over : forall k (s t u : nat -> Q), (forall c, (u c == s c + t c)%Q) -> (forall c d, c < num_cand p -> d < num_cand p -> (t c == t d)%Q) ->
    forall W, maximises (fun W => Qsum (map s W)) p k W <-> maximises (fun W => Qsum (map u W)) q k W.
  Proof using HJ.
    intros k s t u E Ht. apply blank_maximises with (t := fun W => Qsum (map t W)).
    - intros W. apply sum_over_join. auto.
    - intros W V HW HV. destruct (committee_cset k W HW), (committee_cset k V HV). apply blank_over; auto. congruence.
  Qed.
  Lemma blank_thiele_max : forall f k W, maximises (Thiele f p) p k W <-> maximises (Thiele f q) q k W.
  Proof using HJ HI Hwf.
    intros f k. apply blank_maximises with (t := Thiele f a).
    - intros W. apply (thiele_join p a q HJ).
    - intros W V HW HV. destruct (committee_cset k W HW), (committee_cset k V HV). apply blank_thiele; auto. congruence.
  Qed.

  (** sequential and reverse-sequential Thiele methods *)
  Lemma blank_addition : forall f W c, cset W -> best_addition f p W c <-> best_addition f q W c.
  Proof using HJ HI Hwf.
    intros f W c HW. unfold best_addition. rewrite num_q. 
    assert (D : forall d, d < num_cand p -> ~ In d W -> c < num_cand p -> ~ In c W -> (Thiele f q (d :: W) <= Thiele f q (c :: W))%Q <-> (Thiele f p (d :: W) <= Thiele f p (c :: W))%Q).
    { intros d Hd Nd Hc Nc. rewrite !(thiele_join p a q HJ f).
      assert (T : forall x, x < num_cand p -> ~ In x W -> cset (x :: W)). { intros x Hx Nx. destruct HW as [ND HR]. split; [constructor; auto|]. intros y [<-|Hy]; auto. }
      pose proof (blank_thiele f (d :: W) (c :: W) (T d Hd Nd) (T c Hc Nc) eq_refl). lra. }
    split; intros (A & B & C); (split; [exact A|split; [exact B|]]); intros d Hd Nd; specialize (C d Hd Nd); apply D; auto.
  Qed.
  Lemma blank_greedy : forall f L, greedy_run f p L <-> greedy_run f q L.
  Proof using HJ HI Hwf.
    intros f L. split; intros H.
    - induction H; constructor; auto. apply blank_addition; auto. destruct (greedy_run_props _ _ _ H) as [A B]. rewrite Forall_forall in B. split; auto.
    - induction H; constructor; auto. apply blank_addition; auto. destruct (greedy_run_props _ _ _ H) as [A B]. rewrite Forall_forall in B. rewrite num_q in B. split; auto.
  Qed.
  Lemma blank_seq : forall f k W, seq_thiele_winner f p k W <-> seq_thiele_winner f q k W.
  Proof using HJ HI Hwf. intros f k W. unfold seq_thiele_winner. split; intros (L & H & R); exists L; (split; [apply blank_greedy; exact H|exact R]). Qed.
  Lemma without_length : forall c W, NoDup W -> In c W -> S (length (without c W)) = length W.
  Proof using.
    intros c W ND. induction ND as [|x W Hx ND IH]; intros Hc; [destruct Hc|]. cbn. destruct (Nat.eqb_spec x c) as [->|Hne]; cbn.
    - f_equal. unfold without. f_equal. apply filter_id. intros y Hy. destruct (Nat.eqb_spec y c); auto. subst. contradiction.
    - f_equal. destruct Hc as [->|Hc]; [congruence|]. apply IH. auto.
  Qed.
  Lemma blank_removal : forall f W c, cset W -> best_removal f p W c <-> best_removal f q W c.
  Proof using HJ HI Hwf.
    intros f W c HW. unfold best_removal.
    assert (T : forall x, cset (without x W)). { intros x. destruct HW as [ND HR]. split; [apply NoDup_filter; auto|]. intros y Hy. apply filter_In in Hy. apply HR. tauto. }
    assert (D : forall d, In d W -> In c W -> (Thiele f q (without d W) <= Thiele f q (without c W))%Q <-> (Thiele f p (without d W) <= Thiele f p (without c W))%Q).
    { intros d Hd Hc. rewrite !(thiele_join p a q HJ f). destruct HW as [ND HR]. pose proof (without_length d W ND Hd). pose proof (without_length c W ND Hc).
      pose proof (blank_thiele f (without d W) (without c W) (T d) (T c) ltac:(lia)). lra. }
    split; intros (A & B); (split; [exact A|]); intros d Hd; specialize (B d Hd); apply D; auto.
  Qed.
  Lemma blank_removals : forall f L, removal_run f p L <-> removal_run f q L.
  Proof using HJ HI Hwf.
    intros f L. split; intros H.
    - induction H; [rewrite <- num_q; constructor|]. constructor; auto. apply blank_removal; auto. destruct (removal_run_props _ _ _ H) as [A B]. rewrite Forall_forall in B. split; [apply ascending_NoDup|]; auto.
    - induction H; [rewrite num_q; constructor|]. constructor; auto. apply blank_removal; auto. destruct (removal_run_props _ _ _ H) as [A B]. rewrite Forall_forall in B. rewrite num_q in B. split; [apply ascending_NoDup|]; auto.
  Qed.
  Lemma blank_revseq : forall f k W, revseq_winner f p k W <-> revseq_winner f q k W.
  Proof using HJ HI Hwf. intros f k W. unfold revseq_winner. rewrite blank_removals. tauto. Qed.

  (** lexicographic rules *)
  Lemma lex_ge_shift : forall k (x y z z' : nat -> Q), (forall i, (z i == z' i)%Q) -> lex_ge k x y <-> lex_ge k (fun i => x i + z i)%Q (fun i => y i + z' i)%Q.
  Proof using.
    intros k x y z z' Hz. unfold lex_ge. split.
    - intros [H|(i & Hi & Hl & He)]; [left|right].
      + intros i Hi. rewrite (H i Hi), (Hz i). reflexivity.
      + exists i. split; auto. split; [specialize (Hz i); lra|]. intros j Hj. rewrite (He j Hj), (Hz j). reflexivity.
    - intros [H|(i & Hi & Hl & He)]; [left|right].
      + intros i Hi. specialize (H i Hi). specialize (Hz i). lra.
      + exists i. split; auto. split; [specialize (Hz i); lra|]. intros j Hj. specialize (He j Hj). specialize (Hz j). lra.
  Qed.
  Lemma blank_at_least : forall W V i, cset W -> cset V -> length W = length V -> (at_least_weight a W i == at_least_weight a V i)%Q.
  Proof using HJ HI Hwf.
    intros W V i HW HV HL. unfold at_least_weight, wsum. rewrite !Qsum_filter. apply Qsum_map_ext. intros u Hu. rewrite (blank_util u W V); auto. reflexivity.
  Qed.
  Lemma blank_lex : forall k W V, is_committee p k W -> is_committee p k V ->
    lex_ge k (at_least_weight p W) (at_least_weight p V) <-> lex_ge k (at_least_weight q W) (at_least_weight q V).
  Proof using HJ HI Hwf.
    intros k W V HW HV. destruct (committee_cset k W HW) as [A1 A2], (committee_cset k V HV) as [B1 B2].
    rewrite (lex_ge_shift k _ _ (at_least_weight a W) (at_least_weight a V)) by (intros i; apply blank_at_least; auto; congruence).
    split; apply lex_ge_ext; intros i; rewrite (at_least_join p a q HJ); reflexivity.
  Qed.
  Lemma blank_lexcc : forall k W, lexcc_winner p k W <-> lexcc_winner q k W.
  Proof using HJ HI Hwf.
    intros k W. unfold lexcc_winner. rewrite blank_committee. split; intros [HC H]; (split; [exact HC|]); intros V HV.
    - apply blank_committee in HV. apply blank_lex; auto.
    - apply blank_lex; auto. apply H. apply blank_committee. auto.
  Qed.
  Lemma blank_distance : forall k u W V, In u (voters a) -> is_committee p k W -> is_committee p k V -> distance (approved u) W = distance (approved u) V.
  Proof using HJ HI Hwf.
    intros k u W V Hu HW HV. assert (I : In u (voters q)) by (destruct HJ as (_ & _ & ->); apply in_or_app; auto).
    pose proof (distance_util q Hwf k u W I (proj2 (blank_committee k W) HW)). pose proof (distance_util q Hwf k u V I (proj2 (blank_committee k V) HV)).
    destruct (committee_cset k W HW) as [A1 A2], (committee_cset k V HV) as [B1 B2]. rewrite (blank_util u W V) in *; auto; lia.
  Qed.
  Lemma blank_distances : forall k W V d, is_committee p k W -> is_committee p k V -> voters_at_least a W d = voters_at_least a V d.
  Proof using HJ HI Hwf.
    intros k W V d HW HV. unfold voters_at_least. f_equal. apply filter_ext_in. intros u Hu. rewrite (blank_distance k u W V); auto.
  Qed.
  Lemma blank_lexmin : forall k W V, is_committee p k W -> is_committee p k V -> lexmin_le p W V <-> lexmin_le q W V.
  Proof using HJ HI Hwf.
    intros k W V HW HV. unfold lexmin_le.
    assert (E : forall d, voters_at_least q W d = voters_at_least p W d + voters_at_least a V d).
    { intros d. rewrite (distances_join p a q HJ). rewrite (blank_distances k W V d); auto. }
    assert (E' : forall d, voters_at_least q V d = voters_at_least p V d + voters_at_least a V d). { intros d. apply (distances_join p a q HJ). }
    split; (intros [H|(d & H1 & H2)]; [left|right; exists d; split]).
    - intros d. rewrite E, E', H. reflexivity.
    - rewrite E, E'. lia.
    - intros x Hx. rewrite E, E', H2; auto.
    - intros d. specialize (H d). rewrite E, E' in H. lia.
    - rewrite E, E' in H1. lia.
    - intros x Hx. specialize (H2 x Hx). rewrite E, E' in H2. lia.
  Qed.
  Lemma blank_lexminimaxav : forall k W, lexminimaxav_winner p k W <-> lexminimaxav_winner q k W.
  Proof using HJ HI Hwf.
    intros k W. unfold lexminimaxav_winner. rewrite blank_committee. split; intros [HC H]; (split; [exact HC|]); intros V HV.
    - apply blank_committee in HV. apply (blank_lexmin k); auto.
    - apply (blank_lexmin k); auto. apply H. apply blank_committee. auto.
  Qed.

  (** E Pluribus Hugo *)
  Lemma points_join : forall R c, (points q R c == points p R c + points a R c)%Q.
  Proof using HJ. intros R c. unfold points, supporters. destruct HJ as (_ & _ & ->). rewrite filter_app, map_app, Qsum_app. reflexivity. Qed.
  Lemma blank_weak : forall R c, cset R -> weak p R c <-> weak q R c.
  Proof using HJ HI.
    intros R c HR. unfold weak. assert (D : forall d, In c R -> In d R -> (points q R d < points q R c)%Q <-> (points p R d < points p R c)%Q).
    { intros d Hc Hd. rewrite !points_join. assert (points a R d == points a R c)%Q by (unfold points; apply blank_sum; apply HR; auto). lra. }
    split; intros [Hc H]; (split; [exact Hc|]); intros d d' Hd Hd' L L'; apply H; auto; apply D; auto.
  Qed.
  Lemma blank_eliminated : forall R c, cset R -> eliminated p R c <-> eliminated q R c.
  Proof using HJ HI.
    intros R c HR. unfold eliminated. rewrite <- blank_weak by auto.
    assert (D : forall d, In c R -> In d R -> (support q c <= support q d)%Q <-> (support p c <= support p d)%Q).
    { intros d Hc Hd. rewrite !(support_join p a q HJ). assert (support a d == support a c)%Q by (apply blank_support; apply HR; auto). lra. }
    split; intros [Hc H]; (split; [exact Hc|]); intros d Hd.
    - apply D; [apply Hc|apply Hd|]. apply H. apply blank_weak; auto.
    - apply D; [apply Hc|apply Hd|]. apply H. apply blank_weak; auto.
  Qed.
  Lemma reaches_cset : forall o k R, num_cand o = num_cand p -> eph_reaches o k R -> cset R.
  Proof using.
    intros o k R Ho H. induction H as [|R R' H IH HA HC HL].
    - split; [apply seq_NoDup|]. intros c Hc. apply in_seq in Hc. lia.
    - split; [apply ascending_NoDup; auto|]. intros c Hc. apply IH. apply HC. auto.
  Qed.
  Lemma blank_reaches : forall k R, eph_reaches p k R <-> eph_reaches q k R.
  Proof using HJ HI.
    intros k R. split; intros H; induction H as [|R R' H IH HA HC HL].
    - rewrite <- num_q. constructor.
    - apply eph_round with R; auto. intros c. rewrite HC. rewrite (blank_eliminated R c); [tauto|]. apply (reaches_cset p k); auto.
    - rewrite num_q. constructor.
    - apply eph_round with R; auto. intros c. rewrite HC. rewrite (blank_eliminated R c); [tauto|]. apply (reaches_cset q k); auto. apply num_q.
  Qed.
  Lemma blank_eph : forall k W, eph_winner p k W <-> eph_winner q k W.
  Proof using HJ HI.
    intros k W. unfold eph_winner. split; intros (R & HR & HC & Hi & H1 & H2); exists R.
    - assert (CS : cset R) by (apply (reaches_cset p k); auto). split; [apply blank_reaches; auto|]. split; [apply blank_committee; auto|]. split; [exact Hi|].
      split; [intros c Hc Nc; apply blank_eliminated; auto|]. intros S HA HS. apply H2; auto. intros c. rewrite HS. rewrite (blank_eliminated R c CS). tauto.
    - assert (CS : cset R) by (apply (reaches_cset q k); auto; apply num_q). split; [apply blank_reaches; auto|]. split; [apply blank_committee; auto|]. split; [exact Hi|].
      split; [intros c Hc Nc; apply blank_eliminated; auto|]. intros S HA HS. apply H2; auto. intros c. rewrite HS. rewrite (blank_eliminated R c CS). tauto.
  Qed.
End Blank.
