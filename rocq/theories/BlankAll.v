(** * Abstentions (C87): rules that distribute loads; the calls *)
From Coq Require Import String.
From Coq Require Import List Arith Bool ZArith QArith Lia Lqa Permutation Sorted.
From Verif Require Import Milp RulesSolver SpecLoads SolverPhragmen SolverCompute SolverLex RulesMonroe RulesMore SolverMore.
From Verif Require Import Prelude Misc Common MiscProofs Preferences Scores ScoresProofs Rule Spec SpecRules SpecMore Compute SpecCompute SpecSeq
  SpecMonroe ComputeProofs Guarantees ComputeAll SpecAll AllProofs Mono TieBreak SpecVary Vary VaryAll Join JoinAll Pareto SingleSeat SpecBlank Blank.
Import ListNotations.
Local Open Scope string_scope.
Open Scope nat_scope.
Local Open Scope list_scope.

Lemma combine_app : forall (A B : Type) (l1 l2 : list A) (r1 r2 : list B), length l1 = length r1 -> combine (l1 ++ l2) (r1 ++ r2) = combine l1 r1 ++ combine l2 r2.
Proof. intros A B l1. induction l1 as [|x l1 IH]; intros l2 [|y r1] r2 H; cbn in *; try lia; [reflexivity|]. f_equal. apply IH. lia. Qed.
Lemma filter_none : forall (A : Type) (f : A -> bool) l, (forall x, In x l -> f x = false) -> filter f l = [].
Proof. intros A f l. induction l as [|x l IH]; intros H; cbn; [reflexivity|]. rewrite (H x) by (left; reflexivity). apply IH. intros. apply H. right. auto. Qed.

Section Abstain.
  Variables p a q : profile.
  Hypothesis HJ : joined p a q.
  Hypothesis HA : abstain a.
  Let n := length (voters p).
  Let m := length (voters a).

  Lemma len_q : length (voters q) = n + m.
  Proof using HJ. destruct HJ as (_ & _ & ->). apply app_length. Qed.
  Lemma voter_old : forall i, i < n -> the_voter q i = the_voter p i.
  Proof using HJ. intros i Hi. unfold the_voter. destruct HJ as (_ & _ & ->). apply app_nth1. exact Hi. Qed.
  Lemma w_old : forall i, i < n -> w q i = w p i.
  Proof using HJ. intros. unfold w. rewrite voter_old; auto. Qed.
  Lemma likes_old : forall i c, i < n -> likes q i c = likes p i c.
  Proof using HJ. intros. unfold likes. rewrite voter_old; auto. Qed.
  Lemma likes_new : forall i c, n <= i -> likes q i c = false.
  Proof using HJ HA.
    intros i c Hi. unfold likes, approves, the_voter. destruct HJ as (_ & _ & E). rewrite E. rewrite app_nth2 by exact Hi.
    destruct (nth_in_or_default (i - length (voters p)) (voters a) (mkVoter [] 1 true)) as [H|H]; [rewrite (HA _ H); reflexivity|rewrite H; reflexivity].
  Qed.
  Lemma fans_abstain : forall c, fans q c = fans p c.
  Proof using HJ HA.
    intros c. unfold fans, voter_ids. rewrite len_q, seq_app, filter_app. rewrite (filter_none _ _ (seq (0 + n) m)).
    - rewrite app_nil_r. apply filter_ext_in. intros i Hi. apply in_seq in Hi. apply likes_old. lia.
    - intros i Hi. apply in_seq in Hi. apply likes_new. lia.
  Qed.
  Lemma fans_range : forall c i, In i (fans p c) -> i < n.
  Proof using p a. intros c i Hi. unfold fans, voter_ids in Hi. apply filter_In in Hi. destruct Hi as [Hi _]. apply in_seq in Hi. unfold n. clear -Hi. lia. Qed.
  Lemma fresh_abstain : forall W c, fresh q W c <-> fresh p W c.
  Proof using HJ. intros. unfold fresh. destruct HJ as (_ & -> & _). tauto. Qed.
  Lemma load_abstain : forall x y c, (forall i, i < n -> (x i == y i)%Q) -> (new_load q x c == new_load p y c)%Q.
  Proof using HJ HA.
    intros x y c H. unfold new_load, sum. rewrite fans_abstain.
    assert (E1 : (Qsum (map (fun i => w q i * x i) (fans p c)) == Qsum (map (fun i => w p i * y i) (fans p c)))%Q).
    { apply Qsum_map_ext. intros i Hi. apply fans_range in Hi. rewrite w_old, H by auto. reflexivity. }
    assert (E2 : (Qsum (map (w q) (fans p c)) == Qsum (map (w p) (fans p c)))%Q).
    { apply Qsum_map_ext. intros i Hi. apply fans_range in Hi. rewrite w_old by auto. reflexivity. }
    rewrite E1, E2. reflexivity.
  Qed.
  Lemma choice_abstain : forall W x y c, (forall i, i < n -> (x i == y i)%Q) -> phragmen_choice q W x c <-> phragmen_choice p W y c.
  Proof using HJ HA.
    intros W x y c H. unfold phragmen_choice. rewrite fresh_abstain, fans_abstain. destruct (0 <? length (fans p c)).
    - split; intros [Hf Hc]; (split; [exact Hf|]); intros d Hd Nd.
      + rewrite <- !(load_abstain x y) by auto. apply Hc; [apply fresh_abstain; auto|rewrite fans_abstain; auto].
      + rewrite !(load_abstain x y) by auto. apply Hc; [apply fresh_abstain; auto|rewrite fans_abstain in Nd; auto].
    - split; intros [Hf Hc]; (split; [exact Hf|]); intros d Hd.
      + rewrite <- fans_abstain. apply Hc. apply fresh_abstain; auto.
      + rewrite fans_abstain. apply Hc. apply fresh_abstain; auto.
  Qed.
  Lemma phragmen_there : forall L x, runs_from p (phragmen_choice p) (phragmen_update p) [] (fun _ => 0%Q) L x ->
    exists y, runs_from q (phragmen_choice q) (phragmen_update q) [] (fun _ => 0%Q) L y /\ forall i, i < n -> (y i == x i)%Q.
  Proof using HJ HA.
    induction 1 as [x Hx|W x c x' Hr (y & Hy & E) Hc Hu].
    - exists (fun _ => 0%Q). split; [constructor; intros i Hi; reflexivity|]. intros i Hi. symmetry. apply Hx. exact Hi.
    - exists (fun i => if likes q i c then new_load q y c else y i). split.
      + eapply run_step; [exact Hy|apply (choice_abstain W y x); auto|]. intros i Hi. reflexivity.
      + intros i Hi. rewrite (Hu i Hi). rewrite likes_old by auto. destruct (likes p i c); [apply load_abstain; auto|auto].
  Qed.
  Lemma phragmen_back : forall L y, runs_from q (phragmen_choice q) (phragmen_update q) [] (fun _ => 0%Q) L y ->
    runs_from p (phragmen_choice p) (phragmen_update p) [] (fun _ => 0%Q) L y.
  Proof using HJ HA.
    assert (S : forall i, i < length (voters p) -> i < length (voters q)) by (intros i Hi; rewrite len_q; unfold n; lia).
    induction 1 as [x Hx|W x c x' Hr IH Hc Hu].
    - constructor. intros i Hi. apply Hx. auto.
    - eapply run_step; [exact IH|apply (choice_abstain W x x); auto; intros; reflexivity|]. intros i Hi. rewrite (Hu i (S i Hi)). rewrite likes_old by auto.
      destruct (likes p i c); [apply load_abstain; intros; reflexivity|reflexivity].
  Qed.
  Lemma phragmen_abstain : forall k W, phragmen_winner p k W <-> phragmen_winner q k W.
  Proof using HJ HA.
    intros k W. unfold phragmen_winner, run_winner. split; intros (L & x & H & R).
    - destruct (phragmen_there L x H) as (y & Hy & _). exists L, y. auto.
    - exists L, x. split; [apply phragmen_back|]; auto.
  Qed.

  (** load distributions *)
  Lemma positions_abstain : with_positions q = with_positions p ++ combine (seq n m) (voters a).
  Proof using HJ.
    unfold with_positions. rewrite len_q, seq_app. destruct HJ as (_ & _ & ->). apply combine_app. apply seq_length.
  Qed.
  Lemma new_position : forall iv, In iv (combine (seq n m) (voters a)) -> approved (snd iv) = [].
  Proof using HA. intros [i v] H. apply in_combine_r in H. apply HA. auto. Qed.
  Lemma approvers_abstain : forall c, filter (fun iv : nat * voter => approves (snd iv) c) (with_positions q) = filter (fun iv => approves (snd iv) c) (with_positions p).
  Proof using HJ HA.
    intros c. rewrite positions_abstain, filter_app, (filter_none _ _ (combine (seq n m) (voters a))); [apply app_nil_r|].
    intros iv H. unfold approves. rewrite (new_position iv H). reflexivity.
  Qed.
  Lemma loads_abstain : forall W l, load_distribution q W l <-> load_distribution p W l.
  Proof using HJ HA. intros W l. unfold load_distribution. split; intros [H1 H2]; (split; [exact H1|]); intros c Hc; specialize (H2 c Hc); rewrite approvers_abstain in *; exact H2. Qed.
  Lemma load_nonneg : forall W l i v, load_distribution p W l -> (0 <= voter_load W l i v)%Q.
  Proof using. intros W l i v [H _]. unfold voter_load. apply Qsum_map_nonneg. intros c _. apply H. Qed.
  Lemma max_load_abstain : forall W b, voters p <> [] -> max_load q W b <-> max_load p W b.
  Proof using HJ HA.
    intros W b Hne. unfold max_load. split; intros (l & Hl & H); exists l; (split; [apply loads_abstain; exact Hl|]); intros i v Hi.
    - apply H. rewrite positions_abstain. apply in_or_app. auto.
    - rewrite positions_abstain in Hi. apply in_app_or in Hi. destruct Hi as [Hi|Hi]; [auto|].
      unfold voter_load. pose proof (new_position _ Hi) as E. cbn in E. rewrite E. cbn.
      assert (IE : exists v0, In (0, v0) (with_positions p)). { clear -Hne. unfold with_positions. destruct (voters p) as [|v0 r]; [congruence|]. exists v0. left. reflexivity. }
      destruct IE as [v0 I].
      specialize (H 0 v0 I). pose proof (load_nonneg W l 0 v0 Hl). lra.
  Qed.
  Lemma committee_abstain : forall k W, is_committee q k W <-> is_committee p k W.
  Proof using HJ. intros. apply (join_committee p a q HJ). Qed.
  Lemma minimaxphragmen_abstain : forall eps k W, voters p <> [] -> minimaxphragmen_winner eps p k W <-> minimaxphragmen_winner eps q k W.
  Proof using HJ HA.
    intros eps k W Hne. unfold minimaxphragmen_winner. rewrite committee_abstain. split; intros (HC & b & Hb & H); (split; [exact HC|]); exists b; (split; [apply max_load_abstain; auto|]); intros W' b' HW' Hb'.
    - apply (H W'); [apply committee_abstain; auto|apply max_load_abstain; auto].
    - apply (H W'); [apply committee_abstain; auto|apply max_load_abstain; auto].
  Qed.

  Lemma supports_abstain : forall W f, support_distribution q W f <-> support_distribution p W f.
  Proof using HJ HA.
    intros W f. unfold support_distribution. split; intros [H1 H2]; (split; [exact H1|]); intros i v Hi Hn.
    - apply H2; auto. rewrite positions_abstain. apply in_or_app. auto.
    - rewrite positions_abstain in Hi. apply in_app_or in Hi. destruct Hi as [Hi|Hi]; [auto|]. exfalso. apply Hn. pose proof (new_position _ Hi) as E. cbn in E. rewrite E. reflexivity.
  Qed.
  Lemma received_abstain : forall f c, received q f c = received p f c.
  Proof using HJ HA. intros. unfold received. rewrite approvers_abstain. reflexivity. Qed.
  Lemma maximin_abstain : forall W s, maximin_support q W s <-> maximin_support p W s.
  Proof using HJ HA.
    intros W s. unfold maximin_support. split; intros [(f & Hf & H) H']; split.
    - exists f. split; [apply supports_abstain; auto|]. intros c Hc. rewrite <- received_abstain. auto.
    - intros g s' Hg Hs. apply (H' g); [apply supports_abstain; auto|]. intros c Hc. rewrite received_abstain. auto.
    - exists f. split; [apply supports_abstain; auto|]. intros c Hc. rewrite received_abstain. auto.
    - intros g s' Hg Hs. apply (H' g); [apply supports_abstain; auto|]. intros c Hc. rewrite <- received_abstain. auto.
  Qed.
  Lemma maximin_choice_abstain : forall eps W x y c, maximin_choice eps q W x c <-> maximin_choice eps p W y c.
  Proof using HJ HA.
    intros eps W x y c. unfold maximin_choice. rewrite fresh_abstain. split; intros (Hf & s & Hs & H); (split; [exact Hf|]); exists s; (split; [apply maximin_abstain; auto|]); intros d s' Hd Hs'.
    - apply (H d); [apply fresh_abstain; auto|apply maximin_abstain; auto].
    - apply (H d); [apply fresh_abstain; auto|apply maximin_abstain; auto].
  Qed.
  Lemma maximin_runs : forall eps o o' L x, (forall W x y c, maximin_choice eps o' W x c <-> maximin_choice eps o W y c) ->
    runs_from o (maximin_choice eps o) (no_update o) [] (fun _ => 0%Q) L x -> runs_from o' (maximin_choice eps o') (no_update o') [] (fun _ => 0%Q) L (fun _ => 0%Q).
  Proof using.
    intros eps o o' L x HC H. induction H as [x Hx|W x c x' Hr IH Hc Hu].
    - constructor. intros i Hi. reflexivity.
    - eapply run_step; [exact IH|eapply HC; exact Hc|]. intros i Hi. reflexivity.
  Qed.
  Lemma maximin_winner_abstain : forall eps k W, maximin_winner eps p k W <-> maximin_winner eps q k W.
  Proof using HJ HA.
    intros eps k W. unfold maximin_winner, run_winner. split; intros (L & x & H & R); exists L, (fun _ => 0%Q); (split; [|exact R]); eapply maximin_runs; try exact H.
    - intros. apply maximin_choice_abstain.
    - intros. symmetry. apply maximin_choice_abstain.
  Qed.
  Lemma support_abstain : forall c, (support q c == support p c)%Q.
  Proof using HJ HA.
    intros c. rewrite (support_join p a q HJ). unfold support at 2, supporters. rewrite (filter_none _ _ (voters a)).
    - unfold wsum. cbn. ring.
    - intros u Hu. unfold approves. rewrite (HA u Hu). reflexivity.
  Qed.
  Lemma enough_abstain : forall k, enough_support q k -> enough_support p k.
  Proof using HJ HA. intros k H c Hc. destruct HJ as (_ & E & _). rewrite <- E in Hc. specialize (H c Hc). rewrite support_abstain in H. exact H. Qed.
  Lemma approved_abstain : length (approved_candidates q) <= length (approved_candidates p).
  Proof using HJ HA.
    apply NoDup_incl_length; [apply NoDup_nodup|].
    intros c Hc. apply approved_In in Hc. apply approved_In. destruct Hc as (v & Hv & Hc). destruct HJ as (_ & _ & E). rewrite E in Hv. apply in_app_or in Hv.
    destruct Hv as [Hv|Hv]; [exists v; auto|]. rewrite (HA v Hv) in Hc. destruct Hc.
  Qed.
End Abstain.

Section BlankCalls.
  Variable rnd : random.
  Variable nx : networkx.
  Variable sv : solvers.
  Variable e : env.
  Let e' := with_solvers nx sv e.

  Definition same_winners (p q : profile) (k : nat) (id alg : string) : Prop :=
    exists P R, listed_by e p k id alg P /\ listed_by e q k id alg R /\ forall W, P W <-> R W.

  Lemma indifferent_listed : forall p a q k id alg, joined p a q -> indifferent a -> wf q -> ignores_indifferent e q id alg -> same_winners p q k id alg.
  Proof using.
    intros p a q k id alg HJ HI Hw H. unfold same_winners. destruct H as [id alg H|id f H|id f H|alg H Hm].
    - destruct H.
      + do 2 eexists. split; [apply b_av|]. split; [apply b_av|]. apply (blank_max_over p a q HJ k _ (support a)); [apply (support_join p a q HJ)|apply (blank_support p a q HJ HI)].
      + destruct (joined_sub p a q _ HJ H) as [Hp _]. do 2 eexists. split; [apply b_sav; exact Hp|]. split; [apply b_sav; exact H|].
        apply (blank_max_over p a q HJ k _ (sav_support a)); [apply (sav_support_join p a q HJ)|apply (blank_sav p a q HJ HI)].
      + exists (maximises (Thiele f p) p k), (maximises (Thiele f q) q k). split; [eapply b_thiele; eauto|]. split; [eapply b_thiele; eauto|]. apply (blank_thiele_max p a q HJ HI Hw).
      + exists (maximises (Thiele f p) p k), (maximises (Thiele f q) q k). split; [eapply b_thiele_bb; eauto|]. split; [eapply b_thiele_bb; eauto|]. apply (blank_thiele_max p a q HJ HI Hw).
      + exists (maximises (Thiele f p) p k), (maximises (Thiele f q) q k). split; [eapply b_thiele_mip; eauto|]. split; [eapply b_thiele_mip; eauto|]. apply (blank_thiele_max p a q HJ HI Hw).
      + destruct (joined_sub p a q _ HJ H) as [Hp _]. exists (maximises (Thiele cc_w p) p k), (maximises (Thiele cc_w q) q k). split; [apply b_cc_cp; auto|]. split; [apply b_cc_cp; auto|]. apply (blank_thiele_max p a q HJ HI Hw).
      + do 2 eexists. split; [apply b_lexcc|]. split; [apply b_lexcc|]. apply (blank_lexcc p a q HJ HI Hw).
      + destruct (joined_granular p a q HJ H) as [Hp _]. do 2 eexists. split; [apply b_lexcc_gurobi; exact Hp|]. split; [apply b_lexcc_gurobi; exact H|]. apply (blank_lexcc p a q HJ HI Hw).
      + destruct (joined_sub p a q _ HJ H) as [Hp _]. do 2 eexists. split; [apply b_lexminimaxav; [exact Hp|auto]|]. split; [apply b_lexminimaxav; auto|]. apply (blank_lexminimaxav p a q HJ HI Hw).
      + do 2 eexists. split; [apply b_trivial|]. split; [apply b_trivial|]. intros W. symmetry. apply (blank_committee p a q HJ).
    - exists (seq_thiele_winner f p k), (seq_thiele_winner f q k). split; [apply b_seq; auto|]. split; [apply b_seq; auto|]. apply (blank_seq p a q HJ HI Hw).
    - exists (revseq_winner f p k), (revseq_winner f q k). split; [apply b_revseq; auto|]. split; [apply b_revseq; auto|]. apply (blank_revseq p a q HJ HI Hw).
    - do 2 eexists. split; [apply b_eph; [exact H|]|]. { destruct HJ as (_ & <- & _). exact Hm. } split; [apply b_eph; auto|]. apply (blank_eph p a q HJ HI).
  Qed.
  Lemma abstain_indifferent : forall a, abstain a -> indifferent a.
  Proof using. intros a H u Hu. left. auto. Qed.
  Lemma abstain_listed : forall p a q k id alg, joined p a q -> abstain a -> wf q -> voters p <> [] -> ignores_abstentions e q k id alg -> same_winners p q k id alg.
  Proof using.
    intros p a q k id alg HJ HA Hw Hne H. destruct H as [id alg H|alg H Hs|alg H1 H2 H3|alg H].
    - apply (indifferent_listed p a q); auto. apply abstain_indifferent. auto.
    - exists (phragmen_winner p k), (phragmen_winner q k). split; [apply b_seqphragmen; auto; apply (enough_abstain p a q HJ HA); auto|]. split; [apply b_seqphragmen; auto|].
      apply (phragmen_abstain p a q HJ HA).
    - exists (minimaxphragmen_winner CMP_ACCURACY p k), (minimaxphragmen_winner CMP_ACCURACY q k). split; [apply b_minimaxphragmen; auto|split; [apply b_minimaxphragmen; auto|]].
      + destruct (joined_sub p a q _ HJ H1). auto.
      + pose proof (approved_abstain p a q HJ HA). lia.
      + intros W. apply (minimaxphragmen_abstain p a q HJ HA). auto.
    - exists (maximin_winner CMP_ACCURACY p k), (maximin_winner CMP_ACCURACY q k). split; [apply b_maximin; auto|]. split; [apply b_maximin; auto|].
      apply (maximin_winner_abstain p a q HJ HA).
  Qed.

  Lemma same_result : forall p q k id alg, num_cand q = num_cand p -> same_winners p q k id alg -> libraries_ok p rnd nx sv e -> libraries_ok q rnd nx sv e ->
    valid_call p k false None -> valid_call q k false None ->
    compute rnd nx e' id q (Z.of_nat k) None (args alg false None) = compute rnd nx e' id p (Z.of_nat k) None (args alg false None).
  Proof using.
    intros p q k id alg EN (P & R & HP & HR & E) LP LQ Vp Vq. pose proof Vp as (Wp & Np & Kp & _). pose proof Vq as (Wq & Nq & Kq & _).
    destruct (listed_by_determined rnd nx sv e p k id alg P LP HP Wp Np Kp false None Vp) as (l & El & N & O & A & B).
    destruct (listed_by_determined rnd nx sv e q k id alg R LQ HR Wq Nq Kq false None Vq) as (l' & El' & N' & O' & A' & B').
    transitivity (Ok l'); [exact El'|]. transitivity (Ok l); [|symmetry; exact El]. f_equal. symmetry. apply printed_eq; auto.
    - apply Forall_forall. intros W HW. destruct (listed_by_committee e p k id alg P HP W (A W HW)) as [HH _]. exact HH.
    - intros W. split; intros HW; [apply B', E, A|apply B, E, A']; auto.
  Qed.

  Theorem indifferent_ok : forall p a q k id alg, joined p a q -> indifferent a -> ignores_indifferent e q id alg ->
    libraries_ok p rnd nx sv e -> libraries_ok q rnd nx sv e -> valid_call p k false None -> valid_call q k false None ->
    compute rnd nx e' id q (Z.of_nat k) None (args alg false None) = compute rnd nx e' id p (Z.of_nat k) None (args alg false None).
  Proof using.
    intros p a q k id alg HJ HI H Lp Lq Vp Vq. apply same_result; auto; [apply HJ|]. apply (indifferent_listed p a q); auto. apply Vq.
  Qed.
  Theorem abstain_ok : forall p a q k id alg, joined p a q -> abstain a -> ignores_abstentions e q k id alg ->
    libraries_ok p rnd nx sv e -> libraries_ok q rnd nx sv e -> valid_call p k false None -> valid_call q k false None ->
    compute rnd nx e' id q (Z.of_nat k) None (args alg false None) = compute rnd nx e' id p (Z.of_nat k) None (args alg false None).
  Proof using.
    intros p a q k id alg HJ HI H Lp Lq Vp Vq. apply same_result; auto; [apply HJ|]. apply (abstain_listed p a q); auto; apply Vp || apply Vq.
  Qed.
  (** minimax AV: the winners remain, others may win in addition *)
  Theorem indifferent_minimaxav_ok : forall p a q k alg, joined p a q -> indifferent a -> In alg ["gurobi"; "mip-gurobi"; "mip-cbc"; "ortools-cp"; "brute-force"] ->
    libraries_ok p rnd nx sv e -> libraries_ok q rnd nx sv e -> valid_call p k false None -> valid_call q k false None ->
    exists l l', compute rnd nx e' "minimaxav" p (Z.of_nat k) None (args alg false None) = Ok l /\
      compute rnd nx e' "minimaxav" q (Z.of_nat k) None (args alg false None) = Ok l' /\ incl l l'.
  Proof using.
    intros p a q k alg HJ HI Ha Lp Lq Vp Vq.
    destruct (irresolute_list rnd nx sv e p k _ alg _ Lp (b_minimaxav e p k alg Ha) Vp) as (l & El & Hl).
    destruct (irresolute_list rnd nx sv e q k _ alg _ Lq (b_minimaxav e q k alg Ha) Vq) as (l' & El' & Hl').
    exists l, l'. split; [exact El|]. split; [exact El'|]. intros W HW. apply Hl'. apply (minimaxav_join p a q HJ); [apply Hl; auto|]. apply Hl in HW. destruct HW as [HC _].
    pose proof (join_committee p a q HJ k) as JC. split; [apply JC; auto|].
    intros V d d' HV Hd Hd'. apply (proj1 (JC V)) in HV.
    assert (E : forall u, In u (voters a) -> distance (approved u) W = distance (approved u) V) by (intros u Hu; apply (blank_distance p a q HJ HI (proj1 Vq) k); auto).
    destruct Hd as (_ & D2 & D3), Hd' as (D1' & _). destruct (voters a) as [|u0 r] eqn:Ea; [rewrite D3 by reflexivity; lia|].
    destruct (D2 ltac:(discriminate)) as (u & Hu & <-). rewrite E by exact Hu. apply D1'. exact Hu.
  Qed.
End BlankCalls.
