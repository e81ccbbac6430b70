(** * More approvals (C66): the Method of Equal Shares *)
From Coq Require Import String.
From Coq Require Import List Arith Bool ZArith QArith Lia Lqa Permutation Sorted.
From Verif Require Import Milp RulesSolver SpecLoads SolverCompute SolverLex.
From Verif Require Import Prelude Misc Common MiscProofs Preferences Scores ScoresProofs Spec SpecRules Compute SpecCompute SpecSeq SpecAxioms
  SpecMonroe PhragmenProofs EnestroemProofs MesProofs AvPhase MesFinal ComputeProofs Guarantees Proportional
  ComputeAll SpecAll AllProofs Mono TieBreak SpecVary Vary VaryRuns.
Import ListNotations.
Local Open Scope string_scope.
Open Scope nat_scope.
Local Open Scope list_scope.

(** *** prices *)
Lemma purse_price : forall p x c, wf p -> (1 <= purse p x c)%Q -> exists rho, price_of p x c rho.
Proof.
  intros p x c Hw Hp. set (bl := map x (voter_ids p)).
  assert (Hag : agree p (nthQ bl) x).
  { intros i Hi. unfold bl, nthQ, voter_ids. rewrite nth_indep with (d' := x 0) by (rewrite map_length, seq_length; auto).
    rewrite map_nth, seq_nth by auto. reflexivity. }
  destruct (min_q_spec p bl c Hw) as (q & _ & Hq). destruct q as [q|].
  - apply (price_of_ext _ _ _ _ _ Hag) in Hq. exists q. auto.
  - rewrite (purse_agree p _ _ c Hag) in Hq. lra.
Qed.
Lemma mes_progress : forall p W x, wf p -> (exists d, mes_choice p W x d) \/ mes_stuck p W x.
Proof.
  intros p W x Hw.
  destruct (filter (fun d => Qle_bool 1 (purse p x d)) (others p W)) as [|a l] eqn:E.
  - right. intros d Hd. destruct (Qlt_le_dec (purse p x d) 1) as [|Hle]; auto. exfalso.
    assert (H : In d (filter (fun d => Qle_bool 1 (purse p x d)) (others p W))) by (apply filter_In; split; [apply others_fresh; auto|apply Qle_bool_iff; auto]).
    rewrite E in H. destruct H.
  - left. destruct (argmax_rel (fun d r => price_of p x d (- r)%Q) (filter (fun d => Qle_bool 1 (purse p x d)) (others p W))) as (d & b & Hd & Hb & Hmax).
    + rewrite E. discriminate.
    + intros d Hd. apply filter_In in Hd as [_ Hd]. apply Qle_bool_iff in Hd. destruct (purse_price p x d Hw Hd) as (rho & Hr). exists (- rho)%Q.
      eapply price_of_ext; [|]; [intros i _; reflexivity|]. destruct Hr as [A B]. split.
      * rewrite (collected_ext p x x d (- - rho) rho); [auto|intros i _; reflexivity|ring].
      * intros r Hr. apply B. rewrite Qopp_involutive in Hr. auto.
    + intros d b b' H1 H2. pose proof (price_unique _ _ _ _ _ H1 H2). lra.
    + apply filter_In in Hd as [Hd Hd']. apply others_fresh in Hd. exists d. split; auto. exists (- b)%Q. split; auto.
      intros f r Hf Hr. pose proof (price_purse _ _ _ _ Hr) as Hp.
      specialize (Hmax f (- r)%Q). assert (- r <= b)%Q; [|lra]. apply Hmax.
      * apply filter_In. split; [apply others_fresh; auto|apply Qle_bool_iff; auto].
      * destruct Hr as [A B]. split; [rewrite (collected_ext p x x f (- - r) r); [auto|intros i _; reflexivity|ring]|]. intros r' Hr'. apply B. rewrite Qopp_involutive in Hr'. auto.
Qed.
Lemma mes_update_exists : forall p W x d, mes_choice p W x d -> exists x', mes_update p W x d x'.
Proof. intros p W x d (_ & rho & Hr & _). eexists. exists rho. split; [exact Hr|]. intros i _. reflexivity. Qed.

(** every run can be continued to the end *)
Lemma mes_finish : forall p k start n L b, wf p -> runs_from p (mes_choice p) (mes_update p) [] start L b -> length L <= k -> k - length L <= n ->
  exists M b', mes_ends p k start (M ++ L) b'.
Proof.
  intros p k start n. induction n as [|n IH]; intros L b Hw Hr Hl Hn.
  - exists [], b. split; auto. cbn. left. lia.
  - destruct (Nat.eq_dec (length L) k) as [E|Hne]; [exists [], b; split; auto|].
    destruct (mes_progress p L b Hw) as [(d & Hd)|Hs].
    + destruct (mes_update_exists p L b d Hd) as (b' & Hu). destruct (IH (d :: L) b') as (M & b'' & HM); auto; [eapply run_step; eauto|cbn; lia|cbn; lia|].
      exists (M ++ [d]), b''. rewrite <- app_assoc. exact HM.
    + exists [], b. split; auto. cbn. right. split; [lia|auto].
Qed.

(** what a completion must be able to do *)
Definition fills (p : profile) (k : nat) (fill : completion) : Prop :=
  forall L b, NoDup L -> Forall (fun d => d < num_cand p) L -> length L < k -> exists W, fill L b W /\ incl L W.

Lemma no_completion_fills : forall p k, fills p k no_completion.
Proof. intros p k L b _ _ _. exists (isort L). split; [reflexivity|]. intros c Hc. apply isort_In. auto. Qed.
Lemma av_completion_fills : forall p k, wf p -> 1 <= k <= num_cand p -> fills p k (av_completion p k).
Proof.
  intros p k Hw Hk L b N R Hl.
  destruct (fill_av_ok p k (rev L) Hw (proj2 Hk)) with (a := @nil Q) as (ws & _ & Hne & _ & Hin).
  all: try (apply NoDup_rev; auto). all: try (rewrite rev_length; lia). all: try (apply Forall_rev; auto).
  destruct ws as [|V ws]; [congruence|]. exists (isort V).
  assert (H : In (isort V) (map isort (V :: ws))) by (left; auto). apply Hin in H. rewrite rev_involutive in H. destruct H as (A & B & C). split; [split; auto|auto].
Qed.
Lemma phragmen_extend : forall p L0 x0 k L x, runs_from p (phragmen_choice p) (phragmen_update p) L0 x0 L x -> length L <= k -> k <= num_cand p ->
  exists M y, runs_from p (phragmen_choice p) (phragmen_update p) L0 x0 (M ++ L) y /\ length (M ++ L) = k.
Proof.
  intros p L0 x0 k L x Hr Hl Hk. induction k as [|k IH].
  - exists [], x. split; auto. cbn. lia.
  - destruct (Nat.eq_dec (length L) (S k)) as [E|Hn]; [exists [], x; auto|]. destruct IH as (M & y & HM & EM); [lia|lia|].
    destruct (phragmen_progress p (M ++ L) y ltac:(lia)) as (d & Hd).
    eexists (d :: M), _. split; [|cbn; lia]. cbn. eapply run_step; [exact HM|exact Hd|]. intros i Hi. reflexivity.
Qed.
Lemma phragmen_completion_fills : forall p k, k <= num_cand p -> fills p k (phragmen_completion p k).
Proof.
  intros p k Hk L b N R Hl. destruct (phragmen_extend p L (fun i => - b i / w p i)%Q k L (fun i => - b i / w p i)%Q) as (M & y & HM & EM); [apply run_start; intros i Hi; reflexivity|lia|auto|].
  exists (isort (M ++ L)). split; [exists (M ++ L), y; auto|]. intros c Hc. apply isort_In, in_or_app. auto.
Qed.

Section MesGains.
  Variables (p q : profile) (c : nat).
  Hypothesis Hwp : wf p.
  Hypothesis Hwq : wf q.
  Hypothesis Hg : gains c p q.

  Lemma collected_other : forall b d r, d <> c -> (collected q b d r == collected p b d r)%Q.
  Proof using Hg.
    intros b d r Hd. unfold collected. rewrite (fans_other p q c Hg d Hd). apply sum_ext. intros i _. rewrite (w_gain p q c Hg). reflexivity.
  Qed.
  Lemma price_other : forall b d r, d <> c -> (price_of q b d r <-> price_of p b d r).
  Proof using Hg.
    intros b d r Hd. unfold price_of. rewrite collected_other by auto. split; intros [A B]; split; auto; intros r' Hr'; [rewrite <- collected_other|rewrite collected_other]; auto.
  Qed.
  Lemma collected_gain : forall b r, (forall i, i < length (voters p) -> (0 <= b i)%Q) -> (0 <= r)%Q -> (collected p b c r <= collected q b c r)%Q.
  Proof using Hwp Hg.
    intros b r Hb Hr. unfold collected. eapply Qle_trans; [|apply (sum_fans_gain p q c Hg)].
    - apply Qle_lteq. right. apply sum_ext. intros i _. rewrite (w_gain p q c Hg). reflexivity.
    - intros i Hi. apply Qmin_glb; [auto|]. rewrite (w_gain p q c Hg). pose proof (w_pos p i Hwp Hi). apply Qmult_le_0_compat; lra.
  Qed.
  Lemma price_gain : forall b r r', (forall i, i < length (voters p) -> (0 <= b i)%Q) -> price_of p b c r -> price_of q b c r' -> (r' <= r)%Q.
  Proof using Hwp Hg.
    intros b r r' Hb Hr Hr'. destruct (Qlt_le_dec r r') as [Hlt|]; auto. exfalso.
    pose proof (price_pos p Hwp b c r Hr) as Hpos. destruct Hr as [Hr _]. destruct Hr' as [_ Hr']. specialize (Hr' r Hlt).
    pose proof (collected_gain b r Hb ltac:(lra)). lra.
  Qed.
  Lemma mes_update_other : forall W b d b', d <> c -> mes_update p W b d b' -> mes_update q W b d b'.
  Proof using Hg.
    intros W b d b' Hd (rho & Hr & Hu). exists rho. split; [apply price_other; auto|]. intros i Hi. rewrite (agree_gain p q c Hg _ _ Hu i Hi). cbv beta.
    rewrite (likes_other p q c Hg i d Hd), (w_gain p q c Hg). reflexivity.
  Qed.
  Lemma not_candidate_unpriced : forall b r, num_cand p <= c -> price_of q b c r -> False.
  Proof using Hwq Hg.
    intros b r Hc Hr. assert (E : fans q c = []).
    { destruct (fans q c) as [|i F] eqn:E; auto. exfalso. assert (Hi : In i (fans q c)) by (rewrite E; left; auto).
      apply in_fans in Hi as [Hi Hl]. unfold likes, approves in Hl. apply mem_In in Hl. pose proof Hwq as [_ HF]. rewrite Forall_forall in HF.
      destruct (HF (the_voter q i) (the_voter_In q i Hi)) as (_ & HF' & _). rewrite Forall_forall in HF'. specialize (HF' c Hl). pose proof (gains_num p q c Hg). lia. }
    destruct Hr as [Hr _]. unfold collected in Hr. rewrite E in Hr. unfold sum in Hr. cbn in Hr. lra.
  Qed.
  (** along a run without [c] *)
  Lemma mes_runs_gain : forall start L b, (forall i, i < length (voters p) -> (0 <= start i)%Q) ->
    runs_from p (mes_choice p) (mes_update p) [] start L b ->
    (exists L' b', runs_from q (mes_choice q) (mes_update q) [] start L' b' /\ In c L' /\ length L' <= length L) \/
    (runs_from q (mes_choice q) (mes_update q) [] start L b /\ ~ In c L).
  Proof using Hwp Hwq Hg.
    intros start L b Hs Hr. induction Hr as [b Hb|W b d b' Hr IH Hd Hu].
    - right. split; [|intros []]. apply run_start. apply (agree_gain p q c Hg). auto.
    - destruct IH as [(L' & y & H1 & H2 & H3)|[H1 H2]]; [left; exists L', y; split; auto; split; auto; cbn; lia|].
      pose proof (run_nonneg p start W b Hr Hs) as Hb.
      assert (HC : mes_choice q W b c -> exists L' y, runs_from q (mes_choice q) (mes_update q) [] start L' y /\ In c L' /\ length L' <= length (d :: W)).
      { intros Hc. destruct (mes_update_exists q W b c Hc) as (y & Hy). exists (c :: W), y. split; [eapply run_step; eauto|]. split; [left; auto|auto]. }
      destruct Hd as (Hf & rho & Hrho & Hmin). destruct (Nat.eq_dec d c) as [Edc|Hdc].
      + subst d. left. apply HC. destruct (purse_price q b c Hwq) as (r & Hr').
        { pose proof (price_purse _ _ _ _ Hrho). assert (purse p b c <= purse q b c)%Q; [|lra]. apply (sum_fans_gain p q c Hg). auto. }
        pose proof (price_gain b rho r Hb Hrho Hr') as Hle. split; [apply (fresh_gain p q c Hg); auto|]. exists r. split; auto. intros a r0 Ha Hr0.
        destruct (Nat.eq_dec a c) as [->|Hac]; [rewrite (price_unique _ _ _ _ _ Hr' Hr0); apply Qle_refl|].
        apply price_other in Hr0; auto. apply (fresh_gain p q c Hg) in Ha. specialize (Hmin a r0 Ha Hr0). lra.
      + assert (Hrho' : price_of q b d rho) by (apply price_other; auto).
        assert (HD : (forall r, price_of q b c r -> (rho <= r)%Q) -> mes_choice q W b d).
        { intros H. split; [apply (fresh_gain p q c Hg); auto|]. exists rho. split; auto. intros a r0 Ha Hr0. destruct (Nat.eq_dec a c) as [->|Hac]; [auto|].
          apply price_other in Hr0; auto. apply (fresh_gain p q c Hg) in Ha. apply (Hmin a r0); auto. }
        assert (Hstep : mes_choice q W b d -> runs_from q (mes_choice q) (mes_update q) [] start (d :: W) b' /\ ~ In c (d :: W)).
        { intros H. split; [eapply run_step; [exact H1|exact H|apply mes_update_other; auto]|]. intros [E|E]; auto. }
        destruct (Qlt_le_dec (purse q b c) 1) as [Hlt|Hle]; [right; apply Hstep, HD; intros r Hr'; pose proof (price_purse _ _ _ _ Hr'); lra|].
        destruct (purse_price q b c Hwq Hle) as (r & Hr'). destruct (Qlt_le_dec r rho) as [Hlt|Hge].
        * left. apply HC. destruct (le_lt_dec (num_cand p) c) as [Hcm|Hcm]; [destruct (not_candidate_unpriced b r Hcm Hr')|].
          split; [apply (fresh_gain p q c Hg); split; auto|]. exists r. split; auto. intros a r0 Ha Hr0.
          destruct (Nat.eq_dec a c) as [->|Hac]; [rewrite (price_unique _ _ _ _ _ Hr' Hr0); apply Qle_refl|].
          apply price_other in Hr0; auto. apply (fresh_gain p q c Hg) in Ha. specialize (Hmin a r0 Ha Hr0). lra.
        * right. apply Hstep, HD. intros r0 Hr0. rewrite (price_unique _ _ _ _ _ Hr0 Hr'). auto.
  Qed.

  Definition fill_gains (k : nat) (fp fq : completion) : Prop := forall L b W, NoDup L -> Forall (fun d => d < num_cand p) L -> ~ In c L -> length L < k ->
    (forall i, i < length (voters p) -> (0 <= b i)%Q) -> mes_stuck p L b -> mes_stuck q L b -> fp L b W -> In c W -> exists V, fq L b V /\ In c V.

  Lemma mes_gains : forall start k fp fq W, (forall i, i < length (voters p) -> (0 <= start i)%Q) -> k <= num_cand p -> fills q k fq -> fill_gains k fp fq ->
    mes_winner p k start fp W -> In c W -> exists V, mes_winner q k start fq V /\ In c V.
  Proof using Hwp Hwq Hg.
    intros start k fp fq W Hs Hk Hfq Hfg (L & b & [Hr Hend] & H1 & H2) Hc.
    assert (Hlk : length L <= k) by lia.
    assert (HE : forall L' b', runs_from q (mes_choice q) (mes_update q) [] start L' b' -> In c L' -> length L' <= k -> exists V, mes_winner q k start fq V /\ In c V).
    { intros L' b' Hr' Hc' Hl'. destruct (mes_finish q k start (k - length L') L' b' Hwq Hr' Hl' ltac:(lia)) as (M & y & HM).
      destruct (runs_ok q (mes_choice q) (mes_update q) ltac:(intros A x a [Ha _]; exact Ha) _ _ _ (proj1 HM)) as [N R].
      destruct HM as [HM [E|[Hlt Hst]]].
      - exists (isort (M ++ L')). split; [|apply isort_In, in_or_app; auto]. exists (M ++ L'), y. split; [split; auto|]. split; [auto|lia].
      - destruct (Hfq (M ++ L') y N R Hlt) as (V & HV & HI). exists V. split; [|apply HI, in_or_app; auto].
        exists (M ++ L'), y. split; [split; auto|]. split; [lia|auto]. }
    destruct (mes_runs_gain start L b Hs Hr) as [(L' & b' & Hr' & Hc' & Hl')|[Hr' Hn]]; [apply (HE L' b'); auto; lia|].
    destruct Hend as [E|[Hlt Hst]]; [rewrite (H1 E), isort_In in Hc; tauto|].
    destruct (runs_ok p (mes_choice p) (mes_update p) ltac:(intros A x a [Ha _]; exact Ha) _ _ _ Hr) as [N R].
    destruct (mes_progress q L b Hwq) as [(d & Hd)|Hst'].
    - destruct (Nat.eq_dec d c) as [->|Hdc].
      + destruct (mes_update_exists q L b c Hd) as (b' & Hu). apply (HE (c :: L) b'); [eapply run_step; eauto|left; auto|cbn; lia].
      + exfalso. destruct Hd as (Hf & r & Hr0 & _). apply price_other in Hr0; auto. apply (fresh_gain p q c Hg) in Hf. specialize (Hst d Hf).
        pose proof (price_purse _ _ _ _ Hr0). lra.
    - destruct (Hfg L b W N R Hn Hlt (run_nonneg p start L b Hr Hs) Hst Hst' (H2 Hlt) Hc) as (V & HV & HcV).
      exists V. split; auto. exists L, b. split; [split; auto|]. split; [lia|auto].
  Qed.

  Lemma no_completion_gains : forall k, fill_gains k no_completion no_completion.
  Proof using. intros k L b W _ _ _ _ _ _ _ -> Hc. exists (isort L). split; [reflexivity|auto]. Qed.
  Lemma support_other : forall d, d <> c -> (support q d == support p d)%Q.
  Proof using Hg.
    intros d Hd. rewrite !support_fans. rewrite (fans_other p q c Hg d Hd). apply sum_ext. intros i _. rewrite (w_gain p q c Hg). reflexivity.
  Qed.
  Lemma support_gain : (support p c <= support q c)%Q.
  Proof using Hwp Hg.
    rewrite !support_fans. eapply Qle_trans; [apply (sum_fans_gain p q c Hg); intros i Hi; apply Qlt_le_weak, w_pos; auto|].
    apply Qle_lteq. right. apply sum_ext. intros i _. rewrite (w_gain p q c Hg). reflexivity.
  Qed.
  Lemma av_completion_gains : forall k, fill_gains k (av_completion p k) (av_completion q k).
  Proof using Hwp Hg.
    intros k L b W _ _ _ _ _ _ _ (A & B & C) Hc. exists W. split; auto. pose proof (gains_num p q c Hg) as Hm. split; [unfold is_committee in *; rewrite Hm; auto|]. split; auto.
    intros a d Ha HaL Hd HdW. rewrite Hm in Hd. specialize (C a d Ha HaL Hd HdW). rewrite support_other by (intros ->; auto).
    destruct (Nat.eq_dec a c) as [->|Hac]; [pose proof support_gain; lra|rewrite support_other by auto; auto].
  Qed.

  (** sequential Phragmén with starting loads *)
  Definition level (o : profile) (L : list nat) (x : nat -> Q) (M : Q) : Prop :=
    (forall i, i < length (voters o) -> (x i <= M)%Q) /\ (forall d, fresh o L d -> fans o d <> [] -> (M <= new_load o x d)%Q).
  Lemma level_step : forall L x d x' M, level p L x M -> phragmen_choice p L x d -> phragmen_update p L x d x' -> exists M', level p (d :: L) x' M'.
  Proof using Hwp.
    intros L x d x' M [HM1 HM2] [Hdf Hd] Hu. destruct (fans p d) as [|i0 F0] eqn:Ed.
    - exists M. split.
      + intros i Hi. rewrite (Hu i Hi). cbv beta. destruct (likes p i d) eqn:El; [|auto]. exfalso.
        assert (H : In i (fans p d)) by (apply in_fans; auto). rewrite Ed in H. destruct H.
      + intros a [Ha1 Ha2] Ha3. exfalso. apply Ha3. apply Hd. split; auto. intro; apply Ha2; right; auto.
    - cbn [length Nat.ltb Nat.leb] in Hd. assert (HMM : (M <= new_load p x d)%Q) by (apply HM2; auto; rewrite Ed; discriminate). exists (new_load p x d). split.
      + intros i Hi. rewrite (Hu i Hi). cbv beta. destruct (likes p i d); [apply Qle_refl|]. specialize (HM1 i Hi). lra.
      + intros a [Ha1 Ha2] Ha3. eapply Qle_trans; [apply (Hd a); auto; split; auto; intro; apply Ha2; right; auto|].
        apply new_load_mono; auto. intros i Hi. rewrite (Hu i Hi). cbv beta. specialize (HM1 i Hi). destruct (likes p i d); lra.
  Qed.
  Lemma phragmen_runs_gain : forall L0 x0 M0 L x, ~ In c L0 -> level p L0 x0 M0 -> runs_from p (phragmen_choice p) (phragmen_update p) L0 x0 L x ->
    (exists L' x', runs_from q (phragmen_choice q) (phragmen_update q) L0 x0 L' x' /\ In c L' /\ length L' <= length L) \/
    (runs_from q (phragmen_choice q) (phragmen_update q) L0 x0 L x /\ ~ In c L /\ exists M, level p L x M).
  Proof using Hwp Hwq Hg.
    intros L0 x0 M0 L x Hc0 HM0 Hr. induction Hr as [x Hx|W x d x' Hr IH Hd Hu].
    - right. split; [apply run_start; apply (agree_gain p q c Hg); auto|]. split; auto. exists M0. destruct HM0 as [A B]. split.
      + intros i Hi. rewrite (Hx i Hi). auto.
      + intros a Ha Hf. rewrite (new_load_ext p x x0 a Hx). apply B; auto.
    - destruct IH as [(L' & y & H1 & H2 & H3)|(H1 & H2 & M & HM)]; [left; exists L', y; split; auto; split; auto; cbn; lia|].
      assert (HC : phragmen_choice q W x c -> exists L' y, runs_from q (phragmen_choice q) (phragmen_update q) L0 x0 L' y /\ In c L' /\ length L' <= length (d :: W)).
      { intros Hc. eexists (c :: W), _. split; [eapply run_step; [exact H1|exact Hc|intros i Hi; reflexivity]|]. split; [left; auto|auto]. }
      destruct (Nat.eq_dec d c) as [Edc|Hdc].
      + subst d. left. apply HC. destruct HM as [A B]. apply (phragmen_same p q c Hwp Hwq Hg W x M); auto.
      + destruct (phragmen_other p q c Hwp Hwq Hg W x d H2 Hd Hdc) as [Ho|Ho]; [|left; apply HC; auto].
        right. split; [eapply run_step; [exact H1|exact Ho|apply (phragmen_update_other p q c Hg); auto]|]. split; [intros [E|E]; auto|].
        eapply level_step; eauto.
  Qed.
  Lemma phragmen_completion_gains : forall k, k <= num_cand p -> fill_gains k (phragmen_completion p k) (phragmen_completion q k).
  Proof using Hwp Hwq Hg.
    intros k Hk L b W N R Hc Hl Hb Hst _ (L1 & x & Hr & Hl1 & ->) HcW. rewrite isort_In in HcW.
    assert (HM : level p L (fun i => - b i / w p i)%Q 0).
    { split.
      - intros i Hi. pose proof (w_pos p i Hwp Hi). specialize (Hb i Hi). apply Qle_shift_div_r; auto. lra.
      - intros d Hd Hf. pose proof (fans_weight_pos p d Hwp Hf). unfold new_load. apply Qle_shift_div_l; auto.
        assert (E : (sum (fans p d) (fun i => w p i * (- b i / w p i)) == - purse p b d)%Q).
        { unfold purse. setoid_replace (- sum (fans p d) b)%Q with (sum (fans p d) (fun i => 0 - b i))%Q.
          - apply sum_ext. intros i Hi. apply in_fans in Hi as [Hi _]. pose proof (w_pos p i Hwp Hi). field. lra.
          - rewrite sum_minus, sum_const0. ring. }
        rewrite E. specialize (Hst d Hd). lra. }
    destruct (phragmen_runs_gain L _ 0%Q L1 x Hc HM Hr) as [(L' & x' & H1 & H2 & H3)|(_ & H & _)]; [|tauto].
    assert (Hrq : runs_from q (phragmen_choice q) (phragmen_update q) L (fun i => - b i / w q i)%Q L' x').
    { clear - H1 Hg. remember L as L0. induction H1 as [x Hx|V x d x' H IH Hd Hu]; [apply run_start|eapply run_step; eauto].
      intros i Hi. rewrite (Hx i Hi). rewrite (w_gain p q c Hg). reflexivity. }
    destruct (phragmen_extend q L _ k L' x' Hrq) as (M & y & HMr & EM); [lia|rewrite (gains_num p q c Hg); auto|].
    exists (isort (M ++ L')). split; [exists (M ++ L'), y; auto|]. apply isort_In, in_or_app. auto.
  Qed.
  Lemma equal_share_gain : forall k i, (equal_share q k i == equal_share p k i)%Q.
  Proof using Hg. intros k i. unfold equal_share. rewrite (w_gain p q c Hg), (gains_wsum p q c Hg). reflexivity. Qed.
  Lemma mes_winner_start : forall o k s s' F W, (forall i, s i = s' i) -> mes_winner o k s F W -> mes_winner o k s' F W.
  Proof using.
    intros o k s s' F W E (L & b & [Hr He] & H). exists L, b. split; auto. split; auto.
    clear - E Hr. induction Hr as [x Hx|V x d x' H IH Hd Hu]; [apply run_start; intros i Hi; rewrite <- E; auto|eapply run_step; eauto].
  Qed.
  Lemma mes_all_gains : forall k fp fq W, k <= num_cand p -> fills q k fq -> fill_gains k fp fq ->
    mes_winner p k (equal_share p k) fp W -> In c W -> exists V, mes_winner q k (equal_share q k) fq V /\ In c V.
  Proof using Hwp Hwq Hg.
    intros k fp fq W Hk Hf Hfg HW Hc.
    destruct (mes_gains (equal_share p k) k fp fq W ltac:(intros; apply equal_share_nonneg; auto) Hk Hf Hfg HW Hc) as (V & HV & HcV). exists V. split; auto.
    eapply mes_winner_start; [|exact HV]. intros i. unfold equal_share. rewrite (w_gain p q c Hg), (gains_wsum p q c Hg). reflexivity.
  Qed.
End MesGains.
