(** * Method of Equal Shares with each completion *)
From Coq Require Import String.
From Coq Require Import List Arith Bool ZArith QArith Qround Lia Lqa Permutation Sorted Setoid.
From Verif Require Import Prelude Misc MiscProofs Preferences Scores Spec ScoresProofs Search RulesThiele
  Common ThieleProofs SpecRules OptProofs SpecSeq RulesSeq SeqProofs PhragmenProofs EnestroemProofs RulesMes PoolProofs
  MesProofs MesLoop AvPhase.
Import ListNotations.
Open Scope nat_scope.

(** ** Runs that break ties lexicographically are unique *)
Section Determinism.
  Variable p : profile.
  Variable choice : list nat -> (nat -> Q) -> nat -> Prop.
  Variable update : list nat -> (nat -> Q) -> nat -> (nat -> Q) -> Prop.
  Hypothesis choice_ext : forall W x y c, agree p x y -> choice W x c -> choice W y c.
  Hypothesis update_fun : forall W x y c x' y', agree p x y -> choice W x c ->
    update W x c x' -> update W y c y' -> agree p x' y'.

  Lemma lex_runs_longer : forall L0 x0 L x, lex_runs_from p choice update L0 x0 L x -> length L0 <= length L.
  Proof using. induction 1; simpl; lia. Qed.

  Lemma lex_runs_det : forall L0 x0 L x, lex_runs_from p choice update L0 x0 L x -> forall L' x',
    lex_runs_from p choice update L0 x0 L' x' -> length L = length L' -> L = L' /\ agree p x x'.
  Proof using choice_ext update_fun.
    induction 1 as [x Hx|W x c x1 H IH Hc Hmin Hu]; intros L' x' H' Hl.
    - destruct H' as [x' Hx'|W' y c' x' H' Hc' Hm' Hu'].
      + split; auto. eapply agree_trans; [exact Hx|apply agree_sym; auto].
      + apply lex_runs_longer in H'. simpl in Hl. lia.
    - destruct H' as [x' Hx'|W' y c' x' H' Hc' Hm' Hu'].
      + apply lex_runs_longer in H. simpl in Hl. lia.
      + destruct (IH W' y H') as [-> Ha]; [simpl in Hl; lia|].
        assert (c = c').
        { apply Nat.le_antisymm.
          - apply Hmin. eapply choice_ext; [apply agree_sym; exact Ha|auto].
          - apply Hm'. eapply choice_ext; [exact Ha|auto]. }
        subst c'. split; auto. eapply update_fun; eauto.
  Qed.

  Lemma lex_run_winner_unique : forall L0 x0 k W W', lex_run_winner p choice update L0 x0 k W ->
    lex_run_winner p choice update L0 x0 k W' -> W = W'.
  Proof using choice_ext update_fun.
    intros L0 x0 k W W' (L & x & H & Hl & ->) (L' & x' & H' & Hl' & ->).
    destruct (lex_runs_det _ _ _ _ H _ _ H'); [lia|congruence].
  Qed.
End Determinism.

Lemma set_same_refl : forall W : list nat, set_same W W.
Proof. intros W x. tauto. Qed.

Lemma phragmen_lex_unique : forall p L0 x0 k W W',
  lex_run_winner p (phragmen_choice p) (phragmen_update p) L0 x0 k W ->
  lex_run_winner p (phragmen_choice p) (phragmen_update p) L0 x0 k W' -> W = W'.
Proof.
  intros p L0 x0 k W W'. apply (lex_run_winner_unique p (phragmen_choice p) (phragmen_update p)).
  - intros V x y c Ha Hc. eapply (phragmen_choice_ext p V V); eauto. apply set_same_refl.
  - intros V x y c x' y' Ha Hc Hu Hu'. exact (phragmen_update_fun p V V x y c x' y' (set_same_refl V) Ha Hc Hu Hu').
Qed.

(** a maximal MES run with lexicographic tie-breaking is unique *)
Lemma mes_choice_price : forall p W b c, mes_choice p W b c -> fresh p W c /\ (1 <= purse p b c)%Q.
Proof. intros p W b c (H & rho & Hp & _). split; auto. eapply price_purse; eauto. Qed.

Lemma lex_split : forall p ch up L0 x0 L x, lex_runs_from p ch up L0 x0 L x -> forall n, length L0 <= n -> n < length L ->
  exists L' x' c, lex_runs_from p ch up L0 x0 L' x' /\ length L' = n /\ ch L' x' c.
Proof.
  induction 1 as [x Hx|W x c x1 H IH Hc Hmin Hu]; intros n H0 Hn; simpl in *; [lia|].
  destruct (Nat.eq_dec n (length W)) as [->|Hne]; [exists W, x, c; auto|].
  apply IH; lia.
Qed.

Lemma mes_lex_ends_unique : forall p k start L b L' b', mes_lex_ends p k start L b -> mes_lex_ends p k start L' b' ->
  L = L' /\ agree p b b'.
Proof.
  intros p k start.
  assert (Hce : forall W x y c, agree p x y -> mes_choice p W x c -> mes_choice p W y c).
  { intros. eapply mes_choice_ext; eauto. apply set_same_refl. }
  assert (Huf : forall W x y c x' y', agree p x y -> mes_choice p W x c ->
            mes_update p W x c x' -> mes_update p W y c y' -> agree p x' y').
  { intros V x y c x' y' Ha Hc Hu Hu'. exact (mes_update_fun p V V x y c x' y' (set_same_refl V) Ha Hc Hu Hu'). }
  assert (Hlt : forall L b L' b', mes_lex_ends p k start L b -> mes_lex_ends p k start L' b' -> length L' <= length L).
  { intros L b L' b' [Hr He] [Hr' He'].
    destruct (Nat.le_gt_cases (length L') (length L)) as [|Hgt]; auto. exfalso.
    destruct He as [He|[He Hs]]; [destruct He'; lia|].
    destruct (lex_split _ _ _ _ _ _ _ Hr' (length L)) as (M & x & c & HM & HlM & Hc); [simpl; lia|lia|].
    destruct (lex_runs_det p (mes_choice p) (mes_update p) Hce Huf _ _ _ _ HM _ _ Hr HlM) as [-> Ha].
    destruct (mes_choice_price _ _ _ _ (Hce _ _ _ _ Ha Hc)) as [Hf Hp]. specialize (Hs c Hf). lra. }
  intros L b L' b' H H'. pose proof (Hlt _ _ _ _ H H'). pose proof (Hlt _ _ _ _ H' H).
  destruct H as [Hr _], H' as [Hr' _].
  apply (lex_runs_det p (mes_choice p) (mes_update p) Hce Huf _ _ _ _ Hr _ _ Hr'). lia.
Qed.

(** ** The completions *)
Section Fill.
  Variables (p : profile) (k : nat).
  Hypothesis Hw : wf p.
  Hypothesis Hk : 1 <= k <= num_cand p.

  Lemma no_completion_ext : forall L x y W, agree p x y -> no_completion L x W -> no_completion L y W.
  Proof using. intros. auto. Qed.

  Lemma fill_none_ok : forall C a, MGood p C a ->
    exists ws, fill_none C a = Ok ws /\ ws <> [] /\ Forall (@NoDup nat) ws /\
      forall W, In W (map isort ws) <-> no_completion (rev C) (nthQ a) W.
  Proof using.
    intros C a (H & _). exists [C]. split; auto. split; [discriminate|]. split; [repeat constructor; auto|].
    intro W. unfold no_completion. rewrite isort_rev. simpl. split; [intros [H1|[]]; auto|auto].
  Qed.

  Lemma av_completion_ext : forall L x y W, agree p x y -> av_completion p k L x W -> av_completion p k L y W.
  Proof using. intros. auto. Qed.

  Definition start_load (b : nat -> Q) (i : nat) : Q := (- b i / w p i)%Q.
  Lemma start_load_ext : forall x y, agree p x y -> agree p (start_load x) (start_load y).
  Proof using. intros x y H i Hi. unfold start_load. rewrite (H i Hi). reflexivity. Qed.
  Lemma phragmen_completion_ext : forall L x y W, agree p x y ->
    phragmen_completion p k L x W -> phragmen_completion p k L y W.
  Proof using. intros L x y W H. apply (proj1 (run_winner_start_ext p _ _ _ _ _ k W (start_load_ext x y H))). Qed.
  Lemma phragmen_lex_completion_ext : forall L x y W, agree p x y ->
    phragmen_lex_completion p k L x W -> phragmen_lex_completion p k L y W.
  Proof using. intros L x y W H. apply (proj1 (lex_run_winner_start_ext p _ _ _ _ _ k W (start_load_ext x y H))). Qed.

  Let loads (a : list Q) := map (fun iv => (- nthQ a (fst iv) / weight (snd iv))%Q) (enum_voters p).
  Lemma loads_agree : forall a, agree p (nthQ (loads a)) (start_load (nthQ a)).
  Proof using. intros a i Hi. unfold loads. rewrite nthQ_enum by auto. reflexivity. Qed.

  Lemma loads_good : forall C a, MGood p C a -> PGood p k C (loads a).
  Proof using Hw.
    intros C a (A & B & H). split; auto. split; auto. intros i Hi. rewrite (loads_agree a i Hi). unfold start_load.
    specialize (H i Hi). pose proof (w_pos p i Hw Hi).
    assert (0 <= Qnat k)%Q by apply Qnat_nonneg. assert (0 <= Qnat (length C))%Q by apply Qnat_nonneg.
    assert (0 <= Qnat (k + 1))%Q by apply Qnat_nonneg.
    assert (0 <= nthQ a i / w p i)%Q by (apply Qle_shift_div_l; lra).
    assert (E : (- nthQ a i / w p i == - (nthQ a i / w p i))%Q) by (field; lra). rewrite E. 
    assert (0 <= Qnat k * (nthQ a i / w p i))%Q by (apply Qmult_le_0_compat; auto).
    assert (0 <= Qnat (length C) * Qnat (k + 1))%Q by (apply Qmult_le_0_compat; auto). lra.
  Qed.

  Hypothesis Hs : enough_support p k.

  Lemma fill_phragmen_ok : forall C a, MGood p C a -> length C < k ->
    exists ws, fill_phragmen p k false C a = Ok ws /\ ws <> [] /\ Forall (@NoDup nat) ws /\
      forall W, In W (map isort ws) <-> phragmen_completion p k (rev C) (nthQ a) W.
  Proof using Hw Hk Hs.
    intros C a HG Hl. pose proof (loads_good C a HG) as HP.
    destruct (seqphragmen_irresolute_correct p k Hw ltac:(lia) Hs None C (loads a) HP Hl I) as (ws & E & A & B & D & F).
    assert (Hasc : forall W, In W ws -> ascending W).
    { intros W HW. apply D in HW. eapply (run_winner_committee p k (phragmen_choice p) (phragmen_update p)
         (phragmen_choice_fresh p) C (loads a)); try apply HG; eauto. }
    assert (Hne : ws <> []).
    { destruct (seqphragmen_resolute_correct p k Hw ltac:(lia) Hs C (loads a) HP Hl) as (W0 & _ & _ & L0 & y0 & H0 & H1).
      intros ->. apply (F (isort L0)). exists L0, y0. split; [apply lex_runs_runs; auto|]. split; [apply H1|reflexivity]. }
    exists ws. split; [exact E|]. split; auto. split.
    - apply Forall_forall. intros W HW. apply ascending_NoDup. auto.
    - intro W. assert (Emap : map isort ws = ws).
      { rewrite <- (map_id ws) at 2. apply map_ext_in. intros V HV. apply isort_id. auto. }
      rewrite Emap. unfold phragmen_completion.
      rewrite <- (run_winner_start_ext p _ _ _ (nthQ (loads a)) (start_load (nthQ a)) k W (loads_agree a)).
      split; auto.
  Qed.

  Lemma fill_phragmen_resolute_ok : forall C a, MGood p C a -> length C < k ->
    exists ws, fill_phragmen p k true C a = Ok ws /\ ws <> [] /\ Forall (@NoDup nat) ws /\
      forall W, In W (map isort ws) <-> phragmen_lex_completion p k (rev C) (nthQ a) W.
  Proof using Hw Hk Hs.
    intros C a HG Hl. pose proof (loads_good C a HG) as HP.
    destruct (seqphragmen_resolute_correct p k Hw ltac:(lia) Hs C (loads a) HP Hl) as (W0 & E & Hasc & Hlex).
    apply (lex_run_winner_start_ext p _ _ _ (nthQ (loads a)) (start_load (nthQ a)) k W0 (loads_agree a)) in Hlex.
    exists [W0]. split; [exact E|]. split; [discriminate|]. split; [repeat constructor; apply ascending_NoDup; auto|].
    intro W. simpl. rewrite (isort_id W0 Hasc). split.
    - intros [<-|[]]. exact Hlex.
    - intros H. left. eapply phragmen_lex_unique; [exact Hlex|exact H].
  Qed.
End Fill.

Lemma nthQ_map_voters : forall p (f : voter -> Q) i, i < length (voters p) -> nthQ (map f (voters p)) i = f (the_voter p i).
Proof.
  intros p f i Hi. unfold nthQ, the_voter. rewrite nth_indep with (d' := f (mkVoter [] 1 true)) by (rewrite map_length; auto).
  apply map_nth.
Qed.

Lemma wsum_pos : forall p, wf p -> voters p <> [] -> (0 < wsum (voters p))%Q.
Proof.
  intros p Hw Hn. rewrite wsum_voter_ids. apply (weights_pos p); auto.
  - intros i Hi. apply in_voter_ids. auto.
  - unfold voter_ids. destruct (voters p); [congruence|discriminate].
Qed.

Lemma mes_start_agree : forall p k, agree p (nthQ (mes_start p k)) (equal_share p k).
Proof.
  intros p k i Hi. unfold mes_start. rewrite nthQ_map_voters by auto. unfold equal_share. rewrite total_weight_eq. reflexivity.
Qed.
Lemma mes_start_increment_agree : forall p k, agree p (nthQ (mes_start_increment p k)) (equal_share p k).
Proof.
  intros p k i Hi. unfold mes_start_increment. rewrite nthQ_map_voters by auto. unfold equal_share.
  rewrite total_weight_eq. unfold w, Qdiv. ring.
Qed.
Lemma equal_share_nonneg : forall p k i, wf p -> i < length (voters p) -> (0 <= equal_share p k i)%Q.
Proof.
  intros p k i Hw Hi. unfold equal_share.
  assert (0 < wsum (voters p))%Q. { apply wsum_pos; auto. destruct (voters p); [simpl in Hi; lia|discriminate]. }
  apply Qle_shift_div_l; auto. ring_simplify. pose proof (w_pos p i Hw Hi). apply Qmult_le_0_compat; [lra|apply Qnat_nonneg].
Qed.

(** ** Budgets along a run *)
Section Budgets.
  Variable p : profile.
  Hypothesis Hw : wf p.

  Lemma price_pos : forall b c rho, price_of p b c rho -> (0 < rho)%Q.
  Proof using Hw.
    intros b c rho [H _]. destruct (Qlt_le_dec 0 rho) as [|Hle]; auto. exfalso.
    assert (collected p b c rho <= 0)%Q; [|lra].
    unfold collected. assert (E : (sum (fans p c) (fun _ => 0) == 0)%Q).
    { unfold sum. induction (fans p c); simpl; [reflexivity|]. rewrite IHl. ring. }
    rewrite <- E. apply sum_le. intros i Hi. apply in_fans in Hi as [Hi _]. pose proof (w_pos p i Hw Hi).
    eapply Qle_trans; [apply Qmin_le_r|]. nra.
  Qed.

  Lemma update_nonneg : forall W b c b', mes_update p W b c b' ->
    (forall i, i < length (voters p) -> (0 <= b i)%Q) -> forall i, i < length (voters p) -> (0 <= b' i)%Q.
  Proof using.
    intros W b c b' (rho & Hp & Ha) H i Hi. rewrite (Ha i Hi). simpl. destruct (likes p i c); auto.
    pose proof (Qmin_le_l (b i) (rho * w p i)). lra.
  Qed.

  Lemma run_nonneg : forall start L b, runs_from p (mes_choice p) (mes_update p) [] start L b ->
    (forall i, i < length (voters p) -> (0 <= start i)%Q) -> forall i, i < length (voters p) -> (0 <= b i)%Q.
  Proof using.
    induction 1 as [x Hx|W x c x' H IH Hc Hu]; intros H0 i Hi.
    - rewrite (Hx i Hi). auto.
    - eapply update_nonneg; eauto.
  Qed.

  (** one purchase takes at most 1 out of any purse *)
  Lemma update_purse : forall W b c b' d, mes_update p W b c b' ->
    (forall i, i < length (voters p) -> (0 <= b i)%Q) -> (purse p b d - 1 <= purse p b' d)%Q.
  Proof using Hw.
    intros W b c b' d (rho & Hp & Ha) H0. pose proof (price_pos _ _ _ Hp) as Hpos.
    set (pay := fun i => if likes p i c then Qmin (b i) (rho * w p i) else 0%Q).
    assert (Hpay : forall i, i < length (voters p) -> (0 <= pay i)%Q).
    { intros i Hi. unfold pay. destruct (likes p i c); [|lra]. pose proof (w_pos p i Hw Hi).
      apply Qmin_glb; [auto|]. apply Qmult_le_0_compat; lra. }
    assert (E : (purse p b' d == purse p b d - sum (fans p d) pay)%Q).
    { unfold purse. assert (E1 : (sum (fans p d) b' == sum (fans p d) (fun i => b i + (-1) * pay i))%Q).
      { apply sum_ext. intros i Hi. apply in_fans in Hi as [Hi _]. rewrite (Ha i Hi). unfold pay.
        destruct (likes p i c); ring. }
      rewrite E1, sum_plus, sum_scal. ring. }
    assert (sum (fans p d) pay <= 1)%Q; [|lra].
    assert (E2 : (sum (fans p c) (fun i => Qmin (b i) (rho * w p i)) == sum (voter_ids p) pay)%Q).
    { rewrite (sum_split (fun i => likes p i c) (voter_ids p) pay).
      assert (Z : (sum (filter (fun i => negb (likes p i c)) (voter_ids p)) pay == 0)%Q).
      { assert (E0 : (sum (filter (fun i => negb (likes p i c)) (voter_ids p)) pay ==
                     sum (filter (fun i => negb (likes p i c)) (voter_ids p)) (fun i => 0 * pay i))%Q).
        { apply sum_ext. intros i Hi. apply filter_In in Hi as [_ Hi]. unfold pay.
          destruct (likes p i c); [discriminate|ring]. }
        rewrite E0, sum_scal. ring. }
      rewrite Z, Qplus_0_r. apply sum_ext. intros i Hi. unfold pay. apply in_fans in Hi as [_ ->]. reflexivity. }
    destruct Hp as [Hp _]. unfold collected in Hp. rewrite <- Hp, E2.
    rewrite (sum_split (fun i => likes p i d) (voter_ids p) pay).
    assert (0 <= sum (filter (fun i => negb (likes p i d)) (voter_ids p)) pay)%Q.
    { apply sum_nonneg. intros i Hi. apply filter_In in Hi as [Hi _]. apply Hpay. apply in_voter_ids; auto. }
    change (filter (fun i => likes p i d) (voter_ids p)) with (fans p d). lra.
  Qed.

  Lemma run_purse : forall start L b d, runs_from p (mes_choice p) (mes_update p) [] start L b ->
    (forall i, i < length (voters p) -> (0 <= start i)%Q) ->
    (purse p start d - Qnat (length L) <= purse p b d)%Q.
  Proof using Hw.
    intros start L b d Hr H0. induction Hr as [x Hx|W x c x' Hr IH Hc Hu].
    - simpl. rewrite (purse_agree p x start d Hx). change (Qnat 0) with 0%Q. lra.
    - pose proof (update_purse W x c x' d Hu (run_nonneg _ _ _ Hr H0)). simpl length.
      rewrite Qnat_S. lra.
  Qed.
End Budgets.

(** ** Increment completion *)
Lemma supported_In : forall p c, In c (supported p) <-> c < num_cand p /\ fans p c <> [].
Proof.
  intros p c. unfold supported. rewrite filter_In, in_seq, Nat.ltb_lt. destruct (fans p c); simpl; split; intros [A B]; split; try lia; try congruence.
Qed.
Lemma supported_NoDup : forall p, NoDup (supported p).
Proof. intros. apply NoDup_filter, seq_NoDup. Qed.

Lemma fans_nonempty : forall p c, fans p c <> [] <-> exists v, In v (voters p) /\ In c (approved v).
Proof.
  intros p c. split.
  - intros H. destruct (fans p c) as [|i l] eqn:E; [congruence|].
    assert (Hi : In i (fans p c)) by (rewrite E; left; auto). apply in_fans in Hi as [Hi Hl].
    exists (the_voter p i). split; [apply the_voter_In; auto|]. apply mem_In. exact Hl.
  - intros (v & Hv & Hc) E. destruct (In_nth _ _ (mkVoter [] 1 true) Hv) as (i & Hi & Ei).
    assert (Hin : In i (fans p c)). { apply in_fans. split; auto. unfold likes, the_voter. rewrite Ei. apply mem_In. auto. }
    rewrite E in Hin. destruct Hin.
Qed.

Lemma approved_supported : forall p, wf p -> Permutation (approved_candidates p) (supported p).
Proof.
  intros p Hw. apply NoDup_Permutation.
  - apply dedup_NoDup.
  - apply supported_NoDup.
  - intro c. rewrite supported_In, fans_nonempty. unfold approved_candidates. rewrite dedup_In, in_flat_map.
    split; [|tauto]. intros (v & Hv & Hc). split; eauto.
    destruct Hw as [_ Hw]. rewrite Forall_forall in Hw. destruct (Hw v Hv) as (A & B & _).
    rewrite Forall_forall in B. auto.
Qed.

Lemma few_supported_all : forall p k W, wf p -> length (supported p) < k ->
  maximises (fun W => Qsum (map (sep_support SepAV p) W)) p k W -> is_committee p k W /\ incl (supported p) W.
Proof.
  intros p k W Hw Hlt HW. apply top_set_maximises in HW as [HW Htop]. split; auto.
  intros d Hd. destruct (in_dec Nat.eq_dec d W) as [|Hn]; auto. exfalso.
  destruct (committee_parts _ _ _ HW) as (N & Hl & Hr). apply supported_In in Hd as [Hdm Hd].
  assert (Hincl : incl W (supported p)).
  { intros c Hc. apply supported_In. split; auto. intros E. specialize (Htop c d Hc Hdm Hn).
    change (sep_support SepAV p) with (support p) in Htop. rewrite !support_fans, E in Htop.
    pose proof (fans_weight_pos p d Hw Hd). unfold sum in Htop at 2. simpl in Htop. lra. }
  apply NoDup_incl_length in Hincl; auto. lia.
Qed.

Section Increment.
  Variables (p : profile) (k : nat).
  Hypothesis Hw : wf p.
  Hypothesis Hv : voters p <> [].
  Hypothesis Hk : 1 <= k <= num_cand p.

  Lemma increment_step : forall n, exists L b,
    equal_shares p k true None fill_none (mes_start_increment p n) = Ok [isort L] /\
    mes_lex_ends p k (equal_share p n) L b.
  Proof using Hw Hk.
    intros n. destruct (equal_shares_resolute p k fill_none no_completion (mes_start_increment p n) (equal_share p n) None Hw Hk)
      as (W & E & L & b & HL & H1 & H2).
    - exact (no_completion_ext p).
    - intros C a HG _ _. exact (fill_none_ok p C a HG).
    - apply mes_start_increment_agree.
    - intros. apply equal_share_nonneg; auto.
    - exists L, b. split; auto. destruct (proj2 HL) as [Hl|[Hl _]]; [rewrite <- (H1 Hl)|rewrite <- (H2 Hl)]; auto.
  Qed.

  Lemma lex_ends_le : forall start L b, mes_lex_ends p k start L b -> length L <= k.
  Proof using Hk. intros start L b [_ H]. destruct H; lia. Qed.

  Lemma increment_loop_ok : forall r n n0 L0 b0, n <= n0 < n + r ->
    mes_lex_ends p k (equal_share p n0) L0 b0 -> length L0 = k ->
    exists n1 L b, n <= n1 /\ mes_lex_ends p k (equal_share p n1) L b /\ length L = k /\
      increment_loop p k r n = Ok [isort L] /\
      forall n' L' b', n <= n' < n1 -> mes_lex_ends p k (equal_share p n') L' b' -> length L' < k.
  Proof using Hw Hk.
    induction r as [|r IH]; intros n n0 L0 b0 Hn H0 Hl0; [lia|].
    cbn [increment_loop]. destruct (increment_step n) as (L & b & E & HL). rewrite E. cbn [rbind filter].
    rewrite isort_length. destruct (Nat.eqb_spec (length L) k) as [Hl|Hl].
    - exists n, L, b. split; auto. split; auto. split; auto. split; auto. intros. lia.
    - assert (n <> n0). { intros ->. destruct (mes_lex_ends_unique _ _ _ _ _ _ _ HL H0) as [-> _]. auto. }
      destruct (IH (S n) n0 L0 b0 ltac:(lia) H0 Hl0) as (n1 & L1 & b1 & A & B & C & D & F).
      exists n1, L1, b1. split; [lia|]. split; auto. split; auto. split; auto.
      intros n' L' b' Hn' HL'. destruct (Nat.eq_dec n' n) as [->|].
      + destruct (mes_lex_ends_unique _ _ _ _ _ _ _ HL HL') as [<- _]. apply lex_ends_le in HL. lia.
      + eapply F; [|exact HL']. lia.
  Qed.

  Hypothesis Hu : unit_support p.
  Hypothesis Hmany : k <= length (supported p).

  (** with [k * total weight] as virtual committee size every voter gets at least
      [k] per weight: enough for [k] candidates *)
  Lemma enough_for_all : forall n L b, (Qnat k * wsum (voters p) <= Qnat n)%Q ->
    mes_lex_ends p k (equal_share p n) L b -> length L = k.
  Proof using Hw Hv Hk Hu Hmany.
    intros n L b Hn [Hr [Hl|[Hl Hs]]]; auto. exfalso. apply lex_runs_runs in Hr.
    destruct (runs_props p (mes_choice p) (mes_update p) ltac:(intros W x c [H _]; exact H) _ _ _ _ Hr ltac:(constructor) ltac:(constructor))
      as [HN HF].
    assert (Hc : exists c, In c (supported p) /\ ~ In c L).
    { destruct (filter (fun c => negb (mem c L)) (supported p)) as [|c l] eqn:E.
      - exfalso. assert (incl (supported p) L).
        { intros c Hc. destruct (mem c L) eqn:Em; [apply mem_In; auto|]. exfalso.
          assert (Hin : In c (filter (fun c => negb (mem c L)) (supported p))) by (apply filter_In; rewrite Em; auto).
          rewrite E in Hin. destruct Hin. }
        apply NoDup_incl_length in H; [lia|apply supported_NoDup].
      - exists c. assert (Hin : In c (filter (fun c => negb (mem c L)) (supported p))) by (rewrite E; left; auto).
        apply filter_In in Hin as [A B]. split; auto. apply mem_false. apply negb_true_iff. auto. }
    destruct Hc as (c & Hc & Hcl). pose proof (Hu c Hc) as Hsup. rewrite support_fans in Hsup.
    apply supported_In in Hc as [Hcm Hcf].
    specialize (Hs c (conj Hcm Hcl)).
    pose proof (run_purse p Hw _ _ _ c Hr (fun i Hi => equal_share_nonneg p n i Hw Hi)) as Hp.
    assert (Hst : (Qnat k * sum (fans p c) (w p) <= purse p (equal_share p n) c)%Q).
    { unfold purse. rewrite <- sum_scal. apply sum_le. intros i Hi. apply in_fans in Hi as [Hi _].
      pose proof (w_pos p i Hw Hi). pose proof (wsum_pos p Hw Hv). unfold equal_share. apply Qle_shift_div_l; auto.
      nra. }
    assert (Hlk : (Qnat (length L) + 1 <= Qnat k)%Q) by (rewrite <- Qnat_S; apply -> Qnat_le; lia).
    assert (1 <= Qnat k)%Q by (change 1%Q with (Qnat 1); apply -> Qnat_le; lia).
    nra.
  Qed.

  Lemma increment_many : exists W, equal_shares_increment p k = Ok [W] /\ mes_increment_winner p k W.
  Proof using Hw Hv Hk Hu Hmany.
    unfold equal_shares_increment. rewrite (Permutation_length (approved_supported p Hw)).
    destruct (Nat.ltb_spec (length (supported p)) k); [lia|].
    set (N := Z.to_nat (Qceiling (Qnat k * wsum (voters p)))).
    assert (EN : Z.to_nat (Qceiling (Qnat k * total_weight p + 1)) = S N).
    { unfold N. rewrite total_weight_eq.
      assert (0 <= Qceiling (Qnat k * wsum (voters p)))%Z.
      { rewrite <- (Qceiling_Z 0). apply Qceiling_resp_le. pose proof (wsum_pos p Hw Hv). 
        apply Qmult_le_0_compat; [apply Qnat_nonneg|lra]. }
      assert (E : Qceiling (Qnat k * wsum (voters p) + 1) = (Qceiling (Qnat k * wsum (voters p)) + 1)%Z).
      { unfold Qceiling. rewrite <- Z.opp_sub_distr || idtac.
        assert (Ef : (- (Qnat k * wsum (voters p) + 1) == - (Qnat k * wsum (voters p)) + inject_Z (-1))%Q) by (simpl; ring).
        rewrite Ef. 
        assert (Hfl : forall x z, Qfloor (x + inject_Z z) = (Qfloor x + z)%Z).
        { intros x z. apply Z.le_antisymm.
          - assert (Qfloor (x + inject_Z z) + (- z) <= Qfloor x)%Z; [|lia].
            rewrite <- (Qfloor_Z (Qfloor (x + inject_Z z) + - z)). apply Qfloor_resp_le.
            rewrite inject_Z_plus, inject_Z_opp. pose proof (Qfloor_le (x + inject_Z z)). lra.
          - rewrite <- (Qfloor_Z (Qfloor x + z)). apply Qfloor_resp_le. rewrite inject_Z_plus. pose proof (Qfloor_le x). lra. }
        rewrite Hfl. lia. }
      rewrite E. rewrite Z2Nat.inj_add by lia. simpl. lia. }
    rewrite EN.
    assert (HN : (Qnat k * wsum (voters p) <= Qnat N)%Q).
    { eapply Qle_trans; [apply Qle_ceiling|]. unfold N, Qnat. rewrite <- Zle_Qle. lia. }
    assert (HkN : k <= N).
    { apply Qnat_le. eapply Qle_trans; [|exact HN].
      destruct (supported p) as [|c l] eqn:Es; [simpl in *; lia|].
      assert (Hc : In c (supported p)) by (rewrite Es; left; auto). pose proof (Hu c Hc) as H1.
      assert (support p c <= wsum (voters p))%Q.
      { rewrite support_fans, wsum_voter_ids. rewrite (sum_split (fun i => likes p i c) (voter_ids p)).
        assert (0 <= sum (filter (fun i => negb (likes p i c)) (voter_ids p)) (w p))%Q.
        { apply sum_nonneg. intros i Hi. apply filter_In in Hi as [Hi _]. apply in_voter_ids in Hi.
          pose proof (w_pos p i Hw Hi). lra. }
        unfold fans. lra. }
      assert (0 <= Qnat k)%Q by apply Qnat_nonneg. nra. }
    destruct (increment_step N) as (L0 & b0 & _ & HL0).
    destruct (increment_loop_ok (S N - k) k N L0 b0 ltac:(lia) HL0 (enough_for_all _ _ _ HN HL0))
      as (n1 & L & b & A & B & C & D & F).
    exists (isort L). split; auto. split; [lia|]. intros _. exists n1, L, b. auto.
  Qed.
End Increment.

Theorem increment_correct : forall p k, wf p -> voters p <> [] -> 1 <= k <= num_cand p -> unit_support p ->
  exists W, equal_shares_increment p k = Ok [W] /\ mes_increment_winner p k W.
Proof.
  intros p k Hw Hv Hk Hu. destruct (Nat.le_gt_cases k (length (supported p))) as [Hm|Hm].
  - apply increment_many; auto.
  - unfold equal_shares_increment. rewrite (Permutation_length (approved_supported p Hw)).
    destruct (Nat.ltb_spec (length (supported p)) k); [|lia].
    destruct (separable_rule_correct SepAV p k true None Hw Hk I) as (l & E & _ & _ & HP & Hl).
    destruct l as [|W [|]]; try discriminate. exists W. split; auto. split; [|lia]. intros _.
    apply few_supported_all; auto. apply HP. left; auto.
Qed.

Lemma mes_increment_ascending : forall p k W, mes_increment_winner p k W -> ascending W.
Proof.
  intros p k W [H1 H2]. destruct (Nat.le_gt_cases k (length (supported p))) as [Hm|Hm].
  - destruct (H2 Hm) as (n & L & b & _ & [Hr _] & _ & -> & _). apply isort_ascending. apply lex_runs_runs in Hr.
    apply (runs_props p (mes_choice p) (mes_update p) ltac:(intros W x c [H _]; exact H) _ _ _ _ Hr ltac:(constructor) ltac:(constructor)).
  - apply H1. auto.
Qed.

(** ** The rule *)
Definition the_completion (p : profile) (k : nat) (resolute : bool) (c : completion_arg) : completion :=
  match c with
  | PhragmenCompletion => if resolute then phragmen_lex_completion p k else phragmen_completion p k
  | AvCompletion => av_completion p k
  | _ => no_completion
  end.
Definition completion_needs (p : profile) (k : nat) (c : completion_arg) : Prop :=
  match c with PhragmenCompletion => enough_support p k | _ => True end.

Lemma mes_run_NoDup : forall p start L b, runs_from p (mes_choice p) (mes_update p) [] start L b ->
  NoDup L /\ Forall (fun c => c < num_cand p) L.
Proof.
  intros p start L b Hr.
  apply (runs_props p (mes_choice p) (mes_update p) ltac:(intros W x c [H _]; exact H) _ _ _ _ Hr ltac:(constructor) ltac:(constructor)).
Qed.

Lemma the_completion_asc : forall p k resolute c L b W, NoDup L -> Forall (fun c => c < num_cand p) L ->
  the_completion p k resolute c L b W -> ascending W.
Proof.
  intros p k resolute c L b W HN HF H.
  assert (Hph : phragmen_completion p k L b W -> ascending W).
  { intros (L' & x & Hr & Hl & ->). apply isort_ascending.
    apply (runs_props p (phragmen_choice p) (phragmen_update p) (phragmen_choice_fresh p) _ _ _ _ Hr); auto. }
  destruct c; simpl in H; try (unfold no_completion in H; subst W; apply isort_ascending; auto); try (destruct H; apply H).
  destruct resolute; auto. apply Hph. destruct H as (L' & x & Hr & Hl). exists L', x. split; auto. apply lex_runs_runs; auto.
Qed.

Lemma the_completion_ext : forall p k resolute c L x y W, agree p x y ->
  the_completion p k resolute c L x W -> the_completion p k resolute c L y W.
Proof.
  intros p k resolute c L x y W Ha. destruct c; simpl; auto. destruct resolute.
  - apply phragmen_lex_completion_ext; auto.
  - apply phragmen_completion_ext; auto.
Qed.

Definition fill_of (p : profile) (k : nat) (resolute : bool) (c : completion_arg) :=
  match c with
  | PhragmenCompletion => fill_phragmen p k resolute
  | AvCompletion => fill_av p k
  | _ => fill_none
  end.

Lemma fill_of_ok : forall p k resolute c, wf p -> 1 <= k <= num_cand p -> completion_needs p k c ->
  forall C a, MGood p C a -> length C < k -> mes_stuck p C (nthQ a) ->
    exists ws, fill_of p k resolute c C a = Ok ws /\ ws <> [] /\ Forall (@NoDup nat) ws /\
      forall W, In W (map isort ws) <-> the_completion p k resolute c (rev C) (nthQ a) W.
Proof.
  intros p k resolute c Hw Hk Hn C a HG Hl _.
  destruct c; simpl in *; try (exact (fill_none_ok p C a HG)).
  - destruct resolute; [apply fill_phragmen_resolute_ok; auto|apply fill_phragmen_ok; auto].
  - destruct HG as (A & B & _). apply fill_av_ok; auto. lia.
Qed.

Theorem equal_shares_rule_correct : forall p k (resolute : bool) maxn c, wf p -> 1 <= k <= num_cand p -> valid_max maxn ->
  c <> IncrementCompletion -> completion_needs p k c ->
  if resolute then exists W, equal_shares_rule p k true maxn c = Ok [W] /\
                    mes_lex_winner p k (equal_share p k) (the_completion p k true c) W
  else answers (mes_winner p k (equal_share p k) (the_completion p k false c)) false maxn
               (equal_shares_rule p k false maxn c).
Proof.
  intros p k resolute maxn c Hw Hk Hm Hc Hn.
  assert (E : forall r, equal_shares_rule p k r maxn c =
    rbind (equal_shares p k r maxn (fill_of p k r c) (mes_start p k)) sorted_committees).
  { intros r. destruct c; try reflexivity. congruence. }
  assert (Hnn : forall i, i < length (voters p) -> (0 <= equal_share p k i)%Q) by (intros; apply equal_share_nonneg; auto).
  assert (Hasc : forall r W, mes_winner p k (equal_share p k) (the_completion p k r c) W -> ascending W).
  { intros r W (L & b & [Hr He] & H1 & H2). destruct (mes_run_NoDup _ _ _ _ Hr) as [HN HF]. destruct He as [He|[He _]].
    - rewrite (H1 He). apply isort_ascending. auto.
    - eapply the_completion_asc; eauto. }
  destruct resolute.
  - destruct (equal_shares_resolute p k (fill_of p k true c) (the_completion p k true c) (mes_start p k) (equal_share p k) maxn Hw Hk
      (the_completion_ext p k true c) (fill_of_ok p k true c Hw Hk Hn) (mes_start_agree p k) Hnn) as (W & E' & HW).
    exists W. split; auto. rewrite E, E'. cbn [rbind]. rewrite sorted_committees_asc; auto.
    constructor; [|constructor]. apply (Hasc true). apply mes_winner_lex. auto.
  - pose proof (equal_shares_correct p k (fill_of p k false c) (the_completion p k false c) (mes_start p k) (equal_share p k) maxn Hw Hk
      (the_completion_ext p k false c) (fill_of_ok p k false c Hw Hk Hn) (mes_start_agree p k) Hnn Hm) as HA.
    rewrite E. pose proof (answers_resort _ _ _ _ (Hasc false) HA) as HR.
    change (rbind (equal_shares p k false maxn (fill_of p k false c) (mes_start p k)) sorted_committees) with
      (rbind (equal_shares p k false maxn (fill_of p k false c) (mes_start p k)) (fun cs => sorted_committees cs)).
    rewrite HR. exact HA.
Qed.

Theorem equal_shares_increment_correct : forall p k resolute maxn, wf p -> voters p <> [] -> 1 <= k <= num_cand p ->
  unit_support p -> exists W, equal_shares_rule p k resolute maxn IncrementCompletion = Ok [W] /\ mes_increment_winner p k W.
Proof.
  intros p k resolute maxn Hw Hv Hk Hu. destruct (increment_correct p k Hw Hv Hk Hu) as (W & E & HW).
  exists W. split; auto. unfold equal_shares_rule. rewrite E. cbn [rbind]. rewrite sorted_committees_asc; auto.
  constructor; [|constructor]. eapply mes_increment_ascending; eauto.
Qed.
