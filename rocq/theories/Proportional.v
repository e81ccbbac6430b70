(** * Proportionality of Equal Shares (EJR+) and sequential Phragmén (PJR) *)
From Coq Require Import String.
From Coq Require Import List Arith Bool ZArith QArith Lia Lqa Permutation Sorted Setoid.
From Verif Require Import Prelude Misc MiscProofs Preferences Scores Spec ScoresProofs Search Rule RulesThiele
  Common ThieleProofs SpecRules OptProofs Compute SpecCompute ComputeProofs Checks SpecAxioms ChecksProofs Guarantees
  SpecSeq RulesSeq SeqProofs PhragmenProofs
  EnestroemProofs RulesMes PoolProofs MesProofs MesLoop AvPhase MesFinal ComputeSeq ComputeSeqProofs.
Import ListNotations.
Local Open Scope string_scope.
Open Scope nat_scope.

Lemma gweight_sum : forall p S, gweight p S = sum S (w p).
Proof. reflexivity. Qed.
Lemma likes_ballot : forall p i c, likes p i c = true <-> In c (ballot p i).
Proof. intros. unfold likes, approves, ballot, the_voter. apply mem_In. Qed.

Lemma sum_const0 : forall l, (sum l (fun _ => 0) == 0)%Q.
Proof. intros. unfold sum. induction l; simpl; [reflexivity|]. rewrite IHl. ring. Qed.

Lemma group_in_fans : forall p S c, is_group p S -> (forall i, In i S -> In c (ballot p i)) -> incl S (fans p c).
Proof.
  intros p S c (_ & _ & H) Ha i Hi. apply in_fans. rewrite Forall_forall in H. split; auto. apply likes_ballot. auto.
Qed.

Lemma sum_incl_le : forall S l (f : nat -> Q), NoDup S -> NoDup l -> incl S l -> (forall i, In i l -> (0 <= f i)%Q) ->
  (sum S f <= sum l f)%Q.
Proof.
  intros S l f HS Hl Hi Hf.
  assert (P : Permutation (filter (fun i => mem i S) l) S).
  { apply NoDup_Permutation; auto.
    - apply NoDup_filter; auto.
    - intro i. rewrite filter_In, mem_In. split; [tauto|]. auto. }
  rewrite (sum_split (fun i => mem i S) l), (sum_perm _ _ f P).
  assert (0 <= sum (filter (fun i => negb (mem i S)) l) f)%Q.
  { apply sum_nonneg. intros i H. apply filter_In in H. apply Hf. tauto. }
  lra.
Qed.

Lemma sum_minus : forall l (f g : nat -> Q), (sum l (fun i => f i - g i) == sum l f - sum l g)%Q.
Proof.
  intros. rewrite (sum_ext l _ (fun i => f i + (-1) * g i)%Q) by (intros; ring).
  rewrite sum_plus, (sum_scal l g). ring.
Qed.

Lemma Permutation_filter : forall (f : nat -> bool) l l', Permutation l l' -> Permutation (filter f l) (filter f l').
Proof.
  intros f l l' P. induction P; simpl; auto.
  - destruct (f x); auto.
  - destruct (f x), (f y); auto; constructor.
  - eapply perm_trans; eauto.
Qed.

(** number of members of [L] that voter [i] approves *)
Definition count (p : profile) (i : nat) (L : list nat) : nat := length (filter (fun c => likes p i c) L).
Lemma count_approves : forall p i W, wf p -> i < length (voters p) -> NoDup W -> approves_in p i W = count p i W.
Proof.
  intros p i W Hw Hi HW. unfold approves_in. rewrite inter_comm_length.
  - reflexivity.
  - destruct Hw as [_ Hw]. rewrite Forall_forall in Hw. apply (Hw (the_voter p i)). apply the_voter_In. auto.
  - auto.
Qed.
Lemma count_perm : forall p i L L', Permutation L L' -> count p i L = count p i L'.
Proof.
  intros p i L L' H. unfold count. apply Permutation_length, Permutation_filter. auto.
Qed.
Lemma count_incl : forall p i L W, NoDup L -> incl L W -> count p i L <= count p i W.
Proof.
  intros p i L W HN Hi. unfold count. apply NoDup_incl_length; [apply NoDup_filter; auto|].
  intros x Hx. apply filter_In in Hx as [A B]. apply filter_In. auto.
Qed.

(** ** Equal Shares *)
Section MesEJR.
  Variables (p : profile).
  Hypothesis Hw : wf p.
  Hypothesis Hv : voters p <> [].

  Lemma run_total : forall start L b, runs_from p (mes_choice p) (mes_update p) [] start L b ->
    (forall i, i < length (voters p) -> (0 <= start i)%Q) ->
    (sum (voter_ids p) b == sum (voter_ids p) start - Qnat (length L))%Q.
  Proof using Hw.
    intros start L b Hr H0. destruct (mes_payments p start L b Hw Hr H0) as (pay & _ & _ & P3 & P4).
    rewrite (sum_ext (voter_ids p) b (fun i => start i - sum L (pay i))%Q) by (intros i Hi; apply P4, in_voter_ids; auto).
    rewrite sum_minus.
    assert (E : (sum (voter_ids p) (fun i => sum L (pay i)) == Qnat (length L))%Q); [|rewrite E; reflexivity].
    clear P4 Hr b. induction L as [|c L IH].
    - rewrite (sum_ext _ _ (fun _ => 0%Q)) by (intros; reflexivity). rewrite sum_const0. reflexivity.
    - rewrite (sum_ext _ _ (fun i => pay i c + sum L (pay i))%Q) by (intros; reflexivity).
      rewrite sum_plus, (P3 c (or_introl eq_refl)), IH by (intros; apply P3; right; auto). simpl length. rewrite Qnat_S. ring.
  Qed.

  Lemma start_total : forall k, (sum (voter_ids p) (equal_share p k) == Qnat k)%Q.
  Proof using Hw Hv.
    intros k. pose proof (wsum_pos p Hw Hv) as Hp.
    rewrite (sum_ext _ _ (fun i => (Qnat k / wsum (voters p)) * w p i)%Q).
    - rewrite sum_scal, <- wsum_voter_ids. field. lra.
    - intros i _. unfold equal_share. field. lra.
  Qed.

  Lemma afford : forall x c r, (forall i, i < length (voters p) -> (0 <= x i)%Q) ->
    (1 <= collected p x c r)%Q -> exists rho, price_of p x c rho /\ (rho <= r)%Q.
  Proof using Hw.
    intros x c r H0 H. set (bl := map x (voter_ids p)).
    assert (Hag : agree p (nthQ bl) x).
    { intros i Hi. unfold bl, nthQ, voter_ids. rewrite nth_indep with (d' := x 0) by (rewrite map_length, seq_length; auto).
      rewrite map_nth, seq_nth by auto. reflexivity. }
    destruct (min_q_spec p bl c Hw) as (q & _ & Hq).
    assert (Hp : (1 <= purse p x c)%Q).
    { eapply Qle_trans; [exact H|]. apply sum_le. intros i _. apply Qmin_le_l. }
    destruct q as [q|].
    - apply (price_of_ext _ _ _ _ _ Hag) in Hq. exists q. split; auto.
      destruct (Qlt_le_dec r q) as [Hlt|]; auto. destruct Hq as [_ Hq]. specialize (Hq r Hlt). lra.
    - rewrite (purse_agree p _ _ c Hag) in Hq. lra.
  Qed.

  (** a group [S] of weight [s] whose members start with at least [l/s] per weight
      and approve a candidate [c] that is never bought keeps [1/s] per weight as
      long as each member approves fewer than [l] of the bought candidates *)
  Lemma group_keeps : forall start S l c, is_group p S -> (forall i, In i S -> In c (ballot p i)) -> c < num_cand p ->
    (forall i, i < length (voters p) -> (0 <= start i)%Q) ->
    (forall i, In i S -> (Qnat l * w p i <= start i * sum S (w p))%Q) ->
    forall L b, runs_from p (mes_choice p) (mes_update p) [] start L b -> ~ In c L ->
    (forall i, In i S -> count p i L < l) ->
    forall i, In i S -> ((Qnat l - Qnat (count p i L)) * w p i <= b i * sum S (w p))%Q.
  Proof using Hw.
    intros start S l c HS Ha Hcm H0 Hst L b Hr. pose proof (group_in_fans p S c HS Ha) as Hfans.
    assert (HSw : (0 < sum S (w p))%Q).
    { apply (weights_pos p Hw); [|apply HS]. intros i Hi. destruct HS as (_ & _ & H). rewrite Forall_forall in H. auto. }
    assert (Hid : forall i, In i S -> i < length (voters p)).
    { intros i Hi. destruct HS as (_ & _ & H). rewrite Forall_forall in H. auto. }
    induction Hr as [x Hx|W x d x' Hr IH Hd Hu]; intros Hn Hcnt i Hi.
    - rewrite (Hx i (Hid i Hi)). unfold count. simpl. change (Qnat 0) with 0%Q. specialize (Hst i Hi). lra.
    - assert (HnW : ~ In c W) by (intro; apply Hn; right; auto).
      assert (HcW : forall j, In j S -> count p j W < l).
      { intros j Hj. specialize (Hcnt j Hj). unfold count in *. simpl in Hcnt. destruct (likes p j d); simpl in Hcnt; lia. }
      specialize (IH HnW HcW).
      pose proof (run_nonneg p _ _ _ Hr H0) as Hb.
      (* every member of S has at least 1/s per weight *)
      set (s := sum S (w p)) in *.
      assert (Hrich : forall j, In j S -> (w p j <= x j * s)%Q).
      { intros j Hj. specialize (IH j Hj). specialize (HcW j Hj). pose proof (w_pos p j Hw (Hid j Hj)).
        assert (Qnat (count p j W) + 1 <= Qnat l)%Q by (rewrite <- Qnat_S; apply -> Qnat_le; lia). nra. }
      (* so c costs at most 1/s *)
      destruct Hu as (rho & Hp & Hag).
      assert (Hrho : (rho * s <= 1)%Q).
      { destruct Hd as (_ & rho' & Hp' & Hmin). pose proof (price_unique _ _ _ _ _ Hp Hp') as Er.
        destruct (Qlt_le_dec 1 (rho * s)) as [Hlt|]; auto. exfalso.
        (* c can be bought, and more cheaply *)
        assert (Hcol : (1 <= collected p x c (/ s))%Q).
        { unfold collected. eapply Qle_trans; [|apply (sum_incl_le S)]; auto; try apply fans_NoDup; try apply HS.
          - rewrite (sum_ext S _ (fun i => / s * w p i)%Q).
            + rewrite sum_scal. change (1 <= / s * s)%Q. rewrite Qmult_comm, Qmult_inv_r by lra. lra.
            + intros j Hj. rewrite Qmin_r; [reflexivity|]. specialize (Hrich j Hj).
              assert (w p j / s <= x j)%Q by (apply Qle_shift_div_r; auto). unfold Qdiv in H. lra.
          - intros j Hj. apply in_fans in Hj as [Hj _]. pose proof (w_pos p j Hw Hj).
            apply Qmin_glb; auto. apply Qmult_le_0_compat; [|lra]. apply Qlt_le_weak, Qinv_lt_0_compat. auto. }
        assert (Hinv : (/ s < rho)%Q).
        { apply Qlt_shift_div_r in Hlt; [|auto]. unfold Qdiv in Hlt. lra. }
        destruct (afford x c (/ s)) as (r & Hr1 & Hr2); auto.
        specialize (Hmin c r (conj Hcm HnW) Hr1). lra. }
      (* a member pays at most w/s *)
      rewrite (Hag i (Hid i Hi)). cbv beta. specialize (IH i Hi). pose proof (w_pos p i Hw (Hid i Hi)) as Hwi.
      unfold count in *. cbn [filter]. destruct (likes p i d).
      + cbn [length]. rewrite Qnat_S. pose proof (Qmin_le_r (x i) (rho * w p i)).
        assert (Qmin (x i) (rho * w p i) * s <= w p i)%Q by nra. nra.
      + exact IH.
  Qed.

  Theorem mes_EJR_plus : forall k L b W, 1 <= k -> mes_ends p k (equal_share p k) L b -> NoDup W -> incl L W ->
    EJR_plus p (default_quota p k) W.
  Proof using Hw Hv.
    intros k L b W Hk [Hr Hend] HNW Hincl S l c HS Hl1 Hdes Hcm HcW Hall.
    pose proof (wsum_pos p Hw Hv) as Hwp.
    assert (Hk0 : (0 < Qnat k)%Q) by (change 0%Q with (Qnat 0); apply -> Qnat_lt; lia).
    assert (H0 : forall i, i < length (voters p) -> (0 <= equal_share p k i)%Q) by (intros; apply equal_share_nonneg; auto).
    assert (Hid : forall i, In i S -> i < length (voters p)).
    { intros i Hi. destruct HS as (_ & _ & H). rewrite Forall_forall in H. auto. }
    destruct (existsb (fun i => l <=? approves_in p i W) S) eqn:Ex.
    { apply existsb_exists in Ex as (i & Hi & Hle). exists i. split; auto. apply Nat.leb_le. auto. }
    exfalso.
    destruct (mes_run_NoDup _ _ _ _ Hr) as [HNL _].
    assert (Hcnt : forall i, In i S -> count p i L < l).
    { intros i Hi. assert (Hf : (l <=? approves_in p i W) = false).
      { destruct (l <=? approves_in p i W) eqn:E; auto. assert (existsb (fun i => l <=? approves_in p i W) S = true) by
          (apply existsb_exists; eauto). congruence. }
      apply Nat.leb_gt in Hf. rewrite count_approves in Hf by auto. pose proof (count_incl p i L W HNL Hincl). lia. }
    assert (Ha : forall i, In i S -> In c (ballot p i)) by (intros i Hi; apply Hall; auto; left; auto).
    assert (HSw : (0 < sum S (w p))%Q) by (apply (weights_pos p Hw); [auto|apply HS]).
    assert (Hst : forall i, In i S -> (Qnat l * w p i <= equal_share p k i * sum S (w p))%Q).
    { intros i Hi. unfold deserves, default_quota in Hdes. rewrite gweight_sum in Hdes. pose proof (w_pos p i Hw (Hid i Hi)).
      assert (Hd : (Qnat l * wsum (voters p) <= sum S (w p) * Qnat k)%Q).
      { assert (E : (Qnat l * wsum (voters p) == (Qnat l * (wsum (voters p) / Qnat k)) * Qnat k)%Q) by (field; lra).
        rewrite E. apply Qmult_le_compat_r; lra. }
      unfold equal_share.
      assert (E : (w p i * Qnat k / wsum (voters p) * sum S (w p) == (w p i * (sum S (w p) * Qnat k)) / wsum (voters p))%Q) by (field; lra).
      rewrite E. apply Qle_shift_div_l; auto. nra. }
    pose proof (group_keeps (equal_share p k) S l c HS Ha Hcm H0 Hst L b Hr ltac:(auto) Hcnt) as Hkeep.
    assert (Hrich : forall j, In j S -> (w p j <= b j * sum S (w p))%Q).
    { intros j Hj. specialize (Hkeep j Hj). specialize (Hcnt j Hj). pose proof (w_pos p j Hw (Hid j Hj)).
      assert (Qnat (count p j L) + 1 <= Qnat l)%Q by (rewrite <- Qnat_S; apply -> Qnat_le; lia). nra. }
    pose proof (run_nonneg p _ _ _ Hr H0) as Hb.
    destruct Hend as [Hlk|[Hlk Hs]].
    - pose proof (run_total _ _ _ Hr H0) as Ht. rewrite start_total, Hlk in Ht.
      destruct S as [|i S']; [apply (proj1 HS); auto|].
      assert (Hi : In i (i :: S')) by (left; auto). specialize (Hrich i Hi). pose proof (w_pos p i Hw (Hid i Hi)).
      assert (Hpos : (0 < b i)%Q) by nra.
      assert (b i <= sum (voter_ids p) b)%Q; [|lra].
      assert (E : (sum [i] b == b i)%Q) by (unfold sum; simpl; ring). rewrite <- E. apply sum_incl_le.
      + repeat constructor. intros [].
      + apply voter_ids_NoDup.
      + intros j [<-|[]]. apply in_voter_ids. auto.
      + intros j Hj. apply Hb, in_voter_ids. auto.
    - specialize (Hs c (conj Hcm (fun H => HcW (Hincl c H)))). unfold purse in Hs.
      assert (Hsum : (sum S (w p) <= sum S b * sum S (w p))%Q).
      { rewrite (Qmult_comm (sum S b)), <- sum_scal. apply sum_le. intros j Hj. specialize (Hrich j Hj). lra. }
      assert (sum S b <= sum (fans p c) b)%Q.
      { apply sum_incl_le; [apply HS|apply fans_NoDup|apply group_in_fans; auto|]. intros j Hj. apply in_fans in Hj. apply Hb. tauto. }
      nra.
  Qed.
End MesEJR.


(** ** Sequential Phragmén *)
Section PhragmenPJR.
  Variable p : profile.
  Hypothesis Hw : wf p.
  Hypothesis Hv : voters p <> [].

  Lemma covered_cons : forall S d L, length (covered p S (d :: L)) =
    (if existsb (fun i => likes p i d) S then 1 else 0) + length (covered p S L).
  Proof using.
    intros S d L. unfold covered. cbn [filter].
    change (existsb (fun i => mem d (ballot p i)) S) with (existsb (fun i => likes p i d) S).
    destruct (existsb (fun i => likes p i d) S); reflexivity.
  Qed.

  Lemma new_load_mono : forall x y c, fans p c <> [] -> (forall i, i < length (voters p) -> (x i <= y i)%Q) ->
    (new_load p x c <= new_load p y c)%Q.
  Proof using Hw.
    intros x y c Hf H. unfold new_load. pose proof (fans_weight_pos p c Hw Hf) as Hp.
    apply Qle_shift_div_l; auto.
    assert (E : ((1 + sum (fans p c) (fun i => w p i * x i)) / sum (fans p c) (w p) * sum (fans p c) (w p) ==
                 1 + sum (fans p c) (fun i => w p i * x i))%Q) by (field; lra).
    rewrite E. assert (sum (fans p c) (fun i => w p i * x i) <= sum (fans p c) (fun i => w p i * y i))%Q; [|lra].
    apply sum_le. intros i Hi. apply in_fans in Hi as [Hi _]. specialize (H i Hi). pose proof (w_pos p i Hw Hi). nra.
  Qed.

  Lemma new_load_eq : forall x c, fans p c <> [] ->
    (new_load p x c * sum (fans p c) (w p) == 1 + sum (fans p c) (fun i => w p i * x i))%Q.
  Proof using Hw. intros x c Hf. unfold new_load. pose proof (fans_weight_pos p c Hw Hf) as Hp. field. lra. Qed.

  (** while a supported candidate [c] is not elected *)
  Lemma phragmen_invariant : forall c, c < num_cand p -> fans p c <> [] -> forall L x,
    runs_from p (phragmen_choice p) (phragmen_update p) [] (fun _ => 0%Q) L x -> ~ In c L ->
    (exists M, (forall i, i < length (voters p) -> (x i <= M)%Q) /\
               (forall d, fresh p L d -> fans p d <> [] -> (M <= new_load p x d)%Q)) /\
    (forall i, i < length (voters p) -> (0 <= x i)%Q) /\
    (sum (voter_ids p) (fun i => w p i * x i) == Qnat (length L))%Q /\
    (forall S, is_group p S -> (sum S (fun i => w p i * x i) <= Qnat (length (covered p S L)))%Q).
  Proof using Hw.
    intros c Hcm Hcf L x Hr. induction Hr as [x Hx|W x d x' Hr IH Hd Hu]; intros Hn.
    - assert (Hz : forall l, (forall i, In i l -> i < length (voters p)) -> (sum l (fun i => w p i * x i) == 0)%Q).
      { intros l Hl. rewrite (sum_ext l _ (fun _ => 0%Q)); [apply sum_const0|]. intros i Hi. rewrite (Hx i (Hl i Hi)). ring. }
      split; [|split; [|split]].
      + exists 0%Q. split; [intros i Hi; rewrite (Hx i Hi); lra|]. intros d _ Hf. unfold new_load.
        pose proof (fans_weight_pos p d Hw Hf). apply Qle_shift_div_l; auto.
        rewrite Hz by (intros i Hi; apply in_fans in Hi; tauto). lra.
      + intros i Hi. rewrite (Hx i Hi). lra.
      + apply Hz. intros i Hi. apply in_voter_ids. auto.
      + intros S HS. rewrite Hz; [apply Qnat_nonneg|]. destruct HS as (_ & _ & HS). rewrite Forall_forall in HS. auto.
    - destruct IH as ((M & HM1 & HM2) & H0 & Htot & Hgr); [intro; apply Hn; right; auto|].
      destruct Hd as [Hdf Hd].
      assert (Hcfr : fresh p W c) by (split; auto; intro; apply Hn; right; auto).
      assert (Hdn : fans p d <> []).
      { intros E. rewrite E in Hd. simpl in Hd. apply Hcf. apply Hd. auto. }
      assert (Hmin : forall e, fresh p W e -> fans p e <> [] -> (new_load p x d <= new_load p x e)%Q).
      { intros e He1 He2. destruct (fans p d); [congruence|]. simpl in Hd. auto. }
      set (M' := new_load p x d) in *.
      assert (HMM : (M <= M')%Q) by (apply HM2; auto).
      assert (Hxx : forall i, i < length (voters p) -> (x i <= x' i)%Q).
      { intros i Hi. rewrite (Hu i Hi). cbv beta. destruct (likes p i d); [|lra]. specialize (HM1 i Hi). fold M'. lra. }
      assert (Hinc : (sum (fans p d) (fun i => w p i * (x' i - x i)) == 1)%Q).
      { rewrite (sum_ext _ _ (fun i => M' * w p i - w p i * x i)%Q).
        - rewrite sum_minus, sum_scal. unfold M'. rewrite new_load_eq by auto. ring.
        - intros i Hi. apply in_fans in Hi as [Hi Hl]. rewrite (Hu i Hi). cbv beta. rewrite Hl. fold M'. ring. }
      assert (Hzero : forall i, i < length (voters p) -> likes p i d = false -> (w p i * (x' i - x i) == 0)%Q).
      { intros i Hi Hl. rewrite (Hu i Hi). cbv beta. rewrite Hl. ring. }
      assert (Hnn : forall i, i < length (voters p) -> (0 <= w p i * (x' i - x i))%Q).
      { intros i Hi. specialize (Hxx i Hi). pose proof (w_pos p i Hw Hi). apply Qmult_le_0_compat; lra. }
      assert (Hsplit : forall l, (sum l (fun i => w p i * x' i) == sum l (fun i => w p i * x i) + sum l (fun i => w p i * (x' i - x i)))%Q).
      { intros l. rewrite <- sum_plus. apply sum_ext. intros. ring. }
      split; [|split; [|split]].
      + exists M'. split.
        * intros i Hi. rewrite (Hu i Hi). cbv beta. destruct (likes p i d); [fold M'; lra|]. specialize (HM1 i Hi). lra.
        * intros e [He1 He2] He3. eapply Qle_trans; [apply (Hmin e); auto; split; auto; intro; apply He2; right; auto|].
          apply new_load_mono; auto.
      + intros i Hi. specialize (H0 i Hi). specialize (Hxx i Hi). lra.
      + rewrite Hsplit, Htot. cbn [length]. rewrite Qnat_S.
        assert (E : (sum (voter_ids p) (fun i => w p i * (x' i - x i)) == 1)%Q); [|rewrite E; ring].
        rewrite (sum_split (fun i => likes p i d) (voter_ids p)).
        assert (Z : (sum (filter (fun i => negb (likes p i d)) (voter_ids p)) (fun i => w p i * (x' i - x i)) == 0)%Q).
        { rewrite (sum_ext _ _ (fun _ => 0%Q)); [apply sum_const0|]. intros i Hi. apply filter_In in Hi as [Hi Hl].
          apply Hzero; [apply in_voter_ids; auto|]. apply negb_true_iff. auto. }
        rewrite Z, Qplus_0_r. exact Hinc.
      + intros S HS. rewrite Hsplit, covered_cons. specialize (Hgr S HS).
        assert (Hid : forall i, In i S -> i < length (voters p)).
        { intros i Hi. destruct HS as (_ & _ & H). rewrite Forall_forall in H. auto. }
        destruct (existsb (fun i => likes p i d) S) eqn:Ex.
        * cbn [Nat.add]. rewrite Qnat_S.
          assert (sum S (fun i => w p i * (x' i - x i)) <= 1)%Q; [|lra].
          rewrite <- Hinc. rewrite (sum_split (fun i => likes p i d) S).
          assert (Z : (sum (filter (fun i => negb (likes p i d)) S) (fun i => w p i * (x' i - x i)) == 0)%Q).
          { rewrite (sum_ext _ _ (fun _ => 0%Q)); [apply sum_const0|]. intros i Hi. apply filter_In in Hi as [Hi Hl].
            apply Hzero; auto. apply negb_true_iff. auto. }
          rewrite Z, Qplus_0_r. apply sum_incl_le.
          -- apply NoDup_filter. apply HS.
          -- apply fans_NoDup.
          -- intros i Hi. apply filter_In in Hi as [Hi Hl]. apply in_fans. auto.
          -- intros i Hi. apply in_fans in Hi as [Hi _]. auto.
        * cbn [Nat.add].
          assert (E : (sum S (fun i => w p i * (x' i - x i)) == 0)%Q).
          { rewrite (sum_ext _ _ (fun _ => 0%Q)); [apply sum_const0|]. intros i Hi. apply Hzero; auto.
            destruct (likes p i d) eqn:El; auto. assert (existsb (fun i => likes p i d) S = true) by (apply existsb_exists; eauto).
            congruence. }
          rewrite E. lra.
  Qed.

  Lemma PJR_plus_PJR : forall q W, PJR_plus p q W -> PJR p q W.
  Proof using.
    intros q W H S l (HS & Hl & Hd & T & (HN & HF) & HT & Ha).
    destruct (filter (fun c => negb (mem c W)) T) as [|c r] eqn:E.
    - rewrite <- HT. apply NoDup_incl_length; auto. intros c Hc. unfold covered. apply filter_In. split.
      + destruct (mem c W) eqn:Em; [apply mem_In; auto|]. exfalso.
        assert (Hin : In c (filter (fun c => negb (mem c W)) T)) by (apply filter_In; rewrite Em; auto).
        rewrite E in Hin. destruct Hin.
      + apply existsb_exists. destruct S as [|i S']; [destruct HS; congruence|]. exists i. split; [left; auto|].
        apply mem_In. apply Ha; auto. left; auto.
    - assert (Hc : In c (filter (fun c => negb (mem c W)) T)) by (rewrite E; left; auto).
      apply filter_In in Hc as [Hc Hm]. apply (H S l c); auto.
      + rewrite Forall_forall in HF. auto.
      + apply mem_false. apply negb_true_iff. auto.
      + intros i d Hi [<-|[]]. auto.
  Qed.

  Theorem phragmen_PJR_plus : forall k W, 1 <= k -> phragmen_winner p k W -> PJR_plus p (default_quota p k) W.
  Proof using Hw Hv.
    intros k W Hk (L & x & Hr & Hl & ->) S l c HS Hd Hcm Hcn Ha.
    rewrite isort_In in Hcn.
    assert (Hcov : length (covered p S (isort L)) = length (covered p S L)).
    { unfold covered. apply Permutation_length. apply Permutation_filter. apply Permutation_sym, isort_perm. }
    rewrite Hcov.
    pose proof (group_in_fans p S c HS ltac:(intros i Hi; apply Ha; auto; left; auto)) as Hfans.
    assert (Hcf : fans p c <> []).
    { destruct S as [|i S']; [destruct HS; congruence|]. specialize (Hfans i (or_introl eq_refl)). intros E. rewrite E in Hfans. destruct Hfans. }
    destruct (phragmen_invariant c Hcm Hcf L x Hr Hcn) as ((M & HM1 & HM2) & H0 & Htot & Hgr).
    specialize (Hgr S HS). specialize (HM2 c (conj Hcm Hcn) Hcf).
    pose proof (wsum_pos p Hw Hv) as Hwp.
    assert (Hk0 : (0 < Qnat k)%Q) by (change 0%Q with (Qnat 0); apply -> Qnat_lt; lia).
    destruct (Nat.le_gt_cases l (length (covered p S L))) as [|Hlt]; auto. exfalso.
    assert (Hc1 : (Qnat (length (covered p S L)) + 1 <= Qnat l)%Q) by (rewrite <- Qnat_S; apply -> Qnat_le; lia).
    set (s := sum S (w p)).
    assert (Hd' : (Qnat l * wsum (voters p) <= s * Qnat k)%Q).
    { unfold deserves, default_quota in Hd. rewrite gweight_sum in Hd. fold s in Hd.
      assert (E : (Qnat l * wsum (voters p) == (Qnat l * (wsum (voters p) / Qnat k)) * Qnat k)%Q) by (field; lra).
      rewrite E. apply Qmult_le_compat_r; lra. }
    (* the common load bound M is at least k / W *)
    assert (HMW : (Qnat k <= M * wsum (voters p))%Q).
    { rewrite <- Hl, <- Htot, wsum_voter_ids, <- sum_scal. apply sum_le. intros i Hi. apply in_voter_ids in Hi.
      specialize (HM1 i Hi). pose proof (w_pos p i Hw Hi). nra. }
    (* the supporters of c could not share the load below M *)
    assert (HsM : (s * M - sum S (fun i => w p i * x i) <= 1)%Q).
    { assert (HnM : (M * sum (fans p c) (w p) <= 1 + sum (fans p c) (fun i => w p i * x i))%Q).
      { rewrite <- new_load_eq by auto. apply Qmult_le_compat_r; auto. apply Qlt_le_weak, fans_weight_pos; auto. }
      assert (E : forall l, (sum l (fun i => w p i * (M - x i)) == M * sum l (w p) - sum l (fun i => w p i * x i))%Q).
      { intros l'. rewrite <- sum_scal, <- sum_minus. apply sum_ext. intros; ring. }
      assert (sum S (fun i => w p i * (M - x i)) <= sum (fans p c) (fun i => w p i * (M - x i)))%Q.
      { apply sum_incl_le; auto; [apply HS|apply fans_NoDup|]. intros i Hi. apply in_fans in Hi as [Hi _].
        specialize (HM1 i Hi). pose proof (w_pos p i Hw Hi). apply Qmult_le_0_compat; lra. }
      rewrite !E in H. fold s in H. lra. }
    assert (Hs0 : (0 < s)%Q).
    { apply (weights_pos p Hw); [|apply HS]. intros i Hi. destruct HS as (_ & _ & H). rewrite Forall_forall in H. auto. }
    assert (Hl0 : (0 < Qnat l)%Q) by (change 0%Q with (Qnat 0); apply -> Qnat_lt; lia).
    (* s * M >= l, hence equality everywhere *)
    assert (HsMl : (Qnat l <= s * M)%Q).
    { assert (Qnat l * wsum (voters p) <= (s * M) * wsum (voters p))%Q by nra.
      apply Qmult_le_r in H; auto. }
    assert (HMeq : (M * wsum (voters p) <= Qnat k)%Q).
    { assert (s * M <= Qnat l)%Q by lra.
      assert (H1 : ((M * wsum (voters p)) * s <= Qnat k * s)%Q) by nra.
      apply Qmult_le_r in H1; auto. }
    (* so every voter carries exactly M, and S carries s*M >= l *)
    assert (Hall : forall i, i < length (voters p) -> (x i == M)%Q).
    { intros i Hi. destruct (Qlt_le_dec (x i) M) as [Hlt'|Hge]; [|specialize (HM1 i Hi); lra]. exfalso.
      assert (sum (voter_ids p) (fun j => w p j * x j) < sum (voter_ids p) (fun j => M * w p j))%Q.
      { apply (sum_lt_one _ _ _ i).
        - apply in_voter_ids. auto.
        - intros j Hj. apply in_voter_ids in Hj. specialize (HM1 j Hj). pose proof (w_pos p j Hw Hj). nra.
        - pose proof (w_pos p i Hw Hi). nra. }
      rewrite Htot, Hl, sum_scal, <- wsum_voter_ids in H. lra. }
    assert (E : (sum S (fun i => w p i * x i) == M * s)%Q).
    { unfold s. rewrite <- sum_scal. apply sum_ext. intros i Hi. destruct HS as (_ & _ & HF). rewrite Forall_forall in HF.
      rewrite (Hall i (HF i Hi)). ring. }
    rewrite E in Hgr. lra.
  Qed.
End PhragmenPJR.

(** ** The library's own checks *)
Lemma deserves_antitone : forall p q q' S l, (q <= q')%Q -> deserves p q' S l -> deserves p q S l.
Proof.
  intros p q q' S l H Hd. unfold deserves in *. eapply Qle_trans; [|exact Hd].
  rewrite (Qmult_comm _ q), (Qmult_comm _ q'). apply Qmult_le_compat_r; auto. apply Qnat_nonneg.
Qed.
Lemma EJR_plus_antitone : forall p q q' W, (q <= q')%Q -> EJR_plus p q W -> EJR_plus p q' W.
Proof. intros p q q' W H HE S l c A B D. apply HE; auto. eapply deserves_antitone; eauto. Qed.

Lemma default_quota_antitone : forall p j k, wf p -> voters p <> [] -> 1 <= j -> j <= k ->
  (default_quota p k <= default_quota p j)%Q.
Proof.
  intros p j k Hw Hv Hj Hjk. unfold default_quota. pose proof (wsum_pos p Hw Hv).
  assert (0 < Qnat j)%Q by (change 0%Q with (Qnat 0); apply -> Qnat_lt; lia).
  assert (Qnat j <= Qnat k)%Q by (apply -> Qnat_le; lia).
  apply Qle_shift_div_l; auto. assert (0 < Qnat k)%Q by lra.
  assert (E : (wsum (voters p) / Qnat k * Qnat j == wsum (voters p) * Qnat j / Qnat k)%Q) by (field; lra).
  rewrite E. apply Qle_shift_div_r; auto. nra.
Qed.

Lemma mes_passes : forall e gurobi p k alg resolute maxn s l W, exact_arithmetic e alg ->
  valid_call p k resolute maxn -> s = "av" \/ (s = "seqphragmen" /\ enough_support p k) ->
  compute_equal_shares e p (Z.of_nat k) alg resolute maxn (Some s) = Ok l -> In W l ->
  check_EJR_plus p W None = Ok true /\ check_JR p W None = Ok true /\
  (unit_weights p -> check_EJR gurobi p W None "brute-force" = Ok true /\
                     check_PJR gurobi p W None "brute-force" = Ok true).
Proof.
  intros e g p k alg resolute maxn s l W Ha Hc Hs E Hin.
  assert (HW : exists c, (c = PhragmenCompletion \/ c = AvCompletion) /\
                 mes_winner p k (equal_share p k) (the_completion p k false c) W).
  { destruct Hs as [->|[-> Hs]].
    - exists AvCompletion. split; auto. eapply answers_In; [|exact E|exact Hin].
      apply (compute_mes_correct e p k alg resolute maxn (Some "av") AvCompletion); auto; [eexists; reflexivity|discriminate|exact I].
    - exists PhragmenCompletion. split; auto. eapply answers_In; [|exact E|exact Hin].
      apply (compute_mes_correct e p k alg resolute maxn (Some "seqphragmen") PhragmenCompletion); auto; [eexists; reflexivity|discriminate]. }
  destruct HW as (c & Hcc & HW). destruct Hc as (Hw & Hv & Hk & _).
  destruct (mes_winner_full p k _ c W Hcc HW) as [Hcom _].
  destruct (committee_cand_set p k W (proj1 Hk) Hcom) as [Hcs Hne].
  apply passes_all; auto. assert (El : length W = k) by apply Hcom. rewrite El.
  destruct HW as (L & b & He & H1 & H2). apply (mes_EJR_plus p Hw Hv k L b); auto; [lia|apply Hcs|].
  destruct (proj2 He) as [Hl|[Hl _]].
  - rewrite (H1 Hl). intros x Hx. rewrite isort_In. auto.
  - specialize (H2 Hl). destruct Hcc; subst c; simpl in H2.
    + destruct H2 as (L' & x & Hr' & _ & ->).
      destruct (runs_extend p (phragmen_choice p) (phragmen_update p) _ _ _ _ Hr') as (M & ->).
      intros y Hy. rewrite isort_In. apply in_or_app. auto.
    + apply H2.
Qed.

(** without completion: with respect to the desired size, hence also to the actual one *)
Lemma mes_alone_EJR_plus : forall p k W, wf p -> voters p <> [] -> 1 <= k ->
  mes_winner p k (equal_share p k) no_completion W -> EJR_plus p (default_quota p k) W.
Proof.
  intros p k W Hw Hv Hk (L & b & He & H1 & H2).
  assert (EW : W = isort L) by (destruct (proj2 He) as [Hl|[Hl _]]; [apply H1|apply H2]; auto).
  destruct (mes_run_NoDup _ _ _ _ (proj1 He)) as [HN _].
  apply (mes_EJR_plus p Hw Hv k L b); auto; subst W.
  - apply ascending_NoDup, isort_ascending. auto.
  - intros x Hx. rewrite isort_In. auto.
Qed.

Lemma mes_alone_passes : forall e gurobi p k alg resolute maxn l W, exact_arithmetic e alg ->
  valid_call p k resolute maxn ->
  compute_equal_shares e p (Z.of_nat k) alg resolute maxn None = Ok l -> In W l ->
  EJR_plus p (default_quota p k) W /\
  (W <> [] -> check_EJR_plus p W None = Ok true /\ check_JR p W None = Ok true /\
   (unit_weights p -> check_EJR gurobi p W None "brute-force" = Ok true /\
                      check_PJR gurobi p W None "brute-force" = Ok true)).
Proof.
  intros e g p k alg resolute maxn l W Ha Hc E Hin.
  assert (HW : mes_winner p k (equal_share p k) no_completion W).
  { eapply answers_In; [|exact E|exact Hin].
    apply (compute_mes_correct e p k alg resolute maxn None NoCompletion); auto; [eexists; reflexivity|discriminate|exact I]. }
  destruct Hc as (Hw & Hv & Hk & _).
  assert (HE := mes_alone_EJR_plus p k W Hw Hv ltac:(lia) HW). split; auto. intros Hne.
  assert (Hcs : cand_set p W /\ length W <= k).
  { destruct HW as (L & b & He & H1 & H2).
    assert (EW : W = isort L) by (destruct (proj2 He) as [Hl|[Hl _]]; [apply H1|apply H2]; auto).
    destruct (mes_run_NoDup _ _ _ _ (proj1 He)) as [HN HF]. subst W. rewrite isort_length. split.
    - split; [apply ascending_NoDup, isort_ascending; auto|]. rewrite Forall_forall in *. intros x Hx. rewrite isort_In in Hx. auto.
    - destruct (proj2 He); lia. }
  destruct Hcs as [Hcs Hlen]. apply passes_all; auto. eapply EJR_plus_antitone; [|exact HE].
  apply default_quota_antitone; auto. destruct W; [congruence|simpl; lia].
Qed.

Lemma phragmen_passes : forall e gurobi p k alg resolute maxn l W, exact_arithmetic e alg ->
  valid_call p k resolute maxn -> enough_support p k ->
  compute_seqphragmen e p (Z.of_nat k) alg resolute maxn = Ok l -> In W l ->
  PJR_plus p (default_quota p k) W /\ check_JR p W None = Ok true /\
  (unit_weights p -> check_PJR gurobi p W None "brute-force" = Ok true).
Proof.
  intros e g p k alg resolute maxn l W Ha Hc Hs E Hin.
  assert (HW : phragmen_winner p k W).
  { eapply answers_In; [|exact E|exact Hin]. apply compute_seqphragmen_correct; auto. }
  destruct Hc as (Hw & Hv & Hk & _).
  assert (HP := phragmen_PJR_plus p Hw Hv k W ltac:(lia) HW).
  assert (Hcom : is_committee p k W) by (eapply run_step_facts; [|exact HW]; apply phragmen_choice_fresh).
  destruct (committee_cand_set p k W (proj1 Hk) Hcom) as [Hcs Hne].
  assert (El : length W = k) by apply Hcom.
  assert (HPJR : PJR p (default_quota p (length W)) W) by (rewrite El; apply PJR_plus_PJR; auto).
  split; auto. split; [apply passes_JR; auto; apply PJR_JR; auto|]. intros Hu. apply passes_PJR; auto.
Qed.
