(** * The committees of sequential Phragmén and of Equal Shares have a price system *)
From Coq Require Import String.
From Coq Require Import List Arith Bool ZArith QArith Lia Lqa Permutation.
From Verif Require Import Prelude Misc MiscProofs Preferences Spec SpecSeq SeqProofs MesFinal ComputeSeqProofs PhragmenProofs MesProofs MesLoop Common PrefProofs ChecksProofs SpecAxioms Guarantees Proportional SpecPrice.
Import ListNotations.
Open Scope nat_scope.
Local Open Scope list_scope.

Lemma restrict_pay : forall (W l : list nat) (f : nat -> Q), NoDup W -> NoDup l -> incl W l ->
  (Qsum (map (fun c => if mem c W then f c else 0) l) == Qsum (map f W))%Q.
Proof.
  intros W l f HW Hl Hi.
  assert (P : Permutation (filter (fun c => mem c W) l) W).
  { apply NoDup_Permutation; [apply NoDup_filter; auto|auto|]. intros c. rewrite filter_In, mem_In. split; [tauto|]. intros H. split; auto. }
  rewrite <- (Qsum_perm (map f (filter (fun c => mem c W) l)) (map f W)) by (apply Permutation_map; exact P).
  rewrite Qsum_filter. reflexivity.
Qed.

Lemma prices_from : forall p W B pay, cand_set p W -> (0 <= B)%Q ->
  (forall i c, i < length (voters p) -> (0 <= pay i c)%Q) ->
  (forall i c, likes p i c = false -> (pay i c == 0)%Q) ->
  (forall c, In c W -> (sum (voter_ids p) (fun i => pay i c) == 1)%Q) ->
  (forall i, i < length (voters p) -> (sum W (pay i) <= w p i * B)%Q) ->
  (forall c, fresh p W c -> (sum (fans p c) (fun i => w p i * B - sum W (pay i)) <= 1)%Q) ->
  priceable p W.
Proof.
  intros p W B pay [HN HF] HB H0 Hl H1 Hb Hf. rewrite Forall_forall in HF.
  exists B, (fun i c => if mem c W then pay i c else 0%Q).
  assert (EW : forall i, (Qsum (map (fun c => if mem c W then pay i c else 0) W) == sum W (pay i))%Q).
  { intros i. apply restrict_pay; auto. intros c; auto. }
  split; [split|].
  - exact HB.
  - intros i c Hi _. destruct (mem c W); [auto|lra].
  - intros i Hi. rewrite restrict_pay; auto; [|apply seq_NoDup|intros c Hc; apply in_seq; specialize (HF c Hc); lia]. apply (Hb i Hi).
  - intros i c Hi _ Hn. destruct (mem c W); [|reflexivity]. apply Hl. unfold likes, approves. apply mem_false. exact Hn.
  - intros c _ Hc. rewrite (proj2 (mem_In c W) Hc). exact (H1 c Hc).
  - intros c _ Hc. rewrite (proj2 (mem_false c W) Hc). apply Qsum_map_zero. reflexivity.
  - intros c Hc Hn. eapply Qle_trans; [|exact (Hf c (conj Hc Hn))]. apply Qle_lteq. right. unfold sum. apply Qsum_map_ext.
    intros i _. unfold left_over. rewrite EW. reflexivity.
Qed.

Section Phragmen.
  Variable p : profile.
  Hypothesis Hw : wf p.
  (** [pay] are the payments so far; voter [i] has spent its load, and [s] per unit of weight *)
  Definition priced_run (s : Q) (L : list nat) (x : nat -> Q) : Prop := exists M pay,
    (0 <= M)%Q /\ (forall i, i < length (voters p) -> (x i <= M)%Q) /\
    (forall d, fresh p L d -> fans p d <> [] -> (M <= new_load p x d)%Q) /\
    (forall i c, i < length (voters p) -> (0 <= pay i c)%Q) /\
    (forall i c, likes p i c = false -> (pay i c == 0)%Q) /\
    (forall c, In c L -> (sum (voter_ids p) (fun i => pay i c) == 1)%Q) /\
    (forall i, i < length (voters p) -> (sum L (pay i) == w p i * (x i + s))%Q).
  Definition used_up (L : list nat) : Prop := (exists d, In d L /\ fans p d = []) /\ forall d, fresh p L d -> fans p d = [].

  Lemma runs_fresh : forall L0 x0 L x, runs_from p (phragmen_choice p) (phragmen_update p) L0 x0 L x -> cand_set p L0 -> cand_set p L.
  Proof using.
    intros L0 x0 L x H H0. induction H as [x Hx|W x d x' Hr IH Hd Hu]; auto.
    destruct Hd as [[Hd1 Hd2] _], IH as [I1 I2]. split; constructor; auto.
  Qed.

  Lemma phragmen_prices : forall s L0 x0 L x, priced_run s L0 x0 -> cand_set p L0 ->
    runs_from p (phragmen_choice p) (phragmen_update p) L0 x0 L x -> priced_run s L x \/ used_up L.
  Proof using Hw.
    intros s L0 x0 L x Hp HL0 Hr. induction Hr as [x Hx|W x d x' Hr IH Hd Hu].
    - left. destruct Hp as (M & pay & HM0 & HM1 & HM2 & P0 & Pl & P1 & Px). exists M, pay. split; auto.
      split; [intros i Hi; rewrite (Hx i Hi); auto|]. split.
      { intros d Hd Hf. eapply Qle_trans; [apply (HM2 d Hd Hf)|]. apply new_load_mono; auto. intros i Hi. rewrite (Hx i Hi). lra. }
      repeat (split; auto). intros i Hi. rewrite (Px i Hi), (Hx i Hi). reflexivity.
    - destruct Hd as [Hdf Hd]. pose proof (runs_fresh _ _ _ _ Hr HL0) as [HWn HWf].
      destruct (fans p d) as [|f0 fr] eqn:Ef.
      { right. cbn in Hd. split; [exists d; split; [left; auto|auto]|]. intros e [He1 He2]. apply Hd. split; auto. intro; apply He2; right; auto. }
      cbn in Hd. assert (Hdn : fans p d <> []) by congruence. clear f0 fr Ef.
      destruct IH as [IH|[[e [He1 He2]] IH2]]; [|exfalso; apply Hdn; auto].
      destruct IH as (M & pay & HM0 & HM1 & HM2 & P0 & Pl & P1 & Px).
      set (M' := new_load p x d) in *. assert (HMM : (M <= M')%Q) by (apply HM2; auto).
      assert (Hxx : forall i, i < length (voters p) -> (x i <= x' i)%Q).
      { intros i Hi. rewrite (Hu i Hi). cbv beta. destruct (likes p i d); [|lra]. specialize (HM1 i Hi). fold M'. lra. }
      assert (Hinc : (sum (fans p d) (fun i => w p i * (x' i - x i)) == 1)%Q).
      { rewrite (sum_ext _ _ (fun i => M' * w p i - w p i * x i)%Q).
        - rewrite sum_minus, sum_scal. unfold M'. rewrite new_load_eq by auto. ring.
        - intros i Hi. apply in_fans in Hi as [Hi Hl]. rewrite (Hu i Hi). cbv beta. rewrite Hl. fold M'. ring. }
      left. exists M', (fun i c => if c =? d then if likes p i d then w p i * (x' i - x i) else 0 else pay i c)%Q.
      split; [lra|]. split; [|split; [|split; [|split; [|split]]]].
      + intros i Hi. rewrite (Hu i Hi). cbv beta. destruct (likes p i d); [fold M'; lra|]. specialize (HM1 i Hi). lra.
      + intros e [He1 He2] He3. eapply Qle_trans; [apply (Hd e); auto; split; auto; intro; apply He2; right; auto|]. apply new_load_mono; auto.
      + intros i c Hi. destruct (c =? d); [|auto]. destruct (likes p i d); [|lra]. specialize (Hxx i Hi). pose proof (w_pos p i Hw Hi). apply Qmult_le_0_compat; lra.
      + intros i c Hl. destruct (Nat.eqb_spec c d) as [->|]; [rewrite Hl; reflexivity|auto].
      + intros c [<-|Hc].
        * rewrite Nat.eqb_refl. rewrite <- Hinc. unfold fans, sum. rewrite Qsum_filter. reflexivity.
        * assert (c <> d) by (intros ->; apply (proj2 Hdf); auto). rewrite (proj2 (Nat.eqb_neq c d)) by auto. auto.
      + intros i Hi. unfold sum. cbn [map]. cbn [Qsum fold_right]. rewrite Nat.eqb_refl.
        fold (Qsum (map (fun c => if c =? d then if likes p i d then w p i * (x' i - x i) else 0 else pay i c)%Q W)).
        assert (E : (Qsum (map (fun c => if c =? d then if likes p i d then w p i * (x' i - x i) else 0 else pay i c) W) == w p i * (x i + s))%Q).
        { rewrite <- (Px i Hi). unfold sum. apply Qsum_map_ext. intros c Hc. rewrite (proj2 (Nat.eqb_neq c d)) by (intros ->; apply (proj2 Hdf); auto). reflexivity. }
        rewrite E. assert (L : likes p i d = true \/ (x' i == x i)%Q). { specialize (Hu i Hi). cbv beta in Hu. destruct (likes p i d); auto. }
        destruct L as [-> | L]; [ring|]. destruct (likes p i d); rewrite L; ring.
  Qed.

  Lemma cand_set_isort : forall L, cand_set p L -> cand_set p (isort L).
  Proof using.
    intros L [H1 H2]. split; [apply (Permutation_NoDup (isort_perm L)); auto|].
    rewrite Forall_forall in *. intros c Hc. apply (proj1 (isort_In L c)) in Hc. auto.
  Qed.
  Lemma priced_passes : forall s L x, (0 <= s)%Q -> cand_set p L -> priced_run s L x -> passes_price_check p (isort L) false.
  Proof using Hw.
    intros s L x Hs HL (M & pay & HM0 & HM1 & HM2 & P0 & Pl & P1 & Px). pose proof (cand_set_isort L HL) as HW.
    assert (Es : forall f, (sum (isort L) f == sum L f)%Q).
    { intros f. apply Qsum_perm. apply Permutation_map, Permutation_sym, isort_perm. }
    right. split.
    + intros (A & HA & Hlt & Hin). assert (length (isort L) <= length A); [|lia]. apply NoDup_incl_length; [apply HW|].
      intros c Hc. apply (proj1 (isort_In L c)) in Hc. specialize (P1 c Hc).
      destruct (fans p c) as [|i r] eqn:Ef.
      * exfalso. rewrite (sum_ext _ _ (fun _ => 0%Q)) in P1; [rewrite sum_const0 in P1; lra|]. intros i Hi. apply Pl. destruct (likes p i c) eqn:El; auto.
        assert (In i (fans p c)) by (apply in_fans; split; auto; apply in_voter_ids; auto). rewrite Ef in H. destruct H.
      * assert (Hi : In i (fans p c)) by (rewrite Ef; left; auto). apply in_fans in Hi as [Hi El]. apply (Hin i c Hi). apply mem_In. exact El.
    + apply (prices_from p (isort L) (M + s) pay); auto.
      * lra.
      * intros c Hc. apply (proj1 (isort_In L c)) in Hc. auto.
      * intros i Hi. rewrite Es, (Px i Hi). pose proof (w_pos p i Hw Hi). specialize (HM1 i Hi). nra.
      * intros c [Hc1 Hc2]. rewrite isort_In in Hc2. rewrite (sum_ext _ _ (fun i => M * w p i - w p i * x i)%Q).
        2:{ intros i Hi. apply in_fans in Hi as [Hi _]. rewrite Es, (Px i Hi). ring. }
        rewrite sum_minus, sum_scal. destruct (fans p c) as [|f r] eqn:Ef; [cbn; lra|]. rewrite <- Ef. assert (Hne : fans p c <> []) by congruence.
        pose proof (new_load_eq p Hw x c Hne) as E. pose proof (fans_weight_pos p c Hw Hne). specialize (HM2 c (conj Hc1 Hc2) Hne). nra.
  Qed.
  Lemma used_passes : forall L, cand_set p L -> used_up L -> passes_price_check p (isort L) false.
  Proof using Hw.
    intros L HL [[d [Hd1 Hd2]] Hall].
    assert (Hlk : forall i c, i < length (voters p) -> In c (ballot p i) -> In c L /\ fans p c <> []).
    { intros i c Hi Hc. assert (Hf : fans p c <> []).
      { assert (In i (fans p c)) by (apply in_fans; split; auto; apply mem_In; exact Hc). intros E; rewrite E in H; destruct H. }
      split; auto. destruct (in_dec Nat.eq_dec c L) as [|Hn]; auto. exfalso. apply Hf, Hall. split; auto. pose proof (proj2 (ballot_wf p i Hw Hi)) as B. rewrite Forall_forall in B. auto. }
    left. split.
    + exists (filter (fun c => 0 <? length (fans p c)) L). split; [apply NoDup_filter, HL|]. split.
      * rewrite isort_length.
        assert (E : length (filter (fun c => 0 <? length (fans p c)) L) < length L); [|lia].
        assert (G : length L = length (filter (fun c => 0 <? length (fans p c)) L) + length (filter (fun c => negb (0 <? length (fans p c))) L)).
        { clear. induction L as [|c L IH]; [reflexivity|]. cbn [filter]. destruct (0 <? length (fans p c)); cbn [negb length]; lia. }
        assert (K : In d (filter (fun c => negb (0 <? length (fans p c))) L)) by (apply filter_In; rewrite Hd2; auto).
        destruct (filter (fun c => negb (0 <? length (fans p c))) L); [destruct K|]. cbn [length] in G. lia.
      * intros i c Hi Hc. destruct (Hlk i c Hi Hc) as [A B]. apply filter_In. split; auto. destruct (fans p c); [congruence|reflexivity].
    + intros i c Hi Hc. apply isort_In. eapply Hlk; eauto.
  Qed.

  Theorem phragmen_passes_price : forall k W, phragmen_winner p k W -> passes_price_check p W false.
  Proof using Hw.
    intros k W (L & x & Hr & Hl & ->).
    assert (H0 : cand_set p []) by (split; constructor). pose proof (runs_fresh _ _ _ _ Hr H0) as HL.
    destruct (phragmen_prices 0 [] (fun _ => 0%Q) L x) as [H|H]; auto; [|apply (priced_passes 0 L x); auto; lra|apply used_passes; auto].
    exists 0%Q, (fun _ _ => 0%Q). repeat split; try (intros; lra).
    - intros d _ Hf. unfold new_load. pose proof (fans_weight_pos p d Hw Hf). apply Qle_shift_div_l; auto.
      rewrite (sum_ext (fans p d) (fun i => w p i * 0)%Q (fun _ => 0%Q)); [rewrite sum_const0; lra|]. intros; ring.
    - intros c [].
    - intros i Hi. unfold sum. cbn. ring.
  Qed.

  Hypothesis Hv : voters p <> [].
  Definition share_left (b : nat -> Q) (i : nat) : Q := (- b i / w p i)%Q.
  Lemma mes_priced_run : forall k L b, 1 <= k -> mes_ends p k (equal_share p k) L b ->
    cand_set p L /\ priced_run (Qnat k / wsum (voters p)) L (share_left b).
  Proof using Hw Hv.
    intros k L b Hk [Hr He]. pose proof (MesFinal.wsum_pos p Hw Hv) as Hp.
    assert (H0 : forall i, i < length (voters p) -> (0 <= equal_share p k i)%Q) by (intros i Hi; apply equal_share_nonneg; auto).
    pose proof (run_nonneg p _ _ _ Hr H0) as Hb. pose proof (run_total p Hw _ _ _ Hr H0) as Ht. rewrite (start_total p Hw Hv) in Ht.
    destruct (mes_payments p _ L b Hw Hr H0) as (pay & P1 & P2 & P3 & P4).
    split. { destruct (runs_props p (mes_choice p) (mes_update p) ltac:(intros W y c [Hc _]; exact Hc) _ _ _ _ Hr ltac:(constructor) ltac:(constructor)) as [A B]. split; auto. }
    exists 0%Q, pay. split; [lra|].
    assert (Hx : forall i, i < length (voters p) -> (w p i * share_left b i == - b i)%Q).
    { intros i Hi. pose proof (w_pos p i Hw Hi). unfold share_left. field. lra. }
    split.
    { intros i Hi. specialize (Hx i Hi). specialize (Hb i Hi). pose proof (w_pos p i Hw Hi). nra. }
    split.
    { intros d Hd Hf. unfold new_load. pose proof (fans_weight_pos p d Hw Hf). apply Qle_shift_div_l; auto.
      rewrite (sum_ext (fans p d) (fun i => w p i * share_left b i)%Q (fun i => 0 - b i)%Q) by (intros i Hi; apply in_fans in Hi as [Hi _]; rewrite (Hx i Hi); ring).
      rewrite sum_minus, sum_const0. assert (sum (fans p d) b <= 1)%Q; [|lra].
      destruct He as [El|[_ Hs]]; [|specialize (Hs d Hd); unfold purse in Hs; lra].
      assert (sum (fans p d) b <= sum (voter_ids p) b)%Q; [|rewrite Ht, El in H1; lra].
      apply sum_incl_le; [apply fans_NoDup|apply voter_ids_NoDup|intros i Hi; apply in_fans in Hi as [Hi _]; apply in_voter_ids; auto|].
      intros i Hi. apply Hb, in_voter_ids. auto. }
    repeat (split; auto). intros i Hi. rewrite Qmult_plus_distr_r, (Hx i Hi). specialize (P4 i Hi). unfold equal_share in P4.
    assert (E : (w p i * (Qnat k / wsum (voters p)) == w p i * Qnat k / wsum (voters p))%Q) by (field; lra). lra.
  Qed.
  Lemma base_nonneg : forall k, (0 <= Qnat k / wsum (voters p))%Q.
  Proof using Hw Hv. intros k. pose proof (MesFinal.wsum_pos p Hw Hv). apply Qle_shift_div_l; auto. pose proof (Qnat_nonneg k). lra. Qed.
  Theorem mes_passes_price : forall k W, 1 <= k ->
    mes_winner p k (equal_share p k) no_completion W \/ mes_winner p k (equal_share p k) (phragmen_completion p k) W ->
    passes_price_check p W false.
  Proof using Hw Hv.
    intros k W Hk HW. pose proof (base_nonneg k) as Hs.
    assert (HW' : exists L b, mes_ends p k (equal_share p k) L b /\ (W = isort L \/ phragmen_completion p k L b W)).
    { destruct HW as [(L & b & He & H1 & H2)|(L & b & He & H1 & H2)]; exists L, b; split; auto; destruct (proj2 He) as [E|[E _]]; auto. left. exact (H2 E). }
    destruct HW' as (L & b & He & H). destruct (mes_priced_run k L b Hk He) as [HL HP]. destruct H as [->|(L' & x & Hr & _ & ->)].
    - eapply priced_passes; eauto.
    - pose proof (runs_fresh _ _ _ _ Hr HL) as HL'. destruct (phragmen_prices _ _ _ _ _ HP HL Hr); [eapply priced_passes; eauto|apply used_passes; auto].
  Qed.
End Phragmen.
