(** * Completion of Equal Shares with approval voting *)
From Coq Require Import String.
From Coq Require Import List Arith Bool ZArith QArith Lia Lqa Permutation Sorted Setoid.
From Verif Require Import Prelude Misc MiscProofs Preferences Scores Spec ScoresProofs Search RulesThiele
  Common ThieleProofs BBProofs OptProofs SpecRules SpecSeq RulesSeq SeqProofs PhragmenProofs EnestroemProofs RulesMes
  MesProofs.
Import ListNotations.
Open Scope nat_scope.

(** ** Committees maximising a sum of candidate scores are the top sets *)
Definition top_set (p : profile) (s : nat -> Q) (t : nat) (T : list nat) : Prop :=
  is_committee p t T /\ forall c d, In c T -> d < num_cand p -> ~ In d T -> (s d <= s c)%Q.

Lemma dominated_sum : forall (s : nat -> Q) A B, length A = length B ->
  (forall a b, In a A -> In b B -> (s b <= s a)%Q) -> (sum B s <= sum A s)%Q.
Proof.
  intros s. induction A as [|a A IH]; intros [|b B] Hl H; try discriminate.
  unfold sum in *. simpl. assert (s b <= s a)%Q by (apply H; left; auto).
  assert (Qsum (map s B) <= Qsum (map s A))%Q.
  { apply IH; [simpl in Hl; lia|]. intros; apply H; right; auto. }
  lra.
Qed.

Lemma nodup_both : forall A B : list nat, NoDup A -> NoDup B ->
  Permutation (filter (fun x => mem x B) A) (filter (fun x => mem x A) B).
Proof.
  intros A B HA HB. apply NoDup_Permutation; try (apply NoDup_filter; auto).
  intro x. rewrite !filter_In, !mem_In. tauto.
Qed.

Lemma diff_sizes : forall A B : list nat, NoDup A -> NoDup B -> length A = length B ->
  length (filter (fun x => negb (mem x B)) A) = length (filter (fun x => negb (mem x A)) B).
Proof.
  intros A B HA HB HL. pose proof (filter_length_split (fun x => mem x B) A).
  pose proof (filter_length_split (fun x => mem x A) B).
  pose proof (Permutation_length (nodup_both A B HA HB)). lia.
Qed.

(** two sets of the same size: if one has a member outside the other, so does the other *)
Lemma exchange_partner : forall A B : list nat, NoDup A -> NoDup B -> length A = length B ->
  forall x, In x A -> ~ In x B -> exists y, In y B /\ ~ In y A.
Proof.
  intros A B HA HB HL x Hx Hn. pose proof (diff_sizes A B HA HB HL) as H.
  assert (Hin : In x (filter (fun x => negb (mem x B)) A)).
  { apply filter_In. split; auto. apply negb_true_iff. apply mem_false. auto. }
  destruct (filter (fun x => negb (mem x A)) B) as [|y r] eqn:E.
  - destruct (filter (fun x => negb (mem x B)) A); [destruct Hin|discriminate].
  - assert (Hy : In y (y :: r)) by (left; auto). rewrite <- E in Hy. apply filter_In in Hy as [A1 A2].
    exists y. split; auto. apply negb_true_iff, mem_false in A2. auto.
Qed.

Lemma committee_parts : forall p t T, is_committee p t T -> NoDup T /\ length T = t /\ forall c, In c T -> c < num_cand p.
Proof.
  intros p t T (A & B & C). split; [apply ascending_NoDup; auto|]. split; auto. rewrite Forall_forall in C. auto.
Qed.

Lemma top_set_maximises : forall p s t T, top_set p s t T <-> maximises (fun W => Qsum (map s W)) p t T.
Proof.
  intros p s t T. split.
  - intros [HT Htop]. split; auto. intros W' HW'.
    destruct (committee_parts _ _ _ HT) as (N1 & L1 & R1). destruct (committee_parts _ _ _ HW') as (N2 & L2 & R2).
    change (sum W' s <= sum T s)%Q.
    rewrite (sum_split (fun x => mem x T) W'), (sum_split (fun x => mem x W') T).
    rewrite (sum_perm _ _ _ (nodup_both T W' N1 N2)).
    assert (sum (filter (fun x => negb (mem x T)) W') s <= sum (filter (fun x => negb (mem x W')) T) s)%Q.
    { apply dominated_sum; [apply diff_sizes; auto; lia|]. intros a b Ha Hb.
      apply filter_In in Ha as [Ha _]. apply filter_In in Hb as [Hb1 Hb2]. apply negb_true_iff, mem_false in Hb2.
      apply Htop; auto. }
    lra.
  - intros [HT Hmax]. split; auto. intros c d Hc Hd Hnd.
    destruct (committee_parts _ _ _ HT) as (N1 & L1 & R1).
    apply in_split in Hc as (l1 & l2 & E). subst T.
    assert (HP : Permutation (l1 ++ c :: l2) (c :: l1 ++ l2)) by (apply Permutation_sym, Permutation_middle).
    assert (HN : NoDup (d :: l1 ++ l2)).
    { constructor.
      - intro H. apply Hnd. eapply Permutation_in; [apply Permutation_sym; exact HP|right; auto].
      - apply (Permutation_NoDup HP) in N1. inversion N1; auto. }
    specialize (Hmax (isort (d :: l1 ++ l2))).
    assert (HC : is_committee p t (isort (d :: l1 ++ l2))).
    { apply isort_committee; auto.
      - rewrite <- L1. rewrite (Permutation_length HP). reflexivity.
      - apply Forall_forall. intros x [<-|Hx]; auto. apply R1.
        eapply Permutation_in; [apply Permutation_sym; exact HP|right; auto]. }
    specialize (Hmax HC). cbv beta in Hmax.
    change (sum (isort (d :: l1 ++ l2)) s <= sum (l1 ++ c :: l2) s)%Q in Hmax.
    rewrite <- (sum_perm _ _ _ (isort_perm (d :: l1 ++ l2))), (sum_perm _ _ _ HP) in Hmax.
    unfold sum in Hmax. simpl in Hmax. lra.
Qed.

Lemma top_set_exists : forall p s t, t <= num_cand p -> exists T, top_set p s t T.
Proof.
  intros p s t Ht. destruct (max_exists (fun W => Qsum (map s W)) p t Ht) as (T & A & B).
  exists T. apply top_set_maximises. split; auto.
Qed.

(** removing a lowest element *)
Lemma top_set_remove : forall p s t T c, top_set p s (S t) T -> In c T -> (forall e, In e T -> (s c <= s e)%Q) ->
  exists T', top_set p s t T' /\ forall x, In x T' <-> In x T /\ x <> c.
Proof.
  intros p s t T c [HT Htop] Hc Hmin. destruct (committee_parts _ _ _ HT) as (N1 & L1 & R1).
  exists (filter (fun x => negb (x =? c)) T).
  assert (Hin : forall x, In x (filter (fun x => negb (x =? c)) T) <-> In x T /\ x <> c).
  { intro x. rewrite filter_In, negb_true_iff, Nat.eqb_neq. tauto. }
  split; auto. split.
  - split; [apply ascending_filter; apply HT|]. split.
    + apply in_split in Hc as (l1 & l2 & E). subst T. rewrite filter_app. simpl. rewrite Nat.eqb_refl. simpl.
      apply NoDup_remove in N1 as [_ N1].
      assert (Hall : forall l, (forall x, In x l -> x <> c) -> filter (fun x => negb (x =? c)) l = l).
      { induction l as [|a l IH]; simpl; auto. intros H. destruct (Nat.eqb_spec a c) as [->|]; simpl.
        - exfalso. apply (H c); auto.
        - rewrite IH; auto. }
      rewrite !Hall.
      * rewrite app_length in *. simpl in L1. lia.
      * intros x Hx ->. apply N1. apply in_app_iff; auto.
      * intros x Hx ->. apply N1. apply in_app_iff; auto.
    + apply Forall_forall. intros x Hx. apply Hin in Hx as [Hx _]. auto.
  - intros a d Ha Hd Hnd. apply Hin in Ha as [Ha Hac].
    destruct (Nat.eq_dec d c) as [->|Hdc]; auto.
    apply Htop; auto. intro H. apply Hnd, Hin. auto.
Qed.

Lemma argmin_exists : forall (s : nat -> Q) l, l <> [] -> exists c, In c l /\ forall e, In e l -> (s c <= s e)%Q.
Proof.
  intros s l Hne. destruct (py_min_In (map s l)) as (mn & _ & Hin & Hm).
  - destruct l; [congruence|discriminate].
  - apply in_map_iff in Hin as (c & <- & Hc). exists c. split; auto. intros e He. apply Hm. apply in_map. auto.
Qed.

(** ** The loop *)
Section Av.
  Variables (p : profile) (k : nat) (C : list nat).
  Hypothesis Hw : wf p.
  Hypothesis Hk : k <= num_cand p.
  Hypothesis HN : NoDup C.
  Hypothesis HC : Forall (fun c => c < num_cand p) C.
  Hypothesis Hl : length C < k.
  Let s := support p.
  (** members of [T] that are not in [C] *)
  Let new (T : list nat) := filter (fun c => negb (mem c C)) T.
  Let joined (T : list nat) := isort (C ++ new T).
  Let r0 := k - length C.

  Lemma new_In : forall T x, In x (new T) <-> In x T /\ ~ In x C.
  Proof using All. intros. unfold new. rewrite filter_In, negb_true_iff, mem_false. tauto. Qed.
  Lemma joined_In : forall T x, In x (joined T) <-> In x C \/ In x T.
  Proof using All.
    intros. unfold joined. rewrite isort_In, in_app_iff, new_In. split; [tauto|].
    intros [|]; auto. destruct (in_dec Nat.eq_dec x C); auto.
  Qed.
  Lemma joined_length : forall T, length (joined T) = length C + length (new T).
  Proof using All. intros. unfold joined. rewrite isort_length, app_length. reflexivity. Qed.
  Lemma joined_NoDup : forall T, NoDup T -> NoDup (C ++ new T).
  Proof using All.
    intros T HT. apply NoDup_app_intro; auto; [apply NoDup_filter; auto|].
    intros x Hx Hx'. apply new_In in Hx'. tauto.
  Qed.
  Lemma joined_asc : forall T, NoDup T -> ascending (joined T).
  Proof using All. intros. apply isort_ascending, joined_NoDup; auto. Qed.

  Lemma new_step : forall t T', top_set p s (S t) T' ->
    exists T, top_set p s t T /\ length (new T') <= S (length (new T)).
  Proof using All.
    intros t T' HT'. destruct (committee_parts _ _ _ (proj1 HT')) as (N1 & L1 & R1).
    destruct (argmin_exists s T') as (c & Hc & Hmin); [destruct T'; [discriminate|discriminate]|].
    destruct (top_set_remove p s t T' c HT' Hc Hmin) as (T & HT & Hin).
    exists T. split; auto.
    change (S (length (new T))) with (length (c :: new T)).
    apply NoDup_incl_length; [apply NoDup_filter; auto|].
    intros x Hx. apply new_In in Hx as [Hx1 Hx2].
    destruct (Nat.eq_dec x c) as [->|Hne]; [left; auto|right]. apply new_In. split; auto. apply Hin. auto.
  Qed.

  (** the committees the loop returns when it stops at [t] *)
  Lemma av_sound : forall t T, top_set p s t T -> length (joined T) = k -> av_completion p k C (fun _ => 0%Q) (joined T).
  Proof using All.
    intros t T HT Hlen. destruct (committee_parts _ _ _ (proj1 HT)) as (N1 & L1 & R1).
    split; [|split].
    - split; [apply joined_asc; auto|]. split; auto. apply Forall_forall. intros x Hx. apply joined_In in Hx as [Hx|Hx]; auto.
      rewrite Forall_forall in HC. auto.
    - intros x Hx. apply joined_In. auto.
    - intros c d Hc Hnc Hd Hnd. apply joined_In in Hc as [Hc|Hc]; [contradiction|].
      apply (proj2 HT); auto. intro H. apply Hnd, joined_In. auto.
  Qed.

  Lemma av_complete : forall t T W, top_set p s t T -> length (joined T) = k ->
    (forall t', S t' = t -> forall T', top_set p s t' T' -> length (joined T') <> k) ->
    av_completion p k C (fun _ => 0%Q) W ->
    exists T', top_set p s t T' /\ joined T' = W.
  Proof using All.
    intros t Ts W HTs HlTs Hmin (HWc & HWi & HWt).
    destruct (committee_parts _ _ _ (proj1 HTs)) as (N1 & L1 & R1).
    destruct (committee_parts _ _ _ HWc) as (N2 & L2 & R2).
    pose (R := new W). pose (Rs := new Ts). pose (A := filter (fun x => mem x C) Ts).
    assert (HlR : length R = r0).
    { unfold R. pose proof (filter_length_split (fun x => mem x C) W) as H.
      pose proof (Permutation_length (nodup_both W C N2 HN)) as H'.
      assert (Hall : filter (fun x => mem x W) C = C).
      { clear -HWi. induction C as [|a l IH]; simpl; auto.
        replace (mem a W) with true by (symmetry; apply mem_In, HWi; left; auto).
        rewrite IH; auto. intros x Hx. apply HWi. right; auto. }
      rewrite Hall in H'. unfold new, r0. lia. }
    assert (HlRs : length Rs = r0) by (rewrite joined_length in HlTs; unfold Rs, r0; lia).
    assert (HNR : NoDup R) by (apply NoDup_filter; auto).
    assert (HNRs : NoDup Rs) by (apply NoDup_filter; auto).
    assert (HlA : length A + r0 = t).
    { pose proof (filter_length_split (fun x => mem x C) Ts) as H. change (length Ts = length A + length Rs) in H. lia. }
    assert (HAin : forall x, In x A <-> In x Ts /\ In x C).
    { intro x. unfold A. rewrite filter_In, mem_In. tauto. }
    assert (HRW : forall x, In x R <-> In x W /\ ~ In x C) by (intro; apply new_In).
    assert (HRs : forall x, In x Rs <-> In x Ts /\ ~ In x C) by (intro; apply new_In).
    (* every member of A is strictly better than the worst of Ts *)
    assert (Hstrict : forall c, In c A -> exists e, In e Ts /\ (s e < s c)%Q).
    { intros c Hc. apply HAin in Hc as [Hc1 Hc2].
      destruct (argmin_exists s Ts) as (e & He & Hemin); [destruct Ts; [destruct Hc1|discriminate]|].
      exists e. split; auto. destruct (Qlt_le_dec (s e) (s c)) as [|Hle]; auto. exfalso.
      assert (Hcmin : forall x, In x Ts -> (s c <= s x)%Q).
      { intros x Hx. specialize (Hemin x Hx). lra. }
      destruct t as [|t']; [destruct Ts; [destruct Hc1|discriminate]|].
      destruct (top_set_remove p s t' Ts c HTs Hc1 Hcmin) as (T' & HT' & HinT').
      apply (Hmin t' eq_refl T' HT'). rewrite joined_length in *. rewrite <- HlTs. f_equal.
      apply Permutation_length. apply NoDup_Permutation.
      - apply NoDup_filter. apply (committee_parts _ _ _ (proj1 HT')).
      - apply NoDup_filter; auto.
      - intro x. rewrite !new_In, HinT'. split; [tauto|]. intros [H1 H2]. split; auto. split; auto.
        intros ->. contradiction. }
    exists (isort (A ++ R)).
    assert (HNAR : NoDup (A ++ R)).
    { apply NoDup_app_intro; auto; [apply NoDup_filter; auto|].
      intros x Hx Hx'. apply HAin in Hx. apply HRW in Hx'. tauto. }
    assert (Hin : forall x, In x (isort (A ++ R)) <-> In x A \/ In x R).
    { intro. rewrite isort_In, in_app_iff. tauto. }
    split; [split|].
    - apply isort_committee; auto.
      + rewrite app_length. lia.
      + apply Forall_forall. intros x Hx. apply in_app_iff in Hx as [Hx|Hx].
        * apply HAin in Hx. apply R1; tauto.
        * apply HRW in Hx. apply R2; tauto.
    - intros c d Hc Hd Hnd. rewrite Hin in Hc. rewrite Hin in Hnd.
      assert (HndA : ~ In d A) by tauto. assert (HndR : ~ In d R) by tauto. clear Hnd.
      (* transfer between R and Rs *)
      assert (Htrans : forall x, In x R -> exists y, In y Rs /\ (s y <= s x)%Q).
      { intros x Hx. destruct (in_dec Nat.eq_dec x Rs) as [Hi|Hni]; [exists x; split; auto; lra|].
        destruct (exchange_partner R Rs HNR HNRs ltac:(lia) x Hx Hni) as (y & Hy & Hny).
        exists y. split; auto. apply HRW in Hx as [Hx1 Hx2]. apply HRs in Hy as [Hy1 Hy2].
        apply HWt; auto. intro Hyw. apply Hny, HRW. auto. }
      destruct Hc as [HcA|HcR].
      + pose proof HcA as HcA'. apply HAin in HcA as [Hc1 Hc2].
        destruct (in_dec Nat.eq_dec d Ts) as [HdT|HdT]; [|apply (proj2 HTs); auto].
        (* d is in Rs but not in R *)
        assert (HdC : ~ In d C) by (intro H; apply HndA, HAin; auto).
        assert (HdRs : In d Rs) by (apply HRs; auto).
        destruct (exchange_partner Rs R HNRs HNR ltac:(lia) d HdRs HndR) as (y & Hy & Hny).
        apply HRW in Hy as [Hy1 Hy2].
        assert (HyT : ~ In y Ts) by (intro H; apply Hny, HRs; auto).
        assert (HdW : ~ In d W) by (intro H; apply HndR, HRW; auto).
        destruct (Hstrict c HcA') as (e & He & Hlt).
        assert (s d <= s y)%Q by (apply HWt; auto).
        assert (s y <= s e)%Q by (apply (proj2 HTs); auto). lra.
      + destruct (in_dec Nat.eq_dec d C) as [HdC|HdC].
        * assert (HdT : ~ In d Ts) by (intro H; apply HndA, HAin; auto).
          destruct (Htrans c HcR) as (y & Hy & Hle). apply HRs in Hy as [Hy1 Hy2].
          assert (s d <= s y)%Q by (apply (proj2 HTs); auto). lra.
        * apply HRW in HcR as [Hc1 Hc2]. apply HWt; auto. intro H. apply HndR, HRW. auto.
    - apply ascending_ext.
      + apply joined_asc. eapply Permutation_NoDup; [apply isort_perm|auto].
      + apply HWc.
      + intro x. rewrite joined_In, Hin, HAin, HRW. split.
        * intros [H|[[_ H]|[H _]]]; auto.
        * intro H. destruct (in_dec Nat.eq_dec x C); tauto.
  Qed.

  Lemma av_phase_spec : forall rounds t, r0 <= t <= k -> k < rounds + t ->
    (forall T, top_set p s t T -> length (joined T) <= k) ->
    (forall t', S t' = t -> forall T', top_set p s t' T' -> length (joined T') <> k) ->
    exists ws, av_phase p k C rounds t = Ok ws /\ ws <> [] /\ Forall (@NoDup nat) ws /\
      forall W, In W ws <-> av_completion p k C (fun _ => 0%Q) W.
  Proof using All.
    induction rounds as [|rounds IH]; intros t Ht Hr Hle Hprev; [lia|]. cbn [av_phase].
    destruct (separable_rule_correct SepAV p t false None Hw ltac:(unfold r0 in *; lia) I)
      as (l & E & _ & _ & Hsnd & Hcmp).
    rewrite E. cbn [rbind].
    assert (Hl_in : forall T, In T l <-> top_set p s t T).
    { intro T. rewrite top_set_maximises. split; [apply Hsnd|apply Hcmp]. }
    change (map (fun comm => isort (C ++ filter (fun c => negb (mem c C)) comm)) l) with (map joined l).
    replace (existsb (fun nc => k <? length nc) (map joined l)) with false.
    2:{ symmetry. apply not_true_iff_false. rewrite existsb_exists. intros (nc & Hnc & Hlt).
        apply in_map_iff in Hnc as (T & <- & HT). apply Hl_in in HT. apply Nat.ltb_lt in Hlt. specialize (Hle T HT). lia. }
    destruct (filter (fun nc => length nc =? k) (map joined l)) as [|w0 ws0] eqn:Ef.
    - assert (Hne : forall T, top_set p s t T -> length (joined T) <> k).
      { intros T HT Hlk. apply Hl_in in HT.
        assert (Hx : In (joined T) (filter (fun nc => length nc =? k) (map joined l))).
        { apply filter_In. split; [apply in_map; auto|apply Nat.eqb_eq; auto]. }
        rewrite Ef in Hx. destruct Hx. }
      assert (t < k).
      { destruct (Nat.eq_dec t k) as [->|]; [|lia]. exfalso.
        destruct (top_set_exists p s k Hk) as (T & HT). apply (Hne T HT).
        specialize (Hle T HT). 
        assert (k <= length (joined T)); [|lia].
        destruct (committee_parts _ _ _ (proj1 HT)) as (N1 & L1 & R1). rewrite <- L1 at 1.
        apply NoDup_incl_length; auto. intros x Hx. apply joined_In. auto. }
      apply IH; try lia.
      + intros T HT. destruct (new_step t T HT) as (T0 & HT0 & Hs).
        specialize (Hle T0 HT0). specialize (Hne T0 HT0). rewrite joined_length in *. lia.
      + intros t' Et. assert (t' = t) by lia. subst t'. auto.
    - set (ws := w0 :: ws0) in *. exists ws. split; auto. split; [discriminate|].
      assert (Hin : forall W, In W ws <-> exists T, top_set p s t T /\ joined T = W /\ length W = k).
      { intro W. rewrite <- Ef, filter_In, in_map_iff, Nat.eqb_eq. split.
        - intros [(T & E' & HT) HlW]. exists T. split; [apply Hl_in; auto|auto].
        - intros (T & HT & E' & HlW). split; auto. exists T. split; auto. apply Hl_in; auto. }
      split.
      + apply Forall_forall. intros W HW. apply Hin in HW as (T & HT & <- & _).
        apply ascending_NoDup, joined_asc. apply (committee_parts _ _ _ (proj1 HT)).
      + intro W. rewrite Hin. split.
        * intros (T & HT & <- & HlW). apply (av_sound t); auto.
        * intros HW. assert (Hw0 : In w0 ws) by (left; auto). apply Hin in Hw0 as (T & HT & ET & HlT).
          rewrite <- ET in HlT. destruct (av_complete t T W HT HlT Hprev HW) as (T' & HT' & <-).
          exists T'. split; auto. split; auto. destruct HW as ((_ & HlW & _) & _). auto.
  Qed.

  Lemma fill_av_ok : forall a, exists ws, fill_av p k C a = Ok ws /\ ws <> [] /\ Forall (@NoDup nat) ws /\
      forall W, In W (map isort ws) <-> av_completion p k (rev C) (nthQ a) W.
  Proof using All.
    intros a. unfold fill_av. destruct (av_phase_spec k (k - length C)) as (ws & E & Hne & Hnd & Hin).
    - unfold r0. lia.
    - lia.
    - intros T HT. rewrite joined_length. destruct (committee_parts _ _ _ (proj1 HT)) as (N1 & L1 & R1).
      assert (length (new T) <= length T); [|lia]. apply NoDup_incl_length; [apply NoDup_filter; auto|].
      intros x Hx. apply new_In in Hx. tauto.
    - intros t' Et T' HT'. rewrite joined_length. destruct (committee_parts _ _ _ (proj1 HT')) as (N1 & L1 & R1).
      assert (length (new T') <= length T'); [|lia]. apply NoDup_incl_length; [apply NoDup_filter; auto|].
      intros x Hx. apply new_In in Hx. tauto.
    - exists ws. split; auto. split; auto. split; auto. intro W.
      assert (Hm : map isort ws = ws).
      { rewrite <- (map_id ws) at 2. apply map_ext_in. intros x Hx. apply isort_id.
        apply Hin in Hx as ((Hx & _) & _). auto. }
      rewrite Hm, Hin. unfold av_completion. split.
      + intros (A & B & D). split; auto. split.
        * intros x Hx. apply in_rev in Hx. auto.
        * intros c d H1 H2. apply D; auto. rewrite in_rev. auto.
      + intros (A & B & D). split; auto. split.
        * intros x Hx. rewrite in_rev in Hx. auto.
        * intros c d H1 H2. apply D; auto. rewrite <- in_rev. auto.
  Qed.
End Av.
