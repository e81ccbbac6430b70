(** * Sequential Phragmén with floats: how far the computed loads are from the exact ones, and what follows for the result *)
From Coq Require Import String.
From Coq Require Import List Arith Bool ZArith QArith Qabs Lia Lqa Permutation Sorted.
From Verif Require Import Prelude Misc MiscProofs Preferences Scores Spec ScoresProofs Search RulesThiele
  Common ThieleProofs SpecRules SpecSeq RulesSeq SeqProofs PhragmenProofs Floats RulesFloat FloatSearch FloatStruct SpecFloat FloatBounds.
Import ListNotations.
Open Scope nat_scope.

Lemma nth_num_enum : forall p (g : nat * voter -> num) i, i < length (voters p) ->
  nth_num (map g (enum_voters p)) i = g (i, the_voter p i).
Proof.
  intros p g i Hi. rewrite enum_voters_eq, map_map. unfold nth_num.
  rewrite nth_indep with (d' := (fun j => g (j, the_voter p j)) 0).
  - rewrite (map_nth (fun j => g (j, the_voter p j))). unfold voter_ids. rewrite seq_nth; auto.
  - rewrite map_length. unfold voter_ids. rewrite seq_length. auto.
Qed.
Lemma fans_length : forall p c, length (fans p c) <= length (voters p).
Proof.
  intros. unfold fans. rewrite <- (seq_length (length (voters p)) 0). fold (voter_ids p).
  induction (voter_ids p) as [|i l IH]; simpl; auto. destruct (likes p i c); simpl; lia.
Qed.
Lemma weight_num_val : forall v, val (weight_num v) = weight v.
Proof. reflexivity. Qed.
Lemma weight_num_kind : forall v, kind_of (weight_num v) <> KFloat.
Proof. intros. unfold weight_num. simpl. destruct (weight_is_int v); discriminate. Qed.
Lemma Qnat_S : forall n, (Qnat (S n) == Qnat n + 1)%Q.
Proof. intros. unfold Qnat. rewrite Nat2Z.inj_succ, <- Z.add_1_r, inject_Z_plus. reflexivity. Qed.
Lemma Qnat_nonneg : forall n, (0 <= Qnat n)%Q.
Proof. intros. unfold Qnat. change 0%Q with (inject_Z 0). rewrite <- Zle_Qle. lia. Qed.
Lemma Qnat_le : forall n m, n <= m -> (Qnat n <= Qnat m)%Q.
Proof. intros. unfold Qnat. rewrite <- Zle_Qle. lia. Qed.

Section FloatPhragmen.
  Variable A : arith.
  Hypothesis HA : float_ok A.
  Variables (p : profile) (k : nat).
  Hypothesis Hw : wf p.
  Hypothesis Hk : 1 <= k <= num_cand p.
  Hypothesis Hone : forall v, In v (voters p) -> (1 <= weight v)%Q.
  Let n := length (voters p).
  (** roundings per round *)
  Let s := n + 9.
  Hypothesis Hsize : (Z.of_nat (k * (length (voters p) + 9)) <= 4400)%Z.

  Lemma f_weight_eq : forall c, (val (f_approvers_weight A p c) == sum (fans p c) (w p))%Q.
  Proof using HA.
    intros c. unfold f_approvers_weight. rewrite (sum_exact A HA).
    - rewrite map_map. rewrite (voters_the_voter p), filter_map_comm, map_map. reflexivity.
    - apply Forall_forall. intros x Hx. apply in_map_iff in Hx as (v & <- & _). apply weight_num_kind.
  Qed.
  Lemma f_load_map : forall load c, f_approvers_load A p load c =
    nsum A (map (fun i => nmul A (weight_num (the_voter p i)) (nth_num load i)) (fans p c)).
  Proof using.
    intros. unfold f_approvers_load. rewrite enum_voters_eq, filter_map_comm, map_map. reflexivity.
  Qed.

  (** the computed loads [a] approximate [x] after [length C] rounds *)
  Definition tracks (C : list nat) (a : list num) (x : nat -> Q) : Prop :=
    forall i, i < length (voters p) -> within (length C * s) (val (nth_num a i)) (x i) /\ (x i <= Qnat (length C))%Q.

  Lemma fans_weight_one : forall c, fans p c <> [] -> (1 <= sum (fans p c) (w p))%Q.
  Proof using Hone Hw.
    intros c Hf. destruct (fans p c) as [|i l] eqn:E; [congruence|]. unfold sum. simpl.
    assert (Hi : i < length (voters p)). { apply (in_fans p i c). rewrite E. left; auto. }
    assert (H1 : (1 <= w p i)%Q) by (apply Hone, the_voter_In; auto).
    assert (H2 : (0 <= Qsum (map (w p) l))%Q).
    { apply (sum_nonneg l (w p)). intros j Hj. apply Qlt_le_weak, w_pos; auto. apply (in_fans p j c). rewrite E. right; auto. }
    lra.
  Qed.

  Lemma tracks_supported : forall C a x c, tracks C a x -> ~ In c C -> fans p c <> [] ->
    within (S (length C) * s) (val (f_new_maxload A p k C a c)) (new_load p x c) /\ (new_load p x c <= Qnat (S (length C)))%Q.
  Proof using HA Hw Hone Hk Hsize.
    intros C a x c HT Hc Hf. pose proof (fans_weight_one c Hf) as HW1. unfold f_new_maxload. apply mem_false in Hc. rewrite Hc.
    assert (HW : (val (f_approvers_weight A p c) == sum (fans p c) (w p))%Q) by apply f_weight_eq.
    pose proof (nlt_spec (num_of_nat 0) (f_approvers_weight A p c)) as Hlt. change (val (num_of_nat 0)) with 0%Q in Hlt.
    destruct (nlt (num_of_nat 0) (f_approvers_weight A p c)); [|exfalso; lra].
    assert (HL : within (length C * s + n + 4) (val (f_approvers_load A p a c)) (sum (fans p c) (fun i => w p i * x i)%Q)).
    { rewrite f_load_map. eapply within_mono; [|apply (arith_sum A HA nat (0 + length C * s + 3))].
      - pose proof (fans_length p c). fold n in H. lia.
      - intros i Hi. apply in_fans in Hi as [Hi _]. apply arith_mul; auto; [|apply HT; auto].
        rewrite weight_num_val. apply within_refl; [|reflexivity]. apply Qlt_le_weak, w_pos; auto. }
    split.
    - unfold new_load.
      assert (Hadd : within (length C * s + n + 4 + 2) (val (nadd A (f_approvers_load A p a c) (num_of_nat 1))) (sum (fans p c) (fun i => w p i * x i)%Q + 1)).
      { apply arith_add; auto. apply within_refl; [discriminate|reflexivity]. }
      pose proof (arith_div A HA _ 0 _ (f_approvers_weight A p c) _ (sum (fans p c) (w p)) Hadd) as HD.
      eapply within_ext; [reflexivity| |eapply within_mono; [|apply HD]].
      + rewrite Qplus_comm. reflexivity.
      + unfold s. simpl. lia.
      + apply within_refl; [lra|exact HW].
      + lra.
    - unfold new_load. apply Qle_shift_div_r; [lra|].
      assert (HS : (sum (fans p c) (fun i => w p i * x i) <= Qnat (length C) * sum (fans p c) (w p))%Q).
      { rewrite <- sum_scal. apply sum_le. intros i Hi. apply in_fans in Hi as [Hi _]. destruct (HT i Hi) as [_ Hx]. pose proof (w_pos p i Hw Hi).
        rewrite (Qmult_comm (Qnat _)). rewrite !(Qmult_comm (w p i)). apply Qmult_le_compat_r; lra. }
      rewrite Qnat_S. lra.
  Qed.
  Lemma f_new_member : forall C a c, In c C -> f_new_maxload A p k C a c = num_of_nat (k + 2).
  Proof using. intros C a c H. unfold f_new_maxload. apply mem_In in H. rewrite H. auto. Qed.
  Lemma f_new_unsupported : forall C a c, ~ In c C -> fans p c = [] -> f_new_maxload A p k C a c = num_of_nat (k + 1).
  Proof using HA.
    intros C a c H Hf. unfold f_new_maxload. apply mem_false in H. rewrite H.
    pose proof (nlt_spec (num_of_nat 0) (f_approvers_weight A p c)) as Hlt. assert (HW : (val (f_approvers_weight A p c) == sum (fans p c) (w p))%Q) by apply f_weight_eq.
    rewrite Hf in HW. change (sum [] (w p)) with 0%Q in HW.
    destruct (nlt (num_of_nat 0) (f_approvers_weight A p c)); auto. exfalso. change (val (num_of_nat 0)) with 0%Q in Hlt. lra.
  Qed.

  (** the largest factor *)
  Lemma size_grow : forall C : list nat, length C < k -> (grow (S (length C) * s) <= 1 + (4886 # 10000000000000000))%Q.
  Proof using Hk Hsize.
    intros C Hl. eapply Qle_trans; [apply (grow_le _ 4400); [|reflexivity]|discriminate].
    assert (S (length C) * s <= k * s) by (apply Nat.mul_le_mono_r; lia). unfold s, n in *. lia.
  Qed.
  Lemma size_k : (Qnat k <= 4400)%Q.
  Proof using Hk Hsize. unfold Qnat. change 4400%Q with (inject_Z 4400). rewrite <- Zle_Qle. nia. Qed.

  Notation delta := phragmen_margin.

  Lemma nth_candidates : forall (f : nat -> num) c, c < num_cand p -> nth_num (map f (candidates p)) c = f c.
  Proof using.
    intros f c Hc. unfold nth_num, candidates.
    rewrite nth_indep with (d' := f 0) by (rewrite map_length, seq_length; auto). rewrite map_nth, seq_nth; auto.
  Qed.

  Lemma f_select_spec : forall C a x, tracks C a x -> NoDup C -> Forall (fun c => c < num_cand p) C -> length C < k ->
    exists sel, f_phragmen_select A p k C a = Ok sel /\ sel <> [] /\ ascending sel /\
      (forall c, In c sel -> close_phragmen_choice p delta C x c) /\
      (forall c, phragmen_choice p C x c -> In c sel).
  Proof using HA Hw Hk Hone Hsize.
    intros C a x HT HN HF Hl. unfold f_phragmen_select. set (f := f_new_maxload A p k C a).
    destruct (nmin_ok (map f (candidates p))) as (opt & Eopt & Hin & Hle).
    { unfold candidates. destruct (num_cand p) eqn:E; [lia|discriminate]. }
    rewrite Eopt. cbn [rbind]. eexists. split; [reflexivity|].
    assert (Hfil : forall c, In c (filter (fun c => isclose A (nth_num (map f (candidates p)) c) opt) (candidates p)) <->
      c < num_cand p /\ isclose A (f c) opt = true).
    { intros c. rewrite filter_In. unfold candidates at 1. rewrite in_seq. split.
      - intros [H1 H2]. split; [lia|]. rewrite nth_candidates in H2 by lia. auto.
      - intros [H1 H2]. split; [lia|]. rewrite nth_candidates by lia. auto. }
    apply in_map_iff in Hin as (d0 & Ed0 & Hd0). unfold candidates in Hd0. apply in_seq in Hd0.
    assert (Hmin : forall c, c < num_cand p -> (val opt <= val (f c))%Q).
    { intros c Hc. apply Hle. apply in_map. unfold candidates. apply in_seq. lia. }
    pose proof (size_grow C Hl) as Hg. set (g := grow (S (length C) * s)) in *.
    set (e := 4886 # 10000000000000000) in *. pose proof (grow_pos (S (length C) * s)) as Hg0. fold g in Hg0.
    (* values *)
    assert (Hsup : forall c, fresh p C c -> fans p c <> [] -> within (S (length C) * s) (val (f c)) (new_load p x c) /\
       (new_load p x c <= Qnat k)%Q /\ (val (f c) <= Qnat k * (1 + e))%Q).
    { intros c [Hc Hn] Hf. destruct (tracks_supported C a x c HT Hn Hf) as [H1 H2]. fold f in H1.
      assert (H3 : (new_load p x c <= Qnat k)%Q) by (eapply Qle_trans; [exact H2|apply Qnat_le; lia]). split; auto. split; auto.
      destruct H1 as (P1 & P2 & P3). eapply Qle_trans; [exact P3|]. fold g.
      apply Qle_trans with (new_load p x c * (1 + e))%Q; [rewrite !(Qmult_comm (new_load p x c)); apply Qmult_le_compat_r; auto|].
      apply Qmult_le_compat_r; auto. discriminate. }
    assert (Hk1 : (Qnat (k + 1) == Qnat k + 1)%Q) by (rewrite Nat.add_1_r; apply Qnat_S).
    assert (Hk2 : (Qnat (k + 2) == Qnat k + 2)%Q) by (replace (k + 2) with (S (S k)) by lia; rewrite !Qnat_S; lra).
    pose proof size_k as Hk4. pose proof (Qnat_nonneg k) as Hk0.
    assert (Hgap : (Qnat k * (1 + e) <= Qnat k + (1 # 10))%Q).
    { assert (Qnat k * e <= 4400 * e)%Q by (apply Qmult_le_compat_r; [auto|discriminate]). assert (4400 * e <= 1 # 10)%Q by discriminate. lra. }
    assert (Hnn : forall c, c < num_cand p -> (0 <= val (f c))%Q).
    { intros c Hc. destruct (in_dec Nat.eq_dec c C) as [Hi|Hi].
      - unfold f. rewrite f_new_member by auto. change (val (num_of_nat (k + 2))) with (Qnat (k + 2)). lra.
      - destruct (fans p c) eqn:Ef.
        + unfold f. rewrite f_new_unsupported by auto. change (val (num_of_nat (k + 1))) with (Qnat (k + 1)). lra.
        + destruct (Hsup c) as (W & _ & _); [split; auto|congruence|]. eapply within_nonneg; eauto. }
    assert (Hopt0 : (0 <= val opt)%Q) by (rewrite <- Ed0; apply Hnn; lia).
    (* some candidate outside *)
    destruct (fresh_exists p C HN ltac:(lia)) as (c1 & Hc1).
    assert (Hopt1 : (val opt <= Qnat k + 1)%Q).
    { eapply Qle_trans; [apply (Hmin c1); apply Hc1|]. destruct (fans p c1) eqn:Ef.
      - unfold f. rewrite f_new_unsupported; [|apply Hc1|auto]. change (val (num_of_nat (k + 1))) with (Qnat (k + 1)). lra.
      - destruct (Hsup c1 Hc1) as (_ & _ & H); [congruence|]. lra. }
    assert (Hmg : (margin * (Qnat k + 1) + margin <= 1 # 10)%Q).
    { assert (margin * (Qnat k + 1) <= margin * 4401)%Q by (rewrite !(Qmult_comm margin); apply Qmult_le_compat_r; [lra|discriminate]).
      assert (margin * 4401 + margin <= 1 # 10)%Q by discriminate. lra. }
    assert (Hmopt : (0 <= margin * val opt /\ margin * val opt <= margin * (Qnat k + 1))%Q).
    { split; [apply Qmult_le_0_compat; [discriminate|auto]|]. rewrite !(Qmult_comm margin). apply Qmult_le_compat_r; [auto|discriminate]. }
    split; [|split; [|split]].
    - intros E0. assert (Hin0 : In d0 (filter (fun c => isclose A (nth_num (map f (candidates p)) c) opt) (candidates p))).
      { apply Hfil. split; [lia|]. rewrite Ed0. apply isclose_refl. }
      rewrite E0 in Hin0. destruct Hin0.
    - apply ascending_filter. apply ascending_seq.
    - intros c Hc. apply Hfil in Hc as [Hc Hcl].
      pose proof (close_elim A HA (f c) opt (Hnn c Hc) Hopt0 Hcl) as Hce.
      assert (Hni : ~ In c C).
      { intros Hi. unfold f in Hce. rewrite f_new_member in Hce by auto. change (val (num_of_nat (k + 2))) with (Qnat (k + 2)) in Hce. lra. }
      split; [split; auto|]. destruct (fans p c) as [|i l] eqn:Ef; cbn [length Nat.ltb Nat.leb].
      + intros d Hd. destruct (fans p d) as [|j l'] eqn:Ed; auto. exfalso.
        destruct (Hsup d Hd) as (_ & _ & H); [congruence|]. specialize (Hmin d (proj1 Hd)).
        unfold f in Hce at 1. rewrite f_new_unsupported in Hce by auto. change (val (num_of_nat (k + 1))) with (Qnat (k + 1)) in Hce.
        rewrite Hk1 in Hce. lra.
      + intros d Hd Hfd. destruct (Hsup c) as ((C1 & C2 & C3) & C4 & C5); [split; auto|congruence|].
        destruct (Hsup d Hd Hfd) as ((D1 & D2 & D3) & _ & _). fold g in C2, C3, D2, D3. specialize (Hmin d (proj1 Hd)).
        set (L := new_load p x d) in *.
        assert (H1 : (val (f d) <= L * (1 + e))%Q) by (eapply Qle_trans; [exact D3|]; rewrite !(Qmult_comm L); apply Qmult_le_compat_r; auto).
        assert (H2 : (new_load p x c <= val (f c) * (1 + e))%Q).
        { eapply Qle_trans; [exact C2|]. rewrite !(Qmult_comm (val (f c))). apply Qmult_le_compat_r; auto. }
        assert (H3 : ((1 + margin) * val opt <= (1 + margin) * (L * (1 + e)))%Q) by (apply Qmult_le_l; [reflexivity|lra]).
        assert (H4 : (val (f c) * (1 + e) <= ((1 + margin) * (L * (1 + e)) + margin) * (1 + e))%Q) by (apply Qmult_le_compat_r; [lra|discriminate]).
        assert (H5 : ((1 + margin) * (1 + e) * (1 + e) * L <= (1 + delta) * L)%Q) by (apply Qmult_le_compat_r; [discriminate|auto]).
        assert (H6 : (margin * (1 + e) <= delta)%Q) by discriminate. lra.
    - intros c (Hfc & Hch). apply Hfil. split; [apply Hfc|].
      destruct (fans p c) as [|i l] eqn:Ef; cbn [length Nat.ltb Nat.leb] in Hch.
      + (* nobody outside is supported *)
        apply (close_intro A HA 0); [lia|]. apply within_refl; auto.
        assert (Ec : val (f c) = Qnat (k + 1)) by (unfold f; rewrite f_new_unsupported; [reflexivity|apply Hfc|auto]).
        apply Qle_antisym; [|apply Hmin; apply Hfc]. rewrite Ec, <- Ed0. destruct (in_dec Nat.eq_dec d0 C) as [Hi|Hi].
        * unfold f. rewrite f_new_member by auto. apply Qnat_le. lia.
        * unfold f. rewrite f_new_unsupported; [apply Qle_refl|auto|apply Hch; split; auto; lia].
      + (* the minimum is attained by a supported candidate *)
        destruct (Hsup c Hfc) as (Wc & _ & Wk); [congruence|].
        apply (close_intro A HA (S (length C) * s + S (length C) * s)).
        { assert (S (length C) * s <= k * s) by (apply Nat.mul_le_mono_r; lia). unfold s, n in *. lia. }
        assert (Hmc := Hmin c (proj1 Hfc)).
        assert (Hd0f : fresh p C d0 /\ fans p d0 <> []).
        { split.
          - split; [lia|]. intros Hi. rewrite <- Ed0 in Hmc. unfold f in Hmc at 1. rewrite f_new_member in Hmc by auto.
            change (val (num_of_nat (k + 2))) with (Qnat (k + 2)) in Hmc. lra.
          - intros E. rewrite <- Ed0 in Hmc. destruct (in_dec Nat.eq_dec d0 C) as [Hi|Hi].
            + unfold f in Hmc at 1. rewrite f_new_member in Hmc by auto. change (val (num_of_nat (k + 2))) with (Qnat (k + 2)) in Hmc. lra.
            + unfold f in Hmc at 1. rewrite f_new_unsupported in Hmc by auto. change (val (num_of_nat (k + 1))) with (Qnat (k + 1)) in Hmc. lra. }
        destruct Hd0f as [Hd0f Hd0s]. destruct (Hsup d0 Hd0f Hd0s) as (Wd & _ & _). specialize (Hch d0 Hd0f Hd0s).
        split; [auto|]. rewrite grow_add. fold g. rewrite Ed0 in Wd.
        destruct Wc as (C1 & C2 & C3), Wd as (D1 & D2 & D3). fold g in C2, C3, D2, D3.
        assert (Hg1 : (1 <= g)%Q) by apply grow_ge1.
        split.
        * apply Qle_trans with (val (f c)); [auto|]. assert (0 <= val (f c))%Q by (apply Hnn; apply Hfc).
          rewrite <- (Qmult_1_r (val (f c))) at 1. rewrite !(Qmult_comm (val (f c))). apply Qmult_le_compat_r; auto.
          apply Qle_trans with (1 * 1)%Q; [discriminate|]. apply Qmult_le_compat_nonneg; lra.
        * apply Qle_trans with (new_load p x c * g)%Q; auto.
          apply Qle_trans with (new_load p x d0 * g)%Q; [apply Qmult_le_compat_r; [auto|lra]|].
          rewrite Qmult_assoc. apply Qmult_le_compat_r; [auto|lra].
  Qed.

  Lemma f_next_tracks : forall C a x c x', tracks C a x -> length C < k -> fresh p C c ->
    phragmen_update p C x c x' -> exists a', f_phragmen_next A p k C a c = Ok a' /\ tracks (C ++ [c]) a' x'.
  Proof using HA Hw Hone Hk Hsize.
    intros C a x c x' HT Hl [Hc Hn] Hu. eexists. split; [reflexivity|]. intros i Hi. rewrite app_length, Nat.add_1_r.
    rewrite nth_num_enum by auto. simpl fst; simpl snd. specialize (Hu i Hi). simpl in Hu. unfold likes, approves in Hu.
    destruct (mem c (approved (the_voter p i))) eqn:E.
    - destruct (tracks_supported C a x c HT Hn) as [H1 H2].
      { intros E0. assert (Hin : In i (fans p c)) by (apply in_fans; split; auto). rewrite E0 in Hin. destruct Hin. }
      split; [|rewrite Hu; auto]. eapply within_ext; [reflexivity|symmetry; exact Hu|]. auto.
    - destruct (HT i Hi) as [H1 H2]. split.
      + eapply within_ext; [reflexivity|symmetry; exact Hu|]. eapply within_mono; [|exact H1]. simpl. lia.
      + rewrite Hu, Qnat_S. lra.
  Qed.

  Lemma close_choice_ext : forall d W W' x y c, set_same W W' -> agree p x y -> close_phragmen_choice p d W x c -> close_phragmen_choice p d W' y c.
  Proof using.
    intros d W W' x y c Hs Ha (Hf & H). split; [eapply fresh_ext; eauto|].
    assert (Hs' : set_same W' W) by (intro z; symmetry; apply Hs).
    destruct (0 <? length (fans p c)).
    - intros e He Hfe. specialize (H e (fresh_ext _ _ _ _ Hs' He) Hfe).
      rewrite <- (new_load_ext p x y c Ha), <- (new_load_ext p x y e Ha). auto.
    - intros e He. apply H. eapply fresh_ext; eauto.
  Qed.

  Definition FG (C : list nat) (a : list num) : Prop :=
    exists x, runs_from p (close_phragmen_choice p delta) (phragmen_update p) [] (fun _ => 0%Q) (rev C) x /\ tracks C a x.
  Lemma fg_step : forall C a, FG C a -> NoDup C -> Forall (fun c => c < num_cand p) C -> length C < k ->
    exists sel, f_phragmen_select A p k C a = Ok sel /\ sel <> [] /\ ascending sel /\
      forall c, In c sel -> fresh p C c /\ exists a', f_phragmen_next A p k C a c = Ok a' /\ FG (C ++ [c]) a'.
  Proof using HA Hw Hk Hone Hsize.
    intros C a (x & Hr & HT) HN HF Hl. destruct (f_select_spec C a x HT HN HF Hl) as (sel & E & Hne & Ha & Hs & _).
    exists sel. split; auto. split; auto. split; auto. intros c Hc. specialize (Hs c Hc). split; [apply Hs|].
    destruct (f_next_tracks C a x c (fun i => if likes p i c then new_load p x c else x i) HT Hl (proj1 Hs)) as (a' & Ea & HT').
    { apply agree_refl. }
    exists a'. split; auto. eexists. split; [|exact HT']. rewrite app_snoc_rev. econstructor; [exact Hr| |apply agree_refl].
    eapply close_choice_ext; [apply rev_same|apply agree_refl|exact Hs].
  Qed.
  Lemma zero_tracks : tracks [] (f_zero_load p) (fun _ => 0%Q).
  Proof using.
    intros i Hi. unfold f_zero_load, nth_num. rewrite nth_repeat_lt || rewrite (nth_indep _ _ (num_of_nat 0)) by (rewrite repeat_length; auto).
    rewrite nth_repeat. split; [|apply Qle_refl]. apply within_refl; [apply Qle_refl|reflexivity].
  Qed.
  Lemma fg_start : FGood p FG [] (f_zero_load p).
  Proof using.
    split; [|split; constructor]. exists (fun _ => 0%Q). split; [constructor; apply agree_refl|apply zero_tracks].
  Qed.
  Lemma mem_perm : forall c C C', Permutation C C' -> mem c C' = mem c C.
  Proof using.
    intros c C C' H. destruct (mem c C) eqn:E.
    - apply mem_In. apply mem_In in E. eapply Permutation_in; eauto.
    - apply mem_false. apply mem_false in E. intros Hc. apply E. eapply Permutation_in; [symmetry|]; eauto.
  Qed.
  Lemma f_phragmen_perm : forall C C' a, Permutation C C' ->
    f_phragmen_select A p k C' a = f_phragmen_select A p k C a /\ forall c, f_phragmen_next A p k C' a c = f_phragmen_next A p k C a c.
  Proof using.
    intros C C' a H. assert (E : forall c, f_new_maxload A p k C' a c = f_new_maxload A p k C a c).
    { intros c. unfold f_new_maxload. rewrite (mem_perm c C C' H). reflexivity. }
    split.
    - unfold f_phragmen_select. rewrite (map_ext _ _ E). reflexivity.
    - intros c. unfold f_phragmen_next. rewrite E. reflexivity.
  Qed.

  Let winner := fwinner k (f_phragmen_select A p k) (f_phragmen_next A p k) [] (f_zero_load p).

  (** every committee found is a close winner *)
  Lemma f_winner_close : forall W, winner W -> close_phragmen_winner p delta k W.
  Proof using HA Hw Hk Hone Hsize.
    intros W (C & a & Hr & Hlk & ->). destruct (frun_good p k _ _ FG fg_step _ _ _ _ fg_start Hr) as ((x & Hx & _) & _ & _).
    exists (rev C), x. split; auto. split; [rewrite rev_length; auto|]. rewrite isort_rev. auto.
  Qed.
  (** every exact winner is found *)
  Lemma f_winner_exact : forall W, phragmen_winner p k W -> winner W.
  Proof using HA Hw Hk Hone Hsize.
    intros W (L & x & Hr & Hlk & ->).
    assert (H : forall L x, runs_from p (phragmen_choice p) (phragmen_update p) [] (fun _ => 0%Q) L x -> length L <= k ->
      exists a, frun k (f_phragmen_select A p k) (f_phragmen_next A p k) [] (f_zero_load p) (rev L) a /\ tracks (rev L) a x).
    { clear - HA Hw Hk Hone Hsize. intros L x Hr. induction Hr as [x Hx|L x c x' Hr IH Hc Hu]; intros Hl.
      - exists (f_zero_load p). split; [constructor|]. intros i Hi. destruct (zero_tracks i Hi) as [H1 H2]. split.
        + eapply within_ext; [reflexivity|symmetry; apply (Hx i Hi)|exact H1].
        + rewrite (Hx i Hi). auto.
      - destruct IH as (a & Hp & HT); [simpl in Hl; lia|].
        destruct (runs_props p (phragmen_choice p) (phragmen_update p) (phragmen_choice_fresh p) _ _ _ _ Hr) as [HN HF]; [constructor|constructor|].
        assert (Hlen : length (rev L) < k) by (rewrite rev_length; simpl in Hl; lia).
        destruct (f_select_spec (rev L) a x HT (NoDup_rev HN) (Forall_rev HF) Hlen) as (sel & E & _ & _ & _ & Hin).
        assert (Hc' : phragmen_choice p (rev L) x c) by (eapply phragmen_choice_ext; [apply rev_same|apply agree_refl|exact Hc]).
        destruct (f_next_tracks (rev L) a x c x' HT Hlen (proj1 Hc')) as (a' & Ea & HT').
        { eapply phragmen_update_ext; [apply rev_same|exact Hu]. }
        exists a'. simpl. split; auto. econstructor; eauto. }
    destruct (H L x Hr ltac:(lia)) as (a & Hp & _). exists (rev L), a. split; auto. split; [rewrite rev_length; auto|]. rewrite isort_rev. auto.
  Qed.
  Lemma f_winner_committee : forall W, winner W -> is_committee p k W.
  Proof using HA Hw Hk Hone Hsize. intros W HW. eapply fwinner_committee; [exact fg_step|exact fg_start|exact HW]. Qed.

  Theorem f_seqphragmen_answers : forall resolute maxn, valid_max maxn -> answers winner resolute maxn (f_seqphragmen A p k resolute maxn).
  Proof using HA Hw Hk Hone Hsize.
    intros resolute maxn Hm. unfold f_seqphragmen. destruct resolute.
    - unfold f_seqphragmen_resolute.
      destruct (float_loop_correct p k _ _ FG fg_step [] (f_zero_load p) fg_start f_phragmen_perm) as (W & E & HW); [simpl; lia|].
      rewrite E. cbn [rbind]. rewrite sorted_committees_asc.
      + apply answers_resolute_one. auto.
      + constructor; [|constructor]. apply f_winner_committee. auto.
    - unfold f_seqphragmen_irresolute.
      pose proof (float_dfs_correct p k _ _ FG fg_step [] (f_zero_load p) fg_start maxn ltac:(simpl; lia) Hm) as HA'.
      pose proof (answers_resort _ _ _ _ (fun W HW => proj1 (f_winner_committee W HW)) HA') as HR. rewrite HR. exact HA'.
  Qed.
End FloatPhragmen.
