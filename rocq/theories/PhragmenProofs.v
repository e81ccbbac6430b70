(** * Sequential Phragmén, Phragmén-Eneström and the consensus rule: proofs *)
From Coq Require Import String.
From Coq Require Import List Arith Bool ZArith QArith Lia Lqa Permutation Sorted.
From Verif Require Import Prelude Misc MiscProofs Preferences Scores Spec ScoresProofs Search RulesThiele
  Common ThieleProofs SpecRules SpecSeq RulesSeq SeqProofs.
Import ListNotations.
Open Scope nat_scope.

(** ** voters by position *)
Lemma voters_the_voter : forall p, voters p = map (the_voter p) (voter_ids p).
Proof.
  intros p. unfold voter_ids, the_voter. generalize (mkVoter [] 1 true). intro d.
  induction (voters p) as [|v l IH]; simpl; auto. f_equal. rewrite <- seq_shift, map_map. auto.
Qed.

Lemma enum_voters_eq : forall p, enum_voters p = map (fun i => (i, the_voter p i)) (voter_ids p).
Proof.
  intros p. unfold enum_voters. rewrite (voters_the_voter p) at 2. fold (voter_ids p).
  induction (voter_ids p); simpl; auto. f_equal. auto.
Qed.

Lemma in_voter_ids : forall p i, In i (voter_ids p) <-> i < length (voters p).
Proof. intros. unfold voter_ids. rewrite in_seq. lia. Qed.

Lemma voter_ids_NoDup : forall p, NoDup (voter_ids p).
Proof. intros. apply seq_NoDup. Qed.

Lemma the_voter_In : forall p i, i < length (voters p) -> In (the_voter p i) (voters p).
Proof. intros. apply nth_In; auto. Qed.

Lemma w_pos : forall p i, wf p -> i < length (voters p) -> (0 < w p i)%Q.
Proof. intros p i Hw Hi. destruct (wf_voter_in p _ Hw (the_voter_In p i Hi)) as (_ & _ & H). exact H. Qed.

Lemma in_fans : forall p i c, In i (fans p c) <-> i < length (voters p) /\ likes p i c = true.
Proof. intros. unfold fans. rewrite filter_In, in_voter_ids. tauto. Qed.

Lemma fans_NoDup : forall p c, NoDup (fans p c).
Proof. intros. apply NoDup_filter, voter_ids_NoDup. Qed.

Lemma fold_left_sum : forall (A : Type) (g : A -> Q) l s,
  (fold_left (fun s x => s + g x)%Q l s == s + Qsum (map g l))%Q.
Proof. induction l; simpl; intros; [lra|]. rewrite IHl. lra. Qed.

Lemma filter_map_comm : forall (A B : Type) (f : A -> B) (P : B -> bool) l,
  filter P (map f l) = map f (filter (fun x => P (f x)) l).
Proof. induction l; simpl; auto. destruct (P (f a)); simpl; rewrite IHl; auto. Qed.

Lemma enum_filter_sum : forall p (P : voter -> bool) (g : nat -> voter -> Q),
  (fold_left (fun s iv => s + g (fst iv) (snd iv))%Q (filter (fun iv => P (snd iv)) (enum_voters p)) 0
   == sum (filter (fun i => P (the_voter p i)) (voter_ids p)) (fun i => g i (the_voter p i)))%Q.
Proof.
  intros. rewrite (fold_left_sum _ (fun iv => g (fst iv) (snd iv))), enum_voters_eq, filter_map_comm, map_map. simpl.
  unfold sum. lra.
Qed.

Lemma approvers_weight_eq : forall p c, (approvers_weight p c == sum (fans p c) (w p))%Q.
Proof.
  intros. unfold approvers_weight. rewrite fold_left_sum, (voters_the_voter p) at 1.
  rewrite filter_map_comm, map_map. unfold sum, fans, w, likes, approves. lra.
Qed.

Lemma support_fans : forall p c, (support p c == sum (fans p c) (w p))%Q.
Proof.
  intros. unfold support, wsum, supporters. rewrite (voters_the_voter p) at 1.
  rewrite filter_map_comm, map_map. reflexivity.
Qed.

Lemma wsum_voter_ids : forall p, (wsum (voters p) == sum (voter_ids p) (w p))%Q.
Proof. intros. unfold wsum. rewrite (voters_the_voter p) at 1. rewrite map_map. reflexivity. Qed.

Lemma total_weight_eq : forall p, (total_weight p == wsum (voters p))%Q.
Proof. intros. unfold total_weight. rewrite fold_left_sum. unfold wsum. lra. Qed.

Lemma approvers_load_eq : forall p load c,
  (approvers_load p load c == sum (fans p c) (fun i => w p i * nthQ load i))%Q.
Proof. intros. unfold approvers_load. apply (enum_filter_sum p (fun v => mem c (approved v)) (fun i v => weight v * nthQ load i)%Q). Qed.

Lemma nthQ_enum : forall p (g : nat * voter -> Q) i, i < length (voters p) ->
  nthQ (map g (enum_voters p)) i = g (i, the_voter p i).
Proof.
  intros p g i Hi. rewrite enum_voters_eq, map_map. unfold nthQ.
  rewrite nth_indep with (d' := (fun j => g (j, the_voter p j)) 0).
  - rewrite (map_nth (fun j => g (j, the_voter p j))). unfold voter_ids. rewrite seq_nth; auto.
  - rewrite map_length. unfold voter_ids. rewrite seq_length. auto.
Qed.

Lemma enum_length : forall p (g : nat * voter -> Q), length (map g (enum_voters p)) = length (voters p).
Proof. intros. rewrite enum_voters_eq, !map_length. unfold voter_ids. apply seq_length. Qed.

Lemma sum_ext : forall l (f g : nat -> Q), (forall i, In i l -> (f i == g i)%Q) -> (sum l f == sum l g)%Q.
Proof. intros. apply Qsum_map_ext; auto. Qed.
Lemma sum_le : forall l (f g : nat -> Q), (forall i, In i l -> (f i <= g i)%Q) -> (sum l f <= sum l g)%Q.
Proof. intros. apply Qsum_map_le; auto. Qed.
Lemma sum_scal : forall l (f : nat -> Q) a, (sum l (fun i => a * f i) == a * sum l f)%Q.
Proof. intros. apply Qsum_map_scal. Qed.
Lemma sum_nonneg : forall l (f : nat -> Q), (forall i, In i l -> (0 <= f i)%Q) -> (0 <= sum l f)%Q.
Proof. intros. apply Qsum_map_nonneg; auto. Qed.
Lemma sum_plus : forall l (f g : nat -> Q), (sum l (fun i => f i + g i) == sum l f + sum l g)%Q.
Proof. intros. apply Qsum_map_plus. Qed.

Lemma sum_fans_agree : forall p c (f g : nat -> Q), agree p f g -> (sum (fans p c) f == sum (fans p c) g)%Q.
Proof. intros p c f g H. apply sum_ext. intros i Hi. apply in_fans in Hi. apply H. tauto. Qed.

Lemma fans_weight_pos : forall p c, wf p -> fans p c <> [] -> (0 < sum (fans p c) (w p))%Q.
Proof.
  intros p c Hw H.
  assert (forall l, (forall i, In i l -> i < length (voters p)) -> l <> [] -> (0 < sum l (w p))%Q) as X.
  { induction l as [|i l IH]; intros Hl Hne; [congruence|]. unfold sum. simpl.
    assert (0 < w p i)%Q by (apply w_pos; auto; apply Hl; left; auto).
    destruct l as [|j l]; [simpl; lra|].
    assert (0 < sum (j :: l) (w p))%Q. { apply IH; [|discriminate]. intros; apply Hl; right; auto. }
    unfold sum in H1. lra. }
  apply X; auto. intros i Hi. apply in_fans in Hi. tauto.
Qed.

Lemma fans_weight_nil : forall p c, fans p c = [] -> (sum (fans p c) (w p) == 0)%Q.
Proof. intros p c H. rewrite H. reflexivity. Qed.

Lemma fresh_exists : forall p W, NoDup W -> length W < num_cand p -> exists c, fresh p W c.
Proof. intros p W HN Hl. destruct (outside_exists (num_cand p) W HN Hl) as (c & A & B). exists c. split; auto. Qed.

Lemma fresh_ext : forall p W W' c, set_same W W' -> fresh p W c -> fresh p W' c.
Proof. intros p W W' c H [A B]. split; auto. rewrite <- (H c). auto. Qed.

Lemma new_load_ext : forall p x y c, agree p x y -> (new_load p x c == new_load p y c)%Q.
Proof.
  intros p x y c H. unfold new_load.
  rewrite (sum_fans_agree p c (fun i => w p i * x i)%Q (fun i => w p i * y i)%Q); [reflexivity|].
  intros i Hi. simpl. rewrite (H i Hi). reflexivity.
Qed.

(** ** Sequential Phragmén *)

Section Phragmen.
  Variables (p : profile) (k : nat).
  Hypothesis Hw : wf p.
  Hypothesis Hk : k <= num_cand p.
  Hypothesis Hs : enough_support p k.

  Definition PGood (C : list nat) (a : list Q) : Prop :=
    NoDup C /\ Forall (fun c => c < num_cand p) C /\
    forall i, i < length (voters p) -> (Qnat k * nthQ a i <= Qnat (length C) * Qnat (k + 1))%Q.

  Lemma phragmen_choice_fresh : forall W x c, phragmen_choice p W x c -> fresh p W c.
  Proof using. intros W x c [H _]. auto. Qed.

  Lemma phragmen_choice_ext : forall W W' x y c, set_same W W' -> agree p x y ->
    phragmen_choice p W x c -> phragmen_choice p W' y c.
  Proof using.
    intros W W' x y c HW Ha [Hf H]. split; [eapply fresh_ext; eauto|].
    assert (HW' : set_same W' W) by (intro z; symmetry; apply HW).
    destruct (0 <? length (fans p c)).
    - intros d Hd Hfd. rewrite <- !(new_load_ext p x y) by auto. apply H; auto. eapply fresh_ext; eauto.
    - intros d Hd. apply H. eapply fresh_ext; eauto.
  Qed.

  Lemma phragmen_update_fun : forall W W' x y c x' y', set_same W W' -> agree p x y -> phragmen_choice p W x c ->
    phragmen_update p W x c x' -> phragmen_update p W' y c y' -> agree p x' y'.
  Proof using.
    intros W W' x y c x' y' _ Ha _ H H' i Hi. rewrite (H i Hi), (H' i Hi).
    destruct (likes p i c); [apply new_load_ext; auto|apply Ha; auto].
  Qed.

  Lemma new_maxload_supported : forall C a c, ~ In c C -> fans p c <> [] ->
    (new_maxload p k C a c == new_load p (nthQ a) c)%Q.
  Proof using Hw.
    intros C a c Hc Hf. unfold new_maxload. apply mem_false in Hc. rewrite Hc.
    destruct (Qltb 0 (approvers_weight p c)) eqn:E; qbool.
    - rewrite approvers_load_eq, approvers_weight_eq. unfold new_load.
      rewrite Qplus_comm. reflexivity.
    - rewrite approvers_weight_eq in E. pose proof (fans_weight_pos p c Hw Hf). lra.
  Qed.

  Lemma new_maxload_unsupported : forall C a c, ~ In c C -> fans p c = [] -> new_maxload p k C a c = Qnat (k + 1).
  Proof using.
    intros C a c Hc Hf. unfold new_maxload. apply mem_false in Hc. rewrite Hc.
    destruct (Qltb 0 (approvers_weight p c)) eqn:E; qbool; auto.
    rewrite approvers_weight_eq, Hf in E. unfold sum in E. simpl in E. lra.
  Qed.

  Lemma new_maxload_member : forall C a c, In c C -> new_maxload p k C a c = Qnat (k + 2).
  Proof using. intros C a c Hc. unfold new_maxload. apply mem_In in Hc. rewrite Hc. auto. Qed.

  Lemma new_load_step : forall a (j : Q) c, c < num_cand p -> fans p c <> [] ->
    (forall i, i < length (voters p) -> (Qnat k * nthQ a i <= j * Qnat (k + 1))%Q) ->
    (Qnat k * new_load p (nthQ a) c < (j + 1) * Qnat (k + 1))%Q.
  Proof using Hw Hs.
    intros a j c Hc Hf Hb.
    pose proof (fans_weight_pos p c Hw Hf) as HS. set (S := sum (fans p c) (w p)) in *.
    assert (Hsup : (Qnat k < Qnat (k + 1) * S)%Q).
    { destruct (Hs c Hc) as [H|H]; rewrite support_fans in H; fold S in H; lra. }
    assert (HL : (Qnat k * sum (fans p c) (fun i => w p i * nthQ a i) <= j * Qnat (k + 1) * S)%Q).
    { unfold S. rewrite <- !sum_scal. apply sum_le. intros i Hi. apply in_fans in Hi as [Hi _].
      specialize (Hb i Hi). pose proof (w_pos p i Hw Hi). nra. }
    unfold new_load. fold S.
    set (T := sum (fans p c) (fun i => w p i * nthQ a i)%Q) in *.
    assert (E : (Qnat k * ((1 + T) / S) == (Qnat k * (1 + T)) / S)%Q) by (field; lra).
    rewrite E. apply Qlt_shift_div_r; auto. nra.
  Qed.

  Lemma phragmen_sel_ok : forall C a, PGood C a -> length C < k ->
    exists sel, phragmen_select p k C a = Ok sel /\ ascending sel /\
      forall c, In c sel <-> phragmen_choice p C (nthQ a) c.
  Proof using Hw Hk Hs.
    intros C a (HN & HR & HL) Hl. unfold phragmen_select.
    set (nm := map (new_maxload p k C a) (candidates p)).
    assert (Hlen : length nm = num_cand p) by (unfold nm, candidates; rewrite map_length, seq_length; auto).
    assert (Hnm : forall c, c < num_cand p -> nthQ nm c = new_maxload p k C a c).
    { intros c Hc. unfold nm, nthQ, candidates.
      rewrite nth_indep with (d' := new_maxload p k C a 0) by (rewrite map_length, seq_length; auto).
      rewrite map_nth, seq_nth by auto. auto. }
    assert (Hne : nm <> []) by (intro E; rewrite E in Hlen; simpl in Hlen; lia).
    destruct (argmin_filter_eq nm Hne) as (mn & E & Hx). rewrite E. simpl.
    specialize (Hx (num_cand p) (eq_sym Hlen)). destruct Hx as (_ & Hx & _).
    eexists. split; [reflexivity|]. split; [apply ascending_filter, ascending_seq|].
    intro c. unfold candidates. rewrite Hx. unfold is_argmin. rewrite Hlen.
    assert (Hsmall : forall d, fresh p C d -> fans p d <> [] -> (new_maxload p k C a d < Qnat (k + 1))%Q).
    { intros d [Hd Hnd] Hfd. rewrite new_maxload_supported by auto.
      pose proof (new_load_step a (Qnat (length C)) d Hd Hfd HL) as H1.
      assert (H2 : (Qnat (length C) + 1 <= Qnat k)%Q) by (rewrite <- Qnat_S; apply -> Qnat_le; lia).
      assert (H3 : (0 < Qnat k)%Q) by (apply Qnat_pos; lia).
      assert (H4 : (0 < Qnat (k + 1))%Q) by (apply Qnat_pos; lia). nra. }
    assert (H12 : (Qnat (k + 1) < Qnat (k + 2))%Q) by (apply -> Qnat_lt; lia).
    split.
    - intros [Hc Hmin].
      assert (Hfr : fresh p C c).
      { split; auto. intro Hin. destruct (fresh_exists p C HN ltac:(lia)) as (d & Hd).
        specialize (Hmin d (proj1 Hd)). rewrite !Hnm in Hmin by (auto; apply Hd).
        rewrite (new_maxload_member C a c) in Hmin by auto.
        destruct (fans p d) eqn:Efd.
        - rewrite new_maxload_unsupported in Hmin by (auto; apply Hd). lra.
        - assert (fans p d <> []) by congruence. pose proof (Hsmall d Hd H). lra. }
      split; auto. destruct (Nat.ltb_spec 0 (length (fans p c))) as [Hpos|Hz].
      + assert (Hfc : fans p c <> []) by (intro Z; rewrite Z in Hpos; simpl in Hpos; lia).
        intros d Hd Hfd. specialize (Hmin d (proj1 Hd)). rewrite !Hnm in Hmin by (auto; apply Hd).
        rewrite !new_maxload_supported in Hmin by (auto; apply Hd || apply Hfr). auto.
      + assert (Hfc : fans p c = []) by (apply length_zero_iff_nil; lia).
        intros d Hd. destruct (fans p d) eqn:Efd; auto. exfalso.
        specialize (Hmin d (proj1 Hd)). rewrite !Hnm in Hmin by (auto; apply Hd).
        rewrite (new_maxload_unsupported C a c) in Hmin by (auto; apply Hfr).
        assert (Z : fans p d <> []) by congruence. pose proof (Hsmall d Hd Z). lra.
    - intros [Hfr H]. destruct Hfr as [Hc Hnc]. split; auto. intros d Hd. rewrite !Hnm by auto.
      destruct (Nat.ltb_spec 0 (length (fans p c))) as [Hpos|Hz].
      + assert (Hfc : fans p c <> []) by (intro Z; rewrite Z in Hpos; simpl in Hpos; lia).
        pose proof (Hsmall c (conj Hc Hnc) Hfc) as Hcs.
        destruct (mem d C) eqn:Ed.
        { apply mem_In in Ed. rewrite (new_maxload_member C a d) by auto. lra. }
        apply mem_false in Ed. destruct (fans p d) eqn:Efd.
        { rewrite (new_maxload_unsupported C a d) by auto. lra. }
        assert (Z : fans p d <> []) by congruence.
        rewrite !new_maxload_supported by auto. apply H; auto. split; auto.
      + assert (Hfc : fans p c = []) by (apply length_zero_iff_nil; lia).
        rewrite (new_maxload_unsupported C a c) by auto.
        destruct (mem d C) eqn:Ed.
        { apply mem_In in Ed. rewrite (new_maxload_member C a d) by auto. lra. }
        apply mem_false in Ed. rewrite (new_maxload_unsupported C a d); auto; [lra|].
        apply H. split; auto.
  Qed.

  Lemma phragmen_next_ok : forall C a c, PGood C a -> length C < k -> phragmen_choice p C (nthQ a) c ->
    phragmen_update p C (nthQ a) c (nthQ (phragmen_next p k C a c)) /\ PGood (C ++ [c]) (phragmen_next p k C a c).
  Proof using Hw Hk Hs.
    intros C a c (HN & HR & HL) Hl [[Hc Hnc] _].
    assert (Hu : phragmen_update p C (nthQ a) c (nthQ (phragmen_next p k C a c))).
    { intros i Hi. unfold phragmen_next. rewrite nthQ_enum by auto. simpl. unfold likes, approves.
      destruct (mem c (approved (the_voter p i))) eqn:E; [|reflexivity].
      apply new_maxload_supported; auto. intro Z. assert (In i (fans p c)) by (apply in_fans; split; auto).
      rewrite Z in H. destruct H. }
    split; auto. split; [|split].
    - apply NoDup_app_intro; auto; [repeat constructor; intros []|]. intros x Hx [<-|[]]. auto.
    - apply Forall_app. split; auto.
    - intros i Hi. rewrite (Hu i Hi), app_length. simpl. rewrite Qnat_plus.
      change (Qnat 1) with 1%Q.
      assert (H4 : (0 < Qnat (k + 1))%Q) by (apply Qnat_pos; lia).
      destruct (likes p i c) eqn:E.
      + assert (Hf : fans p c <> []).
        { intro Z. assert (In i (fans p c)) by (apply in_fans; split; auto). rewrite Z in H. destruct H. }
        apply Qlt_le_weak. apply new_load_step; auto.
      + specialize (HL i Hi). nra.
  Qed.

  Lemma phragmen_progress : forall C a, PGood C a -> length C < k -> exists c, phragmen_choice p C (nthQ a) c.
  Proof using Hw Hk.
    intros C a (HN & HR & HL) Hl.
    set (cs := filter (fun c => negb (mem c C) && (0 <? length (fans p c))) (seq 0 (num_cand p))).
    destruct cs as [|c0 cs'] eqn:Ec.
    - destruct (fresh_exists p C HN ltac:(lia)) as (c & Hc). exists c. split; auto.
      assert (Hall : forall d, fresh p C d -> fans p d = []).
      { intros d [Hd Hnd]. destruct (fans p d) as [|x l] eqn:Ed; auto. exfalso.
        assert (In d cs). { apply filter_In. split; [apply in_seq; lia|]. apply mem_false in Hnd.
          rewrite Hnd, Ed. auto. }
        rewrite Ec in H. destruct H. }
      rewrite (Hall c Hc). simpl. auto.
    - set (l := map (new_load p (nthQ a)) cs).
      assert (Hne : l <> []) by (unfold l; rewrite Ec; discriminate).
      destruct (py_min_spec l Hne) as (mn & _ & (i & Hi & Ei) & Hmin).
      unfold l in Hi. rewrite map_length in Hi.
      set (c := nth i cs 0).
      assert (Hcin : In c cs) by (apply nth_In; auto).
      assert (Hnl : nthQ l i = new_load p (nthQ a) c).
      { unfold nthQ, l. rewrite nth_indep with (d' := new_load p (nthQ a) 0) by (rewrite map_length; auto).
        rewrite map_nth. auto. }
      exists c. pose proof Hcin as Hcin'. apply filter_In in Hcin' as [Hr Hb]. apply andb_true_iff in Hb as [Hb1 Hb2].
      apply negb_true_iff, mem_false in Hb1. apply in_seq in Hr. split; [split; auto; lia|]. rewrite Hb2.
      intros d [Hd Hnd] Hfd. rewrite <- Hnl, Ei.
      assert (Hdin : In (new_load p (nthQ a) d) l).
      { apply in_map. apply filter_In. split; [apply in_seq; lia|]. apply mem_false in Hnd. rewrite Hnd. simpl.
        apply Nat.ltb_lt. destruct (fans p d); [congruence|simpl; lia]. }
      apply In_nthQ in Hdin as (j & Hj & Ej). rewrite <- Ej. apply Hmin; auto.
  Qed.

  Lemma phragmen_next_perm : forall C C' a c, Permutation C C' -> phragmen_next p k C' a c = phragmen_next p k C a c.
  Proof using.
    intros C C' a c HP. unfold phragmen_next, new_maxload.
    rewrite (mem_ext C' C); auto. intro x. symmetry. apply set_same_perm; auto.
  Qed.

  Lemma PGood_perm : forall C C' a, Permutation C C' -> PGood C a -> PGood C' a.
  Proof using.
    intros C C' a HP (A & B & D). split; [eapply Permutation_NoDup; eauto|].
    split; [eapply Permutation_Forall; eauto|]. rewrite <- (Permutation_length HP). auto.
  Qed.

  Lemma phragmen_update_ext : forall W W' x c x', set_same W W' -> phragmen_update p W x c x' -> phragmen_update p W' x c x'.
  Proof using. intros W W' x c x' _ H. exact H. Qed.

  Theorem seqphragmen_irresolute_correct : forall maxn C0 a0, PGood C0 a0 -> length C0 < k -> valid_max maxn ->
    answers (run_winner p (phragmen_choice p) (phragmen_update p) (rev C0) (nthQ a0) k) false maxn
            (seqphragmen_irresolute p k maxn a0 C0).
  Proof using Hw Hk Hs.
    intros maxn C0 a0 HG Hl Hm. unfold seqphragmen_irresolute.
    eapply (seq_dfs_correct p k (phragmen_select p k) (phragmen_next p k) (phragmen_choice p) (phragmen_update p) PGood);
      eauto using phragmen_choice_fresh, phragmen_choice_ext, phragmen_update_fun, phragmen_update_ext,
        phragmen_sel_ok, phragmen_next_ok, phragmen_progress; apply HG.
  Qed.

  Theorem seqphragmen_resolute_correct : forall C0 a0, PGood C0 a0 -> length C0 < k ->
    exists W, seqphragmen_resolute p k a0 C0 = Ok [W] /\ ascending W /\
      lex_run_winner p (phragmen_choice p) (phragmen_update p) (rev C0) (nthQ a0) k W.
  Proof using Hw Hk Hs.
    intros C0 a0 HG Hl. unfold seqphragmen_resolute.
    destruct (seq_loop_ok p k (phragmen_select p k) (phragmen_next p k) (phragmen_choice p) (phragmen_update p) PGood)
      with (C0 := C0) (a0 := a0) (r := k - length C0) (C := C0) (C' := C0) (a := a0)
      as (D & D' & b & E & HD & HP & HlD & HsD);
      eauto using phragmen_choice_fresh, phragmen_choice_ext, phragmen_update_fun, phragmen_update_ext,
        phragmen_sel_ok, phragmen_next_ok, phragmen_progress, PGood_perm.
    - intros. apply phragmen_next_perm; auto.
    - constructor.
    - lia.
    - rewrite E. simpl. exists D'. split; auto. rewrite (HsD ltac:(lia)).
      assert (Hlex : lex_runs_from p (phragmen_choice p) (phragmen_update p) (rev C0) (nthQ a0) (rev D) (nthQ b)).
      { eapply (fpath_lex p k (phragmen_select p k) (phragmen_next p k) (phragmen_choice p) (phragmen_update p) PGood);
        eauto using phragmen_choice_ext, phragmen_update_ext, phragmen_sel_ok, phragmen_next_ok. }
      split.
      + apply isort_ascending. destruct (runs_props p (phragmen_choice p) (phragmen_update p)
          phragmen_choice_fresh _ _ _ _ (lex_runs_runs _ _ _ _ _ _ _ Hlex)) as [A _].
        * apply NoDup_rev, HG.
        * apply Forall_rev, HG.
        * rewrite <- (rev_involutive D). apply NoDup_rev; auto.
      + exists (rev D), (nthQ b). split; auto. rewrite rev_length, isort_rev. split; auto. lia.
  Qed.
End Phragmen.

Lemma zero_load_nth : forall p i, nthQ (zero_load p) i = 0%Q.
Proof. intros. apply nthQ_repeat0. Qed.

Lemma runs_from_start_ext : forall p ch up W0 x0 y0 L x, agree p x0 y0 ->
  runs_from p ch up W0 x0 L x -> runs_from p ch up W0 y0 L x.
Proof.
  intros p ch up W0 x0 y0 L x H Hr. induction Hr; [constructor; eapply agree_trans; eauto|econstructor; eauto].
Qed.
Lemma lex_runs_from_start_ext : forall p ch up W0 x0 y0 L x, agree p x0 y0 ->
  lex_runs_from p ch up W0 x0 L x -> lex_runs_from p ch up W0 y0 L x.
Proof.
  intros p ch up W0 x0 y0 L x H Hr. induction Hr; [constructor; eapply agree_trans; eauto|econstructor; eauto].
Qed.
Lemma run_winner_start_ext : forall p ch up W0 x0 y0 k W, agree p x0 y0 ->
  (run_winner p ch up W0 x0 k W <-> run_winner p ch up W0 y0 k W).
Proof.
  intros. split; intros (L & x & Hr & Hl & E); exists L, x; split; auto; eapply runs_from_start_ext; eauto.
  apply agree_sym; auto.
Qed.
Lemma lex_run_winner_start_ext : forall p ch up W0 x0 y0 k W, agree p x0 y0 ->
  (lex_run_winner p ch up W0 x0 k W <-> lex_run_winner p ch up W0 y0 k W).
Proof.
  intros. split; intros (L & x & Hr & Hl & E); exists L, x; split; auto; eapply lex_runs_from_start_ext; eauto.
  apply agree_sym; auto.
Qed.

Lemma answers_equiv : forall P P' resolute maxn r, (forall W, P W <-> P' W) ->
  answers P resolute maxn r -> answers P' resolute maxn r.
Proof.
  intros P P' resolute maxn r H (l & -> & A & B & C & D). exists l. split; auto. split; auto. split; auto.
  split; [intros; apply H; auto|]. destruct resolute; auto. destruct maxn; [destruct D as [D1 D2]; split; auto|]; intros.
  - apply D2; auto. apply H; auto.
  - apply D. apply H; auto.
Qed.

(** sorting an already sorted answer changes nothing *)
Lemma answers_resort : forall (P : list nat -> Prop) resolute maxn r, (forall W, P W -> ascending W) ->
  answers P resolute maxn r -> (do cs <- r; sorted_committees cs) = r.
Proof.
  intros P resolute maxn r HP (l & -> & A & B & C & D). simpl.
  rewrite sorted_committees_asc by (apply Forall_forall; auto). f_equal. apply sort_by_id. exact B.
Qed.

Lemma zero_PGood : forall p k, PGood p k [] (zero_load p).
Proof.
  intros. split; [constructor|]. split; [constructor|]. intros i _. rewrite zero_load_nth. simpl. 
  change (Qnat 0) with 0%Q. lra.
Qed.

Theorem seqphragmen_correct : forall p k resolute maxn, wf p -> 1 <= k <= num_cand p ->
  enough_support p k -> valid_max maxn ->
  answers (phragmen_winner p k) resolute maxn (seqphragmen p k resolute maxn) /\
  (resolute = true -> exists W, seqphragmen p k true maxn = Ok [W] /\ phragmen_lex_winner p k W).
Proof.
  intros p k resolute maxn Hw Hk Hs Hm.
  assert (Hag : agree p (nthQ (zero_load p)) (fun _ => 0%Q)).
  { intros i _. simpl. rewrite zero_load_nth. reflexivity. }
  destruct (seqphragmen_resolute_correct p k Hw ltac:(lia) Hs [] (zero_load p) (zero_PGood p k) ltac:(simpl; lia))
    as (W & E & HW & Hlex).
  assert (Hres : seqphragmen p k true maxn = Ok [W]).
  { unfold seqphragmen. rewrite E. simpl. rewrite sorted_committees_asc; auto. }
  assert (Hlw : phragmen_lex_winner p k W) by (eapply lex_run_winner_start_ext; [apply agree_sym; exact Hag|exact Hlex]).
  split; [|intros _; eauto].
  destruct resolute.
  - rewrite Hres. apply answers_resolute_one. destruct Hlw as (L & x & Hr & Hl & EW). exists L, x.
    split; auto. apply lex_runs_runs; auto.
  - pose proof (seqphragmen_irresolute_correct p k Hw ltac:(lia) Hs maxn [] (zero_load p) (zero_PGood p k) ltac:(simpl; lia) Hm) as HA.
    unfold seqphragmen. rewrite (answers_resort _ _ _ _) by
      (try exact HA; intros W' HW'; apply (run_winner_committee p k (phragmen_choice p) (phragmen_update p)
         (phragmen_choice_fresh p) [] (zero_load p) ltac:(constructor) ltac:(constructor)) in HW'; apply HW').
    eapply answers_equiv; [|exact HA]. intro W'. apply run_winner_start_ext; auto.
Qed.
