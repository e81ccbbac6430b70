(** * Generic correctness of the one-candidate-at-a-time loops *)
From Coq Require Import String.
From Coq Require Import List Arith Bool ZArith QArith Lia Lqa Permutation Sorted.
From Verif Require Import Prelude Misc MiscProofs Preferences Scores Spec ScoresProofs Search RulesThiele
  Common ThieleProofs SpecRules SpecSeq RulesSeq.
Import ListNotations.
Open Scope nat_scope.

Lemma agree_refl : forall p x, agree p x x.
Proof. intros p x i _. reflexivity. Qed.
Lemma agree_sym : forall p x y, agree p x y -> agree p y x.
Proof. intros p x y H i Hi. symmetry. auto. Qed.
Lemma agree_trans : forall p x y z, agree p x y -> agree p y z -> agree p x z.
Proof. intros p x y z H K i Hi. eapply Qeq_trans; [apply H|apply K]; auto. Qed.

Lemma app_snoc_rev : forall (l : list nat) c, rev (l ++ [c]) = c :: rev l.
Proof. intros. rewrite rev_app_distr. reflexivity. Qed.

Section Generic.
  Variables (p : profile) (k : nat).
  Variable select : list nat -> list Q -> result (list nat).
  Variable next : list nat -> list Q -> nat -> list Q.
  Variable choice : list nat -> (nat -> Q) -> nat -> Prop.
  Variable update : list nat -> (nat -> Q) -> nat -> (nat -> Q) -> Prop.
  Variable Good : list nat -> list Q -> Prop.
  Hypothesis choice_fresh : forall W x c, choice W x c -> fresh p W c.
  Hypothesis choice_ext : forall W W' x y c, set_same W W' -> agree p x y -> choice W x c -> choice W' y c.
  Hypothesis update_fun : forall W W' x y c x' y', set_same W W' -> agree p x y -> choice W x c ->
    update W x c x' -> update W' y c y' -> agree p x' y'.
  Hypothesis update_ext : forall W W' x c x', set_same W W' -> update W x c x' -> update W' x c x'.
  Hypothesis sel_ok : forall C a, Good C a -> length C < k ->
    exists sel, select C a = Ok sel /\ ascending sel /\ forall c, In c sel <-> choice C (nthQ a) c.
  Hypothesis next_ok : forall C a c, Good C a -> length C < k -> choice C (nthQ a) c ->
    update C (nthQ a) c (nthQ (next C a c)) /\ Good (C ++ [c]) (next C a c).

  (** paths of the implementation *)
  Inductive ipath (C0 : list nat) (a0 : list Q) : list nat -> list Q -> Prop :=
  | ip_start : ipath C0 a0 C0 a0
  | ip_step : forall C a sel c, ipath C0 a0 C a -> length C < k -> select C a = Ok sel -> In c sel ->
      ipath C0 a0 (C ++ [c]) (next C a c).

  (** ... always taking the first selected candidate *)
  Inductive fpath (C0 : list nat) (a0 : list Q) : list nat -> list Q -> Prop :=
  | fp_start : fpath C0 a0 C0 a0
  | fp_step : forall C a sel c, fpath C0 a0 C a -> length C < k -> select C a = Ok (c :: sel) ->
      fpath C0 a0 (C ++ [c]) (next C a c).

  Lemma rev_same : forall C : list nat, set_same C (rev C).
  Proof using. intros C x. apply in_rev. Qed.

  Lemma ipath_runs : forall C0 a0 C a, Good C0 a0 -> ipath C0 a0 C a ->
    Good C a /\ runs_from p choice update (rev C0) (nthQ a0) (rev C) (nthQ a).
  Proof using choice_ext update_ext sel_ok next_ok.
    intros C0 a0 C a HG H. induction H as [|C a sel c H IH Hl Es Hc].
    - split; auto. constructor. apply agree_refl.
    - destruct IH as [HGC Hr].
      destruct (sel_ok C a HGC Hl) as (sel' & Es' & _ & Hin).
      assert (sel' = sel) by congruence. subst sel'. apply Hin in Hc.
      destruct (next_ok C a c HGC Hl Hc) as [Hu HG']. split; auto.
      rewrite app_snoc_rev. econstructor; [exact Hr| |].
      + eapply choice_ext; [apply rev_same|apply agree_refl|exact Hc].
      + eapply update_ext; [apply rev_same|exact Hu].
  Qed.

  Lemma runs_extend : forall L0 x0 L x, runs_from p choice update L0 x0 L x -> exists L', L = L' ++ L0.
  Proof using.
    induction 1 as [x Hx|W x c x' H IH Hc Hu].
    - exists []. auto.
    - destruct IH as (L' & ->). exists (c :: L'). auto.
  Qed.

  Lemma runs_ipath : forall C0 a0 L x, Good C0 a0 ->
    runs_from p choice update (rev C0) (nthQ a0) L x -> length L <= k ->
    exists a, ipath C0 a0 (rev L) a /\ agree p (nthQ a) x.
  Proof using choice_ext update_fun update_ext sel_ok next_ok.
    intros C0 a0 L x HG H. induction H as [x Hx|W x c x' H IH Hc Hu]; intros Hl.
    - exists a0. rewrite rev_involutive. split; [constructor|apply agree_sym; auto].
    - destruct IH as (a & Hp & Ha); [simpl in Hl; lia|].
      destruct (ipath_runs C0 a0 (rev W) a HG Hp) as [HGC _].
      assert (Hlen : length (rev W) < k) by (rewrite rev_length; simpl in Hl; lia).
      destruct (sel_ok (rev W) a HGC Hlen) as (sel & Es & _ & Hin).
      assert (Hc' : choice (rev W) (nthQ a) c).
      { eapply choice_ext; [apply rev_same|apply agree_sym; exact Ha|exact Hc]. }
      destruct (next_ok _ _ _ HGC Hlen Hc') as [Hu' _].
      exists (next (rev W) a c). split.
      + simpl. econstructor; eauto. apply Hin; auto.
      + apply agree_sym. eapply update_fun; [apply rev_same|apply agree_sym; exact Ha|exact Hc|exact Hu|exact Hu'].
  Qed.

  Lemma fpath_ipath : forall C0 a0 C a, fpath C0 a0 C a -> ipath C0 a0 C a.
  Proof using. induction 1; econstructor; eauto. left; auto. Qed.

  Lemma fpath_lex : forall C0 a0 C a, Good C0 a0 -> fpath C0 a0 C a ->
    lex_runs_from p choice update (rev C0) (nthQ a0) (rev C) (nthQ a).
  Proof using choice_ext update_ext sel_ok next_ok.
    intros C0 a0 C a HG H. induction H as [|C a sel c H IH Hl Es].
    - constructor. apply agree_refl.
    - destruct (ipath_runs _ _ _ _ HG (fpath_ipath _ _ _ _ H)) as [HGC _].
      destruct (sel_ok C a HGC Hl) as (sel' & Es' & Hasc & Hin).
      assert (sel' = c :: sel) by congruence. subst sel'.
      assert (Hc : choice C (nthQ a) c) by (apply Hin; left; auto).
      destruct (next_ok C a c HGC Hl Hc) as [Hu _].
      rewrite app_snoc_rev. econstructor; [exact IH| | |].
      + eapply choice_ext; [apply rev_same|apply agree_refl|exact Hc].
      + intros d Hd. assert (Hd' : choice C (nthQ a) d).
        { eapply choice_ext; [|apply agree_refl|exact Hd]. intro y. symmetry. apply rev_same. }
        apply Hin in Hd'. eapply ascending_head_le; eauto.
      + eapply update_ext; [apply rev_same|exact Hu].
  Qed.

  Lemma runs_props : forall L0 x0 L x, runs_from p choice update L0 x0 L x ->
    NoDup L0 -> Forall (fun c => c < num_cand p) L0 ->
    NoDup L /\ Forall (fun c => c < num_cand p) L.
  Proof using choice_fresh.
    induction 1 as [x Hx|W x c x' H IH Hc Hu]; intros Hn Hf; auto.
    destruct (IH Hn Hf) as [A B]. destruct (choice_fresh _ _ _ Hc) as [Hlt Hni].
    split; constructor; auto.
  Qed.

  Lemma lex_runs_runs : forall L0 x0 L x, lex_runs_from p choice update L0 x0 L x ->
    runs_from p choice update L0 x0 L x.
  Proof using. induction 1; econstructor; eauto. Qed.

  (** ** the resolute loop *)
  Variables (C0 : list nat) (a0 : list Q).
  Hypothesis HG0 : Good C0 a0.
  Hypothesis Good_perm : forall C C' a, Permutation C C' -> Good C a -> Good C' a.
  Hypothesis progress : forall C a, Good C a -> length C < k -> exists c, choice C (nthQ a) c.
  Hypothesis Hn0 : NoDup C0.
  Hypothesis Hf0 : Forall (fun c => c < num_cand p) C0.
  Hypothesis next_perm : forall C C' a c, Permutation C C' -> choice C (nthQ a) c -> next C' a c = next C a c.

  Lemma set_same_perm : forall C C' : list nat, Permutation C C' -> set_same C C'.
  Proof using.
    intros C C1 H x. split; intro Hx; [eapply Permutation_in; [exact H|auto]|eapply Permutation_in; [apply Permutation_sym; exact H|auto]].
  Qed.

  Lemma sel_perm : forall C C' a, Permutation C C' -> Good C a -> length C < k -> select C' a = select C a.
  Proof using choice_ext sel_ok Good_perm.
    intros C C' a HP HG Hl.
    assert (HG' : Good C' a) by (eapply Good_perm; eauto).
    assert (Hl' : length C' < k) by (rewrite <- (Permutation_length HP); auto).
    destruct (sel_ok C a HG Hl) as (s & Es & As & Hs).
    destruct (sel_ok C' a HG' Hl') as (s' & Es' & As' & Hs').
    rewrite Es, Es'. f_equal. apply ascending_ext; auto. intro c. rewrite Hs, Hs'.
    split; apply choice_ext; try apply agree_refl; apply set_same_perm; auto. symmetry; auto.
  Qed.

  Lemma seq_loop_ok : forall r C C' a, fpath C0 a0 C a -> Permutation C C' -> length C + r <= k ->
    exists D D' b, seq_loop select next r C' a = Ok D' /\ fpath C0 a0 D b /\ Permutation D D' /\
      length D = length C + r /\ (0 < r -> D' = isort D).
  Proof using choice_ext update_ext sel_ok next_ok HG0 Good_perm progress next_perm.
    induction r as [|r IH]; intros C C' a Hp HP Hl.
    - exists C, C', a. simpl. repeat split; auto; try lia.
    - destruct (ipath_runs _ _ _ _ HG0 (fpath_ipath _ _ _ _ Hp)) as [HGC _].
      assert (HlC : length C < k) by lia.
      destruct (sel_ok C a HGC HlC) as (sel & Es & Hasc & Hin).
      destruct (progress C a HGC HlC) as (c0 & Hc0). apply Hin in Hc0.
      destruct sel as [|c sel]; [destruct Hc0|].
      assert (Hc : choice C (nthQ a) c) by (apply Hin; left; auto).
      simpl. rewrite (sel_perm C C' a HP HGC HlC), Es. simpl.
      rewrite (next_perm C C' a c HP Hc).
      assert (HP' : Permutation (C ++ [c]) (isort (C' ++ [c]))).
      { etransitivity; [|apply isort_perm]. apply Permutation_app_tail; auto. }
      destruct (IH (C ++ [c]) (isort (C' ++ [c])) (next C a c)) as (D & D' & b & E & HD & HPD & HlD & HsD).
      + econstructor; eauto.
      + exact HP'.
      + rewrite app_length. simpl. lia.
      + exists D, D', b. repeat split; auto.
        * rewrite HlD, app_length. simpl. lia.
        * intros _. destruct r; [|apply HsD; lia].
          simpl in E. inversion E; subst D'.
          rewrite (isort_perm_eq D (C' ++ [c])); auto.
          transitivity (isort (C' ++ [c])); [auto|symmetry; apply isort_perm].
  Qed.

  (** ** the work-list loop *)
  Let expand := seq_expand k select next.
  Let Inv (s : list nat * list Q) := Good (fst s) (snd s) /\ length (fst s) < k.
  Let rank (s : list nat * list Q) := k - 1 - length (fst s).

  Lemma sel_length : forall sel C x, ascending sel -> (forall c, In c sel <-> choice C x c) ->
    length sel <= num_cand p.
  Proof using choice_fresh.
    intros sel C x Ha Hin. rewrite <- (seq_length (num_cand p) 0).
    apply NoDup_incl_length; [apply ascending_NoDup; auto|].
    intros c Hc. apply Hin in Hc. destruct (choice_fresh _ _ _ Hc). apply in_seq. lia.
  Qed.

  Lemma gexpand_spec : forall s, Inv s -> exists sel, 
    expand s = Ok (map (fun c => let nc := fst s ++ [c] in
                    if length nc =? k then Leaf (isort nc) else Partial (nc, next (fst s) (snd s) c)) sel) /\
    select (fst s) (snd s) = Ok sel /\ sel <> [] /\ ascending sel /\ length sel <= num_cand p /\
    forall c, In c sel <-> choice (fst s) (nthQ (snd s)) c.
  Proof using choice_fresh sel_ok progress.
    intros [C a] [HG Hl]. simpl in *.
    destruct (sel_ok C a HG Hl) as (sel & Es & Hasc & Hin).
    exists sel. unfold expand, seq_expand. rewrite Es. simpl. split; auto. split; auto. split.
    - destruct (progress C a HG Hl) as (c & Hc). apply Hin in Hc. destruct sel; [destruct Hc|discriminate].
    - split; auto. split; auto. eapply sel_length; eauto.
  Qed.

  Lemma gexpand_ok : forall s, Inv s -> exists cs, expand s = Ok cs /\ length cs <= num_cand p /\ cs <> [] /\
      (forall s', In (Partial s') cs -> Inv s' /\ rank s' < rank s).
  Proof using choice_fresh sel_ok progress next_ok.
    intros s Hs. destruct (gexpand_spec s Hs) as (sel & E & Es & Hne & Hasc & Hl & Hin).
    exists (map (fun c => let nc := fst s ++ [c] in
                    if length nc =? k then Leaf (isort nc) else Partial (nc, next (fst s) (snd s) c)) sel).
    split; auto. split; [rewrite map_length; auto|]. split.
    - destruct sel; [congruence|discriminate].
    - intros s' Hs'. apply in_map_iff in Hs' as (c & Ec & Hc). cbv zeta in Ec.
      destruct (Nat.eqb_spec (length (fst s ++ [c])) k) as [|n]; [discriminate|]. inversion Ec; subst s'.
      rewrite app_length in n. simpl in n. destruct Hs as [HG Hlen].
      apply Hin in Hc. destruct (next_ok _ _ _ HG Hlen Hc) as [_ HG'].
      split; [split|unfold rank]; simpl; auto; rewrite ?app_length; simpl; lia.
  Qed.

  Lemma ipath_trans : forall C a C1 a1 C2 a2, ipath C a C1 a1 -> ipath C1 a1 C2 a2 -> ipath C a C2 a2.
  Proof using. intros C a C1 a1 C2 a2 H H'. induction H'; auto. econstructor; eauto. Qed.

  Lemma greach_sound : forall s W, reach expand s W -> Inv s ->
    exists C a, ipath (fst s) (snd s) C a /\ length C = k /\ W = isort C.
  Proof using choice_fresh sel_ok progress next_ok.
    intros s W H. induction H as [s cs W E Hin|s cs s' W E Hin Hr IH]; intros Hs.
    - destruct (gexpand_spec s Hs) as (sel & E' & Es & Hne & Hasc & Hl & Hc).
      rewrite E in E'. inversion E'; subst cs. apply in_map_iff in Hin as (c & Ec & Hic). cbv zeta in Ec.
      destruct (Nat.eqb_spec (length (fst s ++ [c])) k) as [Hk|]; [|discriminate].
      inversion Ec; subst W. exists (fst s ++ [c]), (next (fst s) (snd s) c).
      split; auto. econstructor; eauto; [constructor|apply Hs].
    - destruct (gexpand_spec s Hs) as (sel & E' & Es & Hne & Hasc & Hl & Hc).
      destruct (gexpand_ok s Hs) as (cs' & E'' & _ & _ & Hch).
      assert (cs' = cs) by congruence. subst cs'. destruct (Hch s' Hin) as [Hi _].
      destruct (IH Hi) as (C & a & Hp & Hlk & HW). exists C, a. split; auto.
      eapply ipath_trans; [|exact Hp].
      rewrite E in E'. inversion E'; subst cs. apply in_map_iff in Hin as (c & Ec & Hic). cbv zeta in Ec.
      destruct (Nat.eqb_spec (length (fst s ++ [c])) k) as [Hk|]; [discriminate|].
      inversion Ec; subst s'. simpl. econstructor; eauto; [constructor|apply Hs].
  Qed.

  Lemma greach_complete : forall C a, ipath C0 a0 C a -> length C0 < k ->
    (length C < k -> forall W, reach expand (C, a) W -> reach expand (C0, a0) W) /\
    (length C = k -> reach expand (C0, a0) (isort C)).
  Proof using choice_fresh choice_ext update_ext sel_ok progress next_ok HG0.
    intros C a H H0. induction H as [|C a sel c H IH Hl Es Hc].
    - split; auto. intros. lia.
    - destruct IH as [IH1 IH2]. specialize (IH1 Hl).
      destruct (ipath_runs _ _ _ _ HG0 H) as [HGC _].
      destruct (gexpand_spec (C, a)) as (sel' & E' & Es' & _); [split; auto|]. simpl in *.
      assert (sel' = sel) by congruence. subst sel'.
      split; intros Hk.
      + intros W HW. apply IH1. eapply reach_step; [exact E'| |exact HW].
        apply in_map_iff. exists c. split; auto. cbv zeta.
        destruct (Nat.eqb_spec (length (C ++ [c])) k); [lia|auto].
      + apply IH1. eapply reach_leaf; [exact E'|].
        apply in_map_iff. exists c. split; auto. cbv zeta.
        destruct (Nat.eqb_spec (length (C ++ [c])) k); [auto|lia].
  Qed.

  Lemma greach_iff : forall W, length C0 < k ->
    (reach expand (C0, a0) W <-> run_winner p choice update (rev C0) (nthQ a0) k W).
  Proof using choice_fresh choice_ext update_fun update_ext sel_ok progress next_ok HG0.
    intros W Hl. split.
    - intros H. destruct (greach_sound _ _ H) as (C & a & Hp & Hk & ->); [split; auto|].
      simpl in Hp. destruct (ipath_runs _ _ _ _ HG0 Hp) as [_ Hr].
      exists (rev C), (nthQ a). split; auto. split; [rewrite rev_length; auto|]. rewrite isort_rev. auto.
    - intros (L & x & Hr & Hk & ->). destruct (runs_ipath _ _ _ _ HG0 Hr ltac:(lia)) as (a & Hp & _).
      destruct (greach_complete _ _ Hp Hl) as [_ Hc].
      rewrite <- (isort_rev L). apply Hc. rewrite rev_length. auto.
  Qed.

  Lemma run_winner_committee : forall W, run_winner p choice update (rev C0) (nthQ a0) k W ->
    is_committee p k W.
  Proof using choice_fresh Hn0 Hf0.
    intros W (L & x & Hr & Hk & ->).
    destruct (runs_props _ _ _ _ Hr) as [A B].
    - apply NoDup_rev; auto.
    - apply Forall_rev; auto.
    - apply isort_committee; auto.
  Qed.

  Theorem seq_dfs_correct : forall maxn, length C0 < k -> valid_max maxn ->
    answers (run_winner p choice update (rev C0) (nthQ a0) k) false maxn
      (do win <- dfs expand maxn (tree_size (num_cand p) k) [(C0, a0)] []; sorted_committees win).
  Proof using choice_fresh choice_ext update_fun update_ext sel_ok progress next_ok HG0 Hn0 Hf0.
    intros maxn Hl Hm.
    destruct (dfs_spec expand Inv rank (num_cand p) gexpand_ok maxn (tree_size (num_cand p) k) [(C0, a0)] [])
      as (win & E & HN & _ & Ham & Hs & Hc).
    - constructor; [|constructor]. split; auto.
    - constructor.
    - destruct maxn; simpl in *; auto.
    - simpl. unfold rank. simpl. rewrite Nat.add_0_r.
      destruct (tree_size_mono (num_cand p) (k - 1 - length C0) k) as [|Hz]; [lia|auto|].
      destruct (progress C0 a0 HG0 Hl) as (c & Hc). destruct (choice_fresh _ _ _ Hc). lia.
    - rewrite E. simpl.
      assert (HW : forall W, In W win -> run_winner p choice update (rev C0) (nthQ a0) k W).
      { intros W HW. destruct (Hs W HW) as [[]|(s & [<-|[]] & Hr)]. apply greach_iff; auto. }
      apply answers_dfs; auto.
      + apply Forall_forall. intros W HWi. apply HW in HWi. apply run_winner_committee in HWi as []. auto.
      + intros H W HW'. apply (Hc H (C0, a0)); [left; auto|]. apply greach_iff; auto.
  Qed.

  Lemma first_reach_complete : forall C a, fpath C0 a0 C a -> length C0 < k ->
    (length C < k -> forall W, first_reach expand (C, a) W -> first_reach expand (C0, a0) W) /\
    (length C = k -> first_reach expand (C0, a0) (isort C)).
  Proof using choice_fresh choice_ext update_ext sel_ok progress next_ok HG0.
    intros C a H H0. induction H as [|C a sel c H IH Hl Es].
    - split; auto. intros. lia.
    - destruct IH as [IH1 IH2]. specialize (IH1 Hl).
      destruct (ipath_runs _ _ _ _ HG0 (fpath_ipath _ _ _ _ H)) as [HGC _].
      destruct (gexpand_spec (C, a)) as (sel' & E' & Es' & _); [split; auto|]. simpl in *.
      assert (sel' = c :: sel) by congruence. subst sel'. cbn [map] in E'. cbv zeta in E'.
      split; intros Hk.
      + intros W HW. apply IH1.
        destruct (Nat.eqb_spec (length (C ++ [c])) k); [lia|].
        eapply first_step; [exact E'|exact HW].
      + apply IH1. destruct (Nat.eqb_spec (length (C ++ [c])) k); [|lia].
        eapply first_leaf; exact E'.
  Qed.

  Lemma fpath_exists : forall n, length C0 + n <= k -> exists C a, fpath C0 a0 C a /\ length C = length C0 + n.
  Proof using choice_ext update_ext sel_ok progress next_ok HG0.
    induction n as [|n IH]; intros Hn.
    - exists C0, a0. split; [constructor|lia].
    - destruct IH as (C & a & Hp & Hl); [lia|].
      destruct (ipath_runs _ _ _ _ HG0 (fpath_ipath _ _ _ _ Hp)) as [HGC _].
      destruct (sel_ok C a HGC ltac:(lia)) as (sel & Es & _ & Hin).
      destruct (progress C a HGC ltac:(lia)) as (c0 & Hc0). apply Hin in Hc0.
      destruct sel as [|c sel]; [destruct Hc0|].
      exists (C ++ [c]), (next C a c). split; [econstructor; eauto; lia|].
      rewrite app_length. simpl. lia.
  Qed.

  (** asking for one committee breaks ties towards low-numbered candidates *)
  Theorem seq_dfs_one : length C0 < k -> exists W,
    (do win <- dfs expand (Some 1) (tree_size (num_cand p) k) [(C0, a0)] []; sorted_committees win) = Ok [W] /\
    lex_run_winner p choice update (rev C0) (nthQ a0) k W.
  Proof using choice_fresh choice_ext update_ext sel_ok progress next_ok HG0 Hn0 Hf0.
    intros Hl. destruct (fpath_exists (k - length C0) ltac:(lia)) as (C & a & Hp & HlC).
    exists (isort C). 
    assert (Hlex := fpath_lex _ _ _ _ HG0 Hp).
    destruct (runs_props _ _ _ _ (lex_runs_runs _ _ _ _ Hlex)) as [A B];
      [apply NoDup_rev; auto|apply Forall_rev; auto|].
    assert (HNC : NoDup C) by (rewrite <- (rev_involutive C); apply NoDup_rev; auto).
    split.
    - rewrite (dfs_first expand Inv rank (num_cand p) gexpand_ok) with (w := isort C); simpl.
      + rewrite sorted_committees_asc; auto. repeat constructor. apply isort_ascending; auto.
      + intros s cs Hs E. destruct (gexpand_spec s Hs) as (sel & E' & _).
        rewrite E in E'. inversion E'; subst cs.
        destruct (Nat.eqb_spec (length (fst s) + 1) k) as [e|n].
        * right. exists (map (fun c => isort (fst s ++ [c])) sel). rewrite map_map. apply map_ext.
          intros c. rewrite app_length. simpl. destruct (Nat.eqb_spec (length (fst s) + 1) k); [auto|lia].
        * left. exists (map (fun c => (fst s ++ [c], next (fst s) (snd s) c)) sel). rewrite map_map. apply map_ext.
          intros c. rewrite app_length. simpl. destruct (Nat.eqb_spec (length (fst s) + 1) k); [lia|auto].
      + split; auto.
      + unfold rank. simpl. rewrite Nat.add_0_r.
        destruct (tree_size_mono (num_cand p) (k - 1 - length C0) k) as [|Hz]; [lia|auto|].
        destruct (progress C0 a0 HG0 Hl) as (c & Hc). destruct (choice_fresh _ _ _ Hc). lia.
      + destruct (first_reach_complete _ _ Hp Hl) as [_ Hc]. apply Hc. lia.
    - exists (rev C), (nthQ a). split; auto. split; [rewrite rev_length; lia|]. rewrite isort_rev. auto.
  Qed.
End Generic.
