(** * Generic correctness of the one-candidate-at-a-time loops with Python's numbers (RulesFloat.v) *)
From Coq Require Import String.
From Coq Require Import List Arith Bool ZArith QArith Lia Lqa Permutation Sorted.
From Verif Require Import Prelude Misc MiscProofs Preferences Scores Spec ScoresProofs Search RulesThiele
  Common ThieleProofs SpecRules SpecSeq RulesSeq SeqProofs PhragmenProofs FileProofs Floats RulesFloat.
Import ListNotations.
Open Scope nat_scope.

Section FloatSearch.
  Variables (p : profile) (k : nat).
  Variable select : list nat -> list num -> result (list nat).
  Variable next : list nat -> list num -> nat -> result (list num).
  Variable Good : list nat -> list num -> Prop.
  Hypothesis sel_ok : forall C a, Good C a -> NoDup C -> Forall (fun c => c < num_cand p) C -> length C < k ->
    exists sel, select C a = Ok sel /\ sel <> [] /\ ascending sel /\
      forall c, In c sel -> fresh p C c /\ exists a', next C a c = Ok a' /\ Good (C ++ [c]) a'.

  (** the paths of the implementation: candidates in order of election *)
  Inductive frun (C0 : list nat) (a0 : list num) : list nat -> list num -> Prop :=
  | fr_start : frun C0 a0 C0 a0
  | fr_step : forall C a sel c a', frun C0 a0 C a -> length C < k -> select C a = Ok sel -> In c sel ->
      next C a c = Ok a' -> frun C0 a0 (C ++ [c]) a'.
  Definition fwinner (C0 : list nat) (a0 : list num) (W : list nat) : Prop :=
    exists C a, frun C0 a0 C a /\ length C = k /\ W = isort C.

  Definition FGood (C : list nat) (a : list num) : Prop := Good C a /\ NoDup C /\ Forall (fun c => c < num_cand p) C.

  Lemma fsel : forall C a, FGood C a -> length C < k ->
    exists sel, select C a = Ok sel /\ sel <> [] /\ ascending sel /\ length sel <= num_cand p /\
      forall c, In c sel -> exists a', next C a c = Ok a' /\ FGood (C ++ [c]) a'.
  Proof using sel_ok.
    intros C a (HG & HN & HF) Hl. destruct (sel_ok C a HG HN HF Hl) as (sel & E & Hne & Hasc & H).
    exists sel. split; auto. split; auto. split; auto. split.
    - rewrite <- (seq_length (num_cand p) 0). apply NoDup_incl_length; [apply ascending_NoDup; auto|].
      intros c Hc. destruct (H c Hc) as [[Hm _] _]. apply in_seq. lia.
    - intros c Hc. destruct (H c Hc) as [[Hm Hn] (a' & Ea & HG')]. exists a'. split; auto. split; auto. split.
      + apply NoDup_app_intro; auto; [repeat constructor; intros []|]. intros x Hx [<-|[]]. auto.
      + apply Forall_app. split; auto.
  Qed.

  Lemma frun_good : forall C0 a0 C a, FGood C0 a0 -> frun C0 a0 C a -> FGood C a.
  Proof using sel_ok.
    intros C0 a0 C a H0 H. induction H as [|C a sel c a' H IH Hl Es Hc En]; auto.
    destruct (fsel C a IH Hl) as (sel' & Es' & _ & _ & _ & Hs). assert (sel' = sel) by congruence. subst sel'.
    destruct (Hs c Hc) as (a'' & En' & HG). assert (a'' = a') by congruence. subst. auto.
  Qed.

  Lemma fwinner_committee : forall C0 a0 W, FGood C0 a0 -> fwinner C0 a0 W -> is_committee p k W.
  Proof using sel_ok.
    intros C0 a0 W H0 (C & a & Hr & Hk & ->). destruct (frun_good _ _ _ _ H0 Hr) as (_ & HN & HF).
    apply isort_committee; auto.
  Qed.

  Let expand := float_expand k select next.
  Let Inv (s : list nat * list num) := FGood (fst s) (snd s) /\ length (fst s) < k.
  Let rank (s : list nat * list num) := k - 1 - length (fst s).
  Let child_of (s : list nat * list num) (c : nat) (ch : child (list nat * list num)) : Prop :=
    exists a', next (fst s) (snd s) c = Ok a' /\ FGood (fst s ++ [c]) a' /\
      ch = if length (fst s ++ [c]) =? k then Leaf (isort (fst s ++ [c])) else Partial (fst s ++ [c], a').

  Lemma fexpand_spec : forall s, Inv s -> exists sel cs, expand s = Ok cs /\ select (fst s) (snd s) = Ok sel /\ sel <> [] /\
    length sel <= num_cand p /\ Forall2 (child_of s) sel cs.
  Proof using sel_ok.
    intros [C a] [HG Hl]. simpl in *. destruct (fsel C a HG Hl) as (sel & Es & Hne & Hasc & Hlen & Hs).
    exists sel. unfold expand, float_expand. rewrite Es. simpl.
    destruct (rmapM_total _ _ (fun c => let nc := C ++ [c] in
                  if length nc =? k then Ok (Leaf (isort nc)) else do a' <- next C a c; Ok (Partial (nc, a'))) sel) as (cs & E).
    { apply Forall_forall. intros c Hc. destruct (Hs c Hc) as (a' & En & _). cbv zeta.
      destruct (length (C ++ [c]) =? k); [eauto|]. rewrite En. simpl. eauto. }
    exists cs. split; auto. split; auto. split; auto. split; auto.
    apply rmapM_Forall2 in E. clear - E Hs. revert Hs. induction E as [|c y l l' H HF IH]; intros Hs; constructor.
    - destruct (Hs c (or_introl eq_refl)) as (a' & En & HG). exists a'. simpl. split; auto. split; auto. cbv zeta in H.
      rewrite En in H. simpl in H. destruct (length (C ++ [c]) =? k); congruence.
    - apply IH. intros d Hd. apply Hs. right; auto.
  Qed.

  Lemma Forall2_In_r : forall (X Y : Type) (R : X -> Y -> Prop) l l' y, Forall2 R l l' -> In y l' -> exists x, In x l /\ R x y.
  Proof using. induction 1; intros []; subst; [eexists; split; [left; reflexivity|auto]|]. destruct IHForall2 as (z & ? & ?); auto. exists z. split; [right|]; auto. Qed.
  Lemma Forall2_In_l : forall (X Y : Type) (R : X -> Y -> Prop) l l' x, Forall2 R l l' -> In x l -> exists y, In y l' /\ R x y.
  Proof using. induction 1; intros []; subst; [eexists; split; [left; reflexivity|auto]|]. destruct IHForall2 as (z & ? & ?); auto. exists z. split; [right|]; auto. Qed.

  Lemma fexpand_ok : forall s, Inv s -> exists cs, expand s = Ok cs /\ length cs <= num_cand p /\ cs <> [] /\
      (forall s', In (Partial s') cs -> Inv s' /\ rank s' < rank s).
  Proof using sel_ok.
    intros s Hs. destruct (fexpand_spec s Hs) as (sel & cs & E & Es & Hne & Hl & HF).
    exists cs. split; auto. split; [clear - HF Hl; assert (X : length sel = length cs) by (clear Hl; induction HF; simpl; auto); lia|]. split.
    - intros ->. inversion HF; subst. congruence.
    - intros s' Hs'. destruct (Forall2_In_r _ _ _ _ _ _ HF Hs') as (c & Hc & a' & En & HG & Ec).
      destruct (Nat.eqb_spec (length (fst s ++ [c])) k) as [|n]; [discriminate|]. inversion Ec; subst s'.
      rewrite app_length in n. simpl in n. destruct Hs as [_ Hlen].
      split; [split|unfold rank]; simpl; auto; rewrite ?app_length; simpl; lia.
  Qed.

  Lemma frun_trans : forall C a C1 a1 C2 a2, frun C a C1 a1 -> frun C1 a1 C2 a2 -> frun C a C2 a2.
  Proof using. intros C a C1 a1 C2 a2 H H'. induction H'; auto. econstructor; eauto. Qed.

  Lemma freach_sound : forall s W, reach expand s W -> Inv s -> fwinner (fst s) (snd s) W.
  Proof using sel_ok.
    intros s W H. induction H as [s cs W E Hin|s cs s' W E Hin Hr IH]; intros Hs;
      destruct (fexpand_spec s Hs) as (sel & cs' & E' & Es & _ & _ & HF); assert (cs' = cs) by congruence; subst cs'.
    - destruct (Forall2_In_r _ _ _ _ _ _ HF Hin) as (c & Hc & a' & En & HG & Ec).
      destruct (Nat.eqb_spec (length (fst s ++ [c])) k) as [Hk|]; [|discriminate].
      inversion Ec; subst W. exists (fst s ++ [c]), a'. split; auto. econstructor; eauto; [constructor|apply Hs].
    - destruct (fexpand_ok s Hs) as (cs' & E'' & _ & _ & Hch). assert (cs' = cs) by congruence. subst cs'.
      destruct (Hch s' Hin) as [Hi _]. destruct (IH Hi) as (C & a & Hp & Hlk & HW). exists C, a. split; auto.
      eapply frun_trans; [|exact Hp]. destruct (Forall2_In_r _ _ _ _ _ _ HF Hin) as (c & Hc & a' & En & HG & Ec).
      destruct (Nat.eqb_spec (length (fst s ++ [c])) k) as [Hk|]; [discriminate|].
      inversion Ec; subst s'. simpl. econstructor; eauto; [constructor|apply Hs].
  Qed.

  Variables (C0 : list nat) (a0 : list num).
  Hypothesis H0 : FGood C0 a0.

  Lemma freach_complete : forall C a, frun C0 a0 C a -> length C0 < k ->
    (length C < k -> forall W, reach expand (C, a) W -> reach expand (C0, a0) W) /\
    (length C = k -> reach expand (C0, a0) (isort C)).
  Proof using sel_ok H0.
    intros C a H Hl0. induction H as [|C a sel c a' H IH Hl Es Hc En].
    - split; auto. intros. lia.
    - destruct IH as [IH1 _]. specialize (IH1 Hl). assert (HG := frun_good _ _ _ _ H0 H).
      destruct (fexpand_spec (C, a)) as (sel' & cs & E & Es' & _ & _ & HF); [split; auto|]. simpl in *.
      assert (sel' = sel) by congruence. subst sel'.
      destruct (Forall2_In_l _ _ _ _ _ _ HF Hc) as (ch & Hch & a'' & En' & HG' & Ech). simpl in *.
      assert (a'' = a') by congruence. subst a''.
      split; intros Hk.
      + intros W HW. apply IH1. destruct (Nat.eqb_spec (length (C ++ [c])) k); [lia|]. subst ch.
        eapply reach_step; eauto.
      + apply IH1. destruct (Nat.eqb_spec (length (C ++ [c])) k); [|lia]. subst ch. eapply reach_leaf; eauto.
  Qed.

  Lemma freach_iff : forall W, length C0 < k -> (reach expand (C0, a0) W <-> fwinner C0 a0 W).
  Proof using sel_ok H0.
    intros W Hl. split.
    - intros H. apply (freach_sound (C0, a0)); auto. split; auto.
    - intros (C & a & Hr & Hk & ->). destruct (freach_complete _ _ Hr Hl) as [_ Hc]. auto.
  Qed.

  Lemma fmore : length C0 < k -> num_cand p <> 0.
  Proof using sel_ok H0.
    intros Hl. destruct (fsel C0 a0 H0 Hl) as (sel & _ & Hne & _ & Hlen & _). destruct sel; [congruence|simpl in Hlen; lia].
  Qed.

  Lemma float_dfs_gen : forall maxn, length C0 < k -> valid_max maxn -> exists win,
    dfs expand maxn (tree_size (num_cand p) k) [(C0, a0)] [] = Ok win /\ NoDup win /\ at_most maxn win /\
    (forall W, In W win -> fwinner C0 a0 W) /\
    ((maxn = None \/ exists n, maxn = Some n /\ length win < n) -> forall W, fwinner C0 a0 W -> In W win).
  Proof using sel_ok H0.
    intros maxn Hl Hm.
    destruct (dfs_spec expand Inv rank (num_cand p) fexpand_ok maxn (tree_size (num_cand p) k) [(C0, a0)] [])
      as (win & E & HN & _ & Ham & Hs & Hc).
    - constructor; [|constructor]. split; auto.
    - constructor.
    - destruct maxn; simpl in *; auto.
    - simpl. unfold rank. simpl. rewrite Nat.add_0_r.
      destruct (tree_size_mono (num_cand p) (k - 1 - length C0) k) as [|Hz]; [lia|auto|]. destruct (fmore Hl Hz).
    - exists win. split; auto. split; auto. split; auto. split.
      + intros W HW. destruct (Hs W HW) as [[]|(s & [<-|[]] & Hr)]. apply freach_iff; auto.
      + intros H W HW'. apply (Hc H (C0, a0)); [left; auto|]. apply freach_iff; auto.
  Qed.

  Lemma fwinner_exists : length C0 < k -> exists W, fwinner C0 a0 W.
  Proof using sel_ok H0.
    intros Hl. destruct (reach_exists expand Inv rank (num_cand p) fexpand_ok (C0, a0)) as (W & HW); [split; auto|].
    exists W. apply freach_iff; auto.
  Qed.

  Theorem float_dfs_correct : forall maxn, length C0 < k -> valid_max maxn ->
    answers (fwinner C0 a0) false maxn
      (do win <- dfs expand maxn (tree_size (num_cand p) k) [(C0, a0)] []; sorted_committees win).
  Proof using sel_ok H0.
    intros maxn Hl Hm. destruct (float_dfs_gen maxn Hl Hm) as (win & E & HN & Ham & HW & Hc).
    rewrite E. simpl. apply answers_dfs; auto.
    apply Forall_forall. intros W HWi. apply HW in HWi. apply fwinner_committee in HWi as []; auto.
  Qed.

  Theorem float_dfs_one : length C0 < k -> exists W,
    (do win <- dfs expand (Some 1) (tree_size (num_cand p) k) [(C0, a0)] []; sorted_committees win) = Ok [W] /\ fwinner C0 a0 W.
  Proof using sel_ok H0.
    intros Hl. destruct (float_dfs_gen (Some 1) Hl) as (win & E & HN & Ham & HW & Hc); [simpl; lia|].
    destruct (fwinner_exists Hl) as (V & HV). simpl in Ham.
    destruct win as [|W [|X win]]; [|exists W; split; auto|simpl in Ham; lia].
    - exfalso. apply (fun H => Hc H V HV). right. exists 1. split; auto.
    - rewrite E. simpl. rewrite sorted_committees_asc; auto. constructor; [|constructor].
      destruct (fwinner_committee _ _ _ H0 (HW W (or_introl eq_refl))). auto.
    - apply HW. left; auto.
  Qed.

  (** the resolute loop *)
  Hypothesis perm_ok : forall C C' a, Permutation C C' ->
    select C' a = select C a /\ forall c, next C' a c = next C a c.
  Lemma float_loop_gen : forall r C C' a, frun C0 a0 C a -> Permutation C C' -> length C + r <= k ->
    exists D D' b, float_loop select next r C' a = Ok D' /\ frun C0 a0 D b /\ Permutation D D' /\
      length D = length C + r /\ (0 < r -> D' = isort D).
  Proof using sel_ok H0 perm_ok.
    induction r as [|r IH]; intros C C' a Hp HP Hl.
    - exists C, C', a. simpl. repeat split; auto; try lia.
    - assert (HG := frun_good _ _ _ _ H0 Hp). assert (HlC : length C < k) by lia.
      destruct (fsel C a HG HlC) as (sel & Es & Hne & _ & _ & Hs). destruct sel as [|c sel]; [congruence|].
      destruct (Hs c (or_introl eq_refl)) as (a' & En & HG'). destruct (perm_ok C C' a HP) as [Ps Pn].
      simpl. rewrite Ps, Es. simpl. rewrite Pn, En. simpl.
      assert (HP' : Permutation (C ++ [c]) (isort (C' ++ [c]))).
      { etransitivity; [|apply isort_perm]. apply Permutation_app_tail; auto. }
      destruct (IH (C ++ [c]) (isort (C' ++ [c])) a') as (D & D' & b & E & HD & HPD & HlD & HsD).
      + econstructor; eauto. left; auto.
      + exact HP'.
      + rewrite app_length. simpl. lia.
      + exists D, D', b. repeat split; auto.
        * rewrite HlD, app_length. simpl. lia.
        * intros _. destruct r; [|apply HsD; lia].
          simpl in E. inversion E; subst D'.
          rewrite (isort_perm_eq D (C' ++ [c])); auto.
          transitivity (isort (C' ++ [c])); [auto|symmetry; apply isort_perm].
  Qed.
  Theorem float_loop_correct : length C0 < k -> exists W,
    float_loop select next (k - length C0) C0 a0 = Ok W /\ fwinner C0 a0 W.
  Proof using sel_ok H0 perm_ok.
    intros Hl. destruct (float_loop_gen (k - length C0) C0 C0 a0) as (D & D' & b & E & Hr & HP & HD & Hs);
      [constructor|auto|lia|].
    exists D'. split; auto. exists D, b. split; auto. split; [lia|]. apply Hs. lia.
  Qed.
End FloatSearch.
