(** * Method of Equal Shares: the complete algorithm *)
From Coq Require Import String.
From Coq Require Import List Arith Bool ZArith QArith Lia Lqa Permutation Sorted Setoid.
From Verif Require Import Prelude Misc MiscProofs Preferences Scores Spec ScoresProofs Search RulesThiele
  Common ThieleProofs SpecRules SpecSeq RulesSeq SeqProofs PhragmenProofs EnestroemProofs RulesMes PoolProofs MesProofs.
Import ListNotations.
Open Scope nat_scope.

Section Loop.
  Variables (p : profile) (k : nat).
  Hypothesis Hw : wf p.
  Hypothesis Hk : 1 <= k <= num_cand p.
  Variable resolute : bool.
  Variable fill : list nat -> list Q -> result (list (list nat)).
  Variable F : completion.
  Hypothesis F_ext : forall L x y W, agree p x y -> F L x W -> F L y W.
  Hypothesis fill_ok : forall C a, MGood p C a -> length C < k -> mes_stuck p C (nthQ a) ->
    exists ws, fill C a = Ok ws /\ ws <> [] /\ Forall (@NoDup nat) ws /\
      forall W, In W (map isort ws) <-> F (rev C) (nthQ a) W.

  Let sel := mes_select p.
  Let nxt := mes_next p.

  Lemma choice_ext' : forall W W' x y c, set_same W W' -> agree p x y -> mes_choice p W x c -> mes_choice p W' y c.
  Proof using. intros. eapply mes_choice_ext; eauto. Qed.
  Lemma update_ext' : forall W W' x c x', set_same W W' -> mes_update p W x c x' -> mes_update p W' x c x'.
  Proof using. intros. auto. Qed.
  Lemma sel_ok' : forall C a, MGood p C a -> length C < k ->
    exists s, sel C a = Ok s /\ ascending s /\ forall c, In c s <-> mes_choice p C (nthQ a) c.
  Proof using Hw. intros C a H _. destruct (mes_sel_ok p Hw C a H) as (s & A & B & D & _). eauto. Qed.
  Lemma next_ok' : forall C a c, MGood p C a -> length C < k -> mes_choice p C (nthQ a) c ->
    mes_update p C (nthQ a) c (nthQ (nxt C a c)) /\ MGood p (C ++ [c]) (nxt C a c).
  Proof using Hw. intros. apply mes_next_ok; auto. Qed.

  Definition mpath (C : list nat) (a : list Q) : list nat -> list Q -> Prop :=
    if resolute then fpath k sel nxt C a else ipath k sel nxt C a.

  Lemma mpath_ipath : forall C a C' a', mpath C a C' a' -> ipath k sel nxt C a C' a'.
  Proof using. unfold mpath. destruct resolute; auto. intros. apply fpath_ipath. auto. Qed.
  Lemma mpath_good : forall C a C' a', MGood p C a -> mpath C a C' a' -> MGood p C' a'.
  Proof using Hw.
    intros C a C' a' H Hp. apply mpath_ipath in Hp.
    destruct (ipath_runs p k sel nxt (mes_choice p) (mes_update p) (MGood p)
                choice_ext' update_ext' sel_ok' next_ok' _ _ _ _ H Hp). auto.
  Qed.

  Let expand := mes_expand p k resolute fill.
  Let Inv (s : list nat * list Q) := MGood p (fst s) (snd s) /\ length (fst s) < k.
  Let rank (s : list nat * list Q) := k - 1 - length (fst s).

  Lemma mexpand : forall C a, MGood p C a -> length C < k ->
    (exists tied, sel C a = Ok tied /\ tied <> [] /\
       expand (C, a) = Ok (Branch (map (fun c => let nc := C ++ [c] in
                                if length nc =? k then Leaf (isort nc) else Partial (nc, nxt C a c))
                      (if resolute then firstn 1 tied else tied))) /\ length tied <= num_cand p /\
       forall c, In c tied <-> mes_choice p C (nthQ a) c) \/
    (exists ws, sel C a = Ok [] /\ mes_stuck p C (nthQ a) /\ fill C a = Ok ws /\
       expand (C, a) = Ok (Finish (map isort ws)) /\ ws <> [] /\ Forall (@NoDup nat) ws /\
       forall W, In W (map isort ws) <-> F (rev C) (nthQ a) W).
  Proof using Hw fill_ok.
    intros C a HG Hl. destruct (mes_sel_ok p Hw C a HG) as (tied & E & Hasc & Hin & Hst).
    unfold expand, mes_expand. unfold sel. rewrite E. cbn [rbind]. destruct tied as [|c0 tied].
    - right. destruct (fill_ok C a HG Hl) as (ws & Ew & A & B & D); [apply Hst; auto|].
      exists ws. rewrite Ew. cbn [rbind]. split; auto. split; [apply Hst; auto|]. split; auto.
    - left. exists (c0 :: tied). split; auto. split; [discriminate|]. split; auto. split; auto.
      eapply (sel_length p (mes_choice p)); eauto. intros W x c (H & _). auto.
  Qed.

  Lemma MGood_isort : forall C a c, MGood p C a -> mes_choice p C (nthQ a) c -> ascending (isort (C ++ [c])).
  Proof using.
    intros C a c (HN & _) ([_ Hni] & _). apply isort_ascending. apply NoDup_app_intro; auto.
    - repeat constructor. intros [].
    - intros x Hx [<-|[]]. auto.
  Qed.

  Lemma mexpand_ok : forall s, Inv s ->
    (exists cs, expand s = Ok (Branch cs) /\ length cs <= num_cand p /\ cs <> [] /\
      (forall s', In (Partial s') cs -> Inv s' /\ rank s' < rank s) /\
      (forall w, In (Leaf w) cs -> ascending w)) \/
    (exists ws, expand s = Ok (Finish ws) /\ ws <> [] /\ Forall ascending ws).
  Proof using Hw Hk fill_ok.
    intros [C a] [HG Hl]. simpl in HG, Hl.
    destruct (mexpand C a HG Hl) as [(tied & Es & Hne & Ee & Hlen & Hin)|(ws & Es & Hst & Ew & Ee & Hne & Hnd & _)].
    - left. eexists. split; [exact Ee|].
      set (t := if resolute then firstn 1 tied else tied).
      assert (Ht : forall c, In c t -> In c tied).
      { unfold t. destruct resolute; auto. intros c Hc. destruct tied; [destruct Hc|]. destruct Hc as [<-|[]]. left; auto. }
      split.
      { rewrite map_length. unfold t. destruct resolute; auto. destruct tied; simpl in *; lia. }
      split.
      { unfold t. destruct tied; [congruence|]. destruct resolute; discriminate. }
      split.
      + intros s' Hs'. apply in_map_iff in Hs' as (c & Ec & Hc). cbv zeta in Ec.
        destruct (Nat.eqb_spec (length (C ++ [c])) k) as [|n]; [discriminate|]. inversion Ec; subst s'.
        rewrite app_length in n. simpl in n. apply Ht, Hin in Hc.
        destruct (next_ok' C a c HG Hl Hc) as [_ HG'].
        split; [split|unfold rank]; simpl; auto; rewrite ?app_length; simpl; lia.
      + intros W HW. apply in_map_iff in HW as (c & Ec & Hc). cbv zeta in Ec.
        destruct (Nat.eqb_spec (length (C ++ [c])) k) as [|n]; [|discriminate]. inversion Ec; subst W.
        apply Ht, Hin in Hc. eapply MGood_isort; eauto.
    - right. exists (map isort ws). split; auto. split.
      + destruct ws; [congruence|discriminate].
      + apply Forall_forall. intros W HW. apply in_map_iff in HW as (W' & <- & HW'). apply isort_ascending.
        rewrite Forall_forall in Hnd. auto.
  Qed.

  Lemma mpath_first : forall C a C' a' tied c, sel C a = Ok tied -> length C < k ->
    In c (if resolute then firstn 1 tied else tied) -> mpath (C ++ [c]) (nxt C a c) C' a' -> mpath C a C' a'.
  Proof using.
    clear expand. intros C a C' a' tied c Es Hl Hc Hp. unfold mpath in *. destruct resolute.
    - destruct tied as [|c0 tied]; [destruct Hc|]. destruct Hc as [->|[]].
      induction Hp as [|D d s x H IH Hl' Es'].
      + econstructor; eauto. constructor.
      + econstructor; eauto.
    - eapply ipath_trans; [|exact Hp]. econstructor; eauto. constructor.
  Qed.

  Lemma preach_sound : forall s W, preach expand s W -> Inv s ->
    exists C a, mpath (fst s) (snd s) C a /\
      ((length C = k /\ W = isort C) \/ (length C < k /\ mes_stuck p C (nthQ a) /\ F (rev C) (nthQ a) W)).
  Proof using Hw Hk fill_ok.
    intros s W H. induction H as [s cs W E Hin|s ws W E Hin|s cs s' W E Hin Hr IH]; intros Hs;
      pose proof Hs as Hs0; destruct s as [C a]; destruct Hs as [HG Hl]; simpl in HG, Hl; simpl fst; simpl snd;
      destruct (mexpand C a HG Hl) as [(tied & Es & Hne & Ee & Hlen & Htied)|(ws' & Es & Hst & Ew & Ee & Hne & Hnd & HF)]; try congruence.
    - rewrite E in Ee. inversion Ee; subst cs. apply in_map_iff in Hin as (c & Ec & Hc). cbv zeta in Ec.
      destruct (Nat.eqb_spec (length (C ++ [c])) k) as [Hk'|n]; [|discriminate]. inversion Ec; subst W.
      exists (C ++ [c]), (nxt C a c). split; auto. eapply mpath_first; eauto.
      unfold mpath. destruct resolute; constructor.
    - rewrite E in Ee. inversion Ee; subst ws. exists C, a. split.
      + unfold mpath. destruct resolute; constructor.
      + right. split; auto. split; auto. apply HF. auto.
    - destruct (mexpand_ok _ Hs0) as [(cs' & Ecs & _ & _ & Hch & _)|(ws & E' & _)]; [|congruence].
      assert (cs' = cs) by congruence. subst cs'. destruct (Hch s' Hin) as [Hi _].
      destruct (IH Hi) as (C' & a' & Hp & HW). exists C', a'. split; auto.
      rewrite E in Ee. inversion Ee; subst cs. apply in_map_iff in Hin as (c & Ec & Hc). cbv zeta in Ec.
      destruct (Nat.eqb_spec (length (C ++ [c])) k) as [Hk'|n]; [discriminate|]. inversion Ec; subst s'.
      simpl in Hp. eapply mpath_first; eauto.
  Qed.

  Variable a0 : list Q.
  Variable start : nat -> Q.
  Hypothesis Hstart : agree p (nthQ a0) start.
  Hypothesis Ha0 : forall i, i < length (voters p) -> (0 <= start i)%Q.

  Lemma start_good : MGood p [] a0.
  Proof using Hstart Ha0.
    split; [constructor|]. split; [constructor|]. intros i Hi. rewrite (Hstart i Hi). auto.
  Qed.

  Lemma preach_complete : resolute = false -> forall C a, ipath k sel nxt [] a0 C a ->
    (length C < k -> forall W, preach expand (C, a) W -> preach expand ([], a0) W) /\
    (length C = k -> preach expand ([], a0) (isort C)).
  Proof using Hw Hk fill_ok Hstart Ha0.
    intros Hr C a H. induction H as [|C a s c H IH Hl Es Hc].
    - split; auto. simpl. intros. lia.
    - destruct IH as [IH1 IH2]. specialize (IH1 Hl).
      assert (HG : MGood p C a).
      { apply (mpath_good [] a0); [apply start_good|]. unfold mpath. rewrite Hr. auto. }
      destruct (mexpand C a HG Hl) as [(tied & Es' & Hne & Ee & Hlen & Htied)|(ws' & Es' & _)].
      2:{ rewrite Es in Es'. inversion Es'; subst. destruct Hc. }
      assert (tied = s) by congruence. subst s. rewrite Hr in Ee.
      split; intros Hlk.
      + intros W HW. apply IH1. eapply preach_step; [exact Ee| |exact HW].
        apply in_map_iff. exists c. split; auto. cbv zeta.
        destruct (Nat.eqb_spec (length (C ++ [c])) k); [lia|auto].
      + apply IH1. eapply preach_leaf; [exact Ee|].
        apply in_map_iff. exists c. split; auto. cbv zeta.
        destruct (Nat.eqb_spec (length (C ++ [c])) k); [auto|lia].
  Qed.

  Lemma init_inv : Inv ([], a0).
  Proof using Hk Hstart Ha0. split; [apply start_good|]. simpl. lia. Qed.

  Lemma init_cost : pcost rank (num_cand p) [([], a0)] <= tree_size (num_cand p) k.
  Proof using Hk.
    simpl. unfold rank. simpl. rewrite Nat.add_0_r.
    destruct (tree_size_mono (num_cand p) (k - 1 - 0) k) as [|Hz]; [lia|auto|lia].
  Qed.

  Lemma preach_winner : resolute = false -> forall W,
    preach expand ([], a0) W <-> mes_winner p k start F W.
  Proof using Hw Hk fill_ok F_ext Hstart Ha0.
    intros Hr W. split.
    - intros H. destruct (preach_sound _ _ H init_inv) as (C & a & Hp & HW). simpl in Hp.
      apply mpath_ipath in Hp.
      destruct (ipath_runs p k sel nxt (mes_choice p) (mes_update p) (MGood p)
                choice_ext' update_ext' sel_ok' next_ok' _ _ _ _ start_good Hp) as [HG Hrun].
      exists (rev C), (nthQ a). rewrite rev_length, isort_rev. simpl in Hrun.
      apply (runs_from_start_ext _ _ _ _ _ _ _ _ Hstart) in Hrun.
      split; [split; auto|].
      + rewrite rev_length. destruct HW as [[HW _]|(HW & Hs & _)]; [left; auto|right]. split; auto.
        eapply mes_stuck_ext; [apply rev_same|apply agree_refl|exact Hs].
      + destruct HW as [[HW ->]|(HW & _ & HF)]; split; auto; intro; lia.
    - intros (L & x & (Hrun & Hend) & H1 & H2).
      apply (runs_from_start_ext _ _ _ _ _ _ _ _ (agree_sym _ _ _ Hstart)) in Hrun.
      destruct (runs_ipath p k sel nxt (mes_choice p) (mes_update p) (MGood p)
                choice_ext' (mes_update_fun p) update_ext' sel_ok' next_ok' [] a0 L x start_good Hrun) as (a & Hp & Ha).
      { destruct Hend as [|[]]; lia. }
      destruct (preach_complete Hr _ _ Hp) as [A B]. rewrite rev_length in A, B.
      destruct Hend as [Hl|[Hl Hs]].
      + rewrite (H1 Hl). specialize (B Hl). rewrite isort_rev in B. auto.
      + specialize (H2 Hl). apply (A Hl).
        assert (HG : MGood p (rev L) a).
        { apply (mpath_good [] a0); [apply start_good|]. unfold mpath. rewrite Hr. auto. }
        assert (Hl' : length (rev L) < k) by (rewrite rev_length; auto).
        assert (Hs' : mes_stuck p (rev L) (nthQ a)).
        { eapply mes_stuck_ext; [apply rev_same|apply agree_sym; exact Ha|exact Hs]. }
        destruct (mexpand (rev L) a HG Hl') as [(tied & Es & Hne & _ & _ & Htied)|(ws & _ & _ & _ & Ee & _ & _ & HF)].
        * exfalso. destruct tied as [|c t]; [congruence|].
          assert (Hc : mes_choice p (rev L) (nthQ a) c) by (apply Htied; left; auto).
          destruct Hc as (Hf & rho & Hpr & _). specialize (Hs' c Hf). apply price_purse in Hpr. lra.
        * eapply preach_fill; [exact Ee|]. apply HF. rewrite rev_involutive.
          eapply F_ext; [apply agree_sym; exact Ha|exact H2].
  Qed.

  Lemma preach_lex_winner : resolute = true -> forall W,
    preach expand ([], a0) W -> mes_lex_winner p k start F W.
  Proof using Hw Hk fill_ok F_ext Hstart Ha0.
    intros Hr W H. destruct (preach_sound _ _ H init_inv) as (C & a & Hp & HW). simpl in Hp.
    unfold mpath in Hp. rewrite Hr in Hp.
    pose proof (fpath_lex p k sel nxt (mes_choice p) (mes_update p) (MGood p)
                choice_ext' update_ext' sel_ok' next_ok' _ _ _ _ start_good Hp) as Hrun.
    exists (rev C), (nthQ a). rewrite rev_length, isort_rev. simpl in Hrun.
    apply (lex_runs_from_start_ext _ _ _ _ _ _ _ _ Hstart) in Hrun.
    split; [split; auto|].
    - rewrite rev_length. destruct HW as [[HW _]|(HW & Hs & _)]; [left; auto|right]. split; auto.
      eapply mes_stuck_ext; [apply rev_same|apply agree_refl|exact Hs].
    - destruct HW as [[HW ->]|(HW & _ & HF)]; split; auto; intro; lia.
  Qed.
End Loop.

Lemma mes_winner_lex : forall p k start F W, mes_lex_winner p k start F W -> mes_winner p k start F W.
Proof.
  intros p k start F W (L & b & (Hr & He) & H). exists L, b. split; auto. split; auto. apply lex_runs_runs; auto.
Qed.

Theorem equal_shares_correct : forall p k fill (F : completion) a0 start maxn, wf p -> 1 <= k <= num_cand p ->
  (forall L x y W, agree p x y -> F L x W -> F L y W) ->
  (forall C a, MGood p C a -> length C < k -> mes_stuck p C (nthQ a) ->
    exists ws, fill C a = Ok ws /\ ws <> [] /\ Forall (@NoDup nat) ws /\
      forall W, In W (map isort ws) <-> F (rev C) (nthQ a) W) ->
  agree p (nthQ a0) start -> (forall i, i < length (voters p) -> (0 <= start i)%Q) -> valid_max maxn ->
  answers (mes_winner p k start F) false maxn (equal_shares p k false maxn fill a0).
Proof.
  intros p k fill F a0 start maxn Hw Hk Fe Hf Hs H0 Hm. unfold equal_shares.
  eapply answers_equiv; [intro W; apply (preach_winner p k Hw Hk false fill F Fe Hf a0 start Hs H0 eq_refl)|].
  eapply (pool_answers _ _ _ _ (mexpand_ok p k Hw Hk false fill F Hf)); auto.
  - apply (init_inv p k Hk a0 start Hs H0).
  - apply (init_cost p k Hk a0).
Qed.

Theorem equal_shares_resolute : forall p k fill (F : completion) a0 start maxn, wf p -> 1 <= k <= num_cand p ->
  (forall L x y W, agree p x y -> F L x W -> F L y W) ->
  (forall C a, MGood p C a -> length C < k -> mes_stuck p C (nthQ a) ->
    exists ws, fill C a = Ok ws /\ ws <> [] /\ Forall (@NoDup nat) ws /\
      forall W, In W (map isort ws) <-> F (rev C) (nthQ a) W) ->
  agree p (nthQ a0) start -> (forall i, i < length (voters p) -> (0 <= start i)%Q) ->
  exists W, equal_shares p k true maxn fill a0 = Ok [W] /\ mes_lex_winner p k start F W.
Proof.
  intros p k fill F a0 start maxn Hw Hk Fe Hf Hs H0. unfold equal_shares.
  destruct (pool_one _ _ _ _ (mexpand_ok p k Hw Hk true fill F Hf) ([], a0) (tree_size (num_cand p) k)) as (W & E & HW).
  - apply (init_inv p k Hk a0 start Hs H0).
  - apply (init_cost p k Hk a0).
  - exists W. split; auto. apply (preach_lex_winner p k Hw Hk true fill F Fe Hf a0 start Hs H0 eq_refl). auto.
Qed.
