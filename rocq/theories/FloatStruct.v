(** * What the default algorithm "float-fractions" guarantees whatever the rounding: it finishes, and what it returns are committees *)
From Coq Require Import String.
From Coq Require Import List Arith Bool ZArith QArith Lia Lqa Permutation Sorted.
From Verif Require Import Prelude Misc MiscProofs Preferences Scores Spec ScoresProofs Search RulesThiele Rule Compute
  Common ThieleProofs SpecRules SpecSeq RulesSeq SeqProofs PhragmenProofs EnestroemProofs RulesMes RulesMore EphProofs PoolProofs AvPhase FileProofs SpecAll Floats RulesFloat FloatSearch.
Import ListNotations.
Open Scope nat_scope.

(** ** numbers *)
Lemma nminl_In : forall l x, In (nminl x l) (x :: l).
Proof.
  induction l as [|y l IH]; intros x; simpl; auto. destruct (nlt y x).
  - right. apply IH.
  - destruct (IH x) as [H|H]; auto.
Qed.
Lemma nmaxl_In : forall l x, In (nmaxl x l) (x :: l).
Proof.
  induction l as [|y l IH]; intros x; simpl; auto. destruct (nlt x y).
  - right. apply IH.
  - destruct (IH x) as [H|H]; auto.
Qed.
Lemma nlt_spec : forall x y, if nlt x y then (val x < val y)%Q else (val y <= val x)%Q.
Proof.
  intros. unfold nlt, Qltb. destruct (Qle_bool (val y) (val x)) eqn:E; simpl.
  - apply Qle_bool_iff. auto.
  - apply Qnot_le_lt. intros H. apply Qle_bool_iff in H. congruence.
Qed.
Lemma nminl_le : forall l x y, In y (x :: l) -> (val (nminl x l) <= val y)%Q.
Proof.
  induction l as [|z l IH]; intros x y Hy.
  - destruct Hy as [->|[]]. simpl. apply Qle_refl.
  - simpl. pose proof (nlt_spec z x) as Hs. destruct (nlt z x).
    + destruct Hy as [<-|Hy]; [|apply IH; auto].
      apply Qle_trans with (val z); [apply IH; left; auto|apply Qlt_le_weak; auto].
    + destruct Hy as [<-|[<-|Hy]]; [apply IH; left; auto| |apply IH; right; auto].
      apply Qle_trans with (val x); auto. apply IH. left; auto.
Qed.
Lemma nmin_ok : forall l, l <> [] -> exists x, nmin l = Ok x /\ In x l /\ forall y, In y l -> (val x <= val y)%Q.
Proof.
  intros [|x l] H; [congruence|]. exists (nminl x l). split; auto. split; [apply nminl_In|]. intros. apply nminl_le. auto.
Qed.
Lemma nmax_ok : forall l, l <> [] -> exists x, nmax l = Ok x /\ In x l.
Proof. intros [|x l] H; [congruence|]. exists (nmaxl x l). split; auto. apply nmaxl_In. Qed.
Lemma isclose_refl : forall A x, isclose A x x = true.
Proof. intros. unfold isclose. replace (Qeq_bool (to_float A x) (to_float A x)) with true; auto. symmetry. apply Qeq_bool_iff. reflexivity. Qed.
Lemma nle_refl : forall x, nle x x = true.
Proof. intros. apply Qle_bool_iff, Qle_refl. Qed.

Lemma available_nonempty : forall p C k, NoDup C -> Forall (fun c => c < num_cand p) C -> length C < k -> k <= num_cand p -> available p C <> [].
Proof.
  intros p C k HN HF Hl Hk. destruct (fresh_exists p C HN ltac:(lia)) as (c & Hc). apply available_In in Hc. intros E. rewrite E in Hc. destruct Hc.
Qed.
Lemma available_perm : forall p C C', Permutation C C' -> available p C' = available p C.
Proof.
  intros p C C' H. unfold available. apply filter_ext. intros c. f_equal. destruct (mem c C) eqn:E.
  - apply mem_In. apply mem_In in E. eapply Permutation_in; eauto.
  - apply mem_false. apply mem_false in E. intros Hc. apply E. eapply Permutation_in; [symmetry|]; eauto.
Qed.

Section Any.
  Variable A : arith.
  Variables (p : profile) (k : nat).
  Hypothesis Hk : 1 <= k <= num_cand p.

  Lemma f_max_entries_ok : forall f cands, cands <> [] -> ascending cands ->
    exists sel, f_max_entries A f cands = Ok sel /\ sel <> [] /\ ascending sel /\ incl sel cands.
  Proof using.
    intros f cands Hne Ha. unfold f_max_entries. destruct (nmax_ok (map f cands)) as (mx & E & Hi).
    { destruct cands; [congruence|discriminate]. }
    rewrite E. cbn [rbind]. eexists. split; [reflexivity|]. apply in_map_iff in Hi as (c & Ec & Hc). split; [|split].
    - intros E0. assert (Hin : In c (filter (fun c => isclose A (f c) mx) cands)).
      { apply filter_In. split; auto. rewrite Ec. apply isclose_refl. }
      rewrite E0 in Hin. destruct Hin.
    - apply ascending_filter. auto.
    - intros x Hx. apply filter_In in Hx as [Hx _]. exact Hx.
  Qed.

  (** ** Phragmén-Eneström and the consensus rule *)
  Section Dfs.
    Variable select : list nat -> list num -> result (list nat).
    Variable next : list nat -> list num -> nat -> result (list num).
    Variable a0 : list num.
    Hypothesis step : forall C a, NoDup C -> Forall (fun c => c < num_cand p) C -> length C < k ->
      exists sel, select C a = Ok sel /\ sel <> [] /\ ascending sel /\
        forall c, In c sel -> fresh p C c /\ exists a', next C a c = Ok a'.
    Let winner := fwinner k select next [] a0.
    Lemma any_step : forall C a, (fun _ _ => True) C a -> NoDup C -> Forall (fun c => c < num_cand p) C -> length C < k ->
      exists sel, select C a = Ok sel /\ sel <> [] /\ ascending sel /\
        forall c, In c sel -> fresh p C c /\ exists a', next C a c = Ok a' /\ (fun _ _ => True) (C ++ [c]) a'.
    Proof using step.
      intros C a _ HN HF Hl. destruct (step C a HN HF Hl) as (sel & E & Hne & Ha & H). exists sel. repeat (split; auto).
      - destruct (H c H0) as [[] _]; auto.
      - destruct (H c H0) as [[] _]; auto.
      - destruct (H c H0) as [_ (a' & Ea)]. eauto.
    Qed.
    Lemma dfs_determined : forall resolute maxn, valid_max maxn ->
      answers winner resolute maxn
        (do win <- dfs (float_expand k select next) (if resolute then Some 1 else maxn) (tree_size (num_cand p) k) [([], a0)] []; sorted_committees win) /\
      forall W, winner W -> is_committee p k W.
    Proof using step Hk.
      intros resolute maxn Hm.
      assert (HG : FGood p (fun _ _ => True) [] a0) by (split; auto; split; constructor).
      split.
      - destruct resolute.
        + destruct (float_dfs_one p k select next (fun _ _ => True) any_step [] a0 HG ltac:(simpl; lia)) as (W & E & HW).
          rewrite E. apply answers_resolute_one. auto.
        + apply (float_dfs_correct p k select next (fun _ _ => True) any_step [] a0 HG); auto. simpl; lia.
      - intros W HW. eapply fwinner_committee; eauto. exact any_step.
    Qed.
  End Dfs.

  Lemma max_select_ok : forall (f : list nat -> list num -> nat -> num) C a, NoDup C -> Forall (fun c => c < num_cand p) C -> length C < k ->
    exists sel, (do tied <- f_max_entries A (f C a) (available p C); match tied with [] => Err RuntimeError | _ => Ok tied end) = Ok sel /\
      sel <> [] /\ ascending sel /\ forall c, In c sel -> fresh p C c.
  Proof using Hk.
    intros f C a HN HF Hl.
    destruct (f_max_entries_ok (f C a) (available p C)) as (sel & E & Hne & Ha & Hi).
    { eapply available_nonempty; eauto. lia. } { apply available_asc. }
    rewrite E. cbn [rbind]. exists sel. split; [destruct sel; [congruence|reflexivity]|]. split; auto. split; auto.
    intros c Hc. apply available_In. auto.
  Qed.

  Lemma pe_step : forall price C a, NoDup C -> Forall (fun c => c < num_cand p) C -> length C < k ->
      exists sel, f_pe_select A p C a = Ok sel /\ sel <> [] /\ ascending sel /\
        forall c, In c sel -> fresh p C c /\ exists a', f_pe_next A p price C a c = Ok a'.
  Proof using Hk.
    intros price C a HN HF Hl. destruct (max_select_ok (fun _ a => f_pe_support A p a) C a HN HF Hl) as (sel & E & Hne & Ha & H).
    exists sel. split; [exact E|]. split; auto. split; auto. intros c Hc. split; auto.
    unfold f_pe_next. destruct (nmax_ok (map (f_pe_support A p a) (available p C))) as (mx & Em & _).
    { pose proof (available_nonempty p C k HN HF Hl (proj2 Hk)). destruct (available p C); [congruence|discriminate]. }
    rewrite Em. cbn [rbind]. eauto.
  Qed.
  Lemma cr_step : forall C a, NoDup C -> Forall (fun c => c < num_cand p) C -> length C < k ->
      exists sel, f_cr_select A p C a = Ok sel /\ sel <> [] /\ ascending sel /\
        forall c, In c sel -> fresh p C c /\ exists a', f_cr_next A p C a c = Ok a'.
  Proof using Hk.
    intros C a HN HF Hl. destruct (max_select_ok (fun _ a => f_cr_support A p (f_cr_earn A p a)) C a HN HF Hl) as (sel & E & Hne & Ha & H).
    exists sel. split; [exact E|]. split; auto. split; auto. intros c Hc. split; auto.
    unfold f_cr_next. eauto.
  Qed.
  Theorem f_enestroem_determined : exists P : list nat -> Prop, (forall W, P W -> is_committee p k W) /\
    forall resolute maxn, valid_max maxn -> answers P resolute maxn (f_phragmen_enestroem A p k resolute maxn).
  Proof using Hk.
    exists (fwinner k (f_pe_select A p) (f_pe_next A p (ndiv A (total_num A p) (num_of_nat k))) [] (map weight_num (voters p))). split.
    - intros W HW. exact (proj2 (dfs_determined _ _ _ (pe_step (ndiv A (total_num A p) (num_of_nat k))) true None I) W HW).
    - intros resolute maxn Hm. exact (proj1 (dfs_determined _ _ _ (pe_step (ndiv A (total_num A p) (num_of_nat k))) resolute maxn Hm)).
  Qed.
  Theorem f_consensus_determined : exists P : list nat -> Prop, (forall W, P W -> is_committee p k W) /\
    forall resolute maxn, valid_max maxn -> answers P resolute maxn (f_consensus_rule A p k resolute maxn).
  Proof using Hk.
    exists (fwinner k (f_cr_select A p) (f_cr_next A p) [] (repeat (num_of_nat 0) (length (voters p)))). split.
    - intros W HW. exact (proj2 (dfs_determined _ _ _ cr_step true None I) W HW).
    - intros resolute maxn Hm. exact (proj1 (dfs_determined _ _ _ cr_step resolute maxn Hm)).
  Qed.

  (** ** Method of Equal Shares *)
  Lemma f_min_q_loop_ok : forall fuel budget rich poor, length rich <= fuel -> exists q, f_min_q_loop A fuel budget rich poor = Ok q.
  Proof using.
    clear Hk. induction fuel as [|fuel IH]; intros budget rich poor Hf.
    - destruct rich; [|simpl in Hf; lia]. simpl. eauto.
    - destruct rich as [|v rich]; [simpl; eauto|]. cbn [f_min_q_loop]. remember (v :: rich) as l eqn:El. clear El.
      match goal with |- context [f_is_poor A budget ?x] => generalize x end. intros q.
      destruct (filter (f_is_poor A budget q) l) as [|x new] eqn:E; [eauto|]. apply IH.
      assert (Hs' : length (filter (f_is_poor A budget q) l) + length (filter (fun iv => negb (f_is_poor A budget q iv)) l) = length l).
      { clear. induction l as [|y l IHl]; auto. simpl. destruct (f_is_poor A budget q y); simpl; lia. }
      rewrite E in Hs'. cbn [length] in Hs'. lia.
  Qed.
  Lemma f_min_q_ok : forall budget c, exists q, f_min_q A p budget c = Ok q.
  Proof using. intros. apply f_min_q_loop_ok. auto. Qed.
  Lemma f_min_q_dict_ok : forall budget cands, exists d, f_min_q_dict A p budget cands = Ok d /\ sublist (map fst d) cands.
  Proof using.
    intros budget cands. induction cands as [|c cands (d & E & Hs)]; [exists []; split; auto; constructor|].
    simpl. destruct (f_min_q_ok budget c) as (q & ->). cbn [rbind]. rewrite E. cbn [rbind].
    eexists. split; [reflexivity|]. destruct q; simpl; constructor; auto.
  Qed.
  Lemma f_mes_select_ok : forall C a, exists sel, f_mes_select A p C a = Ok sel /\ ascending sel /\ forall c, In c sel -> fresh p C c.
  Proof using.
    intros C a. unfold f_mes_select. destruct (f_min_q_dict_ok a (available p C)) as (d & E & Hs). rewrite E. cbn [rbind].
    destruct d as [|x d]; [exists []; split; auto; split; [constructor|intros c []]|].
    destruct (nmin_ok (map snd (x :: d))) as (mn & Em & _ & _); [discriminate|]. rewrite Em. cbn [rbind].
    eexists. split; [reflexivity|]. set (f := fun cq : nat * num => isclose A (snd cq) mn).
    assert (Hsub : sublist (map fst (filter f (x :: d))) (map fst (x :: d))).
    { clear. induction (x :: d) as [|y l IH]; [constructor|]. simpl. destruct (f y); simpl; constructor; auto. }
    assert (Ha : ascending (map fst (filter f (x :: d)))).
    { eapply sublist_ascending; [exact Hsub|]. eapply sublist_ascending; [exact Hs|]. apply available_asc. }
    split.
    - apply isort_ascending. apply ascending_NoDup. auto.
    - intros c Hc. apply available_In. eapply sublist_incl; [exact Hs|]. eapply sublist_incl; [exact Hsub|].
      apply (Permutation_in _ (Permutation_sym (isort_perm _))). auto.
  Qed.

  Section Mes.
    Variable Good : list nat -> list num -> Prop.
    Variable fill : bool -> list nat -> list num -> result (list (list nat)).
    Variable Q : list nat -> Prop.
    Hypothesis Q_committee : forall W, is_committee p k W -> Q W.
    Hypothesis Q_asc : forall W, Q W -> ascending W.
    Hypothesis next_good : forall C a c sel, Good C a -> NoDup C -> Forall (fun c => c < num_cand p) C -> length C < k ->
      f_mes_select A p C a = Ok sel -> In c sel -> Good (C ++ [c]) (f_mes_next A p C a c).
    Hypothesis fill_good : forall C a, Good C a -> NoDup C -> Forall (fun c => c < num_cand p) C -> length C < k -> f_mes_select A p C a = Ok [] ->
      exists ws one, fill false C a = Ok ws /\ fill true C a = Ok one /\ ws <> [] /\ one <> [] /\
        incl (map isort one) (map isort ws) /\ forall W, In W (map isort ws) -> Q W.
    Variable a0 : list num.
    Hypothesis start_good : Good [] a0.

    Let Inv (s : list nat * list num) := FGood p Good (fst s) (snd s) /\ length (fst s) < k.
    Let rank (s : list nat * list num) := k - 1 - length (fst s).
    Let kid C a c : child (list nat * list num) :=
      let nc := C ++ [c] in if length nc =? k then Leaf (isort nc) else Partial (nc, f_mes_next A p C a c).

    Lemma fmes_expand : forall s, Inv s ->
      (exists tied, tied <> [] /\ length tied <= num_cand p /\
         (forall r : bool, f_mes_expand A p k r (fill r) s = Ok (Branch (map (kid (fst s) (snd s)) (if r then firstn 1 tied else tied)))) /\
         forall c, In c tied -> is_committee p (S (length (fst s))) (isort (fst s ++ [c])) /\
            FGood p Good (fst s ++ [c]) (f_mes_next A p (fst s) (snd s) c)) \/
      (exists ws one, ws <> [] /\ one <> [] /\ incl one ws /\ (forall W, In W ws -> Q W) /\
         forall r : bool, f_mes_expand A p k r (fill r) s = Ok (Finish (if r then one else ws))).
    Proof using Hk next_good fill_good.
      intros [C a] [(HG & HN & HF) Hl]. simpl fst in *; simpl snd in *.
      destruct (f_mes_select_ok C a) as (tied & E & Ha & Hf). unfold f_mes_expand. rewrite E. cbn [rbind].
      destruct tied as [|c0 tied].
      - right. destruct (fill_good C a HG HN HF Hl E) as (ws & one & Ew & Eo & Hw & Ho & Hi & HQ).
        exists (map isort ws), (map isort one). split; [destruct ws; [congruence|discriminate]|]. split; [destruct one; [congruence|discriminate]|].
        split; auto. split; auto. intros [|]; [rewrite Eo|rewrite Ew]; reflexivity.
      - left. exists (c0 :: tied). split; [discriminate|]. split; [|split].
        + rewrite <- (seq_length (num_cand p) 0). apply NoDup_incl_length; [apply ascending_NoDup; auto|].
          intros c Hc. destruct (Hf c Hc) as [Hm _]. apply in_seq. lia.
        + intros [|]; reflexivity.
        + intros c Hc. destruct (Hf c Hc) as [Hm Hn].
          assert (HN' : NoDup (C ++ [c])).
          { apply NoDup_app_intro; auto; [repeat constructor; intros []|]. intros x Hx [<-|[]]. auto. }
          assert (HF' : Forall (fun c => c < num_cand p) (C ++ [c])) by (apply Forall_app; split; auto).
          split; [|split; [eapply next_good; eauto|split; auto]].
          apply isort_committee; auto. rewrite app_length. simpl. lia.
    Qed.
    Lemma fmes_expand_ok : forall r s, Inv s ->
      (exists cs, f_mes_expand A p k r (fill r) s = Ok (Branch cs) /\ length cs <= num_cand p /\ cs <> [] /\
        (forall s', In (Partial s') cs -> Inv s' /\ rank s' < rank s) /\
        (forall w, In (Leaf w) cs -> ascending w)) \/
      (exists ws, f_mes_expand A p k r (fill r) s = Ok (Finish ws) /\ ws <> [] /\ Forall ascending ws).
    Proof using Hk next_good fill_good Q_asc.
      intros r s Hs. destruct (fmes_expand s Hs) as [(tied & Hne & Hlen & E & Hc)|(ws & one & Hw & Ho & Hi & HQ & E)].
      - left. eexists. split; [apply E|].
        assert (Ht : forall c, In c (if r then firstn 1 tied else tied) -> In c tied).
        { destruct r; auto. intros c H. destruct tied; [destruct H|]. destruct H as [<-|[]]. left; auto. }
        split; [|split; [|split]].
        + rewrite map_length. destruct r; auto. destruct tied; simpl in *; lia.
        + destruct tied; [congruence|]. destruct r; discriminate.
        + intros s' Hs'. apply in_map_iff in Hs' as (c & Ec & Hic). unfold kid in Ec. cbv zeta in Ec.
          destruct (Nat.eqb_spec (length (fst s ++ [c])) k) as [|n]; [discriminate|]. inversion Ec; subst s'.
          rewrite app_length in n. simpl in n. destruct Hs as [_ Hl]. destruct (Hc c (Ht c Hic)) as [_ HG].
          split; [split|unfold rank]; simpl; auto; rewrite ?app_length; simpl; lia.
        + intros W HW. apply in_map_iff in HW as (c & Ec & Hic). unfold kid in Ec. cbv zeta in Ec.
          destruct (Nat.eqb_spec (length (fst s ++ [c])) k) as [|n]; [|discriminate]. inversion Ec; subst W.
          destruct (Hc c (Ht c Hic)) as [HW _]. apply HW.
      - right. eexists. split; [apply E|]. destruct r; (split; [auto|apply Forall_forall; intros W HW; apply Q_asc; auto]).
    Qed.
    Lemma fmes_sound : forall r s W, preach (f_mes_expand A p k r (fill r)) s W -> Inv s ->
      Q W /\ preach (f_mes_expand A p k false (fill false)) s W.
    Proof using Hk next_good fill_good Q_committee Q_asc.
      intros r s W H. induction H as [s cs W E Hin|s ws W E Hin|s cs s' W E Hin Hr IH]; intros Hs;
        (destruct (fmes_expand s Hs) as [(tied & Hne & Hlen & E' & Hc)|(ws' & one & Hw & Ho & Hi & HQ & E')]);
        rewrite E' in E; try discriminate; inversion E; subst; clear E.
      - apply in_map_iff in Hin as (c & Ec & Hic).
        assert (Hic' : In c tied). { destruct r; auto. destruct tied; [destruct Hic|]. destruct Hic as [<-|[]]. left; auto. }
        unfold kid in Ec. cbv zeta in Ec. destruct (Nat.eqb_spec (length (fst s ++ [c])) k) as [e|n]; [|discriminate]. inversion Ec; subst W.
        split.
        + apply Q_committee. destruct (Hc c Hic') as [HW _]. rewrite app_length in e. simpl in e. rewrite Nat.add_1_r in e. rewrite e in HW. auto.
        + eapply preach_leaf; [apply (E' false)|]. apply in_map_iff. exists c. split; auto. unfold kid. cbv zeta.
          destruct (Nat.eqb_spec (length (fst s ++ [c])) k); [auto|contradiction].
      - assert (Hin' : In W ws') by (destruct r; auto). split; auto. eapply preach_fill; [apply (E' false)|]. auto.
      - destruct (fmes_expand_ok r s Hs) as [(cs' & Ecs & _ & _ & Hch & _)|(? & Ew & _)]; [|rewrite E' in Ew; discriminate].
        rewrite E' in Ecs. inversion Ecs; subst cs'. destruct (Hch s' Hin) as [Hi' _]. destruct (IH Hi') as [HQ HP]. split; auto.
        eapply preach_step; [apply (E' false)| |exact HP]. apply in_map_iff in Hin as (c & Ec & Hic). apply in_map_iff. exists c. split; auto.
        destruct r; auto. destruct tied; [destruct Hic|]. destruct Hic as [<-|[]]. left; auto.
    Qed.
    Theorem fmes_determined : exists P : list nat -> Prop, (forall W, P W -> Q W) /\
      forall resolute maxn, valid_max maxn -> answers P resolute maxn (f_equal_shares A p k resolute maxn (fill resolute) a0).
    Proof using Hk next_good fill_good Q_committee Q_asc start_good.
      assert (H0 : Inv ([], a0)) by (split; [split; [auto|split; constructor]|simpl; lia]).
      assert (Hcost : pcost rank (num_cand p) [([], a0)] <= tree_size (num_cand p) k).
      { simpl. unfold rank. simpl. rewrite Nat.add_0_r. destruct (tree_size_mono (num_cand p) (k - 1 - 0) k) as [|Hz]; [lia|auto|lia]. }
      exists (preach (f_mes_expand A p k false (fill false)) ([], a0)). split.
      - intros W HW. apply (fmes_sound false ([], a0)); auto.
      - intros resolute maxn Hm. unfold f_equal_shares. destruct resolute.
        + destruct (pool_one (f_mes_expand A p k true (fill true)) Inv rank (num_cand p) (fmes_expand_ok true) _ _ H0 Hcost) as (W & E & HW).
          rewrite E. apply answers_resolute_one. apply (fmes_sound true); auto.
        + apply (pool_answers (f_mes_expand A p k false (fill false)) Inv rank (num_cand p) (fmes_expand_ok false)); auto.
    Qed.
  End Mes.
  (** the committee of at most [k] candidates *)
  Lemma small_asc : forall W, is_small_committee p k W -> ascending W.
  Proof using. intros W (H & _). auto. Qed.
  Theorem f_mes_none_any : forall a0, exists P : list nat -> Prop, (forall W, P W -> is_small_committee p k W) /\
    forall resolute maxn, valid_max maxn -> answers P resolute maxn (f_equal_shares A p k resolute maxn f_fill_none a0).
  Proof using Hk.
    intros a0. apply (fmes_determined (fun _ _ => True) (fun _ => f_fill_none) (is_small_committee p k)); auto.
    - intros W (Ha & Hl & HF). split; auto. split; auto. lia.
    - apply small_asc.
    - intros C a _ HN HF Hl _. exists [C], [C]. repeat (split; [reflexivity || discriminate|]). split; [apply incl_refl|].
      intros W [<-|[]]. split; [apply isort_ascending; auto|]. split; [rewrite isort_length; lia|].
      apply Forall_forall. intros x Hx. rewrite Forall_forall in HF. apply HF. apply (Permutation_in _ (Permutation_sym (isort_perm _))). auto.
  Qed.
  Theorem f_mes_none_determined : exists P : list nat -> Prop, (forall W, P W -> is_small_committee p k W) /\
    forall resolute maxn, valid_max maxn -> answers P resolute maxn (f_equal_shares A p k resolute maxn f_fill_none (f_mes_start A p k)).
  Proof using Hk. apply f_mes_none_any. Qed.
  Hypothesis Hw : wf p.
  Theorem f_mes_av_determined : exists P : list nat -> Prop, (forall W, P W -> is_committee p k W) /\
    forall resolute maxn, valid_max maxn -> answers P resolute maxn (f_equal_shares A p k resolute maxn (f_fill_av p k) (f_mes_start A p k)).
  Proof using Hk Hw.
    apply (fmes_determined (fun _ _ => True) (fun _ => f_fill_av p k) (is_committee p k)); auto.
    - intros W (Ha & _). auto.
    - intros C a _ HN HF Hl _. destruct (fill_av_ok p k C Hw (proj2 Hk) HN HF Hl []) as (ws & E & Hne & Hnd & HW).
      exists ws, ws. change (fill_av p k C []) with (f_fill_av p k C a) in E. split; auto. split; auto. split; auto. split; auto.
      split; [apply incl_refl|]. intros W HWi. apply HW in HWi. destruct HWi as (H & _). exact H.
  Qed.

  (** ** E Pluribus Hugo *)
  Lemma f_elimination_ok : forall R, ascending R -> 2 <= length R -> exists E, f_elimination A p R = Ok E /\ sublist E R /\ E <> [].
  Proof using.
    clear Hk. intros R Ha H2. unfold f_elimination.
    destruct (nth_error (sort_by nle (map (f_sdv_score A p R) R)) 1) as [q|] eqn:En.
    - assert (Hq : In q (map (f_sdv_score A p R) R)) by (apply (sort_by_In _ nle), nth_error_In with 1; auto).
      apply in_map_iff in Hq as (d & Ed & Hd).
      set (cands := filter (fun c => nle (f_sdv_score A p R c) q || isclose A (f_sdv_score A p R c) q) R).
      assert (Hdc : In d cands). { apply filter_In. split; auto. rewrite Ed, nle_refl. auto. }
      destruct (nmin_ok (map (f_av_score A p R) cands)) as (mn & Em & Hmi & _).
      { destruct cands; [destruct Hdc|discriminate]. }
      rewrite Em. cbn [rbind]. eexists. split; [reflexivity|]. split.
      + apply ascending_sublist; [apply ascending_filter, ascending_filter; auto|auto|].
        intros x Hx. apply filter_In in Hx as [Hx _]. apply filter_In in Hx as [Hx _]. auto.
      + apply in_map_iff in Hmi as (c & Ec & Hc). intros E0.
        assert (Hin : In c (filter (fun c => nle (f_av_score A p R c) mn) cands)).
        { apply filter_In. split; auto. rewrite Ec. apply nle_refl. }
        rewrite E0 in Hin. destruct Hin.
    - exfalso. apply nth_error_None in En. rewrite sort_by_length, map_length in En. lia.
  Qed.
  Lemma f_eph_loop_spec : forall fuel R, length R < fuel -> ascending R -> incl R (candidates p) -> k <= length R -> 2 <= length R ->
    exists cs, (forall maxn, f_eph_loop A p k maxn fuel R = Ok (cut maxn (sort_by committee_leb cs))) /\ NoDup cs /\ cs <> [] /\
      forall W, In W cs -> is_committee p k W.
  Proof using Hk.
    induction fuel as [|fuel IH]; intros R Hf Ha Hi Hk' H2; [lia|]. cbn [f_eph_loop].
    assert (HN := ascending_NoDup R Ha). destruct (f_elimination_ok R Ha H2) as (E & -> & HE & Hne). cbn [rbind].
    assert (Hlen : length (diff R E) = length R - length E) by (apply diff_length; auto).
    assert (HEn : NoDup E) by (eapply sublist_NoDup; eauto).
    assert (HEi : incl E R) by (apply sublist_incl; auto).
    pose proof (sublist_length _ _ _ HE) as HEl'. assert (length E <> 0) by (destruct E; [congruence|simpl; lia]).
    destruct (Nat.leb_spec (length R - length E) k) as [Hl|Hl].
    - set (cs := map (fun S => diff R S) (combinations E (length R - k))).
      assert (Hcs : Forall ascending cs).
      { apply Forall_forall. intros W HW. apply in_map_iff in HW as (S & <- & _). apply ascending_filter. auto. }
      assert (HSub : forall S, In S (combinations E (length R - k)) -> sublist S E /\ length S = length R - k /\ incl S R).
      { intros S HS. apply combinations_sublist in HS as [H3 H4]. split; auto. split; auto. intros x Hx. apply HEi. eapply sublist_incl; eauto. }
      exists cs. rewrite sorted_committees_asc by auto. cbn [rbind]. split; [reflexivity|]. split; [|split].
      + assert (Hinj : forall l, NoDup l -> (forall S, In S l -> sublist S E) -> NoDup (map (fun S => diff R S) l)).
        { induction l as [|S l IHl]; intros Hl1 Hl2; [constructor|]. inversion Hl1; subst. cbn [map]. constructor; [|apply IHl; auto; intros; apply Hl2; right; auto].
          intros Hin. apply in_map_iff in Hin as (T & ET & HT). assert (S = T); [|subst; contradiction].
          rewrite <- (sublist_filter_eq E S), <- (sublist_filter_eq E T); auto; [|apply Hl2; right; auto|apply Hl2; left; auto].
          apply filter_ext_in. intros x Hx.
          assert (HT' : forall y, In y S <-> In y T).
          { intros y. rewrite <- (diff_diff R S), <- (diff_diff R T), ET; auto; [tauto| |].
            - intros z Hz. apply HEi. eapply sublist_incl; [apply Hl2; right; exact HT|auto].
            - intros z Hz. apply HEi. eapply sublist_incl; [apply Hl2; left; auto|auto]. }
          destruct (mem x S) eqn:E1, (mem x T) eqn:E2; auto.
          - apply mem_In, HT', mem_In in E1. congruence.
          - apply mem_In, HT', mem_In in E2. congruence. }
        apply Hinj; [apply combinations_NoDup; auto|intros; apply HSub; auto].
      + pose proof (combinations_nonempty _ E (length R - k) ltac:(lia)) as Hc. intros E0. unfold cs in E0.
        destruct (combinations E (length R - k)); [congruence|discriminate].
      + intros W HW. apply in_map_iff in HW as (S & <- & HS). destruct (HSub S HS) as (S1 & S2 & S3).
        split; [apply ascending_filter; auto|]. split; [rewrite diff_length; auto; [lia|]|].
        * apply (ascending_sublist); auto. eapply sublist_ascending; [exact S1|]. eapply sublist_ascending; eauto.
        * apply Forall_forall. intros x Hx. apply filter_In in Hx as [Hx _]. apply Hi in Hx. apply in_seq in Hx. lia.
    - apply IH; try lia; [apply ascending_filter; auto|]. intros x Hx. apply filter_In in Hx as [Hx _]. auto.
  Qed.
  Theorem f_eph_determined : 2 <= num_cand p -> exists P : list nat -> Prop, (forall W, P W -> is_committee p k W) /\
    forall resolute maxn, valid_max maxn -> answers P resolute maxn (f_eph A p k resolute maxn).
  Proof using Hk.
    intros H2. destruct (f_eph_loop_spec (S (num_cand p)) (candidates p)) as (cs & E & HN & Hne & HP);
      try (unfold candidates; rewrite seq_length; lia); [apply ascending_seq|intros x; auto|].
    exists (fun W => In W cs). split; auto. intros resolute maxn Hm. unfold f_eph. rewrite E. cbn [rbind].
    assert (Hasc : Forall ascending cs). { apply Forall_forall. intros W HW. destruct (HP W HW). auto. }
    rewrite cut_sorted by auto. destruct resolute.
    - destruct (sort_by committee_leb cs) as [|W l] eqn:Es; [exfalso; revert Es; apply sort_nonempty; auto|].
      cbn. apply answers_resolute_one. apply (sort_by_In _ committee_leb). rewrite Es. left. auto.
    - apply (answers_irresolute_cut (fun W => In W cs) _ _ cs); auto. tauto.
  Qed.
End Any.
