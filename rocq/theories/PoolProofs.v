(** * Correctness of the Equal Shares work-list loop [pool_loop] *)
From Coq Require Import String.
From Coq Require Import List Arith Bool ZArith QArith Lia Lqa Permutation Sorted.
From Verif Require Import Prelude Misc MiscProofs Preferences Scores Spec ScoresProofs Search RulesThiele
  Common ThieleProofs RulesSeq RulesMes.
Import ListNotations.
Open Scope nat_scope.

Lemma fold_add_spec : forall ws win, NoDup win ->
  let win' := fold_left (fun win w => set_add w win) ws win in
  NoDup win' /\ forall W, In W win' <-> In W win \/ In W ws.
Proof.
  induction ws as [|w ws IH]; simpl; intros win Hn.
  - split; auto. tauto.
  - destruct (IH (set_add w win) (set_add_NoDup w win Hn)) as [A B]. split; auto.
    intro W. rewrite B, set_add_In. intuition.
Qed.

Section Pool.
  Context {St : Type} (expand : St -> result (expansion St)).

  Inductive preach : St -> list nat -> Prop :=
  | preach_leaf : forall s cs w, expand s = Ok (Branch cs) -> In (Leaf w) cs -> preach s w
  | preach_fill : forall s ws w, expand s = Ok (Finish ws) -> In w ws -> preach s w
  | preach_step : forall s cs s' w,
      expand s = Ok (Branch cs) -> In (Partial s') cs -> preach s' w -> preach s w.

  Variable Inv : St -> Prop.
  Variable rank : St -> nat.
  Variable b : nat.
  Hypothesis expand_ok : forall s, Inv s ->
    (exists cs, expand s = Ok (Branch cs) /\ length cs <= b /\ cs <> [] /\
      (forall s', In (Partial s') cs -> Inv s' /\ rank s' < rank s) /\
      (forall w, In (Leaf w) cs -> ascending w)) \/
    (exists ws, expand s = Ok (Finish ws) /\ ws <> [] /\ Forall ascending ws).

  Lemma preach_exists : forall s, Inv s -> exists w, preach s w.
  Proof using expand_ok.
    intro s. remember (rank s) as r eqn:Er. revert s Er.
    induction r as [r IH] using lt_wf_ind. intros s Er Hs.
    destruct (expand_ok s Hs) as [(cs & Ecs & Hlen & Hne & Hch & _)|(ws & E & Hne & _)].
    - destruct cs as [|c cs']; [congruence|]. destruct c as [s'|w].
      + destruct (Hch s' (or_introl eq_refl)) as [Hi Hr].
        destruct (IH (rank s') ltac:(lia) s' eq_refl Hi) as (w & Hw).
        exists w. eapply preach_step; eauto. left; auto.
      + exists w. eapply preach_leaf; eauto. left; auto.
    - destruct ws as [|w ws]; [congruence|]. exists w. eapply preach_fill; eauto. left; auto.
  Qed.

  Lemma preach_asc : forall s w, preach s w -> Inv s -> ascending w.
  Proof using expand_ok.
    induction 1 as [s cs w E Hi|s ws w E Hi|s cs s' w E Hi Hr IH]; intros Hs;
      destruct (expand_ok s Hs) as [(cs' & Ecs & Hlen & Hne & Hch & Hl)|(ws' & E' & Hne & Hf)]; try congruence.
    - assert (cs' = cs) by congruence. subst. auto.
    - assert (ws' = ws) by congruence. subst. rewrite Forall_forall in Hf. auto.
    - assert (cs' = cs) by congruence. subst. apply IH. apply (Hch s' Hi).
  Qed.

  Definition pcost (stack : list St) : nat :=
    fold_right (fun s n => tree_size b (rank s) + n) 0 stack.
  Lemma pcost_app : forall a c, pcost (a ++ c) = pcost a + pcost c.
  Proof using. induction a; simpl; intros; auto. rewrite IHa. lia. Qed.
  Lemma pcost_bound : forall l r, (forall s, In s l -> rank s <= r) -> 0 < b ->
    pcost l <= length l * tree_size b r.
  Proof using.
    induction l; simpl; intros r H Hb; auto.
    assert (tree_size b (rank a) <= tree_size b r).
    { destruct (tree_size_mono b (rank a) r); auto. lia. }
    specialize (IHl r (fun s Hs => H s (or_intror Hs)) Hb). lia.
  Qed.

  Theorem pool_spec : forall maxn fuel stack win,
    Forall Inv stack -> NoDup win -> below maxn win -> Forall ascending win -> pcost stack <= fuel ->
    exists win', pool_loop expand maxn fuel stack win = Ok win' /\
      NoDup win' /\ at_most maxn win' /\ Forall ascending win' /\
      (forall w, In w win' -> In w win \/ exists s, In s stack /\ preach s w) /\
      ((maxn = None \/ exists n, maxn = Some n /\ length win' < n) ->
         incl win win' /\ forall s w, In s stack -> preach s w -> In w win').
  Proof using expand_ok.
    intros maxn fuel. induction fuel as [|fuel IH]; intros stack win Hinv Hn Hb Hasc Hf.
    - destruct stack as [|s rest].
      + exists win. simpl. repeat split; auto.
        * unfold below, at_most in *. destruct maxn; auto. lia.
        * apply incl_refl.
        * intros s w [].
      + simpl in Hf. pose proof (nodes_pos b (rank s)). lia.
    - destruct stack as [|s rest].
      + exists win. simpl. repeat split; auto.
        * unfold below, at_most in *. destruct maxn; auto. lia.
        * apply incl_refl.
        * intros s w [].
      + inversion Hinv as [|? ? Hs Hrest]; subst. cbn [pool_loop].
        set (P := fun (ps : list St) (win1 : list (list nat)) =>
          NoDup win1 /\ Forall ascending win1 /\ incl win win1 /\
          (forall w, In w win1 -> In w win \/ preach s w) /\
          Forall Inv ps /\ pcost (ps ++ rest) <= fuel /\
          (forall s', In s' ps -> forall w, preach s' w -> preach s w) /\
          (forall w, preach s w -> In w win1 \/ exists s', In s' ps /\ preach s' w)).
        (* what happens after the body *)
        assert (HP : forall ps win1, P ps win1 ->
          exists win', match maxn with
               | Some n => if n <=? length win1
                           then (do s <- sorted_committees win1; Ok (firstn n s))
                           else pool_loop expand maxn fuel (ps ++ rest) win1
               | None => pool_loop expand maxn fuel (ps ++ rest) win1
               end = Ok win' /\
            NoDup win' /\ at_most maxn win' /\ Forall ascending win' /\
            (forall w, In w win' -> In w win \/ exists s0, In s0 (s :: rest) /\ preach s0 w) /\
            ((maxn = None \/ exists n, maxn = Some n /\ length win' < n) ->
               incl win win' /\ forall s0 w, In s0 (s :: rest) -> preach s0 w -> In w win')).
        { intros ps win1 (A & B & C & D & E & F & G & H).
          assert (Hcont : below maxn win1 -> exists win', pool_loop expand maxn fuel (ps ++ rest) win1 = Ok win' /\
            NoDup win' /\ at_most maxn win' /\ Forall ascending win' /\
            (forall w, In w win' -> In w win \/ exists s0, In s0 (s :: rest) /\ preach s0 w) /\
            ((maxn = None \/ exists n, maxn = Some n /\ length win' < n) ->
               incl win win' /\ forall s0 w, In s0 (s :: rest) -> preach s0 w -> In w win')).
          { intros Hb1. destruct (IH (ps ++ rest) win1) as (win' & E' & N' & M' & Q' & S' & C'); auto.
            { apply Forall_app; auto. }
            exists win'. split; auto. split; auto. split; auto. split; auto. split.
            - intros w Hw. destruct (S' w Hw) as [Hw'|(s0 & Hs0 & Hr)].
              + destruct (D w Hw'); auto. right. exists s. split; [left; auto|auto].
              + apply in_app_iff in Hs0 as [Hs0|Hs0].
                * right. exists s. split; [left; auto|eauto].
                * right. exists s0. split; [right; auto|auto].
            - intros Hm. destruct (C' Hm) as [I1 I2]. split; [eapply incl_tran; eauto|].
              intros s0 w [<-|Hs0] Hr.
              + destruct (H w Hr) as [|(s' & Hs' & Hr')]; [auto|].
                apply (I2 s' w); auto. apply in_app_iff; auto.
              + apply (I2 s0 w); auto. apply in_app_iff; auto. }
          destruct maxn as [n|]; [|apply Hcont; exact I].
          destruct (Nat.leb_spec n (length win1)) as [Hle|Hlt]; [|apply Hcont; exact Hlt].
          rewrite sorted_committees_asc by auto. cbn [rbind].
          pose proof (sort_by_perm _ committee_leb win1) as Hperm.
          exists (firstn n (sort_by committee_leb win1)).
          assert (Hlen : length (firstn n (sort_by committee_leb win1)) = n).
          { rewrite firstn_length, <- (Permutation_length Hperm). lia. }
          assert (Hincl : forall w, In w (firstn n (sort_by committee_leb win1)) -> In w win1).
          { intros w Hw. eapply Permutation_in; [apply Permutation_sym; exact Hperm|].
            rewrite <- (firstn_skipn n (sort_by committee_leb win1)). apply in_app_iff; auto. }
          split; auto. split.
          { assert (HN : NoDup (sort_by committee_leb win1)) by (eapply Permutation_NoDup; eauto).
            rewrite <- (firstn_skipn n (sort_by committee_leb win1)) in HN. clear -HN. revert HN. generalize (skipn n (sort_by committee_leb win1)) as t. intros t HN.
            induction (firstn n (sort_by committee_leb win1)); constructor; inversion HN; subst; auto.
            rewrite in_app_iff in *. tauto. }
          split; [simpl; lia|]. split.
          { apply Forall_forall. intros w Hw. rewrite Forall_forall in B. auto. }
          split.
          { intros w Hw. destruct (D w (Hincl w Hw)); auto. right. exists s. split; [left; auto|auto]. }
          { intros [Hm|(n' & Hm & Hl)]; [discriminate|]. inversion Hm; subst. lia. } }
        destruct (expand_ok s Hs) as [(cs & Ecs & Hlen & Hne & Hch & Hlf)|(ws & Ews & Hne & Hwf)].
        * rewrite Ecs. cbn [rbind].
          destruct (process maxn cs win) as [[ps win1] stop] eqn:Ep.
          destruct (process_spec maxn cs win ps win1 stop Ep Hn Hb) as (A & B & C & D & F).
          assert (Hasc1 : Forall ascending win1).
          { apply Forall_forall. intros w Hw. rewrite Forall_forall in Hasc. destruct (C w Hw); auto. }
          destruct stop.
          -- exists win1. split; auto. split; auto. destruct (F eq_refl) as (n & Em & El). split.
             { rewrite Em. simpl. lia. }
             split; auto. split.
             { intros w Hw. destruct (C w Hw) as [|Hc]; auto.
               right. exists s. split; [left; auto|]. eapply preach_leaf; eauto. }
             { intros [Hm|(n' & Hm & Hl)]; [congruence|].
               exfalso. rewrite Em in Hm. inversion Hm. subst. lia. }
          -- apply HP. destruct (D eq_refl) as (D1 & D2 & D3 & D4).
             split; auto. split; auto. split; auto. split.
             { intros w Hw. destruct (C w Hw); auto. right. eapply preach_leaf; eauto. }
             split.
             { apply Forall_forall. intros s' Hs'. apply D3 in Hs'. apply Hch in Hs'. tauto. }
             split.
             { rewrite pcost_app. simpl in Hf.
               assert (0 < b) by (destruct cs; [congruence|simpl in Hlen; lia]).
               destruct (rank s) as [|r] eqn:Er.
               - assert (ps = []).
                 { destruct ps as [|s' ps']; auto. exfalso.
                   assert (Hi : In (Partial s') cs) by (apply D3; left; auto).
                   apply Hch in Hi as [_ Hi]. lia. }
                 subst ps. simpl. simpl in Hf. lia.
               - assert (pcost ps <= length ps * tree_size b r).
                 { apply pcost_bound; auto. intros s' Hs'. apply D3 in Hs'.
                   apply Hch in Hs' as [_ Hs']. lia. }
                 assert (length ps * tree_size b r <= b * tree_size b r)
                   by (apply Nat.mul_le_mono_r; lia).
                 simpl in Hf. lia. }
             split.
             { intros s' Hs' w Hr. eapply preach_step; eauto. apply D3; auto. }
             { intros w Hr. inversion Hr; subst; try congruence.
               - assert (cs0 = cs) by congruence. subst. auto.
               - assert (cs0 = cs) by congruence. subst. right. eexists. split; [apply D3; eauto|auto]. }
        * rewrite Ews. cbn [rbind].
          pose proof (fold_add_spec ws win Hn) as [A B]. simpl in A, B.
          set (win1 := fold_left (fun win w => set_add w win) ws win) in *.
          apply HP. split; auto. split.
          { apply Forall_forall. intros w Hw. rewrite Forall_forall in Hasc, Hwf. apply B in Hw as []; auto. }
          split; [intros w Hw; apply B; auto|]. split.
          { intros w Hw. apply B in Hw as [|Hw]; auto. right. eapply preach_fill; eauto. }
          split; [constructor|]. split.
          { simpl. simpl in Hf. pose proof (nodes_pos b (rank s)). lia. }
          split; [intros s' []|].
          intros w Hr. inversion Hr; subst; try congruence.
          left. apply B. right. congruence.
  Qed.

  (** the contract of the whole algorithm *)
  Theorem pool_answers : forall s maxn fuel, Inv s -> valid_max maxn -> pcost [s] <= fuel ->
    answers (preach s) false maxn (do win <- pool_loop expand maxn fuel [s] []; sorted_committees win).
  Proof using expand_ok.
    intros s maxn fuel Hs Hm Hf.
    assert (Hb0 : below maxn []) by (destruct maxn; simpl in *; auto).
    destruct (pool_spec maxn fuel [s] []) as (win & E & HN & Ham & Hasc & Hsound & Hcomp);
      try (repeat constructor; auto; fail); auto.
    - rewrite E. cbn [rbind]. apply answers_dfs; auto.
      + intros W HW. destruct (Hsound W HW) as [[]|(s0 & [<-|[]] & H)]. auto.
      + intros Hc W HW. apply (Hcomp Hc) with (s := s); auto. left; auto.
  Qed.

  Theorem pool_one : forall s fuel, Inv s -> pcost [s] <= fuel ->
    exists W, (do win <- pool_loop expand (Some 1) fuel [s] []; sorted_committees win) = Ok [W] /\ preach s W.
  Proof using expand_ok.
    intros s fuel Hs Hf.
    destruct (pool_answers s (Some 1) fuel Hs) as (l & E & A & B & C & D & F); simpl; auto.
    destruct l as [|W [|W' l]].
    - destruct (preach_exists s Hs) as (W & HW). destruct (F ltac:(simpl; lia) W HW).
    - exists W. split; auto. apply C. left; auto.
    - simpl in D. lia.
  Qed.
End Pool.
