(** * Proofs about the reports of the rules: sequential Phragmén and the Method of Equal Shares *)
From Coq Require Import String.
From Coq Require Import List Arith Bool ZArith QArith Lia Lqa Permutation Sorted.
From Verif Require Import Prelude Misc MiscProofs Preferences Scores ScoresProofs Search Spec SpecRules SpecSeq SpecMonroe SpecLoads SpecText SpecReport
  SpecRuleReport Common SeqProofs PhragmenProofs MesProofs MesLoop MesFinal ProfileFacts Rule RulesThiele Compute RulesSeq RulesMes Output CheckReport
  CheckReportProofs StrProfile ComputeProofs RuleReport RuleReportProofs RuleReportSeq.
Import ListNotations.
Local Open Scope string_scope.
Open Scope nat_scope.
Local Open Scope list_scope.

(** ** Tuples of numbers *)
Lemma list_nthQ : forall (l : list Q), l = map (nthQ l) (seq 0 (length l)).
Proof.
  intros l. unfold nthQ. induction l as [|a l IH]; auto. cbn [length seq map nth]. f_equal. rewrite <- seq_shift, map_map. exact IH.
Qed.
Lemma tuple_ok : forall num p l x, voters p <> [] -> length l = length (voters p) -> agree p (nthQ l) x -> shows_voters num p x (tuple_text num l).
Proof.
  intros num p l x Hne Hl Ha. exists (map num l). split.
  - rewrite (list_nthQ l), Hl. rewrite map_map. unfold voter_ids.
    assert (G : forall is, (forall i, In i is -> i < length (voters p)) -> Forall2 (shows num) (map x is) (map (fun i => num (nthQ l i)) is)).
    { induction is as [|i is IH]; intros H; cbn; constructor.
      - apply shows_eq. apply Ha, H. left. auto.
      - apply IH. intros. apply H. right. auto. }
    apply G. intros i Hi. apply in_seq in Hi. lia.
  - unfold tuple_text. destruct l; [|reflexivity]. destruct (voters p); [congruence|discriminate].
Qed.
Lemma shows_voters_agree : forall num p x y t, agree p x y -> shows_voters num p x t -> shows_voters num p y t.
Proof.
  intros num p x y t Ha (ts & F & ->). exists ts. split; auto. clear - F Ha. unfold voter_ids in *. revert F.
  assert (G : forall is ts, (forall i, In i is -> i < length (voters p)) -> Forall2 (shows num) (map x is) ts -> Forall2 (shows num) (map y is) ts).
  { induction is as [|i is IH]; intros us H F; cbn in *; inversion F; subst; constructor.
    - match goal with Hs : shows num (x i) _ |- _ => refine (shows_mor num _ _ _ _ Hs) end. apply Ha, H. left. auto.
    - apply IH; auto. }
  intros F. apply G; auto. intros i Hi. apply in_seq in Hi. lia.
Qed.

(** ** Stories and runs *)
Section Told.
  Variable p : profile.
  Variable choice : list nat -> (nat -> Q) -> nat -> Prop.
  Variable update : list nat -> (nat -> Q) -> nat -> (nat -> Q) -> Prop.
  Variable round : list nat -> (nat -> Q) -> nat -> (nat -> Q) -> list nat -> list message -> Prop.
  Hypothesis choice_ext : forall W x y c, agree p x y -> choice W x c -> choice W y c.
  Hypothesis update_ext : forall W x y c x', agree p x y -> update W x c x' -> update W y c x'.
  Hypothesis round_ext : forall W x y c x' T ms, agree p x y -> round W x c x' T ms -> round W y c x' T ms.
  (** the story of a run with ties broken towards the first candidate *)
  Lemma told_lex : forall W x L y ms, told choice update round W x L y ms -> forall W0 x0, lex_runs_from p choice update W0 x0 W x -> lex_runs_from p choice update W0 x0 L y.
  Proof using.
    intros W x L y ms H. induction H as [W x|W x c x' T L y ms rest [H1 H1'] H2 H3 H4 H5 H6 IH]; intros W0 x0 HR; auto.
    apply IH. econstructor; eauto.
    - apply H1'. auto.
    - intros d Hd. apply H3, H1'. auto.
  Qed.
  Lemma told_start : forall W x L y ms, told choice update round W x L y ms -> forall x0, agree p x x0 -> exists y', agree p y y' /\ told choice update round W x0 L y' ms.
  Proof using choice_ext update_ext round_ext.
    intros W x L y ms H x0 Ha. destruct H as [W x|W x c x' T L y ms rest [H1 H1'] H2 H3 H4 H5 H6].
    - exists x0. split; auto. constructor.
    - exists y. split; [apply agree_refl|]. econstructor; eauto.
      split; auto. intros d. rewrite H1'. split; apply choice_ext; auto. apply agree_sym. auto.
  Qed.
  Lemma told_length : forall W x L y ms, told choice update round W x L y ms -> length W <= length L.
  Proof using. intros W x L y ms H. induction H; cbn in *; lia. Qed.
End Told.

(** ** Sequential Phragmén *)
Section Phragmen.
  Variables (num : Q -> string) (p : profile) (k : nat).
  Hypothesis Hw : wf p.
  Hypothesis Hne : voters p <> [].
  Hypothesis Hn : all_named p.
  Hypothesis Hk : k <= num_cand p.
  Hypothesis Hs : enough_support p k.
  Lemma phragmen_opt : forall C a c opt, py_min (map (new_maxload p k C a) (candidates p)) = Ok opt -> phragmen_choice p C (nthQ a) c ->
    forall sel, phragmen_select p k C a = Ok sel -> In c sel -> (opt == announced_load p k (nthQ a) c)%Q.
  Proof using Hw Hk.
    intros C a c opt Eo [[Hc Hout] _] sel Es Hin. unfold phragmen_select in Es. rewrite Eo in Es. cbn [rbind] in Es. inversion Es as [Es']. rewrite <- Es' in Hin. clear Es Es'.
    set (nm := map (new_maxload p k C a) (candidates p)) in *.
    assert (Hlen : length nm = num_cand p) by (unfold nm, candidates; rewrite map_length, seq_length; auto).
    assert (Hnm : nthQ nm c = new_maxload p k C a c).
    { unfold nm, nthQ, candidates.
      rewrite nth_indep with (d' := new_maxload p k C a 0) by (rewrite map_length, seq_length; auto).
      rewrite map_nth, seq_nth by auto. auto. }
    assert (Hnn : nm <> []) by (intro E; rewrite E in Hlen; simpl in Hlen; lia).
    destruct (py_min_spec nm Hnn) as (mn & E & _ & Hmin). rewrite Eo in E. inversion E; subst mn.
    apply filter_In in Hin as [_ Hle]. apply Qle_bool_iff in Hle.
    assert (Eq : (opt == nthQ nm c)%Q) by (apply Qle_antisym; auto; apply Hmin; lia). rewrite Eq, Hnm. unfold announced_load.
    destruct (Nat.ltb_spec 0 (length (fans p c))) as [Hpos|Hz].
    - apply new_maxload_supported; auto. intros Z. rewrite Z in Hpos. cbn in Hpos. lia.
    - rewrite new_maxload_unsupported; auto; [reflexivity|]. apply length_zero_iff_nil. lia.
  Qed.
  Lemma phragmen_story_ok : forall tl r C W a, PGood p k C a -> Permutation C W -> length C + r <= k -> length a = length (voters p) ->
    exists rounds L ms, phragmen_rounds p k r C a = Ok rounds /\ phragmen_story num p tl (length C) rounds = Ok ms /\
      told (phragmen_choice p) (phragmen_update p) (phragmen_round num tl p k) W (nthQ a) L (nthQ (last_load a rounds)) ms /\
      length L = length C + r /\ length (last_load a rounds) = length (voters p).
  Proof using Hw Hne Hn Hk Hs.
    intros tl r. induction r as [|r IH]; intros C W a HG HP Hl Ha.
    - exists [], W, []. cbn. repeat split; auto; [constructor|]. apply Permutation_length in HP. lia.
    - cbn [phragmen_rounds].
      destruct (phragmen_sel_ok p k Hw Hk Hs C a HG ltac:(lia)) as (tied & Es & Hasc & Hin).
      destruct (phragmen_progress p k Hw Hk C a HG ltac:(lia)) as (c1 & Hc1). apply Hin in Hc1.
      assert (Hnn : map (new_maxload p k C a) (candidates p) <> []).
      { unfold candidates. destruct HG as (HN & HR & _). intros E. apply map_eq_nil in E. destruct (num_cand p) eqn:En; [lia|discriminate]. }
      destruct (py_min_spec _ Hnn) as (opt & Eo & _). rewrite Eo, Es. cbn [rbind].
      assert (Hopt : forall d, In d tied -> (opt == announced_load p k (nthQ a) d)%Q).
      { intros d Hd. apply (phragmen_opt C a d opt Eo) with (sel := tied); auto. apply Hin. auto. }
      assert (Hrange : Forall (fun c => c < num_cand p) tied) by (apply Forall_forall; intros d Hd; apply Hin in Hd; apply Hd).
      destruct (tie_ok p tied (fun t => [details ("tie broken in favor of " ++ cand_name p (hd 0 tied) ++ ",")%string " ";
                         details ("candidates " ++ t ++ " are tied")%string " ";
                         details (tl (num opt)) " "]) Hn Hrange) as (tie & Etie & Htie).
      destruct tied as [|c tied']; [destruct Hc1|]. cbn [hd] in Etie, Htie.
      assert (Hc : phragmen_choice p C (nthQ a) c) by (apply Hin; left; auto).
      destruct (phragmen_next_ok p k Hw Hk Hs C a c HG ltac:(lia) Hc) as [Hu HG'].
      set (a' := phragmen_next p k C a c) in *.
      assert (HPi : Permutation (C ++ [c]) (isort (C ++ [c]))) by apply isort_perm.
      assert (Ha' : length a' = length (voters p)) by apply enum_length.
      destruct (IH (isort (C ++ [c])) (c :: W) a') as (rounds & L & ms & E1 & E2 & E3 & E4 & E5); auto.
      { apply (PGood_perm p k (C ++ [c])); auto. }
      { apply Permutation_sym. eapply perm_trans; [|exact HPi]. eapply perm_trans; [apply perm_skip, Permutation_sym, HP|]. apply Permutation_cons_append. }
      { rewrite isort_length, app_length. cbn. lia. }
      rewrite E1. cbn [rbind]. eexists _, L, _. split; [reflexivity|].
      rewrite isort_length, app_length in E2, E4. cbn [length] in E2, E4.
      cbn [phragmen_story]. rewrite name_ok' by (auto; apply Hc). cbn [rbind]. rewrite Etie. cbn [rbind].
      replace (length C + 1) with (S (length C)) in E2 by lia. rewrite E2. cbn [rbind]. split; [reflexivity|].
      cbn [last_load fold_left snd]. change (fold_left (fun (_ : list Q) (r : nat * list nat * Q * list Q) => snd r) rounds a') with (last_load a' rounds).
      split; [|split; [lia|auto]].
      assert (HCW : set_same C W) by (apply set_same_perm; auto).
      pose proof (told_round (phragmen_choice p) (phragmen_update p) (phragmen_round num tl p k) W (nthQ a) c (nthQ a') (c :: tied') L (nthQ (last_load a' rounds))
        (adding p W c :: line " " ("maximum load increased to " ++ num opt)%string :: line "" " load distribution:" :: line "  " (tuple_text num a') :: tie) ms) as G.
      rewrite (Permutation_length HP). apply G; clear G; [| | | | |exact E3].
      + split; auto. intros d. rewrite Hin. split; intros Hd; eapply phragmen_choice_ext; try exact Hd; try apply agree_refl; auto. intros y. symmetry. apply HCW.
      + left. auto.
      + intros d Hd. eapply ascending_head_le; eauto.
      + eapply phragmen_update_ext; eauto.
      + exists (num opt), (tuple_text num a'), tie. split; [apply shows_eq, Hopt; left; auto|]. split; [apply tuple_ok; auto; apply agree_refl|]. split; auto.
  Qed.
End Phragmen.
Lemma announced_ext : forall p k x y c, agree p x y -> (announced_load p k x c == announced_load p k y c)%Q.
Proof. intros. unfold announced_load. destruct (0 <? length (fans p c)); [apply new_load_ext; auto|reflexivity]. Qed.
Lemma phragmen_round_ext : forall num tl p k W x y c x' T ms, agree p x y -> phragmen_round num tl p k W x c x' T ms -> phragmen_round num tl p k W y c x' T ms.
Proof.
  intros num tl p k W x y c x' T ms Ha (load & loads & tie & H1 & H2). exists load, loads, tie. split; auto. eapply shows_mor; [|exact H1]. apply announced_ext; auto.
Qed.
Lemma phragmen_update_start : forall p W x y c x', agree p x y -> phragmen_update p W x c x' -> phragmen_update p W y c x'.
Proof.
  intros p W x y c x' Ha Hu i Hi. rewrite (Hu i Hi). destruct (likes p i c); [apply new_load_ext; auto|apply Ha; auto].
Qed.
Lemma phragmen_choice_start : forall p W x y c, agree p x y -> phragmen_choice p W x c -> phragmen_choice p W y c.
Proof. intros p W x y c Ha. apply phragmen_choice_ext; auto. intros z. tauto. Qed.
Lemma phragmen_told_ok : forall num p k, wf p -> voters p <> [] -> all_named p -> 1 <= k <= num_cand p -> enough_support p k ->
  exists W rounds L y ms, seqphragmen p k true None = Ok [W] /\ phragmen_rounds p k k [] (zero_load p) = Ok rounds /\
    phragmen_story num p phragmen_tie_line 0 rounds = Ok ms /\ phragmen_told num p k L y ms /\ W = isort L /\ length L = k /\
    agree p (nthQ (last_load (zero_load p) rounds)) y /\ length (last_load (zero_load p) rounds) = length (voters p).
Proof.
  intros num p k Hw Hne Hn Hk Hs.
  destruct (phragmen_story_ok num p k Hw Hne Hn (proj2 Hk) Hs phragmen_tie_line k [] [] (zero_load p) (zero_PGood p k) (perm_nil _) ltac:(cbn; auto)) as (rounds & L & ms & E1 & E2 & E3 & E4 & E5).
  { unfold zero_load. apply repeat_length. }
  destruct (seqphragmen_correct p k true None Hw Hk Hs I) as [_ H]. destruct (H eq_refl) as (W & EW & HW).
  assert (Hz : agree p (nthQ (zero_load p)) (fun _ => 0%Q)) by (intros i Hi; rewrite zero_load_nth; reflexivity).
  destruct (told_start p _ _ _ (phragmen_choice_start p) (phragmen_update_start p) (fun W x y c x' T ms => phragmen_round_ext num phragmen_tie_line p k W x y c x' T ms) _ _ _ _ _ E3 _ Hz) as (y & Hy & E3').
  exists W, rounds, L, y, ms. split; auto. split; auto. split; auto. split; [exact E3'|]. split; [|auto].
  apply (phragmen_lex_unique p [] (fun _ => 0%Q) k); auto. exists L, y. split; auto.
  apply (told_lex p _ _ _ _ _ _ _ _ E3'). constructor. apply agree_refl.
Qed.

(** ** The loads of all committees *)
Lemma dict_set_keys : forall w x d, map fst (dict_set w x d) = set_add w (map fst d).
Proof.
  intros w x d. unfold set_add. induction d as [|[k' y] d IH]; cbn [dict_set map mem_comm existsb fst app]; auto.
  destruct (list_eq_dec Nat.eq_dec w k') as [->|Hn]; cbn [map fst orb]; auto.
  unfold mem_comm in IH. destruct (existsb _ (map fst d)); cbn [map fst]; rewrite IH; auto.
Qed.
Lemma dict_set_In : forall w x d e, In e (dict_set w x d) -> In e d \/ e = (w, x).
Proof.
  intros w x d e. induction d as [|[k' y] d IH]; cbn [dict_set].
  - intros [<-|[]]. auto.
  - destruct (list_eq_dec Nat.eq_dec w k') as [->|Hn].
    + intros [<-|H]; auto. left. right. auto.
    + intros [<-|H]; [left; left; auto|]. apply IH in H as [H|H]; auto. left. right. auto.
Qed.
Section AllLoads.
  Variables (p : profile) (k : nat) (maxn : option nat).
  Lemma load_step_sim : forall C a sel d, exists ps d' stop, load_step p k maxn C a sel d = (ps, d', stop) /\
    process maxn (map (fun c => let nc := C ++ [c] in if length nc =? k then Leaf (isort nc) else Partial (nc, phragmen_next p k C a c)) sel) (map fst d)
      = (ps, map fst d', stop) /\
    (forall e, In e d' -> In e d \/ exists c, In c sel /\ length (C ++ [c]) = k /\ e = (isort (C ++ [c]), phragmen_next p k C a c)) /\
    (forall e, In e ps -> exists c, In c sel /\ length (C ++ [c]) <> k /\ e = (C ++ [c], phragmen_next p k C a c)).
  Proof using.
    intros C a. induction sel as [|c sel IH]; intros d; cbn [load_step process map].
    - exists [], d, false. repeat split; auto; try (intros e []).
    - destruct (length (C ++ [c]) =? k) eqn:El; cbn [process].
      + set (d1 := dict_set (isort (C ++ [c])) (phragmen_next p k C a c) d). apply Nat.eqb_eq in El.
        assert (Hd1 : forall e, In e d1 -> In e d \/ e = (isort (C ++ [c]), phragmen_next p k C a c)) by (intros e; apply dict_set_In).
        rewrite <- (dict_set_keys (isort (C ++ [c])) (phragmen_next p k C a c) d). fold d1.
        assert (Er : match maxn with Some n => length d1 =? n | None => false end = reached maxn (map fst d1)) by (unfold reached; rewrite map_length; auto).
        rewrite Er. destruct (reached maxn (map fst d1)).
        * exists [], d1, true. repeat split; auto; [|intros e []]. intros e He. apply Hd1 in He as [He|He]; auto. right. exists c. split; [left|]; auto.
        * destruct (IH d1) as (ps & d' & stop & E1 & E2 & E3 & E4). cbv zeta in E2. exists ps, d', stop. rewrite E1, E2. repeat split; auto.
          -- intros e He. apply E3 in He as [He|(c' & Hc' & He)]; [|right; exists c'; split; [right|]; auto].
             apply Hd1 in He as [He|He]; auto. right. exists c. split; [left|]; auto.
          -- intros e He. apply E4 in He as (c' & Hc' & He). exists c'. split; [right|]; auto.
      + apply Nat.eqb_neq in El. destruct (IH d) as (ps & d' & stop & E1 & E2 & E3 & E4). cbv zeta in E2. rewrite E1, E2.
        exists ((C ++ [c], phragmen_next p k C a c) :: ps), d', stop. repeat split; auto.
        * intros e He. apply E3 in He as [He|(c' & Hc' & He)]; [auto|right; exists c'; split; [right|]; auto].
        * intros e [<-|He]; [exists c; split; [left|]; auto|]. apply E4 in He as (c' & Hc' & He). exists c'. split; [right|]; auto.
  Qed.
  Lemma load_pairs_sim : forall (J K : list nat * list Q -> Prop),
    (forall C a sel c, J (C, a) -> phragmen_select p k C a = Ok sel -> In c sel ->
       if length (C ++ [c]) =? k then K (isort (C ++ [c]), phragmen_next p k C a c) else J (C ++ [c], phragmen_next p k C a c)) ->
    forall fuel stack d win, Forall J stack -> Forall K d -> dfs (seq_expand k (phragmen_select p k) (phragmen_next p k)) maxn fuel stack (map fst d) = Ok win ->
    exists d', load_pairs p k maxn fuel stack d = Ok d' /\ map fst d' = win /\ Forall K d'.
  Proof using.
    intros J K Hstep. induction fuel as [|fuel IH]; intros stack d win HJ HK E; destruct stack as [|[C a] rest]; cbn [dfs load_pairs] in *.
    - inversion E; subst. exists d. auto.
    - discriminate.
    - inversion E; subst. exists d. auto.
    - unfold seq_expand at 1 in E. destruct (phragmen_select p k C a) as [sel|] eqn:Es; cbn [rbind] in *; [|discriminate].
      destruct (load_step_sim C a sel d) as (ps & d' & stop & E1 & E2 & E3 & E4). rewrite E1. cbv zeta in E2, E. rewrite E2 in E.
      inversion HJ as [|? ? HJ1 HJ2]; subst.
      assert (HK' : Forall K d').
      { apply Forall_forall. intros e He. apply E3 in He as [He|(c & Hc & Hl & ->)]; [eapply Forall_forall; eauto|].
        specialize (Hstep C a sel c HJ1 Es Hc). apply Nat.eqb_eq in Hl. rewrite Hl in Hstep. exact Hstep. }
      destruct stop.
      + inversion E; subst. exists d'. auto.
      + apply IH; auto. apply Forall_app. split; auto. apply Forall_forall. intros e He. apply E4 in He as (c & Hc & Hl & ->).
        specialize (Hstep C a sel c HJ1 Es Hc). apply Nat.eqb_neq in Hl. rewrite Hl in Hstep. exact Hstep.
  Qed.
End AllLoads.

Lemma load_lines_ok : forall num p pairs (P : list nat -> (nat -> Q) -> Prop), wf p -> all_named p -> voters p <> [] ->
  Forall (fun cl => Forall (fun c => c < num_cand p) (fst cl) /\ length (snd cl) = length (voters p) /\ P (fst cl) (nthQ (snd cl))) pairs ->
  exists ls, load_lines num p pairs = Ok ls /\
    Forall2 (fun W m => exists x t s, P W x /\ set_text (cand_names p) W t /\ shows_voters num p x s /\ m = line "" (t ++ ": " ++ s ++ nl)%string) (map fst pairs) ls.
Proof.
  intros num p pairs P Hw Hn Hne H. unfold load_lines, rconcat. rewrite Forall_forall in H.
  destruct (rmapM_forall2 _ _ (fun cl => do t <- str_set_with_names (fst cl) (cand_names p); Ok [details (t ++ ": " ++ tuple_text num (snd cl) ++ nl)%string ""])
    (fun cl ms => exists m, ms = [m] /\ exists x t s, P (fst cl) x /\ set_text (cand_names p) (fst cl) t /\ shows_voters num p x s /\ m = line "" (t ++ ": " ++ s ++ nl)%string) pairs) as (lss & -> & F).
  { intros cl Hcl. destruct (H cl Hcl) as (H1 & H2 & H3). destruct (set_ok p (fst cl) Hn H1) as (t & -> & Ht). cbn [rbind]. eexists. split; [reflexivity|].
    eexists. split; [reflexivity|]. exists (nthQ (snd cl)), t, (tuple_text num (snd cl)). split; auto. split; auto. split; auto. apply tuple_ok; auto. apply agree_refl. }
  cbn [rbind]. exists (List.concat lss). split; auto. clear - F. induction F as [|W ms cs lss (m & -> & H) F IH]; cbn; constructor; auto.
Qed.
Lemma runs_agree : forall p L x y, runs_from p (phragmen_choice p) (phragmen_update p) [] (fun _ => 0%Q) L x -> agree p x y ->
  runs_from p (phragmen_choice p) (phragmen_update p) [] (fun _ => 0%Q) L y.
Proof.
  intros p L x y H Ha. destruct H as [x Hx|W x c x' HR Hc Hu].
  - constructor. eapply agree_trans; [apply agree_sym; exact Ha|exact Hx].
  - econstructor; eauto. intros i Hi. rewrite <- (Ha i Hi). apply Hu. auto.
Qed.
Theorem seqphragmen_all_loads : forall num p k maxn, wf p -> voters p <> [] -> all_named p -> 1 <= k <= num_cand p -> enough_support p k -> valid_max maxn ->
  exists cs pairs ls, seqphragmen p k false maxn = Ok cs /\ load_pairs p k maxn (tree_size (num_cand p) k) [([], zero_load p)] [] = Ok pairs /\
    load_lines num p pairs = Ok ls /\ forall plural, loads_told num p k plural cs (line "" (if plural : bool then "corresponding load distributions:" else "corresponding load distribution:") :: ls).
Proof.
  intros num p k maxn Hw Hne Hn Hk Hs Hm.
  assert (Hz : agree p (nthQ (zero_load p)) (fun _ => 0%Q)) by (intros i Hi; rewrite zero_load_nth; reflexivity).
  destruct (seqphragmen_correct p k false maxn Hw Hk Hs Hm) as [(cs & Ecs & _) _].
  pose proof Ecs as Ed. unfold seqphragmen, seqphragmen_irresolute in Ed.
  destruct (dfs (seq_expand k (phragmen_select p k) (phragmen_next p k)) maxn (tree_size (num_cand p) k) [([], zero_load p)] []) as [win|] eqn:Ew; cbn [rbind] in Ed; [|discriminate].
  set (J := fun s : list nat * list Q => PGood p k (fst s) (snd s) /\ length (fst s) < k /\ length (snd s) = length (voters p) /\
    runs_from p (phragmen_choice p) (phragmen_update p) [] (fun _ => 0%Q) (rev (fst s)) (nthQ (snd s))).
  set (R := fun (W : list nat) (x : nat -> Q) => exists L, runs_from p (phragmen_choice p) (phragmen_update p) [] (fun _ => 0%Q) L x /\ length L = k /\ W = isort L).
  set (K := fun cl : list nat * list Q => Forall (fun c => c < num_cand p) (fst cl) /\ length (snd cl) = length (voters p) /\ R (fst cl) (nthQ (snd cl))).
  destruct (load_pairs_sim p k maxn J K) with (fuel := tree_size (num_cand p) k) (stack := [(@nil nat, zero_load p)]) (d := @nil (list nat * list Q)) (win := win) as (pairs & Ep & Ek & HK); auto.
  { intros C a sel c (HG & Hl & Hla & HR) Es Hc. cbn [fst snd] in *.
    destruct (phragmen_sel_ok p k Hw (proj2 Hk) Hs C a HG Hl) as (sel' & Es' & _ & Hin). rewrite Es in Es'. inversion Es'; subst sel'. apply Hin in Hc.
    destruct (phragmen_next_ok p k Hw (proj2 Hk) Hs C a c HG Hl Hc) as [Hu HG'].
    assert (HR' : runs_from p (phragmen_choice p) (phragmen_update p) [] (fun _ => 0%Q) (rev (C ++ [c])) (nthQ (phragmen_next p k C a c))).
    { rewrite app_snoc_rev. econstructor; [exact HR| |].
      - eapply phragmen_choice_ext; [|apply agree_refl|exact Hc]. apply rev_same.
      - eapply phragmen_update_ext; [|exact Hu]. apply rev_same. }
    assert (Hln : length (phragmen_next p k C a c) = length (voters p)) by apply enum_length.
    destruct (Nat.eqb_spec (length (C ++ [c])) k) as [El|El].
    - split; [|split; [exact Hln|]].
      + cbn [fst]. destruct HG' as (_ & HF & _). apply Forall_forall. intros y Hy. rewrite Forall_forall in HF. apply HF. apply (Permutation_in y (Permutation_sym (isort_perm _))). exact Hy.
      + exists (rev (C ++ [c])). split; [exact HR'|]. split; [rewrite rev_length; auto|]. apply isort_perm_eq. apply Permutation_rev.
    - split; [exact HG'|]. split; [cbn [fst]; rewrite app_length in *; cbn in *; lia|]. split; auto. }
  { constructor; [|constructor]. split; [apply zero_PGood|]. split; [cbn; lia|]. split; [apply repeat_length|]. cbn. constructor. exact Hz. }
  destruct (load_lines_ok num p pairs R Hw Hn Hne HK) as (ls & El & HF).
  exists cs, pairs, ls. split; auto. split; auto. split; auto. intros plural. exists win, ls. split; [|split; auto].
  - assert (Hasc : Forall ascending win).
    { rewrite <- Ek. apply Forall_forall. intros W HW. apply in_map_iff in HW as (cl & <- & Hcl). rewrite Forall_forall in HK. destruct (HK cl Hcl) as (_ & _ & L & HL & _ & ->).
      apply isort_ascending. apply (runs_props p _ _ (phragmen_choice_fresh p) _ _ _ _ HL); constructor. }
    assert (Hnd : Forall (@NoDup nat) win) by (eapply Forall_impl; [|exact Hasc]; apply ascending_NoDup).
    destruct (sorted_committees_perm win Hnd) as (l1 & E1 & _ & HP1). rewrite E1 in Ed. cbn [rbind] in Ed. rewrite map_isort_id in HP1 by auto.
    assert (Hasc1 : Forall ascending l1) by (apply Forall_forall; intros W HW; rewrite Forall_forall in Hasc; apply Hasc; eapply Permutation_in; eauto).
    assert (Hnd1 : Forall (@NoDup nat) l1) by (eapply Forall_impl; [|exact Hasc1]; apply ascending_NoDup).
    destruct (sorted_committees_perm l1 Hnd1) as (l2 & E2 & _ & HP2). rewrite E2 in Ed. inversion Ed; subst. rewrite map_isort_id in HP2 by auto.
    apply Permutation_sym. eapply perm_trans; eauto.
  - rewrite Ek in HF. clear - HF. induction HF as [|W m Ws ms (x & t & s & (L & H1 & H2 & H3) & H4 & H5 & H6) F IH]; constructor; auto. exists L, x, t, s. auto 8.
Qed.

(** resolute: the pair of the only committee *)
Theorem seqphragmen_resolute_ok : forall num p k maxn, wf p -> voters p <> [] -> all_named p -> 1 <= k <= num_cand p -> enough_support p k -> valid_max maxn ->
  exists W L y ms ls rounds, seqphragmen p k true maxn = Ok [W] /\ phragmen_rounds p k k [] (zero_load p) = Ok rounds /\
    phragmen_story num p phragmen_tie_line 0 rounds = Ok ms /\ phragmen_told num p k L y ms /\ W = isort L /\ length L = k /\
    load_lines num p [(W, last_load (zero_load p) rounds)] = Ok ls /\
    loads_told num p k false [W] (line "" "corresponding load distribution:" :: ls).
Proof.
  intros num p k maxn Hw Hne Hn Hk Hs Hm.
  destruct (phragmen_told_ok num p k Hw Hne Hn Hk Hs) as (W & rounds & L & y & ms & E1 & E2 & E3 & E4 & E5 & E6 & E7 & E8).
  assert (HR : runs_from p (phragmen_choice p) (phragmen_update p) [] (fun _ => 0%Q) L y).
  { apply (lex_runs_runs p). apply (told_lex p _ _ _ _ _ _ _ _ E4). constructor. apply agree_refl. }
  destruct (load_lines_ok num p [(W, last_load (zero_load p) rounds)] (fun W x => exists L, runs_from p (phragmen_choice p) (phragmen_update p) [] (fun _ => 0%Q) L x /\ length L = k /\ W = isort L) Hw Hn Hne) as (ls & El & HF).
  { constructor; [|constructor]. split; [|split; auto].
    - cbn [fst]. rewrite E5. destruct (runs_props p _ _ (phragmen_choice_fresh p) _ _ _ _ HR) as [_ HF]; try constructor.
      apply Forall_forall. intros c Hc. rewrite Forall_forall in HF. apply HF. apply (Permutation_in c (Permutation_sym (isort_perm _))). exact Hc.
    - cbn [fst snd]. exists L. split; auto. eapply runs_agree; [exact HR|]. apply agree_sym. exact E7. }
  exists W, L, y, ms, ls, rounds. repeat (split; auto). exists [W], ls. split; [apply Permutation_refl|]. split; auto.
  cbn [map fst] in HF. clear - HF. induction HF as [|W' m Ws ms (x & t & s & (L & H1 & H2 & H3) & H4 & H5 & H6) F IH]; constructor; auto. exists L, x, t, s. auto 8.
Qed.
