(** * Proofs about the reports of the rules: how candidates are elected or removed one by one (Thiele methods) *)
From Coq Require Import String.
From Coq Require Import List Arith Bool ZArith QArith Lia Lqa Permutation Sorted.
From Verif Require Import Prelude Misc MiscProofs Preferences Scores ScoresProofs Search Spec SpecRules SpecSeq SpecMonroe SpecLoads SpecText SpecReport
  SpecRuleReport Common ThieleProofs RevseqProofs SeqProofs Rule RulesThiele Compute RulesSeq Output CheckReport
  CheckReportProofs StrProfile ComputeProofs RuleReport RuleReportProofs.
Import ListNotations.
Local Open Scope string_scope.
Open Scope nat_scope.
Local Open Scope list_scope.

Lemma tie_ok : forall p T S, all_named p -> Forall (fun c => c < num_cand p) T ->
  exists tie, (if 1 <? List.length T then do t <- str_set_with_names T (cand_names p); Ok (S t) else Ok []) = Ok tie /\ tie_told p T S tie.
Proof.
  intros p T S Hn HT. destruct (Nat.ltb_spec 1 (List.length T)) as [H|H].
  - destruct (set_ok p T Hn HT) as (t & -> & Ht). cbn [rbind]. eexists. split; [reflexivity|]. right. split; [lia|]. exists t. auto.
  - eexists. split; [reflexivity|]. left. split; auto.
Qed.
Lemma told_weaken : forall (choice choice' : list nat -> (nat -> Q) -> nat -> Prop) update (round round' : list nat -> (nat -> Q) -> nat -> (nat -> Q) -> list nat -> list message -> Prop) W x L y ms,
  (forall W x c, choice W x c <-> choice' W x c) -> (forall W x c x' T ms, round W x c x' T ms -> round' W x c x' T ms) ->
  told choice update round W x L y ms -> told choice' update round' W x L y ms.
Proof.
  intros choice choice' update round round' W x L y ms Hc Hr H. induction H as [W x|W x c x' T L y ms rest [H1 H1'] H2 H3 H4 H5 H6 IH].
  - constructor.
  - econstructor; [split; [exact H1|]| | | | |exact IH]; eauto. intros d. rewrite H1'. apply Hc.
Qed.

(** ** Sequential Thiele methods *)
Lemma seq_story_ok : forall num f p, wf p -> all_named p -> (forall i, 0 <= f i)%Q -> forall r L x, greedy_run_lex f p L -> length L + r <= num_cand p ->
  exists L' rounds ms, seq_thiele_loop f p r (rev L) = Ok (rev L') /\ length L' = length L + r /\ seq_thiele_rounds f p r (rev L) = Ok rounds /\
    seq_thiele_story num f p (rev L) (length L) rounds = Ok ms /\
    told (fun W _ => best_addition f p W) (no_update p) (thiele_round num f p) L x L' x ms.
Proof.
  intros num f p Hw Hn Hf r. induction r as [|r IH]; intros L x HL Hlen.
  - exists L, [], []. cbn. repeat split; auto. constructor.
  - cbn [seq_thiele_loop seq_thiele_rounds]. destruct (greedy_run_props f p L (greedy_lex_greedy _ _ _ HL)) as [Hnd Hr].
    unfold argmax_all.
    destruct (argmax_filter_eq _ (marg_add_nonempty f p (rev L) Hw)) as (mx & E & Hx).
    specialize (Hx _ eq_refl). destruct Hx as (Hx & _ & (c0 & Hc0)). rewrite E. cbn [rbind].
    set (tied := filter _ _) in *.
    assert (Hasc : ascending tied) by (apply ascending_filter, ascending_seq).
    assert (Hb : forall d, In d tied <-> best_addition f p L d).
    { intro d. rewrite Hx, marg_add_argmax; auto.
      - split; apply best_addition_set_same; [apply rev_set_same|]. intros y. symmetry. apply rev_set_same.
      - apply NoDup_rev; auto.
      - rewrite rev_length. lia. }
    assert (Hmx : forall d, In d tied -> (mx == Thiele f p (d :: L) - Thiele f p L)%Q).
    { intros d Hd. assert (H1 := Hd). unfold tied in H1. apply filter_In in H1 as [Hd1 Hd2]. apply Qeq_bool_iff in Hd2. apply in_seq in Hd1. rewrite marg_add_length in Hd1.
      rewrite <- Hd2, marg_add_nth by (auto; lia). apply Hb in Hd as (_ & Hout & _).
      assert (Hm : mem d (rev L) = false) by (apply mem_false; rewrite <- in_rev; auto). rewrite Hm.
      rewrite gain_correct by (auto; rewrite <- in_rev; auto).
      rewrite (Thiele_set_same f p (d :: rev L) (d :: L)), (Thiele_set_same f p (rev L) L); [reflexivity|apply rev_set_same|]. intros y. cbn. rewrite (rev_set_same L y). tauto. }
    assert (Hrange : Forall (fun c => c < num_cand p) tied) by (apply Forall_forall; intros d Hd; apply Hb in Hd; apply Hd).
    destruct (tie_ok p tied (fun t => [details ("tie broken in favor of " ++ str_nat (hd 0 tied) ++ "," ++ nl)%string " ";
                         details ("candidates " ++ t ++ " are tied")%string "";
                         details ("(all would increase the score by the same amount " ++ num mx ++ ")")%string " "]) Hn Hrange) as (tie & Etie & Htie).
    destruct tied as [|c tied'] eqn:Et.
    { apply Hx in Hc0. destruct Hc0. }
    cbn [hd] in Etie, Htie.
    assert (Hc : best_addition f p L c) by (apply Hb; left; auto).
    assert (Hmin : forall d, In d (c :: tied') -> c <= d) by (intros d Hd; eapply ascending_head_le; eauto).
    destruct (IH (c :: L) x) as (L' & rounds & ms & E1 & E2 & E3 & E4 & E5).
    { constructor; auto. intros d Hd. apply Hmin, Hb. auto. }
    { cbn. lia. }
    cbn [rev] in E1, E3, E4. rewrite E1, E3. cbn [rbind]. eexists L', _, _. split; [reflexivity|]. split; [cbn in E2; lia|]. split; [reflexivity|].
    cbn [seq_thiele_story]. rewrite name_ok' by (auto; apply Hc). cbn [rbind]. rewrite Etie. cbn [rbind].
    cbn [length] in E4. rewrite E4. cbn [rbind]. split; [reflexivity|].
    pose proof (told_round (fun W _ => best_addition f p W) (no_update p) (thiele_round num f p) L x c x (c :: tied') L' x
      (adding p L c :: line " " ("score increases by " ++ num mx ++ " to a total of " ++ num (thiele_score f p (rev L ++ [c])))%string :: tie) ms) as G.
    apply G; clear G; auto.
    + split; auto.
    + left. auto.
    + intros i Hi. reflexivity.
    + exists (num mx), (num (thiele_score f p (rev L ++ [c]))), tie. split; [apply shows_eq; apply Hmx; left; auto|]. split.
      * apply shows_eq. rewrite thiele_score_correct by (apply wf_nodup; auto). apply Thiele_set_same. intros y. rewrite in_app_iff, <- in_rev. cbn. tauto.
      * split; auto.
Qed.
Lemma best_addition_ext : forall f g p, same_fct f g -> forall W c, best_addition f p W c <-> best_addition g p W c.
Proof.
  intros f g p Hs W c. unfold best_addition. split; intros (H1 & H2 & H3); split; auto; split; auto; intros d Hd Ho; specialize (H3 d Hd Ho).
  - rewrite <- !(ComputeProofs.Thiele_ext f g) by (intros; apply Hs; auto). auto.
  - rewrite !(ComputeProofs.Thiele_ext f g) by (intros; apply Hs; auto). auto.
Qed.
Lemma shows_mor : forall num x y t, (x == y)%Q -> shows num x t -> shows num y t.
Proof. intros num x y t E (z & Hz & ->). exists z. split; auto. rewrite Hz. auto. Qed.
Lemma thiele_round_ext : forall num f g p, same_fct f g -> forall W x c x' T ms, thiele_round num f p W x c x' T ms -> thiele_round num g p W x c x' T ms.
Proof.
  intros num f g p Hs W x c x' T ms (gain & total & tie & H1 & H2 & H3). exists gain, total, tie. split; [|split; auto].
  - eapply shows_mor; [|exact H1]. rewrite !(ComputeProofs.Thiele_ext f g) by (intros; apply Hs; auto). reflexivity.
  - eapply shows_mor; [|exact H2]. apply ComputeProofs.Thiele_ext. intros; apply Hs; auto.
Qed.
Lemma Thiele_nil : forall f p, (Thiele f p [] == 0)%Q.
Proof.
  intros. unfold Thiele. assert (E : forall v, util v [] = 0). { intros v. unfold util, inter. induction (approved v); auto. }
  induction (voters p) as [|v l IH]; cbn; [reflexivity|]. rewrite E. cbn. cbn in IH. rewrite IH. lra.
Qed.
Lemma seq_thiele_details_ok : forall num f g p k, wf p -> all_named p -> (forall i, 0 <= f i)%Q -> same_fct f g -> k <= num_cand p ->
  exists W ms, seq_thiele_resolute f p k = Ok [W] /\
    (do rounds <- seq_thiele_rounds f p k [];
         do story <- seq_thiele_story num f p [] 0 rounds;
         Ok (details ("starting with the empty committee (score = " ++ num (thiele_score f p []) ++ ")" ++ nl)%string "" :: story)) = Ok ms /\
    seq_thiele_told num g p k [W] ms.
Proof.
  intros num f g p k Hw Hn Hf Hs Hk.
  destruct (seq_story_ok num f p Hw Hn Hf k [] (fun _ => 0%Q) (greedy_lex_nil f p) ltac:(cbn; auto)) as (L & rounds & ms & E1 & E2 & E3 & E4 & E5).
  destruct (seq_thiele_loop_spec f p Hw Hf k [] (greedy_lex_nil f p) ltac:(cbn; auto)) as (L1 & E & HL & _). cbn [rev length] in *.
  rewrite E1 in E. inversion E as [E0]. assert (L1 = L) by (rewrite <- (rev_involutive L1), <- E0, rev_involutive; auto). subst L1.
  destruct (greedy_run_props f p L (greedy_lex_greedy _ _ _ HL)) as [Hnd Hr].
  exists (isort L). unfold seq_thiele_resolute. rewrite E1, E3. cbn [rbind]. rewrite E4. cbn [rbind]. eexists.
  split; [rewrite sorted_committees_ok by (constructor; auto using NoDup_rev); cbn; rewrite isort_rev; auto|]. split; [reflexivity|].
  exists (num (thiele_score f p [])), L, (fun _ => 0%Q), ms. split; [apply shows_eq; rewrite thiele_score_correct by (apply wf_nodup; auto); apply Thiele_nil|].
  split; auto. split; auto. split; auto.
  eapply told_weaken; [| |exact E5]; [intros; apply best_addition_ext; auto|apply thiele_round_ext; auto].
Qed.
Lemma score_lines_ok : forall num f g label p cs, wf p -> all_named p -> same_fct f g -> Forall (Forall (fun c => c < num_cand p)) cs ->
  exists ms, (do lines <- score_lines num f p cs; Ok (details (label ++ "-score of winning committee(s):")%string "" :: lines ++ [details nl ""])) = Ok ms /\
    scores_told num g label p cs ms.
Proof.
  intros num f g label p cs Hw Hn Hs Hcs. unfold score_lines, rconcat.
  destruct (rmapM_forall2 _ _ (fun c => do t <- str_set_with_names c (cand_names p); Ok [details (t ++ ": " ++ num (thiele_score f p c))%string " "])
    (fun W ms => exists m, ms = [m] /\ exists t s, set_text (cand_names p) W t /\ shows num (Thiele g p W) s /\ m = line " " (t ++ ": " ++ s)%string) cs) as (lss & -> & F).
  { intros W HW. rewrite Forall_forall in Hcs. destruct (set_ok p W Hn (Hcs W HW)) as (t & -> & Ht). cbn [rbind]. eexists. split; [reflexivity|].
    eexists. split; [reflexivity|]. exists t, (num (thiele_score f p W)). split; auto. split; auto. apply shows_eq.
    rewrite thiele_score_correct by (apply wf_nodup; auto). apply ComputeProofs.Thiele_ext. intros; apply Hs; auto. }
  cbn [rbind]. eexists. split; [reflexivity|]. exists (List.concat lss). split; auto.
  clear - F. induction F as [|W ms cs lss (m & -> & H) F IH]; cbn; constructor; auto.
Qed.

(** ** Reverse sequential Thiele methods *)
Lemma rev_story_ok : forall num f p, wf p -> all_named p -> forall r W, removal_run_last f p W -> r <= length W ->
  exists W' rounds ms, revseq_loop f p r W = Ok W' /\ length W' = length W - r /\ revseq_removals f p r W = Ok rounds /\
    revseq_story num f p W rounds = Ok ms /\ removed_told num f p W W' ms.
Proof.
  intros num f p Hw Hn r. induction r as [|r IH]; intros W HW Hr.
  - exists W, [], []. cbn. repeat split; auto; [lia|constructor].
  - cbn [revseq_loop revseq_removals]. destruct (removal_run_props f p W (removal_last_run _ _ _ HW)) as [Ha Hrange].
    assert (Hne : W <> []) by (destruct W; [simpl in Hr; lia|discriminate]).
    destruct (argmin_filter_eq _ (marg_remove_nonempty f p W Hw)) as (mn & E & Hx).
    specialize (Hx (num_cand p) (eq_sym (marg_remove_length f p W))). destruct Hx as (Hx & _ & (c0 & Hc0)).
    rewrite E. cbn [rbind]. unfold candidates.
    set (tied := filter _ _) in *.
    assert (Hasc : ascending tied) by (apply ascending_filter, ascending_seq).
    assert (Hb : forall d, In d tied <-> best_removal f p W d) by (intros d; rewrite Hx; apply marg_remove_argmin; auto).
    assert (Hmn : forall d, In d tied -> (mn == Thiele f p W - Thiele f p (SpecRules.without d W))%Q).
    { intros d Hd. assert (H1 := Hd). unfold tied in H1. apply filter_In in H1 as [Hd1 Hd2]. apply Qeq_bool_iff in Hd2. apply in_seq in Hd1.
      apply Hb in Hd as (Hin & _). rewrite <- Hd2, marg_remove_member by (auto; lia). apply loss_correct; auto. }
    assert (Hcr : Forall (fun c => c < num_cand p) tied).
    { apply Forall_forall. intros d Hd. unfold tied in Hd. apply filter_In in Hd as [Hd _]. apply in_seq in Hd. lia. }
    destruct (rev tied) as [|c rt] eqn:Er.
    { apply Hx in Hc0. apply in_rev in Hc0. rewrite Er in Hc0. destruct Hc0. }
    assert (El : tied = rev rt ++ [c]) by (rewrite <- (rev_involutive tied), Er; reflexivity).
    assert (Hct : In c tied) by (rewrite El; apply in_app_iff; right; left; auto).
    assert (Hc : best_removal f p W c) by (apply Hb; auto).
    assert (Hlast : forall d, best_removal f p W d -> d <= c) by (intros d Hd; apply (rev_head_max tied c rt); auto; apply Hb; auto).
    assert (Hin : In c W) by apply Hc. apply mem_In in Hin as Hm. rewrite Hm.
    change (filter (fun d => negb (d =? c)) W) with (SpecRules.without c W).
    destruct (IH (SpecRules.without c W)) as (W' & rounds & ms & E1 & E2 & E3 & E4 & E5).
    { eapply removal_last_step; eauto. }
    { rewrite RevseqProofs.without_length; auto using ascending_NoDup. lia. }
    assert (Hrt : Forall (fun c => c < num_cand p) (rev rt)).
    { apply Forall_forall. intros d Hd. rewrite Forall_forall in Hcr. apply Hcr. rewrite El. apply in_app_iff. auto. }
    destruct (tie_ok p (rev rt) (fun t => [details ("tie broken to the disadvantage of " ++ str_nat c ++ ",")%string " ";
                         details ("candidates " ++ t ++ " are tied")%string " ";
                         details ("(all would decrease the score by the same amount " ++ num mn ++ ")")%string " "]) Hn Hrt) as (tie & Etie & Htie).
    rewrite E1, E3. cbn [rbind]. eexists W', _, _. split; [reflexivity|].
    split; [rewrite E2, RevseqProofs.without_length; auto using ascending_NoDup; lia|]. split; [reflexivity|].
    cbn [revseq_story]. change (filter (fun d => negb (d =? c)) W) with (SpecRules.without c W).
    rewrite name_ok' by (auto; rewrite Forall_forall in Hcr; auto). cbn [rbind].
    rewrite Etie.
    cbn [rbind]. rewrite E4. cbn [rbind]. split; [reflexivity|].
    pose proof (removed_round num f p W c (rev rt) W' (num mn) (num (thiele_score f p (SpecRules.without c W))) tie ms) as G.
    rewrite RevseqProofs.without_length by (auto using ascending_NoDup).
    assert (Hle : length W <= num_cand p).
    { rewrite <- (seq_length (num_cand p) 0). apply NoDup_incl_length; [apply ascending_NoDup; auto|]. intros d Hd. apply in_seq. rewrite Forall_forall in Hrange. specialize (Hrange d Hd). lia. }
    assert (1 <= length W) by (destruct W; [congruence|cbn; lia]).
    replace (num_cand p - (length W - 1)) with (S (num_cand p - length W)) by lia.
    apply G; clear G; auto.
    + rewrite <- El. split; auto.
    + apply shows_eq. auto.
    + apply shows_eq. apply thiele_score_correct, wf_nodup; auto.
Qed.
Lemma best_removal_ext : forall f g p, same_fct f g -> forall W c, best_removal f p W c <-> best_removal g p W c.
Proof.
  intros f g p Hs W c. unfold best_removal. split; intros (H1 & H3); split; auto; intros d Hd; specialize (H3 d Hd).
  - rewrite <- !(ComputeProofs.Thiele_ext f g) by (intros; apply Hs; auto). auto.
  - rewrite !(ComputeProofs.Thiele_ext f g) by (intros; apply Hs; auto). auto.
Qed.
Lemma removed_told_ext : forall num f g p, same_fct f g -> forall W L ms, removed_told num f p W L ms -> removed_told num g p W L ms.
Proof.
  intros num f g p Hs W L ms H. induction H as [W|W c T L loss total tie rest [H1 H1'] H2 H3 H4 H5 IH]; [constructor|].
  apply (removed_round num g p W c T); auto.
  - split; auto. intros d. rewrite H1'. apply best_removal_ext. auto.
  - eapply shows_mor; [|exact H2]. rewrite !(ComputeProofs.Thiele_ext f g) by (intros; apply Hs; auto). reflexivity.
  - eapply shows_mor; [|exact H3]. apply ComputeProofs.Thiele_ext. intros; apply Hs; auto.
Qed.
Lemma revseq_details_ok : forall num f g p k, wf p -> all_named p -> same_fct f g -> k <= num_cand p ->
  exists W ms, revseq_resolute f p k = Ok [W] /\
    (do rounds <- revseq_removals f p (num_cand p - k) (candidates p);
         do story <- revseq_story num f p (candidates p) rounds;
         Ok (details ("full committee (" ++ str_nat (num_cand p) ++ " candidates) has a total score of " ++
                      num (thiele_score f p (candidates p)) ++ nl)%string "" :: story)) = Ok ms /\
    revseq_told num g p k [W] ms.
Proof.
  intros num f g p k Hw Hn Hs Hk. unfold candidates.
  destruct (rev_story_ok num f p Hw Hn (num_cand p - k) (seq 0 (num_cand p)) (removal_last_start f p)) as (W & rounds & ms & E1 & E2 & E3 & E4 & E5); [rewrite seq_length; lia|].
  destruct (revseq_resolute_correct f p k Hw Hk) as (W1 & F1 & F2 & F3). exists W1. rewrite E3. cbn [rbind]. rewrite E4. cbn [rbind].
  eexists. split; auto. split; [reflexivity|]. unfold revseq_resolute, candidates in F1. rewrite E1 in F1. cbn [rbind] in F1.
  assert (W1 = W).
  { destruct (revseq_loop_spec f p Hw (num_cand p - k) (seq 0 (num_cand p)) (removal_last_start f p)) as (W2 & G1 & G2 & _); [rewrite seq_length; lia|].
    rewrite E1 in G1. inversion G1; subst W2. destruct (removal_run_props f p W (removal_last_run _ _ _ G2)) as [Ha _].
    rewrite sorted_committees_asc in F1 by (constructor; auto). cbn in F1. congruence. }
  subst W1. exists (num (thiele_score f p (seq 0 (num_cand p)))), W, ms.
  split; [apply shows_eq; rewrite thiele_score_correct by (apply wf_nodup; auto); apply ComputeProofs.Thiele_ext; intros; apply Hs; auto|].
  split; [rewrite E2, seq_length; lia|]. split; auto. split; auto. eapply removed_told_ext; eauto.
Qed.
Lemma revseq_scores_ok : forall num f g p resolute cs, wf p -> same_fct f g -> (resolute = true -> length cs = 1) ->
  revseq_scores_told num g p resolute cs [details ("PAV-score of winning committee:" ++ (if negb resolute && negb (Nat.eqb (List.length cs) 1) then nl else "") ++
                    String.concat "" (map (fun c => " " ++ num (thiele_score f p c)) cs) ++ nl)%string ""].
Proof.
  intros num f g p resolute cs Hw Hs Hr. exists (map (fun c => num (thiele_score f p c)) cs). split.
  - clear Hr. induction cs; cbn; constructor; auto. apply shows_eq. rewrite thiele_score_correct by (apply wf_nodup; auto). apply ComputeProofs.Thiele_ext. intros; apply Hs; auto.
  - rewrite map_map. destruct resolute, (Nat.eqb (length cs) 1); reflexivity.
Qed.
