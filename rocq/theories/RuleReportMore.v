(** * Proofs about the reports of the rules: distances, Monroe, separable rules *)
From Coq Require Import String.
From Coq Require Import List Arith Bool ZArith QArith Lia Lqa Permutation Sorted.
From Verif Require Import Prelude Misc MiscProofs Preferences Scores ScoresProofs Search Spec SpecRules SpecSeq SpecMonroe SpecLoads SpecText SpecReport
  SpecRuleReport Common OptProofs Rule RulesThiele Compute RulesSeq RulesMonroe MonroeProofs MonroeRule GreedyMonroe Join Output CheckReport
  CheckReportProofs StrProfile ComputeProofs RuleReport RuleReportProofs.
Import ListNotations.
Local Open Scope string_scope.
Open Scope nat_scope.
Local Open Scope list_scope.

(** ** Lexicographic minimax AV *)
Lemma lexminimax_value : forall p k, wf p -> voters p <> [] -> k <= num_cand p ->
  exists W, lexminimaxav_winner p k W /\ lexminimaxav_brute_distances p k = distances p W.
Proof.
  intros p k Hw Hne Hk. unfold lexminimaxav_brute_distances. set (n := length (voters p)).
  set (b := fun s best : list nat => negb (lexngeb n best s)).
  set (s := fun s best : list nat => lexngeb n s best && lexngeb n best s).
  rewrite (scan_ext _ (fun x => length x = n) _ _ b s).
  2:{ intros x y Hx Hy. unfold b, s, lexngeb.
      assert (E : forall z, length z = n -> padn n z = z) by (intros z <-; apply padn_id).
      rewrite !E by auto. unfold lexN_ge. cbv beta.
      destruct (lex_compare_dist y x) eqn:E1.
      - apply lexN_sym in E1. rewrite E1. auto.
      - assert (E2 : lex_compare_dist x y = LexLess) by (apply lexN_sym; auto). rewrite E2. auto.
      - apply lexN_sym in E1. rewrite E1. auto. }
  2:{ apply repeat_length. }
  2:{ intros; apply distances_length. }
  assert (Htr : forall x y z, lexngeb n x y = true -> lexngeb n y z = true -> lexngeb n x z = true).
  { intros x y z H1 H2. unfold lexngeb in *. apply (lexN_trans _ (padn n y)); auto; rewrite !padn_length; auto. }
  assert (Htot : forall x y, lexngeb n x y = true \/ lexngeb n y x = true) by (intros; apply lexN_total).
  destruct (scan_value b s (distances p) (lexngeb n) Htr Htot (fun x y => eq_refl) (combinations (candidates p) k) [] (repeat (num_cand p + 1) n)) as (_ & Hge & Hv).
  fold (scan b s (distances p) true (repeat (num_cand p + 1) n) (combinations (candidates p) k)) in Hge, Hv.
  set (v := snd (scan b s (distances p) true (repeat (num_cand p + 1) n) (combinations (candidates p) k))) in *.
  destruct Hv as [Hv|(c & Hc & Hv)].
  - exfalso. assert (H0 : is_committee p k (seq 0 k)).
    { split; [apply ascending_seq|]. split; [apply seq_length|]. apply Forall_forall. intros c Hc. apply in_seq in Hc. lia. }
    specialize (Hge (seq 0 k) ltac:(apply combos_committee; auto)). rewrite Hv in Hge. unfold lexngeb in Hge.
    assert (E : forall z, length z = n -> padn n z = z) by (intros z <-; apply padn_id).
    rewrite !E in Hge by (rewrite ?distances_length, ?repeat_length; auto).
    assert (Hall : forall d, In d (distances p (seq 0 k)) -> d <= num_cand p).
    { intros d Hd. unfold distances in Hd. rewrite <- in_rev, isort_In in Hd.
      apply in_map_iff in Hd as (x & <- & Hx). rewrite hamming_distance.
      destruct (wf_voter_in p x Hw Hx) as (Hn & Hr' & _). destruct H0 as (Ha & _ & Hr).
      apply (distance_bound (approved x) (seq 0 k) (num_cand p) Hn (ascending_NoDup _ Ha) Hr' Hr). }
    assert (Hl : length (distances p (seq 0 k)) = n) by apply distances_length.
    assert (n <> 0) by (unfold n; destruct (voters p); [congruence|cbn; lia]).
    destruct n as [|n']; [congruence|]. destruct (distances p (seq 0 k)) as [|d r]; [discriminate|].
    unfold lexN_ge in Hge. cbn [repeat lex_compare_dist] in Hge. specialize (Hall d (or_introl eq_refl)).
    destruct (Nat.ltb_spec d (num_cand p + 1)); [congruence|lia].
  - exists c. split; auto. split; [apply combos_committee; auto|]. intros W' HW'. apply lexngeb_distances. fold n. rewrite <- Hv. apply Hge. apply combos_committee. auto.
Qed.
Lemma max_of_distances : forall p W d r, voters p <> [] -> Permutation (map (fun v => hamming (approved v) W) (voters p)) (d :: r) ->
  max_distance p W (fold_left Nat.max r d).
Proof.
  intros p W d r Hne HP. destruct (fold_max_spec r d) as [A B]. split; [|split; [|congruence]].
  - intros v Hv. apply A. apply (Permutation_in _ HP). apply in_map_iff. exists v. rewrite hamming_distance. auto.
  - intros _. apply (Permutation_in _ (Permutation_sym HP)) in B. apply in_map_iff in B as (v & E & Hv). exists v. rewrite <- hamming_distance. auto.
Qed.
Lemma lexminimax_same : forall p k V W d, voters p <> [] -> lexminimaxav_winner p k V -> lexminimaxav_winner p k W -> max_distance p V d -> max_distance p W d.
Proof.
  intros p k V W d Hne HV HW Hd. apply lexminimaxav_refines in HV as [HV1 HV2]; auto. apply lexminimaxav_refines in HW as [HW1 HW2]; auto.
  pose proof (minimax_max_distance p W) as HdW. replace d with (minimaxav_score p W); auto. apply Nat.le_antisymm; eauto.
Qed.
Lemma lexminimax_ok : forall p k cs ds W, voters p <> [] -> lexminimaxav_winner p k W -> Permutation (map (fun v => hamming (approved v) W) (voters p)) ds ->
  exists ms, (match ds with
       | [] => Err ValueError
       | d :: r => Ok [details ("Minimum maximal distance: " ++ str_nat (fold_left Nat.max r d))%string "";
                       details ("Corresponding distances to voters:" ++ nl ++ String.concat "" (map (distance_list p) cs) ++ nl)%string ""]
       end) = Ok ms /\ lexminimax_distances p k cs ms.
Proof.
  intros p k cs ds W Hne HW HP. destruct ds as [|d r].
  { apply Permutation_length in HP. rewrite map_length in HP. destruct (voters p); [congruence|discriminate]. }
  eexists. split; [reflexivity|]. exists (line "" ("Minimum maximal distance: " ++ str_nat (fold_left Nat.max r d))%string). split.
  - exists (fold_left Nat.max r d). split; auto. intros V HV. apply (lexminimax_same p k W); auto. apply max_of_distances; auto.
  - unfold details, line. do 3 f_equal. do 3 f_equal. f_equal. apply map_ext. intros. apply distance_list_eq.
Qed.

(** ** Monroe *)
Lemma monroe_details_ok : forall nx p k cs, networkx_correct nx -> 1 <= k -> cs <> [] -> (forall W, In W cs -> monroe_winner p k W) ->
  exists ms, (match cs with
       | [] => Err IndexError
       | c :: _ => do s <- monroescore nx p c; Ok [details ("Optimal Monroe score: " ++ str_Z s ++ nl)%string ""]
       end) = Ok ms /\ monroe_score_line p k ms.
Proof.
  intros nx p k cs Hx Hk Hne Hcs. destruct cs as [|c cs]; [congruence|]. pose proof (Hcs c (or_introl eq_refl)) as Hc.
  destruct (monroescore_correct nx p c Hx) as (s & -> & Hs).
  { destruct Hc as [Hc _]. apply ascending_NoDup, Hc. }
  { destruct Hc as [(_ & Hl & _) _]. intros ->. cbn in Hl. lia. }
  cbn [rbind]. rewrite str_Z_nat. eexists. split; [reflexivity|]. exists s. split; auto.
  intros W HW. destruct (monroe_score_exists p W) as (s' & Hs').
  { destruct HW as [HW _]. apply ascending_NoDup, HW. }
  { destruct HW as [(_ & Hl & _) _]. intros ->. cbn in Hl. lia. }
  destruct HW as [HW1 HW2], Hc as [Hc1 Hc2]. destruct HW2 as (f & F1 & F2), Hc2 as (g & G1 & G2).
  destruct Hs as ((f1 & Fa & Fb) & Fc), Hs' as ((g1 & Ga & Gb) & Gc).
  assert (s = s').
  { pose proof (F2 c f1 Hc1 Fa). pose proof (G2 W g1 HW1 Ga). pose proof (Fc g G1). pose proof (Gc f F1). lia. }
  rewrite H. split; [exists g1|]; auto.
Qed.
Lemma likes_approves : forall p i c, likes p i c = voter_approves p i c.
Proof.
  intros p i c. unfold likes, the_voter, voter_approves. destruct (nth_error (voters p) i) as [v|] eqn:E.
  - rewrite (nth_error_nth _ _ _ E). auto.
  - apply nth_error_None in E. rewrite nth_overflow by auto. auto.
Qed.
Lemma greedy_details_ok : forall nx p k, networkx_correct nx -> all_named p -> 1 <= k <= num_cand p ->
  exists W ms, rmap fst (greedy_monroe_with_assignment nx p k) = Ok [W] /\ greedy_monroe_details nx p k = Ok ms /\ districts_told p W ms.
Proof.
  intros nx p k Hx Hn Hk. destruct (greedy_monroe_full nx p k Hx Hk) as (L & rem & D & H1 & H2 & H3 & H4 & H5 & H6 & D0 & H7 & H8).
  exists (isort L). unfold greedy_monroe_details. rewrite H3, H7. cbn [rbind rmap fst].
  destruct (monroescore_correct nx p (isort L) Hx) as (opt & -> & Hopt).
  { apply ascending_NoDup, H4. }
  { destruct H4 as (_ & Hl & _). intros E. rewrite E in Hl. cbn in Hl. lia. }
  cbn [rbind]. rewrite H8. cbn [rbind]. rewrite H6.
  destruct (rmapM_forall2 _ _ (district_text p) (district_line p) D) as (ts & -> & F).
  { intros [c vs] Hd. unfold district_text, district_line. cbn [fst snd]. rewrite name_ok'; auto.
    - cbn [rbind]. eexists. split; [reflexivity|]. do 4 f_equal. f_equal. apply map_ext. intros i. rewrite likes_approves. auto.
    - destruct H5 as (HD & _). destruct H4 as (_ & _ & Hr). rewrite Forall_forall in Hr. apply Hr, HD. apply in_map_iff. exists (c, vs). auto. }
  cbn [rbind]. rewrite !str_Z_nat. eexists. split; [reflexivity|]. split; [reflexivity|].
  exists D, ts, (districts_score p D), opt. repeat (split; [solve [auto]|]).
  replace (Z.of_nat (districts_score p D) <? Z.of_nat opt)%Z with (districts_score p D <? opt).
  - destruct (districts_score p D <? opt); reflexivity.
  - apply eq_true_iff_eq. rewrite Nat.ltb_lt, Z.ltb_lt. lia.
Qed.

(** ** Separable rules *)
Lemma sub_filter : forall (P T : list nat), NoDup P -> NoDup T -> incl T P -> let s := filter (fun x => mem x T) P in
  In s (combinations P (length T)) /\ forall c, In c s <-> In c T.
Proof.
  intros P T HP HT Hi s. assert (Hin : forall c, In c s <-> In c T).
  { intros c. unfold s. rewrite filter_In, mem_In. split; [tauto|]. intros H. split; auto. }
  split; auto. apply combinations_sublist. split; [apply filter_sublist|]. apply Permutation_length. apply NoDup_Permutation; auto. apply NoDup_filter. auto.
Qed.
Section Separable.
  Variables (p : profile) (k : nat) (score : list Q) (sc : nat -> Q).
  Hypothesis Hl : length score = num_cand p.
  Hypothesis Hsc : forall c, c < num_cand p -> (nthQ score c == sc c)%Q.
  Hypothesis Hk : 1 <= k <= num_cand p.
  Lemma sep_winner : forall W, maximises (fun W => Qsum (map sc W)) p k W <-> sep_max score k W.
  Proof using Hl Hsc.
    assert (E : forall W, is_committee p k W -> (sum_over score W == Qsum (map sc W))%Q).
    { intros W (_ & _ & Hr). unfold sum_over. apply Qsum_map_ext. intros c Hc. apply Hsc. rewrite Forall_forall in Hr. auto. }
    intros W. unfold maximises, sep_max, committee_m, is_committee in *. rewrite Hl. split; intros [H1 H2]; split; auto; intros W' HW'.
    - rewrite !E by auto. auto.
    - rewrite <- !E by auto. auto.
  Qed.
  Variable cutoff : Q.
  Hypothesis Hcut : nth_error (sort_by Qle_bool score) (length score - k) = Some cutoff.
  Let certain := filter (fun c => Qltb cutoff (nthQ score c)) (seq 0 (length score)).
  Let possible := filter (fun c => Qeq_bool (nthQ score c) cutoff) (seq 0 (length score)).
  Let missing := k - length certain.
  Let winner := maximises (fun W => Qsum (map sc W)) p k.
  Let Hk' : 1 <= k <= length score. Proof using Hk Hl. rewrite Hl. auto. Qed.
  Lemma winner_iff : forall W, winner W <-> exists s, In s (combinations possible missing) /\ W = isort (certain ++ s).
  Proof using Hl Hsc Hk Hcut. intros W. unfold winner. rewrite sep_winner. apply sep_max_iff; auto. Qed.
  Lemma possible_nodup : NoDup possible.
  Proof using Hk Hl Hcut. apply ascending_NoDup. apply (possible_asc score k Hk' cutoff Hcut). Qed.
  Lemma missing_bounds : 1 <= missing <= length possible.
  Proof using Hl Hsc Hk Hcut.
    pose proof (certain_few score k Hk' cutoff Hcut) as H1. pose proof (enough score k Hk' cutoff Hcut) as H2. fold certain in H1, H2. fold possible in H2. unfold missing. lia.
  Qed.
  Lemma in_certain : forall c, In c certain <-> c < num_cand p /\ (cutoff < sc c)%Q.
  Proof using Hl Hsc Hk Hcut.
    intros c. unfold certain. rewrite (certain_In score k Hk' cutoff Hcut). rewrite Hl. split; intros [H1 H2]; split; auto; [rewrite <- Hsc|rewrite Hsc]; auto.
  Qed.
  Lemma in_possible : forall c, In c possible <-> c < num_cand p /\ (sc c == cutoff)%Q.
  Proof using Hl Hsc Hk Hcut.
    intros c. unfold possible. rewrite (possible_In score k Hk' cutoff Hcut). rewrite Hl. split; intros [H1 H2]; split; auto; [rewrite <- Hsc|rewrite Hsc]; auto.
  Qed.
  (** a committee containing a given subset of the possible candidates, and one that avoids a candidate *)
  Lemma some_with : forall c, In c possible -> exists W, winner W /\ In c W.
  Proof using Hl Hsc Hk Hcut.
    intros c Hc. pose proof missing_bounds as Hm. set (others := filter (fun d => negb (d =? c)) possible).
    assert (Ho : length others = length possible - 1).
    { assert (P : Permutation possible (c :: others)).
      { apply NoDup_Permutation; [apply possible_nodup| |].
        - constructor; [|apply NoDup_filter, possible_nodup]. unfold others. rewrite filter_In. rewrite Nat.eqb_refl. intros [_ H]. discriminate.
        - intros d. cbn [In]. unfold others. rewrite filter_In. destruct (Nat.eqb_spec d c); [subst; tauto|]. split; [intros; right; auto|intros [E|[H _]]; [congruence|auto]]. }
      apply Permutation_length in P. cbn in P. lia. }
    set (T := c :: firstn (missing - 1) others).
    destruct (sub_filter possible T) as [HT Hin].
    - apply possible_nodup.
    - constructor.
      + intros H. apply firstn_In in H. unfold others in H. apply filter_In in H as [_ H]. rewrite Nat.eqb_refl in H. discriminate.
      + apply NoDup_firstn, NoDup_filter, possible_nodup.
    - intros d [<-|Hd]; auto. apply firstn_In in Hd. apply filter_In in Hd. tauto.
    - assert (El : length T = missing). { unfold T. cbn [length]. rewrite firstn_length. lia. } rewrite El in HT.
      eexists. split; [apply winner_iff; eexists; split; [exact HT|reflexivity]|]. apply isort_In, in_app_iff. right. apply Hin. left. auto.
  Qed.
  Lemma some_without : forall c, In c possible -> missing < length possible -> exists W, winner W /\ ~ In c W.
  Proof using Hl Hsc Hk Hcut.
    intros c Hc Hlt. set (others := filter (fun d => negb (d =? c)) possible).
    assert (Ho : length others = length possible - 1).
    { assert (P : Permutation possible (c :: others)).
      { apply NoDup_Permutation; [apply possible_nodup| |].
        - constructor; [|apply NoDup_filter, possible_nodup]. unfold others. rewrite filter_In. rewrite Nat.eqb_refl. intros [_ H]. discriminate.
        - intros d. cbn [In]. unfold others. rewrite filter_In. destruct (Nat.eqb_spec d c); [subst; tauto|]. split; [intros; right; auto|intros [E|[H _]]; [congruence|auto]]. }
      apply Permutation_length in P. cbn in P. lia. }
    set (T := firstn missing others).
    destruct (sub_filter possible T) as [HT Hin].
    - apply possible_nodup.
    - apply NoDup_firstn, NoDup_filter, possible_nodup.
    - intros d Hd. apply firstn_In in Hd. apply filter_In in Hd. tauto.
    - assert (El : length T = missing). { unfold T. rewrite firstn_length. lia. } rewrite El in HT.
      eexists. split; [apply winner_iff; eexists; split; [exact HT|reflexivity]|]. rewrite isort_In, in_app_iff. intros [H|H].
      + apply in_certain in H. apply in_possible in Hc. lra.
      + apply Hin in H. apply firstn_In in H. apply filter_In in H as [_ H]. rewrite Nat.eqb_refl in H. discriminate.
  Qed.
  Lemma winner_split : forall W, winner W -> incl certain W /\ (forall c, In c W -> In c certain \/ In c possible) /\ length (inter possible W) = missing.
  Proof using Hl Hsc Hk Hcut.
    intros W HW. apply winner_iff in HW as (s & Hs & ->). apply combinations_sublist in Hs as [Hs Hsl].
    assert (Hdis : forall c, In c certain -> In c possible -> False).
    { intros c H1 H2. apply in_certain in H1. apply in_possible in H2. lra. }
    split; [|split].
    - intros c Hc. apply isort_In, in_app_iff. auto.
    - intros c Hc. apply isort_In, in_app_iff in Hc as [Hc|Hc]; auto. right. eapply sublist_incl; eauto.
    - rewrite <- Hsl. apply Permutation_length. apply NoDup_Permutation.
      + apply NoDup_filter, possible_nodup.
      + eapply sublist_NoDup; eauto. apply possible_nodup.
      + intros c. unfold inter. rewrite filter_In, mem_In, isort_In, in_app_iff. split.
        * intros [H1 [H2|H2]]; auto. exfalso. eauto.
        * intros H. split; auto. eapply sublist_incl; eauto.
  Qed.
  Lemma winner_ex : exists W, winner W.
  Proof using Hl Hsc Hk Hcut.
    destruct (sep_exists_combo score k Hk' cutoff Hcut) as (s & Hs). exists (isort (certain ++ s)). apply winner_iff. exists s. auto.
  Qed.
  Lemma cutoff_ok : forall c, c < num_cand p -> ((cutoff <= sc c)%Q <-> exists W, winner W /\ In c W).
  Proof using Hl Hsc Hk Hcut.
    intros c Hc. split.
    - intros H. destruct (Qlt_le_dec cutoff (sc c)) as [H'|H'].
      + destruct winner_ex as (W & HW). exists W. split; auto. apply (winner_split W HW). apply in_certain. auto.
      + apply some_with. apply in_possible. split; auto. lra.
    - intros (W & HW & H). destruct (winner_split W HW) as (_ & Hs & _). destruct (Hs c H) as [H'|H']; [apply in_certain in H'|apply in_possible in H']; lra.
  Qed.
  Lemma certain_all : missing < length possible -> forall c, In c certain <-> c < num_cand p /\ forall W, winner W -> In c W.
  Proof using Hl Hsc Hk Hcut.
    intros Hlt c. split.
    - intros H. split; [apply in_certain in H; tauto|]. intros W HW. apply (winner_split W HW). auto.
    - intros [Hc Hall]. destruct winner_ex as (W & HW). destruct (winner_split W HW) as (_ & Hs & _). destruct (Hs c (Hall W HW)) as [|H]; auto.
      destruct (some_without c H Hlt) as (V & HV & Hn). exfalso. auto.
  Qed.
  Lemma possible_some : missing < length possible ->
    forall c, In c possible <-> c < num_cand p /\ (exists W, winner W /\ In c W) /\ exists W, winner W /\ ~ In c W.
  Proof using Hl Hsc Hk Hcut.
    intros Hlt c. split.
    - intros H. split; [apply in_possible in H; tauto|]. split; [apply some_with; auto|apply some_without; auto].
    - intros [Hc [(W & HW & H1) (V & HV & H2)]]. destruct (winner_split W HW) as (_ & Hs & _). destruct (Hs c H1) as [H|]; auto. exfalso. apply H2. apply (winner_split V HV). auto.
  Qed.
  Lemma unique_winner : missing = length possible -> forall W, winner W <-> W = isort (certain ++ possible).
  Proof using Hl Hsc Hk Hcut.
    intros E W. rewrite winner_iff, E, combos_full. split; [intros (s & [<-|[]] & H); auto|]. intros H. exists possible. split; [left|]; auto.
  Qed.
End Separable.
Lemma names_ok : forall p T, all_named p -> Forall (fun c => c < num_cand p) T -> names_text p T = Ok (listing p T).
Proof.
  intros p T Hn HT. unfold names_text, listing. assert (E : rmapM (name_of p) T = Ok (map (cand_name p) T)); [|rewrite E; reflexivity].
  induction HT as [|c T Hc HT IH]; auto. cbn [rmapM map]. rewrite name_ok' by auto. cbn [rbind]. rewrite IH. reflexivity.
Qed.
Lemma separable_ok : forall num p k score sc, all_named p -> length score = num_cand p -> (forall c, c < num_cand p -> (nthQ score c == sc c)%Q) ->
  1 <= k <= num_cand p -> exists ms, separable_details num score p k = Ok ms /\ separable_account num p k sc ms.
Proof.
  intros num p k score sc Hn Hl Hsc Hk. unfold separable_details.
  assert (exists cutoff, kth_largest score k = Some cutoff /\ nth_error (sort_by Qle_bool score) (length score - k) = Some cutoff) as (cutoff & -> & Hcut).
  { unfold kth_largest. destruct (Nat.ltb_spec (length score) k); [lia|].
    destruct (nth_error (sort_by Qle_bool score) (length score - k)) as [q|] eqn:E; [exists q; auto|].
    apply nth_error_None in E. rewrite sort_by_length in E. lia. }
  assert (Hcand : candidates p = seq 0 (length score)) by (unfold candidates; rewrite Hl; auto).
  pose proof (winner_iff p k score sc Hl Hsc Hk cutoff Hcut) as Hwin.
  pose proof (missing_bounds p k score sc Hl Hsc Hk cutoff Hcut) as Hmb.
  pose proof (in_certain p k score sc Hl Hsc Hk cutoff Hcut) as HinC.
  pose proof (in_possible p k score sc Hl Hsc Hk cutoff Hcut) as HinP.
  pose proof (cutoff_ok p k score sc Hl Hsc Hk cutoff Hcut) as Hcutok.
  pose proof (certain_all p k score sc Hl Hsc Hk cutoff Hcut) as Hall.
  pose proof (possible_some p k score sc Hl Hsc Hk cutoff Hcut) as Hsome.
  pose proof (unique_winner p k score sc Hl Hsc Hk cutoff Hcut) as Huni.
  pose proof (winner_split p k score sc Hl Hsc Hk cutoff Hcut) as Hspl.
  assert (Hca := certain_asc score k ltac:(lia) cutoff Hcut). assert (Hpa := possible_asc score k ltac:(lia) cutoff Hcut).
  rewrite Hcand. cbv zeta.
  set (certain := filter (fun c => Qltb cutoff (nthQ score c)) (seq 0 (length score))) in *.
  set (possible := filter (fun c => Qeq_bool (nthQ score c) cutoff) (seq 0 (length score))) in *.
  set (missing := k - length certain) in *.
  set (winner := maximises (fun W => Qsum (map sc W)) p k) in *.
  destruct (rmapM_forall2 _ _ (fun c => do n <- name_of p c; Ok (n ++ ": " ++ num (nthQ score c) ++ nl)%string) (score_line num p sc) (seq 0 (length score))) as (ts & Ets & F).
  { intros c Hc. apply in_seq in Hc. rewrite name_ok' by (auto; lia). cbn [rbind]. eexists. split; [reflexivity|]. eexists. split; [apply shows_eq|reflexivity]. apply Hsc. lia. }
  rewrite Hl in F.
  assert (Hcr : Forall (fun c => c < num_cand p) certain) by (apply Forall_forall; intros c Hc; apply HinC in Hc; tauto).
  assert (Hpr : Forall (fun c => c < num_cand p) possible) by (apply Forall_forall; intros c Hc; apply HinP in Hc; tauto).
  destruct (Nat.eqb_spec (length possible) missing) as [E|E].
  - assert (Hr : Forall (fun c => c < num_cand p) (isort (certain ++ possible))).
    { apply Forall_forall. intros c Hc. apply isort_In, in_app_iff in Hc. rewrite Forall_forall in Hcr, Hpr. destruct Hc; auto. }
    rewrite Ets. cbn [rbind]. rewrite (names_ok p (isort (certain ++ possible)) Hn Hr). cbn [rbind]. rewrite (names_ok p [] Hn) by constructor. cbn [rbind].
    eexists. split; [reflexivity|]. unfold separable_account. fold winner.
    exists ts, cutoff, (num cutoff), (isort (certain ++ possible)), [], 0.
    split; [exact F|]. split; [apply shows_eq; reflexivity|]. split; [exact Hcutok|].
    assert (HW : winner (isort (certain ++ possible))) by (apply Huni; auto).
    split; [apply HW|]. split.
    { intros c. split.
      - intros Hc. split; [rewrite Forall_forall in Hr; auto|]. intros W HW'. apply Huni in HW'; auto. subst; auto.
      - intros [_ H]. auto. }
    split; [constructor|]. split.
    { intros c. split; [intros []|]. intros (_ & (W & HW1 & H1) & (V & HV & H2)). apply Huni in HW1; auto. apply Huni in HV; auto. subst. contradiction. }
    split; [reflexivity|].
    rewrite !app_nil_r.
    destruct (isort (certain ++ possible)); reflexivity.
  - assert (Hlt : missing < length possible) by lia.
    rewrite Ets. cbn [rbind]. rewrite (names_ok p certain Hn Hcr), (names_ok p possible Hn Hpr). cbn [rbind].
    eexists. split; [reflexivity|]. unfold separable_account. fold winner.
    exists ts, cutoff, (num cutoff), certain, possible, missing.
    split; [exact F|]. split; [apply shows_eq; reflexivity|]. split; [exact Hcutok|].
    split; [auto|]. split; [auto|]. split; [auto|]. split; [auto|]. split.
    { intros W HW. apply Hspl; auto. }
    destruct certain, possible; reflexivity.
Qed.
