(** * Proofs about the reports of the rules: texts, the frame, optimal scores *)
From Coq Require Import String.
From Coq Require Import List Arith Bool ZArith QArith Lia Lqa Permutation Sorted.
From Verif Require Import Prelude Misc MiscProofs Preferences Scores ScoresProofs Search Spec SpecRules SpecSeq SpecMonroe SpecLoads SpecText SpecReport
  SpecRuleReport Common OptProofs Rule RulesThiele Compute RulesSeq RulesMonroe MonroeRule Milp MilpProofs RulesSolver SolverProofs SolverLex Output CheckReport
  CheckReportProofs StrProfile ComputeProofs RuleReport.
Import ListNotations.
Local Open Scope string_scope.
Open Scope nat_scope.
Local Open Scope list_scope.

(** ** Texts *)
Lemma name_ok' : forall p c, all_named p -> c < num_cand p -> name_of p c = Ok (cand_name p c).
Proof.
  intros p c Hn Hc. destruct (name_ok p c Hn Hc) as (s & -> & E). f_equal. symmetry. apply nth_error_nth. auto.
Qed.
Lemma set_ok : forall p T, all_named p -> Forall (fun c => c < num_cand p) T ->
  exists t, str_set_with_names T (cand_names p) = Ok t /\ set_text (cand_names p) T t.
Proof.
  intros p T Hn HT.
  assert (exists t, str_set_with_names T (cand_names p) = Ok t) as (t & E).
  { unfold str_set_with_names.
    assert (exists l, rmapM (fun c => match nth_error (cand_names p) c with Some s => Ok s | None => Err IndexError end) T = Ok l) as (l & ->); [|eexists; reflexivity].
    induction HT as [|c T Hc HT (l & IH)]; [eexists; reflexivity|]. cbn [rmapM].
    destruct (name_ok p c Hn Hc) as (s & _ & ->). cbn [rbind]. rewrite IH. eexists. reflexivity. }
  exists t. split; auto. apply str_set_text. auto.
Qed.
Lemma rmapM_forall2 : forall (A B : Type) (f : A -> result B) (R : A -> B -> Prop) l,
  (forall a, In a l -> exists b, f a = Ok b /\ R a b) -> exists bs, rmapM f l = Ok bs /\ Forall2 R l bs.
Proof.
  induction l as [|a l IH]; intros H; cbn [rmapM]; [exists []; auto|].
  destruct (H a (or_introl eq_refl)) as (b & -> & Hb). cbn [rbind].
  destruct IH as (bs & -> & Hbs); [intros; apply H; right; auto|]. cbn [rbind]. exists (b :: bs). auto.
Qed.
Lemma winners_ok : forall p cs, all_named p -> cs <> [] -> Forall (Forall (fun c => c < num_cand p)) cs ->
  exists t, winners_text cs (cand_names p) = Ok t /\ winners_sentence p cs t.
Proof.
  intros p cs Hn Hne Hcs. unfold winners_text, str_sets_with_names.
  destruct (rmapM_forall2 _ _ (fun s => str_set_with_names s (cand_names p)) (set_text (cand_names p)) cs) as (ts & E & F).
  { intros W HW. apply set_ok; auto. rewrite Forall_forall in Hcs. auto. }
  rewrite E. cbn [rbind]. destruct cs as [|W0 cs]; [congruence|].
  eexists. split; [reflexivity|]. exists ts. split; auto.
  destruct (Nat.eqb_spec (List.length (W0 :: cs)) 1) as [E1|E1].
  - left. split; auto.
  - right. split; auto. cbv beta. rewrite string_app_assoc. reflexivity.
Qed.

Definition mode_style (m : mode) : style := match m with OptimisationMode => Optimising | SequentialMode => Sequential | NoMode => Plain end.

Lemma frame_ok : forall id alg m resolute p before after cs name algname (B A : list message -> Prop) b a,
  longname id = Ok name -> algorithm_name alg = Ok algname -> all_named p -> cs <> [] -> Forall (Forall (fun c => c < num_cand p)) cs ->
  before = Ok b -> B b -> after = Ok a -> A a ->
  exists ms, frame id alg m resolute p before cs after = Ok ms /\
    is_report name (py_len name) algname (mode_style m) resolute p cs B A ms.
Proof.
  intros id alg m resolute p before after cs name algname B A b a En Ea Hn Hne Hcs -> HB -> HA. unfold frame. rewrite En, Ea. cbn [rbind].
  destruct (winners_ok p cs Hn Hne Hcs) as (t & -> & Ht). cbn [rbind]. eexists. split; [reflexivity|]. exists b, a, t.
  split; auto. split; auto. split; auto. destruct m, resolute; reflexivity.
Qed.

Lemma shows_eq : forall num x y, (y == x)%Q -> shows num x (num y).
Proof. intros. exists y. auto. Qed.

(** ** Optimal scores *)
Lemma thiele_details_ok : forall num f g id p k cs, wf p -> same_fct f g -> cs <> [] -> (forall W, In W cs -> maximises (Thiele g p) p k W) ->
  exists ms, thiele_details num f id p cs = Ok ms /\ optimal_score num (upper id) (Thiele g p) p k ms.
Proof.
  intros num f g id p k cs Hw Hs Hne Hcs. destruct cs as [|c cs]; [congruence|]. eexists. split; [reflexivity|].
  pose proof (Hcs c (or_introl eq_refl)) as Hc.
  exists (Thiele g p c), (num (thiele_score f p c)). split.
  - intros W HW. destruct Hc as [H1 H2], HW as [H3 H4]. apply Qle_antisym; auto.
  - split; [|reflexivity]. apply shows_eq. rewrite thiele_score_correct by (apply wf_nodup; auto). apply ComputeProofs.Thiele_ext. intros i Hi. apply Hs; auto.
Qed.

Section ScanValue.
  Context {S : Type} (better same : S -> S -> bool) (score : list nat -> S).
  Variable geb : S -> S -> bool.
  Hypothesis geb_trans : forall x y z, geb x y = true -> geb y z = true -> geb x z = true.
  Hypothesis geb_total : forall x y, geb x y = true \/ geb y x = true.
  Hypothesis better_eq : forall x y, better x y = negb (geb y x).
  Lemma scan_value : forall cs opt init, let v := snd (fold_left (scan_step better same score true) cs (opt, init)) in
    geb v init = true /\ (forall c, In c cs -> geb v (score c) = true) /\ (v = init \/ exists c, In c cs /\ v = score c).
  Proof using geb_trans geb_total better_eq.
    induction cs as [|c cs IH]; intros opt init v.
    - subst v. cbn. split; [destruct (geb_total init init); auto|]. split; [intros c []|auto].
    - assert (Hinit : geb init init = true) by (destruct (geb_total init init); auto).
      assert (Hc : geb (score c) (score c) = true) by (destruct (geb_total (score c) (score c)); auto).
      subst v. cbn [fold_left scan_step]. rewrite better_eq. destruct (geb init (score c)) eqn:E; cbn [negb].
      + assert (G : exists opt', (if same (score c) init then (opt ++ [c], init) else (opt, init)) = (opt', init)) by (destruct same; eauto).
        destruct G as (opt' & ->). destruct (IH opt' init) as (A & B & C). split; auto. split.
        * intros d [<-|Hd]; auto. eapply geb_trans; eauto.
        * destruct C as [C|(d & Hd & C)]; [left; auto|right; exists d; split; [right|]; auto].
      + destruct (IH [c] (score c)) as (A & B & C). split.
        * eapply geb_trans; eauto. destruct (geb_total init (score c)); congruence.
        * split; [intros d [<-|Hd]; auto|]. right. destruct C as [C|(d & Hd & C)]; [exists c; split; [left|]; auto|exists d; split; [right|]; auto].
  Qed.
End ScanValue.

Lemma zero_vector : forall p k c, wf p -> lexgeb k (lexcc_vector p k c) (repeat 0%Q k) = true.
Proof.
  intros p k c Hw. unfold lexgeb. apply lex_compare_spec; [rewrite !pad_length; auto|]. rewrite pad_length.
  assert (Hnn : forall i, (0 <= at_least_weight p c i)%Q).
  { intro i. apply Qsum_map_nonneg. intros v Hv. apply filter_In in Hv as [Hv _]. destruct (wf_voter_in p v Hw Hv) as (_ & _ & Hp). lra. }
  assert (E : forall x, length x = k -> pad k x = x) by (intros z <-; apply pad_id).
  rewrite (E (lexcc_vector p k c)) by apply lexcc_vector_length. rewrite (E (repeat 0%Q k)) by apply repeat_length.
  assert (G : forall n, n <= k -> (forall i, i < n -> (nthQ (lexcc_vector p k c) i == 0)%Q) \/
      exists i, i < n /\ (0 < nthQ (lexcc_vector p k c) i)%Q /\ forall j, j < i -> (nthQ (lexcc_vector p k c) j == 0)%Q).
  { induction n as [|n IH]; intros Hn; [left; intros; lia|]. destruct (IH ltac:(lia)) as [H|(i & Hi & H1 & H2)].
    - destruct (Qlt_le_dec 0 (nthQ (lexcc_vector p k c) n)).
      + right. exists n. repeat split; auto.
      + left. intros i Hi. destruct (Nat.eq_dec i n); [subst|apply H; lia]. apply Qle_antisym; auto. rewrite lexcc_vector_nth by (auto; lia). auto.
    - right. exists i. repeat split; auto. }
  destruct (G k ltac:(auto)) as [H|(i & Hi & H1 & H2)].
  - left. intros i Hi. rewrite nthQ_repeat0. auto.
  - right. exists i. rewrite nthQ_repeat0. repeat split; auto. intros j Hj. rewrite nthQ_repeat0. auto.
Qed.
Lemma lexgeb_antisym : forall k x y, length x = k -> length y = k -> lexgeb k x y = true -> lexgeb k y x = true -> forall i, i < k -> (nthQ x i == nthQ y i)%Q.
Proof.
  intros k x y Hx Hy H1 H2 i Hi. unfold lexgeb in *.
  assert (E : forall x, length x = k -> pad k x = x) by (intros z <-; apply pad_id). rewrite !E in * by auto.
  apply lex_compare_spec in H1; [|lia]. apply lex_compare_spec in H2; [|lia]. rewrite Hx in H1. rewrite Hy in H2.
  destruct H1 as [H1|(j & Hj & H1 & G1)]; auto. destruct H2 as [H2|(j' & Hj' & H2 & G2)]; [symmetry; auto|]. exfalso.
  destruct (Nat.lt_trichotomy j j') as [H|[->|H]]; [specialize (G2 j H)|  |specialize (G1 j' H)]; lra.
Qed.
Lemma lexcc_brute_value : forall p k, wf p -> k <= num_cand p -> length (lexcc_brute_vector p k) = k /\
  forall W, lexcc_winner p k W -> forall i, 1 <= i <= k -> (nth (i - 1) (lexcc_brute_vector p k) 0%Q == at_least_weight p W i)%Q.
Proof.
  intros p k Hw Hk. unfold lexcc_brute_vector.
  set (b := fun s best : list Q => negb (lexgeb k best s)). set (s := fun s best : list Q => lexgeb k s best && lexgeb k best s).
  rewrite (scan_ext _ (fun x => length x = k) _ _ b s).
  2:{ intros x y Hx Hy. unfold b, s, lexgeb. assert (E : forall z, length z = k -> pad k z = z) by (intros z <-; apply pad_id).
      rewrite !E by auto. unfold lexQ_ge. cbv beta. destruct (lex_compare y x) eqn:E1.
      - apply lex_sym in E1. rewrite E1. auto.
      - assert (E2 : lex_compare x y = LexLess) by (apply lex_sym; auto). rewrite E2. auto.
      - apply lex_sym in E1. rewrite E1. auto. }
  2:{ apply repeat_length. }
  2:{ intros; apply lexcc_vector_length. }
  destruct (scan_value b s (lexcc_vector p k) (lexgeb k) (lexgeb_trans k) (lexgeb_total k) (fun x y => eq_refl) (combinations (candidates p) k) [] (repeat 0%Q k)) as (_ & Hge & Hv).
  fold (scan b s (lexcc_vector p k) true (repeat 0%Q k) (combinations (candidates p) k)) in Hge, Hv.
  set (v := snd (scan b s (lexcc_vector p k) true (repeat 0%Q k) (combinations (candidates p) k))) in *.
  assert (Hl : length v = k) by (destruct Hv as [->|(c & _ & ->)]; [apply repeat_length|apply lexcc_vector_length]). split; auto.
  intros W [HW HWb] i Hi. change (nthQ v (i - 1) == at_least_weight p W i)%Q.
  replace i with (S (i - 1)) at 2 by lia. rewrite <- (lexcc_vector_nth p k W (i - 1)) by (auto; lia).
  apply (lexgeb_antisym k); auto; [apply lexcc_vector_length| | |lia].
  - apply Hge. apply combos_committee. auto.
  - destruct Hv as [->|(c & Hc & ->)]; [apply zero_vector; auto|]. apply lexgeb_vectors; auto. apply HWb. apply combos_committee; auto.
Qed.
Lemma lexcc_gurobi_value : forall s p k u resolute maxn, wf p -> 1 <= k <= num_cand p -> granular_by u p -> (forall sc, solves s p k (lexcc_program p k sc)) ->
  valid_max maxn -> exists v, lexcc_gurobi_vector s p k resolute maxn = Ok v /\ length v = k /\
  forall W, lexcc_winner p k W -> forall i, 1 <= i <= k -> (nth (i - 1) v 0%Q == at_least_weight p W i)%Q.
Proof.
  intros s p k u resolute maxn Hw Hk Hg Hs Hm. unfold lexcc_gurobi_vector.
  assert (Hinv0 : lex_inv p k []).
  { split; [|intros i W Hi; simpl in Hi; lia]. exists (seq 0 k). split; [|intros i Hi; simpl in Hi; lia].
    split; [apply ascending_seq|]. split; [apply seq_length|]. apply Forall_forall. intros c Hc. apply in_seq in Hc. lia. }
  destruct (lexcc_iterations_ok s p k u Hw (proj2 Hk) Hg Hs (k - 1) [] Hinv0) as (sc & E & Hl & Hinv). cbn [length] in E, Hl. rewrite E. cbn [rbind].
  destruct (lexcc_step s p k u Hw (proj2 Hk) Hg Hs resolute maxn sc Hm Hinv) as (cs & q & Eo & HA & (W & r & Ec & HW)).
  replace (S (length sc)) with k in * by lia. rewrite Eo. cbn [rbind fst]. rewrite Ec.
  eexists. split; [reflexivity|]. split; [rewrite app_length; cbn [length]; lia|].
  pose proof (lex_inv_winner p k (proj2 Hk) sc W Hinv ltac:(lia) HW) as HWw. intros V HV i Hi.
  assert (EV : (at_least_weight p V i == at_least_weight p W i)%Q).
  { apply (lex_ge_antisym p k (proj2 Hk)); auto; [apply HV, HWw|apply HWw, HV]. }
  rewrite EV. destruct HW as (HW1 & HW2 & _). destruct (Nat.eq_dec i k) as [->|Hne].
  - rewrite app_nth2 by lia. replace (k - 1 - length sc) with 0 by lia. cbn [nth]. apply atleast_entry; auto; lia.
  - rewrite app_nth1 by lia. symmetry. apply HW2. lia.
Qed.
Lemma lexcc_details_ok : forall num p k v, length v = k ->
  (forall W, lexcc_winner p k W -> forall i, 1 <= i <= k -> (nth (i - 1) v 0%Q == at_least_weight p W i)%Q) ->
  at_least_scores num p k (lexcc_details num v).
Proof.
  intros num p k v Hl Hv. exists v, (map num v). split; auto. split.
  { clear. induction v; constructor; auto. apply shows_eq. reflexivity. }
  split; auto. unfold lexcc_details. f_equal. unfold enumerate. rewrite Hl. clear Hv.
  replace (combine (seq 1 k) (map num v)) with (map (fun il => (S (fst il), num (snd il))) (combine (seq 0 k) v)).
  - rewrite map_map. reflexivity.
  - rewrite <- seq_shift. clear Hl. generalize (seq 0 k). induction v as [|x v IH]; intros [|n l]; cbn; auto. f_equal. auto.
Qed.

(** ** Distances *)
Lemma distance_list_eq : forall p W, distance_list p W = distance_text p W.
Proof. intros. unfold distance_list, distance_text. f_equal. f_equal. f_equal. apply map_ext. intros. rewrite hamming_distance. reflexivity. Qed.
Lemma minimax_ok : forall p k cs c r, cs = c :: r -> (forall W, In W cs -> minimaxav_winner p k W) ->
  minimax_distances p k cs [details ("Minimum maximal distance: " ++ str_nat (minimaxav_score p c))%string "";
                       details ("Corresponding distances to voters:" ++ nl ++ String.concat "" (map (fun c => distance_list p c ++ nl) cs))%string ""].
Proof.
  intros p k cs c r E Hcs. exists (line "" ("Minimum maximal distance: " ++ str_nat (minimaxav_score p c))%string). split.
  - exists (minimaxav_score p c). split; auto. intros W HW. assert (Hc : minimaxav_winner p k c) by (apply Hcs; rewrite E; left; auto).
    destruct HW as [HW1 HW2], Hc as [Hc1 Hc2].
    pose proof (minimax_max_distance p W) as HdW. pose proof (minimax_max_distance p c) as Hdc.
    replace (minimaxav_score p c) with (minimaxav_score p W); auto. apply Nat.le_antisymm; eauto.
  - unfold details, line. do 3 f_equal. do 2 f_equal. f_equal. apply map_ext. intros. rewrite distance_list_eq. reflexivity.
Qed.
Lemma fold_max_spec : forall l d, (forall x, In x (d :: l) -> x <= fold_left Nat.max l d) /\ In (fold_left Nat.max l d) (d :: l).
Proof.
  induction l as [|a l IH]; intros d; cbn [fold_left].
  - split; [intros x [<-|[]]; auto|left; auto].
  - destruct (IH (Nat.max d a)) as [A B]. split.
    + intros x [<-|[<-|Hx]]; [specialize (A _ (or_introl eq_refl)); lia|specialize (A _ (or_introl eq_refl)); lia|apply A; right; auto].
    + destruct B as [B|B]; [|right; right; auto]. rewrite <- B. destruct (Nat.max_spec d a) as [[_ ->]|[_ ->]]; [right; left; auto|left; auto].
Qed.
