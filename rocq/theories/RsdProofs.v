(** * Random Serial Dictator *)
From Coq Require Import String.
From Coq Require Import List Arith Bool ZArith QArith Lia Permutation.
From Verif Require Import Prelude Misc MiscProofs Preferences Scores Search Rule RulesThiele Spec Common Compute SpecCompute
  ComputeProofs ComputeSeq RulesMore SpecMore MonroeRule.
Import ListNotations.
Local Open Scope string_scope.
Open Scope nat_scope.
Local Open Scope list_scope.

Lemma remove_diff : forall x l, remove Nat.eq_dec x l = filter (fun y => negb (y =? x)) l.
Proof.
  intros x l. induction l as [|y l IH]; simpl; auto. destruct (Nat.eq_dec x y) as [->|H].
  - rewrite Nat.eqb_refl. auto.
  - destruct (Nat.eqb_spec y x); [congruence|]. simpl. f_equal. auto.
Qed.
Lemma firsts_In : forall l x, In x (firsts l) <-> In x l.
Proof.
  induction l as [|y l IH]; intros x; simpl; [tauto|]. rewrite remove_diff, filter_In, negb_true_iff, Nat.eqb_neq, IH.
  split; [tauto|]. intros [->|H]; auto. destruct (Nat.eq_dec y x); auto.
Qed.
Lemma firsts_NoDup : forall l, NoDup (firsts l).
Proof.
  induction l as [|y l IH]; simpl; constructor.
  - rewrite remove_diff, filter_In, Nat.eqb_refl. simpl. intros [_ H]. discriminate.
  - rewrite remove_diff. apply NoDup_filter. auto.
Qed.
Lemma firsts_snoc : forall l x, firsts (l ++ [x]) = if mem x l then firsts l else firsts l ++ [x].
Proof.
  induction l as [|y l IH]; intros x; [reflexivity|]. cbn [app firsts mem existsb]. rewrite IH.
  destruct (Nat.eqb_spec x y) as [->|H].
  - cbn [orb]. f_equal. fold (mem y l). destruct (mem y l); auto. rewrite !remove_diff, filter_app. cbn [filter].
    rewrite Nat.eqb_refl. cbn. apply app_nil_r.
  - cbn [orb]. fold (mem x l). destruct (mem x l); auto. rewrite !remove_diff, filter_app. cbn [filter].
    destruct (Nat.eqb_spec x y); [congruence|]. reflexivity.
Qed.
Lemma firsts_prefix : forall b a, exists t, firsts (a ++ b) = firsts a ++ t.
Proof.
  induction b as [|x b IH]; intros a; [exists []; rewrite !app_nil_r; auto|].
  replace (a ++ x :: b) with ((a ++ [x]) ++ b) by (rewrite <- app_assoc; auto).
  destruct (IH (a ++ [x])) as (t & ->). rewrite firsts_snoc. destruct (mem x a); [eauto|]. rewrite <- app_assoc. eauto.
Qed.
Lemma mem_firsts : forall l x, mem x (firsts l) = mem x l.
Proof.
  intros. destruct (mem x l) eqn:E.
  - apply mem_In. rewrite firsts_In. apply mem_In. auto.
  - apply mem_false. rewrite firsts_In. apply mem_false. auto.
Qed.

Lemma add_firsts : forall pre c, (if mem c (firsts pre) then firsts pre else firsts pre ++ [c]) = firsts (pre ++ [c]).
Proof. intros. rewrite firsts_snoc, mem_firsts. auto. Qed.

Lemma update_firsts : forall l pre, set_update (firsts pre) l = firsts (pre ++ l).
Proof.
  unfold set_update. induction l as [|c l IH]; intros pre; cbn [fold_left]; [rewrite app_nil_r; auto|].
  rewrite add_firsts, IH, <- app_assoc. auto.
Qed.

Lemma firstn_firsts_prefix : forall a b, firstn (length (firsts a)) (firsts (a ++ b)) = firsts a.
Proof. intros a b. destruct (firsts_prefix b a) as (t & ->). rewrite firstn_app, Nat.sub_diag, firstn_all, firstn_O, app_nil_r. auto. Qed.

Lemma rsd_add_spec : forall k l pre, length (firsts pre) < k -> rsd_add k (firsts pre) l = firstn k (firsts (pre ++ l)).
Proof.
  intros k l. induction l as [|c l IH]; intros pre H; cbn [rsd_add].
  - rewrite app_nil_r, firstn_all2 by lia. auto.
  - rewrite add_firsts. replace (pre ++ c :: l) with ((pre ++ [c]) ++ l) by (rewrite <- app_assoc; auto).
    destruct (Nat.eqb_spec (length (firsts (pre ++ [c]))) k) as [E|E].
    + rewrite <- E. symmetry. apply firstn_firsts_prefix.
    + apply IH. rewrite firsts_snoc in *. destruct (mem c pre); auto. rewrite app_length in *. simpl in *. lia.
Qed.

Lemma firsts_length_add : forall l pre, length (firsts (pre ++ l)) <= length (firsts pre) + length l.
Proof.
  induction l as [|c l IH]; intros pre; [rewrite app_nil_r; simpl; lia|].
  replace (pre ++ c :: l) with ((pre ++ [c]) ++ l) by (rewrite <- app_assoc; auto). specialize (IH (pre ++ [c])).
  rewrite firsts_snoc in IH. destruct (mem c pre); simpl; [lia|]. rewrite app_length in IH. simpl in IH. lia.
Qed.

Lemma rsd_loop_spec : forall rnd p k sets pre, length (firsts pre) < k ->
  rsd_loop rnd p k sets (firsts pre) =
  let named := firsts (pre ++ concat sets) in
  if k <=? length named then firstn k named
  else set_update named (sample rnd (filter (fun c => negb (mem c named)) (candidates p)) (k - length named)).
Proof.
  intros rnd p k sets. induction sets as [|a sets IH]; intros pre H; cbn [rsd_loop concat].
  - rewrite app_nil_r. cbv zeta. destruct (Nat.leb_spec k (length (firsts pre))); [lia|]. reflexivity.
  - assert (E : (if length (firsts pre) + length a <=? k then set_update (firsts pre) a else rsd_add k (firsts pre) a) =
               firstn k (firsts (pre ++ a))).
    { destruct (Nat.leb_spec (length (firsts pre) + length a) k).
      - rewrite update_firsts, firstn_all2; auto. pose proof (firsts_length_add a pre). lia.
      - apply rsd_add_spec. auto. }
    rewrite E. clear E. rewrite app_assoc.
    destruct (Nat.eqb_spec (length (firstn k (firsts (pre ++ a)))) k) as [E|E]; rewrite firstn_length in E.
    + cbv zeta. destruct (firsts_prefix (concat sets) (pre ++ a)) as (t & ->). rewrite app_length.
      destruct (Nat.leb_spec k (length (firsts (pre ++ a)) + length t)); [|lia].
      rewrite firstn_app. replace (k - length (firsts (pre ++ a))) with 0 by lia. rewrite firstn_O, app_nil_r. auto.
    + rewrite firstn_all2 by lia. apply IH. lia.
Qed.

Lemma set_update_new : forall l s, NoDup l -> (forall x, In x l -> ~ In x s) -> set_update s l = s ++ l.
Proof.
  unfold set_update. induction l as [|x l IH]; intros s Hn H; cbn [fold_left]; [rewrite app_nil_r; auto|]. inversion Hn; subst.
  assert (E : mem x s = false) by (apply mem_false, H; left; auto). rewrite E, IH; auto.
  - rewrite <- app_assoc. auto.
  - intros y Hy Hin. apply in_app_iff in Hin as [Hin|[->|[]]]; [apply (H y); auto; right; auto|contradiction].
Qed.

Lemma perm_split_NoDup : forall (a b l : list nat), Permutation (a ++ b) l -> NoDup l -> NoDup a /\ incl a l.
Proof.
  intros a b l HP HN. split.
  - assert (H : NoDup (a ++ b)) by (eapply Permutation_NoDup; [symmetry; exact HP|auto]).
    clear HP. induction a as [|x a IH]; [constructor|]. simpl in H. inversion H; subst. constructor; [|auto].
    intros Hin. apply H2, in_app_iff. auto.
  - intros x Hx. eapply Permutation_in; [exact HP|]. apply in_app_iff. auto.
Qed.

Lemma wish_range : forall p order, wf p -> Permutation order (voters p) -> Forall (fun c => c < num_cand p) (wish_list order).
Proof.
  intros p order Hw HP. apply Forall_forall. intros c Hc. unfold wish_list in Hc. rewrite firsts_In in Hc.
  apply in_flat_map in Hc as (v & Hv & Hc). rewrite isort_In in Hc. apply (Permutation_in _ HP) in Hv.
  destruct Hw as [_ Hw]. rewrite Forall_forall in Hw. destruct (Hw v Hv) as (_ & H & _). rewrite Forall_forall in H. auto.
Qed.

Lemma unnamed_count : forall p l, NoDup l -> Forall (fun c => c < num_cand p) l ->
  length (filter (fun c => negb (mem c l)) (candidates p)) = num_cand p - length l.
Proof.
  intros p l HN HF. rewrite Forall_forall in HF.
  assert (HP : Permutation (l ++ filter (fun c => negb (mem c l)) (candidates p)) (candidates p)).
  { apply NoDup_Permutation.
    - apply NoDup_app_intro; auto; [apply NoDup_filter, seq_NoDup|]. intros x Hx H. apply filter_In in H as [_ H].
      apply negb_true_iff, mem_false in H. auto.
    - apply seq_NoDup.
    - intros x. rewrite in_app_iff, filter_In, negb_true_iff, mem_false. unfold candidates. rewrite in_seq. split.
      + intros [H|[H _]]; [|lia]. specialize (HF x H). lia.
      + intros H. destruct (in_dec Nat.eq_dec x l); auto. }
  apply Permutation_length in HP. rewrite app_length in HP. unfold candidates in HP at 2. rewrite seq_length in HP. lia.
Qed.

(** the committee computed for a given outcome of the shuffle *)
Lemma rsd_loop_outcome : forall rnd p k order, random_ok rnd -> wf p -> 1 <= k <= num_cand p -> Permutation order (voters p) ->
  let L := rsd_loop rnd p k (map (fun v => isort (approved v)) order) [] in
  NoDup L /\ serial_outcome p k order (isort L).
Proof.
  intros rnd p k order [_ Hs] Hw Hk HP L. pose proof (wish_range p order Hw HP) as HR.
  pose proof (firsts_NoDup (flat_map (fun v => isort (approved v)) order)) as HN. fold (wish_list order) in HN.
  assert (EL : L = if k <=? length (wish_list order) then firstn k (wish_list order)
                   else set_update (wish_list order) (sample rnd (filter (fun c => negb (mem c (wish_list order))) (candidates p)) (k - length (wish_list order)))).
  { unfold L. change (@nil nat) with (firsts []). rewrite rsd_loop_spec by (simpl; lia). cbn [app]. rewrite <- flat_map_concat_map. reflexivity. }
  rewrite EL. clear EL L. unfold serial_outcome. destruct (Nat.leb_spec k (length (wish_list order))) as [Hl|Hl].
  - assert (NoDup (firstn k (wish_list order))) by (apply NoDup_firstn; auto). split; auto. split; auto.
    apply isort_committee; auto; [rewrite firstn_length; lia|]. rewrite Forall_forall in *. intros c Hc. apply HR. eapply firstn_In; eauto.
  - set (U := filter (fun c => negb (mem c (wish_list order))) (candidates p)).
    assert (HU : length U = num_cand p - length (wish_list order)) by (apply unnamed_count; auto).
    destruct (Hs U (k - length (wish_list order))) as (E1 & rest & E2); [lia|].
    destruct (perm_split_NoDup _ _ _ E2) as [E3 E4]; [apply NoDup_filter, seq_NoDup|].
    assert (E5 : forall x, In x (sample rnd U (k - length (wish_list order))) -> ~ In x (wish_list order) /\ x < num_cand p).
    { intros x Hx. apply E4 in Hx. apply filter_In in Hx as [Hx H]. apply negb_true_iff, mem_false in H. split; auto. apply in_seq in Hx. lia. }
    rewrite set_update_new by (auto; intros x Hx; apply E5; auto).
    assert (NoDup (wish_list order ++ sample rnd U (k - length (wish_list order)))).
    { apply NoDup_app_intro; auto. intros x H1 H2. apply E5 in H2 as [H2 _]. auto. }
    split; auto. split.
    + apply isort_committee; auto; [rewrite app_length; lia|]. apply Forall_app. split; auto. apply Forall_forall. intros x Hx. apply E5; auto.
    + intros c Hc. rewrite isort_In. apply in_app_iff. auto.
Qed.

Theorem compute_rsd_correct : forall rnd e p k, random_ok rnd -> valid_call p k true None -> unit_weights p ->
  exists W, compute_rsd rnd e p (Z.of_nat k) "standard" true None = Ok [W] /\ rsd_outcome p k W.
Proof.
  intros rnd e p k Hr Hc Hu. unfold compute_rsd. erewrite run_ok; eauto; try reflexivity.
  destruct Hc as (Hw & _ & Hk & _). rewrite unit_weights_b by auto. simpl String.eqb. cbv iota. cbn [negb].
  destruct (Permutation_map_inv _ _ (proj1 Hr (map (fun v => isort (approved v)) (voters p)))) as (order & E & HP).
  rewrite E. destruct (rsd_loop_outcome rnd p k order Hr Hw Hk (Permutation_sym HP)) as [HN HO].
  eexists. split; [|exists order; split; [symmetry; exact HP|exact HO]].
  rewrite sorted_committees_ok by (constructor; auto). reflexivity.
Qed.

(** every outcome can happen *)
Lemma lists_eq_dec : forall a b : list (list nat), {a = b} + {a <> b}.
Proof. repeat decide equality. Defined.

Theorem rsd_every_outcome : forall e p k W, valid_call p k true None -> unit_weights p -> rsd_outcome p k W ->
  exists rnd, random_ok rnd /\ compute_rsd rnd e p (Z.of_nat k) "standard" true None = Ok [W].
Proof.
  intros e p k W Hc Hu (order & HP & HW).
  set (f := fun v => isort (approved v)).
  set (U := filter (fun c => negb (mem c (wish_list order))) (candidates p)).
  set (S := filter (fun c => mem c W) U).
  set (rnd := mkRandom (fun l => if lists_eq_dec l (map f (voters p)) then map f order else l)
                       (fun l n => if list_eq_dec Nat.eq_dec l U then if n =? length S then S else firstn n l else firstn n l)).
  assert (Hr : random_ok rnd).
  { assert (Hf : forall (l : list nat) n, n <= length l -> length (firstn n l) = n /\ exists rest, Permutation (firstn n l ++ rest) l).
    { intros l n H. split; [rewrite firstn_length; lia|]. exists (skipn n l). rewrite firstn_skipn. auto. }
    split; [intros l|intros l n H]; cbn.
    - destruct (lists_eq_dec l (map f (voters p))) as [->|]; auto. apply Permutation_map. auto.
    - destruct (list_eq_dec Nat.eq_dec l U) as [->|]; auto. destruct (Nat.eqb_spec n (length S)) as [->|]; auto.
      split; auto. exists (filter (fun c => negb (mem c W)) U). unfold S. clear.
      induction U as [|x U IH]; simpl; auto. destruct (mem x W); simpl; [constructor; auto|].
      symmetry. apply Permutation_cons_app. symmetry. auto. }
  exists rnd. split; auto. unfold compute_rsd. erewrite run_ok; eauto; try reflexivity.
  destruct Hc as (Hw & _ & Hk & _). rewrite unit_weights_b by auto. simpl String.eqb. cbv iota. cbn [negb].
  fold f. replace (shuffle rnd (map f (voters p))) with (map f order).
  2:{ cbn. destruct (lists_eq_dec _ _); congruence. }
  destruct (rsd_loop_outcome rnd p k order Hr Hw Hk HP) as [HN HO]. fold f in HN, HO.
  rewrite sorted_committees_ok by (constructor; auto). cbn [map sort_by insert_by]. do 2 f_equal.
  destruct HW as [HW1 HW2], HO as [HO1 HO2]. destruct (Nat.leb_spec k (length (wish_list order))) as [Hl|Hl]; [congruence|].
  unfold f. change (@nil nat) with (firsts []). rewrite rsd_loop_spec by (simpl; lia). cbn [app]. rewrite <- flat_map_concat_map.
  fold (wish_list order). cbv zeta. destruct (Nat.leb_spec k (length (wish_list order))) as [Hl'|_]; [lia|]. fold U.
  assert (HSl : length S = k - length (wish_list order)).
  { destruct HW1 as (A1 & A2 & A3). apply ascending_NoDup in A1.
    assert (Permutation (wish_list order ++ S) W).
    { apply NoDup_Permutation; auto.
      - apply NoDup_app_intro; [apply firsts_NoDup|apply NoDup_filter, NoDup_filter, seq_NoDup|]. intros x H1 H2.
        unfold S, U in H2. rewrite !filter_In in H2. destruct H2 as [[_ H2] _]. apply negb_true_iff, mem_false in H2. auto.
      - intros x. rewrite in_app_iff. unfold S, U. rewrite !filter_In, negb_true_iff, mem_false, mem_In. split.
        + intros [H|[_ H]]; auto.
        + intros H. destruct (in_dec Nat.eq_dec x (wish_list order)); auto. right. split; auto. split; auto.
          unfold candidates. rewrite in_seq. rewrite Forall_forall in A3. specialize (A3 x H). lia. }
    apply Permutation_length in H. rewrite app_length in H. lia. }
  replace (sample rnd U (k - length (wish_list order))) with S.
  2:{ cbn. destruct (list_eq_dec Nat.eq_dec U U); [|congruence]. rewrite HSl, Nat.eqb_refl. reflexivity. }
  destruct HW1 as (A1 & A2 & A3).
  rewrite set_update_new.
  - symmetry. apply ascending_ext; auto; [apply isort_ascending; apply NoDup_app_intro|].
    + apply firsts_NoDup.
    + apply NoDup_filter, NoDup_filter, seq_NoDup.
    + intros x H1 H2. unfold S, U in H2. rewrite !filter_In in H2. destruct H2 as [[_ H2] _]. apply negb_true_iff, mem_false in H2. auto.
    + intros x. rewrite isort_In, in_app_iff. unfold S, U. rewrite !filter_In, negb_true_iff, mem_false, mem_In. split.
      * intros H. destruct (in_dec Nat.eq_dec x (wish_list order)); auto. right. split; auto. split; auto.
        unfold candidates. rewrite in_seq. rewrite Forall_forall in A3. specialize (A3 x H). lia.
      * intros [H|[_ H]]; auto.
  - apply NoDup_filter, NoDup_filter, seq_NoDup.
  - intros x H1. unfold S, U in H1. rewrite !filter_In in H1. destruct H1 as [[_ H1] _]. apply negb_true_iff, mem_false in H1. auto.
Qed.

(** the first dictator gets everything it wants, if that is at most [k] candidates *)
Theorem rsd_first_dictator : forall p k v order W, NoDup (approved v) -> length (approved v) <= k ->
  serial_outcome p k (v :: order) W -> incl (approved v) W.
Proof.
  intros p k v order W Hn Hl [_ H] c Hc. unfold wish_list in H. cbn [flat_map] in H.
  set (R := flat_map (fun v => isort (approved v)) order) in H.
  destruct (firsts_prefix R (isort (approved v))) as (t & E). rewrite E in H.
  assert (Hf : In c (firsts (isort (approved v)))) by (rewrite firsts_In, isort_In; auto).
  pose proof (firsts_length_add (isort (approved v)) []) as Hlen. cbn [app] in Hlen. rewrite isort_length in Hlen. simpl in Hlen.
  destruct (k <=? _).
  - rewrite H, isort_In, firstn_app. apply in_app_iff. left. rewrite firstn_all2 by lia. auto.
  - apply H. apply in_app_iff. auto.
Qed.

(** a voter that approves more than [k] candidates gets its first [k] if it is the first dictator *)
Theorem rsd_dictator_full : forall p k v order W, NoDup (approved v) -> k <= length (approved v) ->
  serial_outcome p k (v :: order) W -> W = firstn k (isort (approved v)).
Proof.
  intros p k v order W Hn Hl [HW H]. unfold wish_list in H. cbn [flat_map] in H.
  set (R := flat_map (fun v => isort (approved v)) order) in H.
  assert (Ef : firsts (isort (approved v)) = isort (approved v)).
  { assert (Hn' : NoDup (isort (approved v))) by (eapply Permutation_NoDup; [apply isort_perm|auto]).
    clear - Hn'. induction (isort (approved v)) as [|x l IH]; auto. inversion Hn'; subst. cbn. rewrite IH by auto. f_equal.
    rewrite remove_diff. clear - H1. induction l as [|y l IH]; auto. simpl. destruct (Nat.eqb_spec y x).
    - exfalso. apply H1. left. auto.
    - simpl. f_equal. apply IH. intros Hx. apply H1. right. auto. }
  destruct (firsts_prefix R (isort (approved v))) as (t & E). rewrite E, Ef in H.
  rewrite app_length, isort_length in H. destruct (Nat.leb_spec k (length (approved v) + length t)); [|lia].
  rewrite H, firstn_app, isort_length. replace (k - length (approved v)) with 0 by lia. rewrite firstn_O, app_nil_r.
  assert (Hsub : sublist (firstn k (isort (approved v))) (isort (approved v))).
  { generalize (isort (approved v)). clear. induction k as [|k IH]; intros [|x l]; cbn; constructor; auto. }
  apply isort_id. eapply sublist_ascending; [exact Hsub|]. apply isort_ascending. auto.
Qed.
