(** * The Monroe score computed through networkx is the best assignment *)
From Coq Require Import List Arith Bool ZArith QArith Lia Permutation.
From Verif Require Import Prelude Misc MiscProofs Preferences Spec RulesMonroe SpecMonroe.
Import ListNotations.
Open Scope nat_scope.

Notation cnt := (count_occ Nat.eq_dec).

(** ** Completing a partial assignment *)
Section Fill.
  Variable psi : nat -> option nat.
  Fixpoint fill (is rest : list nat) : list nat :=
    match is with
    | [] => []
    | i :: r =>
        match psi i with
        | Some c => c :: fill r rest
        | None => match rest with c :: rest' => c :: fill r rest' | [] => 0 :: fill r [] end
        end
    end.
  Definition used (is : list nat) : list nat :=
    flat_map (fun i => match psi i with Some c => [c] | None => [] end) is.

  Lemma fill_length : forall is rest, length (fill is rest) = length is.
  Proof.
    induction is as [|i r IH]; intros rest; simpl; auto. destruct (psi i).
    - simpl. rewrite IH. auto.
    - destruct rest; simpl; rewrite IH; auto.
  Qed.
  Lemma fill_perm : forall is rest, length rest + length (used is) = length is ->
    Permutation (fill is rest) (used is ++ rest).
  Proof.
    induction is as [|i r IH]; intros rest H; simpl in *.
    - destruct rest; simpl in *; auto; lia.
    - destruct (psi i) as [c|]; simpl in *.
      + constructor. apply IH. lia.
      + destruct rest as [|c rest]; simpl in *.
        * assert (length (used r) <= length r).
          { clear. induction r; simpl; auto. rewrite app_length. destruct (psi a); simpl; lia. }
          unfold used in *. lia.
        * eapply perm_trans; [apply perm_skip; apply IH; lia|]. apply Permutation_middle.
  Qed.
  Lemma fill_nth : forall is rest j c, psi (nth j is 0) = Some c -> j < length is -> nth j (fill is rest) 0 = c.
  Proof.
    induction is as [|i r IH]; intros rest j c H Hj; simpl in *; [lia|].
    destruct j as [|j].
    - rewrite H. reflexivity.
    - destruct (psi i); [simpl; apply IH; auto; lia|]. destruct rest; simpl; apply IH; auto; lia.
  Qed.
End Fill.

Definition slots (W : list nat) (q : nat -> nat) (u : list nat) : list nat :=
  flat_map (fun c => repeat c (q c - cnt u c)) W.

Lemma cnt_flat_repeat : forall (g : nat -> nat) W c, NoDup W ->
  cnt (flat_map (fun d => repeat d (g d)) W) c = if in_dec Nat.eq_dec c W then g c else 0.
Proof.
  intros g W c. induction W as [|d W IH]; intros H; [reflexivity|].
  inversion H; subst. cbn [flat_map]. rewrite count_occ_app, IH by auto.
  destruct (Nat.eq_dec d c) as [->|Hne].
  - rewrite count_occ_repeat_eq by auto. destruct (in_dec Nat.eq_dec c W); [contradiction|].
    destruct (in_dec Nat.eq_dec c (c :: W)) as [_|Hx]; [lia|]. exfalso. apply Hx. left. auto.
  - rewrite count_occ_repeat_neq by auto. rewrite Nat.add_0_l.
    destruct (in_dec Nat.eq_dec c W) as [i|i]; destruct (in_dec Nat.eq_dec c (d :: W)) as [j|j]; auto.
    + exfalso. apply j. right. auto.
    + destruct j; [congruence|contradiction].
Qed.

Lemma length_cnt_sum : forall W u, NoDup W -> incl u W -> length u = list_sum (map (cnt u) W).
Proof.
  intros W u HW. induction u as [|c u IH]; intros Hi.
  - simpl. clear. induction W; simpl; auto.
  - simpl length. rewrite IH by (intros x Hx; apply Hi; right; auto).
    assert (Hc : In c W) by (apply Hi; left; auto). clear IH Hi. revert Hc HW. induction W as [|d W IH]; [intros []|].
    intros Hc HW. inversion HW; subst. cbn [map list_sum fold_right]. change (fold_right Nat.add 0) with list_sum.
    destruct (Nat.eq_dec c d) as [->|Hne].
    + rewrite (count_occ_cons_eq Nat.eq_dec u eq_refl). replace (map (cnt (d :: u)) W) with (map (cnt u) W); [lia|].
      apply map_ext_in. intros x Hx. rewrite count_occ_cons_neq; auto. intros ->; auto.
    + rewrite (count_occ_cons_neq Nat.eq_dec) by auto. destruct Hc; [congruence|]. rewrite <- IH; auto; lia.
Qed.

Lemma list_sum_le : forall (f g : nat -> nat) W, (forall c, In c W -> f c <= g c) -> list_sum (map f W) <= list_sum (map g W).
Proof.
  intros f g W H. induction W as [|c W IH]; simpl; auto. 
  pose proof (H c (or_introl eq_refl)). assert (list_sum (map f W) <= list_sum (map g W)) by (apply IH; intros; apply H; right; auto). lia.
Qed.
Lemma list_sum_sub : forall (f g : nat -> nat) W, (forall c, In c W -> g c <= f c) ->
  list_sum (map (fun c => f c - g c) W) + list_sum (map g W) = list_sum (map f W).
Proof.
  intros f g W H. induction W as [|c W IH]; simpl; auto.
  pose proof (H c (or_introl eq_refl)). rewrite <- IH by (intros; apply H; right; auto). lia.
Qed.

Lemma flat_map_repeat_length : forall (g : nat -> nat) W, length (flat_map (fun c => repeat c (g c)) W) = list_sum (map g W).
Proof. intros g W. induction W; simpl; auto. rewrite app_length, repeat_length, IHW. reflexivity. Qed.

Lemma extend_assignment : forall W (q : nat -> nat) n psi, NoDup W -> list_sum (map q W) = n ->
  (forall i c, i < n -> psi i = Some c -> In c W) ->
  (forall c, In c W -> cnt (used psi (seq 0 n)) c <= q c) ->
  exists phi, length phi = n /\ Forall (fun c => In c W) phi /\ (forall c, In c W -> cnt phi c = q c) /\
    forall i c, i < n -> psi i = Some c -> nth i phi 0 = c.
Proof.
  intros W q n psi HW Hq Hpsi Hc.
  set (u := used psi (seq 0 n)) in *. set (rest := slots W q u).
  assert (Hu : incl u W).
  { intros c Hin. unfold u, used in Hin. apply in_flat_map in Hin as (i & Hi & Hin). apply in_seq in Hi.
    destruct (psi i) as [d|] eqn:E; [|destruct Hin]. destruct Hin as [<-|[]]. eapply Hpsi; eauto. lia. }
  assert (Hl : length rest + length u = n).
  { unfold rest, slots. rewrite flat_map_repeat_length, (length_cnt_sum W u) by auto.
    rewrite list_sum_sub by auto. auto. }
  assert (HP : Permutation (fill psi (seq 0 n) rest) (u ++ rest)).
  { apply fill_perm. rewrite seq_length. auto. }
  exists (fill psi (seq 0 n) rest). split; [rewrite fill_length, seq_length; auto|]. split; [|split].
  - apply Forall_forall. intros c Hin. apply (Permutation_in _ HP) in Hin. apply in_app_iff in Hin as [Hin|Hin].
    + auto.
    + unfold rest, slots in Hin. apply in_flat_map in Hin as (d & Hd & Hin). apply repeat_spec in Hin. subst. auto.
  - intros c Hin. rewrite (proj1 (Permutation_count_occ Nat.eq_dec _ _) HP), count_occ_app.
    unfold rest, slots. rewrite (cnt_flat_repeat (fun c => q c - cnt u c)) by auto.
    destruct (in_dec Nat.eq_dec c W); [|contradiction]. specialize (Hc c Hin). lia.
  - intros i c Hi E. apply fill_nth; [|rewrite seq_length; auto]. rewrite seq_nth by auto. auto.
Qed.

(** ** Votes by index *)
Lemma voter_approves_nth : forall p i c v, nth_error (voters p) i = Some v -> voter_approves p i c = approves v c.
Proof. intros p i c v E. unfold voter_approves. rewrite E. reflexivity. Qed.

Lemma represented_gen : forall (vs : list voter) phi off p, length phi = length vs ->
  (forall i, nth_error vs i = nth_error (voters p) (off + i)) ->
  length (filter (fun vc => approves (fst vc) (snd vc)) (combine vs phi)) =
  length (filter (fun i => voter_approves p i (nth (i - off) phi 0)) (seq off (length vs))).
Proof.
  induction vs as [|v vs IH]; intros phi off p Hl Hn; [reflexivity|].
  destruct phi as [|c phi]; [discriminate|]. cbn [combine filter fst snd length seq].
  rewrite Nat.sub_diag. cbn [nth].
  assert (E : voter_approves p off c = approves v c).
  { apply voter_approves_nth. specialize (Hn 0). rewrite Nat.add_0_r in Hn. rewrite <- Hn. reflexivity. }
  assert (E2 : length (filter (fun vc => approves (fst vc) (snd vc)) (combine vs phi)) =
    length (filter (fun i => voter_approves p i (nth (i - off) (c :: phi) 0)) (seq (S off) (length vs)))).
  { rewrite (IH phi (S off) p).
    - f_equal. apply filter_ext_in. intros i Hi. apply in_seq in Hi. replace (i - off) with (S (i - S off)) by lia. reflexivity.
    - simpl in Hl. lia.
    - intros i. specialize (Hn (S i)). simpl in Hn. rewrite Hn. f_equal. lia. }
  rewrite E. destruct (approves v c); cbn [length]; rewrite E2; reflexivity.
Qed.

Lemma represented_ids : forall p phi, length phi = length (voters p) ->
  represented p phi = length (filter (fun i => voter_approves p i (nth i phi 0)) (seq 0 (length (voters p)))).
Proof.
  intros p phi H. unfold represented. rewrite (represented_gen (voters p) phi 0 p); auto.
  f_equal. apply filter_ext. intros i. rewrite Nat.sub_0_r. reflexivity.
Qed.

(** ** Matchings and assignments *)
Lemma in_matching_graph : forall p W i c j, In (i, (c, j)) (matching_graph p W) <->
  In c W /\ j < length (voters p) / length W /\ i < length (voters p) /\ voter_approves p i c = true.
Proof.
  intros p W i c j. unfold matching_graph. rewrite in_flat_map. split.
  - intros (d & Hd & H). apply in_flat_map in H as (j' & Hj & H). apply in_map_iff in H as (i' & E & H).
    inversion E; subst. apply filter_In in H as [H1 H2]. apply in_seq in H1, Hj. repeat split; auto; lia.
  - intros (Hc & Hj & Hi & Ha). exists c. split; auto. apply in_flat_map. exists j. split; [apply in_seq; lia|].
    apply in_map_iff. exists i. split; auto. apply filter_In. split; auto. apply in_seq. lia.
Qed.

Fixpoint assoc (M : list match_edge) (i : nat) : option nat :=
  match M with [] => None | (i', (c, _)) :: r => if i =? i' then Some c else assoc r i end.

Lemma assoc_In : forall M i c, assoc M i = Some c -> exists j, In (i, (c, j)) M.
Proof.
  induction M as [|[i' [c' j']] M IH]; simpl; [discriminate|]. intros i c.
  destruct (Nat.eqb_spec i i') as [->|Hne]; intros H.
  - inversion H; subst. eauto.
  - apply IH in H as (j & Hj). eauto.
Qed.
Lemma In_assoc : forall M i c j, NoDup (map fst M) -> In (i, (c, j)) M -> assoc M i = Some c.
Proof.
  induction M as [|[i' [c' j']] M IH]; simpl; [intros ? ? ? ? []|]. intros i c j Hn H. inversion Hn; subst.
  destruct (Nat.eqb_spec i i') as [->|Hne].
  - destruct H as [E|H]; [inversion E; subst; auto|]. exfalso. apply H2. apply in_map_iff. exists (i', (c, j)). auto.
  - destruct H as [E|H]; [inversion E; subst; congruence|]. eapply IH; eauto.
Qed.

Lemma used_cnt : forall psi is c, cnt (used psi is) c =
  length (filter (fun i => match psi i with Some d => d =? c | None => false end) is).
Proof.
  intros psi is c. induction is as [|i is IH]; [reflexivity|]. cbn [used flat_map filter]. unfold used in IH.
  rewrite count_occ_app, IH. destruct (psi i) as [d|]; [|reflexivity]. simpl.
  destruct (Nat.eq_dec d c) as [->|Hne].
  - rewrite Nat.eqb_refl. reflexivity.
  - apply Nat.eqb_neq in Hne. rewrite Hne. reflexivity.
Qed.

Lemma sum_const : forall (W : list nat) s, list_sum (map (fun _ => s) W) = length W * s.
Proof. intros W s. induction W as [|c W IH]; [reflexivity|]. cbn [map length]. change (s + list_sum (map (fun _ => s) W) = S (length W) * s). rewrite IH. reflexivity. Qed.

Lemma div_exact' : forall n k, k <> 0 -> n mod k = 0 -> k * (n / k) = n.
Proof. intros n k Hk Hm. rewrite (Nat.div_mod n k) at 2 by auto. lia. Qed.
Lemma ceil_exact : forall n k, k <> 0 -> n mod k = 0 -> (n + (k - 1)) / k = n / k.
Proof.
  intros n k Hk Hm. rewrite <- (div_exact' n k Hk Hm) at 1. rewrite Nat.mul_comm, Nat.div_add_l by auto.
  rewrite (Nat.div_small (k - 1) k) by lia. lia.
Qed.
Lemma ceil_inexact : forall n k, k <> 0 -> n mod k <> 0 -> (n + (k - 1)) / k = n / k + 1.
Proof.
  intros n k Hk Hm. pose proof (Nat.div_mod n k Hk) as E. pose proof (Nat.mod_upper_bound n k Hk).
  set (a := n / k) in *. set (b := n mod k) in *. clearbody a b.
  replace (n + (k - 1)) with ((a + 1) * k + (b - 1)) by (rewrite Nat.mul_add_distr_r; lia).
  rewrite Nat.div_add_l by auto. rewrite (Nat.div_small (b - 1) k); lia.
Qed.

Section Matching.
  Variables (p : profile) (W : list nat).
  Hypothesis HW : NoDup W.
  Hypothesis Hne : W <> [].
  Let n := length (voters p).
  Let k := length W.
  Let s := n / k.

  Lemma k_pos : k <> 0.
  Proof using Hne. clear - Hne. subst k. destruct W; [congruence|discriminate]. Qed.

  (** a matching gives an assignment *)
  Lemma matching_to_assignment : n mod k = 0 -> forall M, is_matching (matching_graph p W) M ->
    exists phi, monroe_assignment p W phi /\ length M <= represented p phi.
  Proof using HW Hne.
    intros Hm M (HM & Hf & Hs). pose proof k_pos as Hk.
    destruct (extend_assignment W (fun _ => s) n (assoc M)) as (phi & A & B & C & D); auto.
    - rewrite sum_const. apply div_exact'; auto.
    - intros i c _ E. apply assoc_In in E as (j & Hj). apply HM in Hj. apply in_matching_graph in Hj. tauto.
    - intros c Hc. rewrite used_cnt.
      set (Mc := filter (fun e => fst (snd e) =? c) M).
      transitivity (length Mc).
      + rewrite <- (map_length fst Mc). apply NoDup_incl_length; [apply NoDup_filter, seq_NoDup|].
        intros i Hi. apply filter_In in Hi as [Hi E]. destruct (assoc M i) as [d|] eqn:Ed; [|discriminate].
        apply Nat.eqb_eq in E. subst d. apply assoc_In in Ed as (j & Hj). apply in_map_iff. exists (i, (c, j)). split; auto.
        apply filter_In. split; auto. apply Nat.eqb_refl.
      + rewrite <- (map_length (fun e => snd (snd e)) Mc), <- (seq_length s 0). apply NoDup_incl_length.
        * assert (H : NoDup (map snd Mc)).
          { unfold Mc. clear - Hs. induction M as [|e M IH]; simpl; [constructor|]. inversion Hs; subst.
            destruct (fst (snd e) =? c); auto. simpl. constructor; auto. intros H. apply H1.
            apply in_map_iff in H as (x & E & H). apply filter_In in H as [H _]. apply in_map_iff. eauto. }
          assert (H2 : forall e, In e Mc -> fst (snd e) = c).
          { intros e He. apply filter_In in He as [_ He]. apply Nat.eqb_eq in He. auto. }
          clearbody Mc. clear - H H2. induction Mc as [|[i [d j]] Mc IH]; simpl; [constructor|]. simpl in H. inversion H; subst.
          constructor; [|apply IH; auto; intros e He; apply H2; right; auto].
          intros Hin. apply in_map_iff in Hin as ([i' [d' j']] & E & Hin). simpl in E. subst j'. apply H3.
          pose proof (H2 _ (or_introl eq_refl)) as E1. pose proof (H2 _ (or_intror Hin)) as E2. simpl in E1, E2. subst.
          apply in_map_iff. eexists; split; [|exact Hin]. reflexivity.
        * intros j Hj. apply in_map_iff in Hj as ([i [d j']] & E & Hj). simpl in E. subst j'. apply filter_In in Hj as [Hj _].
          apply HM in Hj. apply in_matching_graph in Hj as (_ & Hj & _). apply in_seq. subst s k n. lia.
    - exists phi. split.
      + split; [exact A|]. split; auto. intros c Hc. rewrite C by auto. fold n k. rewrite ceil_exact by auto. subst s. lia.
      + rewrite represented_ids by exact A. replace (length M) with (length (map fst M)) by apply map_length. apply NoDup_incl_length; auto.
        intros i Hi. apply in_map_iff in Hi as ([i' [c j]] & E & Hi). simpl in E. subst i'.
        pose proof (HM _ Hi) as HG. apply in_matching_graph in HG as (H1 & H2 & H3 & H4).
        apply filter_In. split; [apply in_seq; lia|].
        rewrite (D i c); auto. eapply In_assoc; eauto.
  Qed.

  (** an assignment gives a matching *)
  Definition rank (phi : list nat) (i : nat) : nat := cnt (firstn i phi) (nth i phi 0).

  Lemma cnt_firstn_S : forall phi i, i < length phi -> cnt (firstn (S i) phi) (nth i phi 0) = S (rank phi i).
  Proof using.
    clear. unfold rank. intros phi i H. rewrite <- (firstn_skipn i (firstn (S i) phi)), firstn_firstn, Nat.min_l by lia.
    rewrite count_occ_app. replace (skipn i (firstn (S i) phi)) with [nth i phi 0].
    - simpl. destruct (Nat.eq_dec (nth i phi 0) (nth i phi 0)); [lia|congruence].
    - revert i H. induction phi as [|x phi IH]; simpl; intros i H; [lia|]. destruct i; [reflexivity|]. simpl. apply IH. lia.
  Qed.
  Lemma cnt_firstn_mono : forall phi i j c, i <= j -> cnt (firstn i phi) c <= cnt (firstn j phi) c.
  Proof using.
    clear. intros phi i j c H. rewrite <- (firstn_skipn i (firstn j phi)), firstn_firstn, Nat.min_l by auto.
    rewrite count_occ_app. lia.
  Qed.

  Lemma assignment_to_matching : n mod k = 0 -> forall phi, monroe_assignment p W phi ->
    exists M, is_matching (matching_graph p W) M /\ length M = represented p phi.
  Proof using HW Hne.
    intros Hm phi (A & B & C). pose proof k_pos as Hk. fold n k in A, C. rewrite ceil_exact in C by auto.
    set (R := filter (fun i => voter_approves p i (nth i phi 0)) (seq 0 n)).
    exists (map (fun i => (i, (nth i phi 0, rank phi i))) R). split.
    - split; [|split].
      + intros [i [c j]] H. apply in_map_iff in H as (i' & E & H). inversion E; subst i' c j. clear E.
        apply filter_In in H as [H1 H2]. apply in_seq in H1. apply in_matching_graph.
        assert (Hin : In (nth i phi 0) W). { rewrite Forall_forall in B. apply B. apply nth_In. lia. }
        split; auto. split; [|split; auto; fold n; lia].
        fold n k. specialize (C _ Hin). pose proof (cnt_firstn_S phi i ltac:(lia)) as E.
        pose proof (cnt_firstn_mono phi (S i) (length phi) (nth i phi 0) ltac:(lia)) as E2.
        rewrite firstn_all in E2. lia.
      + rewrite map_map. simpl. rewrite map_id. apply NoDup_filter, seq_NoDup.
      + rewrite map_map. simpl.
        assert (HR : forall i, In i R -> i < length phi). { intros i Hi. apply filter_In in Hi as [Hi _]. apply in_seq in Hi. lia. }
        assert (Hnd : NoDup R) by (apply NoDup_filter, seq_NoDup).
        assert (Hinj : forall i j, i < length phi -> j < length phi -> (nth i phi 0, rank phi i) = (nth j phi 0, rank phi j) -> i = j).
        { assert (Hlt : forall i j, i < j -> j < length phi -> nth i phi 0 = nth j phi 0 -> rank phi i < rank phi j).
          { intros i j Hij Hj E. pose proof (cnt_firstn_S phi i ltac:(lia)) as E1.
            pose proof (cnt_firstn_mono phi (S i) j (nth i phi 0) ltac:(lia)) as E2. unfold rank at 2. rewrite <- E. lia. }
          intros i j Hi Hj E. inversion E. destruct (Nat.lt_trichotomy i j) as [H|[H|H]]; auto.
          - specialize (Hlt i j H Hj H0). lia.
          - specialize (Hlt j i H Hi (eq_sym H0)). lia. }
        clear - HR Hnd Hinj. induction R as [|i R IH]; simpl; constructor.
        * inversion Hnd; subst. intros H. apply in_map_iff in H as (j & E & H). apply H1.
          rewrite <- (Hinj j i); auto; apply HR; [right|left]; auto.
        * inversion Hnd; subst. apply IH; auto. intros; apply HR; right; auto.
    - rewrite map_length. rewrite represented_ids by exact A. reflexivity.
  Qed.

  Lemma monroescore_matching_correct : forall nx, networkx_correct nx -> n mod k = 0 ->
    exists s', monroescore_matching nx p W = Ok (Z.of_nat s') /\ is_monroe_score p W s'.
  Proof using HW Hne.
    intros nx [Hx _] Hm. specialize (Hx (matching_graph p W)) as [HM Hmax].
    set (M := maximum_matching nx (matching_graph p W)) in *.
    exists (length M). split.
    - unfold monroescore_matching. fold n k. rewrite Hm. cbn [Nat.eqb negb]. do 2 f_equal. fold M.
      rewrite Nat.mul_comm. apply Nat.div_mul. lia.
    - assert (Hup : forall phi, monroe_assignment p W phi -> represented p phi <= length M).
      { intros phi H. destruct (assignment_to_matching Hm phi H) as (M' & HM' & <-). auto. }
      split; auto. destruct (matching_to_assignment Hm M HM) as (phi & H1 & H2). exists phi. split; auto.
      specialize (Hup phi H1). lia.
  Qed.
End Matching.
