(** * Lemmas shared by the rule proofs *)
From Coq Require Import List Arith Bool ZArith QArith Lia Lqa Permutation Sorted.
From Verif Require Import Prelude Misc MiscProofs Preferences Scores ScoresProofs Search Spec RulesThiele.
Import ListNotations.
Open Scope nat_scope.

Definition valid_max (maxn : option nat) : Prop := match maxn with Some n => 1 <= n | None => True end.

(** ** committees and combinations *)

Lemma combos_committee : forall p k W,
  In W (combinations (candidates p) k) <-> is_committee p k W.
Proof. intros. unfold candidates. rewrite combinations_seq. reflexivity. Qed.

Lemma combos_ascending : forall p k, Forall ascending (combinations (candidates p) k).
Proof. intros. apply Forall_forall. intros W HW. apply combos_committee in HW as []. auto. Qed.

Lemma combos_NoDup : forall p k, NoDup (combinations (candidates p) k).
Proof. intros. apply combinations_NoDup, seq_NoDup. Qed.

Lemma committee_exists : forall p k, k <= num_cand p -> exists W, is_committee p k W.
Proof.
  intros p k H. exists (seq 0 k). split; [apply ascending_seq|]. split; [apply seq_length|].
  apply Forall_forall. intros c Hc. apply in_seq in Hc. lia.
Qed.

(** the committee whose members are those of a duplicate-free list *)
Lemma isort_committee : forall p k L, NoDup L -> length L = k ->
  Forall (fun c => c < num_cand p) L -> is_committee p k (isort L).
Proof.
  intros. split; [apply isort_ascending; auto|]. split; [rewrite isort_length; auto|].
  eapply Permutation_Forall; [apply isort_perm|auto].
Qed.

(** ** finishing lemmas for [answers] *)

Lemma in_printed_order_firstn : forall n l, in_printed_order l -> in_printed_order (firstn n l).
Proof.
  unfold in_printed_order. intros n l H. revert n. induction H; intros n; destruct n; simpl; try constructor; auto.
  rewrite Forall_forall in *. intros x Hx. apply H0. eapply firstn_In; eauto.
Qed.

Lemma sort_printed : forall cs, in_printed_order (sort_by committee_leb cs).
Proof. apply sort_committees_sorted. Qed.

Lemma cut_In : forall maxn l W, In W (cut maxn l) -> In W l.
Proof. destruct maxn; simpl; auto. intros. eapply firstn_In; eauto. Qed.

Lemma cut_NoDup : forall maxn l, NoDup l -> NoDup (cut maxn l).
Proof. destruct maxn; simpl; auto. intros. apply NoDup_firstn; auto. Qed.

Lemma cut_printed : forall maxn l, in_printed_order l -> in_printed_order (cut maxn l).
Proof. destruct maxn; simpl; auto. intros. apply in_printed_order_firstn; auto. Qed.

Lemma cut_nonempty : forall maxn l, valid_max maxn -> l <> [] -> cut maxn l <> [].
Proof.
  intros [n|] l Hm Hl; simpl; auto. simpl in Hm. destruct n; [lia|]. destruct l; [congruence|discriminate].
Qed.

Lemma printed_single : forall W, in_printed_order [W].
Proof. intros. repeat constructor. Qed.

Lemma sort_nonempty : forall cs, cs <> [] -> sort_by committee_leb cs <> [].
Proof.
  intros cs H E. apply H. apply length_zero_iff_nil.
  rewrite <- (sort_by_length _ committee_leb). rewrite E. auto.
Qed.

Lemma answers_irresolute_cut : forall (P : list nat -> Prop) maxn l cs,
  NoDup cs -> (forall W, In W cs <-> P W) -> l = cut maxn (sort_by committee_leb cs) ->
  answers P false maxn (Ok l).
Proof.
  intros P maxn l cs Hn HP ->. exists (cut maxn (sort_by committee_leb cs)).
  assert (Hn' : NoDup (sort_by committee_leb cs))
    by (eapply Permutation_NoDup; [apply sort_by_perm|auto]).
  split; auto. split; [apply cut_NoDup; auto|]. split; [apply cut_printed, sort_printed|]. split.
  - intros W HW. apply cut_In in HW. apply HP. apply sort_by_In in HW. auto.
  - destruct maxn as [n|]; simpl.
    + split; [apply firstn_le_length|]. intros Hl W HW.
      rewrite firstn_length in Hl. rewrite firstn_all2 by lia. apply sort_by_In. apply HP; auto.
    + intros W HW. apply sort_by_In. apply HP; auto.
Qed.

Lemma answers_resolute_one : forall (P : list nat -> Prop) maxn W, P W -> answers P true maxn (Ok [W]).
Proof.
  intros. exists [W]. split; auto. split; [repeat constructor; intros []|].
  split; [apply printed_single|]. split; auto. intros x [<-|[]]; auto.
Qed.

Lemma answers_finish : forall (P : list nat -> Prop) resolute maxn cs,
  Forall ascending cs -> NoDup cs -> cs <> [] -> (forall W, In W cs <-> P W) -> valid_max maxn ->
  answers P resolute maxn
    (do ds <- sorted_committees cs;
     if resolute then head_only (cut maxn ds) else Ok (cut maxn ds)).
Proof.
  intros P resolute maxn cs Ha Hn Hne HP Hm.
  rewrite sorted_committees_asc by auto. simpl. destruct resolute.
  - destruct (cut maxn (sort_by committee_leb cs)) as [|W l] eqn:E.
    + exfalso. revert E. apply cut_nonempty; auto. apply sort_nonempty; auto.
    + simpl. apply answers_resolute_one. apply HP.
      apply (sort_by_In _ committee_leb). apply (cut_In maxn). rewrite E. left; auto.
  - eapply answers_irresolute_cut; eauto.
Qed.

Lemma answers_finish' : forall (P : list nat -> Prop) resolute maxn cs,
  Forall ascending cs -> NoDup cs -> cs <> [] -> (forall W, In W cs <-> P W) -> valid_max maxn ->
  answers P resolute maxn
    (do ds <- sorted_committees cs;
     if resolute then rmap (cut maxn) (head_only ds) else Ok (cut maxn ds)).
Proof.
  intros P resolute maxn cs Ha Hn Hne HP Hm.
  rewrite sorted_committees_asc by auto. simpl. destruct resolute.
  - destruct (sort_by committee_leb cs) as [|W l] eqn:E.
    + exfalso. revert E. apply sort_nonempty; auto.
    + simpl. replace (cut maxn [W]) with [W].
      * apply answers_resolute_one. apply HP.
        apply (sort_by_In _ committee_leb). rewrite E. left; auto.
      * destruct maxn as [[|n]|]; simpl in *; auto; [lia|]. destruct n; auto.
  - eapply answers_irresolute_cut; eauto.
Qed.

(** the result of [dfs] followed by sorting *)
Lemma answers_dfs : forall (P : list nat -> Prop) maxn win,
  Forall ascending win -> NoDup win -> at_most maxn win ->
  (forall W, In W win -> P W) ->
  ((maxn = None \/ exists n, maxn = Some n /\ length win < n) -> forall W, P W -> In W win) ->
  answers P false maxn (sorted_committees win).
Proof.
  intros P maxn win Ha Hn Hm HP HC. rewrite sorted_committees_asc by auto.
  exists (sort_by committee_leb win). split; auto.
  split; [eapply Permutation_NoDup; [apply sort_by_perm|auto]|].
  split; [apply sort_printed|]. split.
  - intros W HW. apply sort_by_In in HW. auto.
  - destruct maxn as [n|]; simpl in *.
    + rewrite sort_by_length. split; auto. intros Hl W HW. apply sort_by_In. apply HC; eauto.
    + intros W HW. apply sort_by_In. apply HC; auto.
Qed.

(** every answer is non-empty when there is a winner *)
Lemma answers_nonempty : forall (P : list nat -> Prop) resolute maxn r, (exists W, P W) -> valid_max maxn ->
  answers P resolute maxn r -> exists l, r = Ok l /\ l <> [].
Proof.
  intros P resolute maxn r (W & HW) Hm (l & -> & Hn & Hs & HP & HC). exists l. split; auto.
  intros ->. destruct resolute; [discriminate|]. destruct maxn as [n|].
  - destruct HC as [_ HC]. simpl in *. apply (HC ltac:(lia) W HW).
  - apply (HC W HW).
Qed.

(** ** arg max over an array *)

Lemma nthQ_In : forall l i, i < length l -> In (nthQ l i) l.
Proof. intros. apply nth_In; auto. Qed.
Lemma In_nthQ : forall l x, In x l -> exists i, i < length l /\ nthQ l i = x.
Proof. intros l x H. destruct (In_nth l x 0%Q H) as (i & Hi & E). exists i. split; auto. Qed.

Lemma py_max_spec : forall l, l <> [] -> exists mx, py_max l = Ok mx /\
  (exists i, i < length l /\ nthQ l i = mx) /\ (forall i, i < length l -> (nthQ l i <= mx)%Q).
Proof.
  intros [|x r] H; [congruence|]. simpl. exists (Qmaxl x r). split; auto.
  destruct (Qmaxl_spec r x) as [H1 H2]. split.
  - apply In_nthQ in H1. auto.
  - intros i Hi. apply H2. apply nthQ_In; auto.
Qed.

Lemma py_min_spec : forall l, l <> [] -> exists mn, py_min l = Ok mn /\
  (exists i, i < length l /\ nthQ l i = mn) /\ (forall i, i < length l -> (mn <= nthQ l i)%Q).
Proof.
  intros [|x r] H; [congruence|]. simpl. exists (Qminl x r). split; auto.
  destruct (Qminl_spec r x) as [H1 H2]. split.
  - apply In_nthQ in H1. auto.
  - intros i Hi. apply H2. apply nthQ_In; auto.
Qed.

Definition is_argmax (l : list Q) (c : nat) : Prop :=
  c < length l /\ forall d, d < length l -> (nthQ l d <= nthQ l c)%Q.
Definition is_argmin (l : list Q) (c : nat) : Prop :=
  c < length l /\ forall d, d < length l -> (nthQ l c <= nthQ l d)%Q.

Lemma argmax_filter_eq : forall l, l <> [] -> exists mx, py_max l = Ok mx /\
  forall n, n = length l ->
  (forall c, In c (filter (fun c => Qeq_bool (nthQ l c) mx) (seq 0 n)) <-> is_argmax l c) /\
  (forall c, In c (filter (fun c => Qle_bool mx (nthQ l c)) (seq 0 n)) <-> is_argmax l c) /\
  exists c, is_argmax l c.
Proof.
  intros l Hl. destruct (py_max_spec l Hl) as (mx & E & (i & Hi & Ei) & Hmax).
  exists mx. split; auto. intros n ->. split; [|split].
  - intro c. rewrite filter_In, in_seq. split.
    + intros [Hc Eq]. qbool. split; [lia|]. intros d Hd. rewrite Eq. auto.
    + intros [Hc Hm]. split; [lia|]. apply Qeq_bool_iff. apply Qle_antisym; auto. rewrite <- Ei. auto.
  - intro c. rewrite filter_In, in_seq. split.
    + intros [Hc Eq]. qbool. split; [lia|]. intros d Hd. eapply Qle_trans; [apply Hmax; auto|auto].
    + intros [Hc Hm]. split; [lia|]. apply Qle_bool_iff. rewrite <- Ei. auto.
  - exists i. split; auto. intros. rewrite Ei. auto.
Qed.

Lemma argmin_filter_eq : forall l, l <> [] -> exists mn, py_min l = Ok mn /\
  forall n, n = length l ->
  (forall c, In c (filter (fun c => Qeq_bool (nthQ l c) mn) (seq 0 n)) <-> is_argmin l c) /\
  (forall c, In c (filter (fun c => Qle_bool (nthQ l c) mn) (seq 0 n)) <-> is_argmin l c) /\
  exists c, is_argmin l c.
Proof.
  intros l Hl. destruct (py_min_spec l Hl) as (mn & E & (i & Hi & Ei) & Hmin).
  exists mn. split; auto. intros n ->. split; [|split].
  - intro c. rewrite filter_In, in_seq. split.
    + intros [Hc Eq]. qbool. split; [lia|]. intros d Hd. rewrite Eq. auto.
    + intros [Hc Hm]. split; [lia|]. apply Qeq_bool_iff. apply Qle_antisym; auto. rewrite <- Ei. auto.
  - intro c. rewrite filter_In, in_seq. split.
    + intros [Hc Eq]. qbool. split; [lia|]. intros d Hd. eapply Qle_trans; [eassumption|apply Hmin; auto].
    + intros [Hc Hm]. split; [lia|]. apply Qle_bool_iff. rewrite <- Ei. auto.
  - exists i. split; auto. intros. rewrite Ei. auto.
Qed.

Lemma ascending_filter : forall f l, ascending l -> ascending (filter f l).
Proof. intros. eapply sublist_ascending; eauto using filter_sublist. Qed.

Lemma ascending_head_le : forall c l d, ascending (c :: l) -> In d (c :: l) -> c <= d.
Proof.
  intros c l d H Hd. inversion H; subst. destruct Hd as [->|Hd]; auto.
  rewrite Forall_forall in H3. specialize (H3 _ Hd). lia.
Qed.

(** ** pigeonhole: some candidate outside *)
Lemma outside_exists : forall m W, NoDup W -> length W < m ->
  exists c, c < m /\ ~ In c W.
Proof.
  intros m W Hn Hl.
  destruct (filter (fun c => negb (mem c W)) (seq 0 m)) as [|c l] eqn:E.
  - exfalso. assert (Hi : incl (seq 0 m) W).
    { intros c Hc. destruct (mem c W) eqn:Em; [apply mem_In; auto|].
      assert (In c (filter (fun c => negb (mem c W)) (seq 0 m))) by (apply filter_In; rewrite Em; auto).
      rewrite E in H. destruct H. }
    apply NoDup_incl_length in Hi; [|apply seq_NoDup]. rewrite seq_length in Hi. lia.
  - assert (Hc : In c (filter (fun c => negb (mem c W)) (seq 0 m))) by (rewrite E; left; auto).
    apply filter_In in Hc as [Hc1 Hc2]. apply in_seq in Hc1. exists c. split; [lia|].
    apply mem_false. apply negb_true_iff; auto.
Qed.
