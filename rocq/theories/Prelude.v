(** * Prelude: Python-level vocabulary shared by every model file.

    Exceptions are values ([result]); Python sets of candidates are
    duplicate-free lists; Python's [int]/[Fraction]/[mpq] numbers are
    rationals [Q] compared with [==], never with Leibniz equality. *)
From Coq Require Import List Arith Bool QArith Lia Lqa Permutation Sorted.
Import ListNotations.
Open Scope nat_scope.

(** ** Exceptions *)

(** The Python exception classes raised by the modelled code.  [OutOfFuel]
    is not a Python exception: it is what a fuelled loop of the model
    returns when its fuel runs out, and theorems show it never happens. *)
Inductive exn :=
| ValueError | TypeError | KeyError | IndexError | RuntimeError
| ZeroDivisionError | NotImplementedError | ImportError
| UnknownRuleIDError | UnknownAlgorithm | NoAvailableAlgorithm
| UnknownScoreFunctionError | MalformattedFile | OutOfFuel.

Inductive result (A : Type) := Ok (a : A) | Err (e : exn).
Arguments Ok {A} _.
Arguments Err {A} _.

Definition rbind {A B} (r : result A) (f : A -> result B) : result B :=
  match r with Ok a => f a | Err e => Err e end.
Definition rmap {A B} (f : A -> B) (r : result A) : result B :=
  match r with Ok a => Ok (f a) | Err e => Err e end.
Notation "'do' x <- r ; k" := (rbind r (fun x => k))
  (at level 200, x pattern, r at level 100, k at level 200, right associativity).

Fixpoint rmapM {A B} (f : A -> result B) (l : list A) : result (list B) :=
  match l with
  | [] => Ok []
  | x :: r => do y <- f x; do ys <- rmapM f r; Ok (y :: ys)
  end.

(** ** Python sets of candidates as lists *)

(** [x in s] *)
Definition mem (x : nat) (l : list nat) : bool := existsb (Nat.eqb x) l.
(** [s & t] *)
Definition inter (a b : list nat) : list nat := filter (fun x => mem x b) a.
(** [s - t] *)
Definition diff (a b : list nat) : list nat := filter (fun x => negb (mem x b)) a.
(** [set(l)] *)
Definition dedup (l : list nat) : list nat := nodup Nat.eq_dec l.
(** [s == t] on sets *)
Definition set_eqb (a b : list nat) : bool :=
  forallb (fun x => mem x b) a && forallb (fun x => mem x a) b.
(** [len(set(l)) == len(l)] *)
Fixpoint nodupb (l : list nat) : bool :=
  match l with [] => true | x :: r => negb (mem x r) && nodupb r end.

(** ** itertools *)

(** [itertools.combinations(l, k)], in the order Python yields them. *)
Fixpoint combinations {A} (l : list A) (k : nat) : list (list A) :=
  match k, l with
  | 0, _ => [[]]
  | S _, [] => []
  | S k', x :: r => map (cons x) (combinations r k') ++ combinations r k
  end.

(** ** Sorting: [sorted(l, key=...)] is a stable sort *)

Section Sorting.
  Context {A : Type} (leb : A -> A -> bool).
  Fixpoint insert_by (x : A) (l : list A) : list A :=
    match l with
    | [] => [x]
    | y :: r => if leb x y then x :: y :: r else y :: insert_by x r
    end.
  Fixpoint sort_by (l : list A) : list A :=
    match l with [] => [] | x :: r => insert_by x (sort_by r) end.
End Sorting.

Definition isort : list nat -> list nat := sort_by Nat.leb.

(** ** Rational helpers *)

Definition Qltb (x y : Q) : bool := negb (Qle_bool y x).
Definition Qsum (l : list Q) : Q := fold_right Qplus 0%Q l.
Definition Qnat (n : nat) : Q := inject_Z (Z.of_nat n).

(** [max(l)] / [min(l)] of a non-empty list of numbers ([x] is its head). *)
Fixpoint Qmaxl (x : Q) (l : list Q) : Q :=
  match l with [] => x | y :: r => Qmaxl (if Qltb x y then y else x) r end.
Fixpoint Qminl (x : Q) (l : list Q) : Q :=
  match l with [] => x | y :: r => Qminl (if Qltb y x then y else x) r end.
(** Python [max(l)]: [ValueError] on an empty sequence. *)
Definition py_max (l : list Q) : result Q :=
  match l with [] => Err ValueError | x :: r => Ok (Qmaxl x r) end.
Definition py_min (l : list Q) : result Q :=
  match l with [] => Err ValueError | x :: r => Ok (Qminl x r) end.
(** Python [l.index(x)]. *)
Fixpoint Qindex (x : Q) (l : list Q) : option nat :=
  match l with
  | [] => None
  | y :: r => if Qeq_bool y x then Some 0 else option_map S (Qindex x r)
  end.

(** ** Python lists used as arrays *)

Definition nthQ (l : list Q) (i : nat) : Q := nth i l 0%Q.
(** [l[i] = f(l[i])] *)
Fixpoint upd {A} (f : A -> A) (i : nat) (l : list A) : list A :=
  match i, l with
  | _, [] => []
  | 0, x :: r => f x :: r
  | S i', x :: r => x :: upd f i' r
  end.

(* ================================================================ *)
(** * Basic facts *)

Lemma mem_In : forall x l, mem x l = true <-> In x l.
Proof.
  intros x l. unfold mem. rewrite existsb_exists. split.
  - intros (y & Hy & E). apply Nat.eqb_eq in E. subst; auto.
  - intros H. exists x. rewrite Nat.eqb_refl. auto.
Qed.

Lemma mem_false : forall x l, mem x l = false <-> ~ In x l.
Proof.
  intros x l. rewrite <- mem_In. destruct (mem x l); split; intros; congruence.
Qed.

Lemma mem_cons : forall x y l, mem x (y :: l) = (x =? y) || mem x l.
Proof. reflexivity. Qed.

Lemma mem_app : forall x a b, mem x (a ++ b) = mem x a || mem x b.
Proof. intros. unfold mem. apply existsb_app. Qed.

Lemma mem_ext : forall l l', (forall x, In x l <-> In x l') -> forall x, mem x l = mem x l'.
Proof.
  intros l l' H x. destruct (mem x l) eqn:E.
  - symmetry. apply mem_In. apply H. apply mem_In; auto.
  - symmetry. apply mem_false. intro. apply mem_false in E. apply E, H; auto.
Qed.

Lemma nodupb_NoDup : forall l, nodupb l = true <-> NoDup l.
Proof.
  induction l as [|x r IH]; simpl.
  - split; auto using NoDup_nil.
  - rewrite andb_true_iff, negb_true_iff, mem_false, IH. split.
    + intros []. constructor; auto.
    + intros H; inversion H; auto.
Qed.

Lemma inter_In : forall x a b, In x (inter a b) <-> In x a /\ In x b.
Proof. intros. unfold inter. rewrite filter_In, mem_In. tauto. Qed.

Lemma diff_In : forall x a b, In x (diff a b) <-> In x a /\ ~ In x b.
Proof. intros. unfold diff. rewrite filter_In, negb_true_iff, mem_false. tauto. Qed.

Lemma NoDup_inter : forall a b, NoDup a -> NoDup (inter a b).
Proof. intros. apply NoDup_filter; auto. Qed.
Lemma NoDup_diff : forall a b, NoDup a -> NoDup (diff a b).
Proof. intros. apply NoDup_filter; auto. Qed.

Lemma NoDup_same_length : forall (A:Type) (a b : list A),
  NoDup a -> NoDup b -> (forall x, In x a <-> In x b) -> length a = length b.
Proof.
  intros. apply Nat.le_antisymm; apply NoDup_incl_length; auto;
    intros x Hx; apply H1; auto.
Qed.

Lemma inter_comm_length : forall a b, NoDup a -> NoDup b ->
  length (inter a b) = length (inter b a).
Proof.
  intros. apply NoDup_same_length; auto using NoDup_inter.
  intro x. rewrite !inter_In. tauto.
Qed.

Lemma inter_length_ext : forall a b b', (forall x, In x a -> (In x b <-> In x b')) ->
  length (inter a b) = length (inter a b').
Proof.
  intros a b b' H. f_equal. unfold inter. apply filter_ext_in.
  intros x Hx. specialize (H x Hx).
  destruct (mem x b) eqn:E; symmetry.
  - apply mem_In, H, mem_In; auto.
  - apply mem_false. intro Hc. apply H in Hc. apply mem_In in Hc. congruence.
Qed.

Lemma inter_length_le_l : forall a b, length (inter a b) <= length a.
Proof. intros. unfold inter. induction a; simpl; auto. destruct (mem a b); simpl; lia. Qed.

Lemma inter_length_le_r : forall a b, NoDup a -> length (inter a b) <= length b.
Proof.
  intros. apply NoDup_incl_length; auto using NoDup_inter.
  intros x Hx. apply inter_In in Hx. tauto.
Qed.

Lemma inter_diff_length : forall a b, length (inter a b) + length (diff a b) = length a.
Proof.
  intros a b. unfold inter, diff. induction a; simpl; auto.
  destruct (mem a b); simpl; lia.
Qed.

Lemma Permutation_inter : forall a a' b, Permutation a a' -> Permutation (inter a b) (inter a' b).
Proof.
  intros a a' b H. unfold inter. induction H; simpl; auto.
  - destruct (mem x b); auto.
  - destruct (mem x b), (mem y b); auto. constructor.
  - eapply perm_trans; eauto.
Qed.

Lemma Permutation_filter : forall (A:Type) (f : A -> bool) a a',
  Permutation a a' -> Permutation (filter f a) (filter f a').
Proof.
  intros A f a a' H. induction H; simpl; auto.
  - destruct (f x); auto.
  - destruct (f x), (f y); auto. constructor.
  - eapply perm_trans; eauto.
Qed.

Lemma set_eqb_iff : forall a b, set_eqb a b = true <-> (forall x, In x a <-> In x b).
Proof.
  intros a b. unfold set_eqb. rewrite andb_true_iff, !forallb_forall.
  setoid_rewrite mem_In. firstorder.
Qed.

(** ** combinations *)

Lemma combinations_length : forall (A:Type) (l : list A) k c,
  In c (combinations l k) -> length c = k.
Proof.
  induction l as [|x r IH]; intros k c H; destruct k; simpl in H.
  - destruct H as [<-|[]]; auto.
  - destruct H.
  - destruct H as [<-|[]]; auto.
  - apply in_app_iff in H as [H|H].
    + apply in_map_iff in H as (c' & <- & H). simpl. f_equal. auto.
    + auto.
Qed.

Lemma combinations_nil0 : forall (A:Type) (l:list A), combinations l 0 = [[]].
Proof. destruct l; reflexivity. Qed.

(** Order-preserving sublists. *)
Inductive sublist {A} : list A -> list A -> Prop :=
| sub_nil : forall l, sublist [] l
| sub_take : forall x a l, sublist a l -> sublist (x :: a) (x :: l)
| sub_skip : forall x a l, sublist a l -> sublist a (x :: l).

Lemma sublist_incl : forall (A:Type) (a l : list A), sublist a l -> incl a l.
Proof. induction 1; intros y Hy; simpl in *; firstorder. Qed.

Lemma sublist_NoDup : forall (A:Type) (a l : list A), sublist a l -> NoDup l -> NoDup a.
Proof.
  induction 1; intros Hn; inversion Hn; subst; auto using NoDup_nil.
  constructor; auto. intro. apply H2. eapply sublist_incl; eauto.
Qed.

Lemma sublist_refl : forall (A:Type) (l : list A), sublist l l.
Proof. induction l; constructor; auto. Qed.

Lemma sublist_length : forall (A:Type) (a l : list A), sublist a l -> length a <= length l.
Proof. induction 1; simpl; lia. Qed.

Lemma filter_sublist : forall (A:Type) (f : A -> bool) l, sublist (filter f l) l.
Proof. induction l; simpl; [constructor|]. destruct (f a); constructor; auto. Qed.

Lemma combinations_sublist : forall (A:Type) (l : list A) k c,
  In c (combinations l k) <-> sublist c l /\ length c = k.
Proof.
  induction l as [|x r IH]; intros k c; destruct k; simpl.
  - split.
    + intros [<-|[]]. split; [constructor|auto].
    + intros [H L]. destruct c; auto; discriminate.
  - split; [tauto|]. intros [H L]. inversion H; subst; discriminate.
  - split.
    + intros [<-|[]]. split; [constructor|auto].
    + intros [H L]. destruct c; auto; discriminate.
  - rewrite in_app_iff, in_map_iff. split.
    + intros [(c' & <- & H)|H].
      * apply IH in H as [H L]. split; [constructor; auto|simpl; lia].
      * apply IH in H as [H L]. split; [constructor; auto|auto].
    + intros [H L]. inversion H; subst.
      * discriminate.
      * left. exists a. split; auto. apply IH. simpl in L. auto.
      * right. apply IH. auto.
Qed.

Lemma combinations_NoDup_elem : forall (A:Type) (l : list A) k c,
  NoDup l -> In c (combinations l k) -> NoDup c.
Proof. intros. apply combinations_sublist in H0 as []. eapply sublist_NoDup; eauto. Qed.

Lemma NoDup_app_intro : forall (A:Type) (a b : list A),
  NoDup a -> NoDup b -> (forall x, In x a -> In x b -> False) -> NoDup (a ++ b).
Proof.
  induction a; simpl; intros b Ha Hb Hd; auto.
  inversion Ha; subst. constructor.
  - rewrite in_app_iff. intros [H|H]; auto. eapply Hd; eauto.
  - apply IHa; auto. intros; eapply Hd; eauto.
Qed.

Lemma NoDup_map_inj : forall (A B:Type) (f : A -> B) l,
  (forall x y, In x l -> In y l -> f x = f y -> x = y) -> NoDup l -> NoDup (map f l).
Proof.
  induction l; simpl; intros Hi Hn; constructor; inversion Hn; subst.
  - intro H. apply in_map_iff in H as (y & E & Hy).
    assert (a = y) by (apply Hi; auto). subst. auto.
  - apply IHl; auto.
Qed.

Lemma combinations_NoDup : forall (A:Type) (l : list A) k,
  NoDup l -> NoDup (combinations l k).
Proof.
  induction l as [|x r IH]; intros k Hn; destruct k; simpl;
    try (constructor; [intros []|constructor]).
  - constructor.
  - inversion Hn; subst. apply NoDup_app_intro; auto.
    + apply NoDup_map_inj; auto. intros; congruence.
    + intros c H H'. apply in_map_iff in H as (c' & <- & H).
      apply combinations_sublist in H' as [H' _].
      apply sublist_incl in H'. apply H1, H'. left; auto.
Qed.

Lemma combinations_nonempty : forall (A:Type) (l : list A) k,
  k <= length l -> combinations l k <> [].
Proof.
  induction l as [|x r IH]; intros k H; destruct k; simpl in *; try discriminate; try lia.
  assert (Hk : combinations r k <> []) by (apply IH; lia).
  destruct (combinations r k); [congruence|discriminate].
Qed.

(** ** sorting *)

Lemma insert_by_perm : forall (A:Type) (leb : A -> A -> bool) x l,
  Permutation (x :: l) (insert_by leb x l).
Proof.
  induction l as [|y r IH]; simpl; auto.
  destruct (leb x y); auto.
  eapply perm_trans; [apply perm_swap|]. constructor; auto.
Qed.

Lemma sort_by_perm : forall (A:Type) (leb : A -> A -> bool) l,
  Permutation l (sort_by leb l).
Proof.
  induction l as [|x r IH]; simpl; auto.
  eapply perm_trans; [|apply insert_by_perm]. constructor; auto.
Qed.

Lemma sort_by_In : forall (A:Type) (leb : A -> A -> bool) l x,
  In x (sort_by leb l) <-> In x l.
Proof.
  intros. split; intro; eapply Permutation_in; try eassumption.
  - apply Permutation_sym, sort_by_perm.
  - apply sort_by_perm.
Qed.

Lemma sort_by_length : forall (A:Type) (leb : A -> A -> bool) l,
  length (sort_by leb l) = length l.
Proof. intros. symmetry. apply Permutation_length, sort_by_perm. Qed.

Section SortFacts.
  Context {A : Type} (leb : A -> A -> bool).
  Hypothesis leb_total : forall x y, leb x y = true \/ leb y x = true.
  Hypothesis leb_trans : forall x y z, leb x y = true -> leb y z = true -> leb x z = true.
  Let R := fun x y => leb x y = true.

  Lemma insert_by_sorted : forall x l, StronglySorted R l -> StronglySorted R (insert_by leb x l).
  Proof using leb_total leb_trans.
    induction l as [|y r IH]; simpl; intros H.
    - repeat constructor.
    - inversion H; subst. destruct (leb x y) eqn:E.
      + constructor; auto. constructor; auto.
        eapply Forall_impl; [|eassumption]. intros z Hz. eapply leb_trans; eauto.
      + constructor; auto.
        eapply Permutation_Forall; [apply insert_by_perm|].
        constructor; auto. destruct (leb_total x y); [congruence|auto].
  Qed.

  Lemma sort_by_sorted : forall l, StronglySorted R (sort_by leb l).
  Proof using leb_total leb_trans.
    induction l; simpl; [constructor|]. apply insert_by_sorted; auto.
  Qed.

  Lemma sorted_perm_unique : forall l l',
    (forall x y, In x l -> In y l -> leb x y = true -> leb y x = true -> x = y) ->
    Permutation l l' -> StronglySorted R l -> StronglySorted R l' -> l = l'.
  Proof using leb_total.
    induction l as [|x r IH]; intros l' Ha Hp H H'.
    - apply Permutation_nil in Hp. auto.
    - destruct l' as [|y r'].
      { apply Permutation_sym, Permutation_nil in Hp. discriminate. }
      inversion H; subst. inversion H'; subst.
      assert (x = y).
      { assert (Hx : In x (y :: r')) by (eapply Permutation_in; [eauto|left; auto]).
        assert (Hy : In y (x :: r)) by (eapply Permutation_in; [apply Permutation_sym; eauto|left; auto]).
        destruct Hx as [->|Hx]; auto. destruct Hy as [->|Hy]; auto.
        apply Ha; simpl; auto.
        - rewrite Forall_forall in H3. apply H3; auto.
        - rewrite Forall_forall in H5. apply H5; auto. }
      subst y. f_equal. apply IH; auto.
      + intros; apply Ha; simpl; auto.
      + eapply Permutation_cons_inv; eauto.
  Qed.

  Lemma sort_by_unique : forall l l',
    (forall x y, In x l -> In y l -> leb x y = true -> leb y x = true -> x = y) ->
    Permutation l l' -> sort_by leb l = sort_by leb l'.
  Proof using leb_total leb_trans.
    intros l l' Ha Hp. apply sorted_perm_unique; auto using sort_by_sorted.
    - intros x y Hx Hy. apply Ha; apply sort_by_In in Hx, Hy; auto.
    - eapply perm_trans; [apply Permutation_sym, sort_by_perm|].
      eapply perm_trans; [eassumption|apply sort_by_perm].
  Qed.
End SortFacts.

Lemma sort_by_id : forall (A:Type) (leb : A -> A -> bool) l,
  StronglySorted (fun x y => leb x y = true) l -> sort_by leb l = l.
Proof.
  induction 1 as [|x l Hl IH Hx]; simpl; auto.
  rewrite IH. destruct l; auto. simpl. inversion Hx; subst. rewrite H1. auto.
Qed.

Lemma isort_perm : forall l, Permutation l (isort l).
Proof. intros. apply sort_by_perm. Qed.
Lemma isort_In : forall l x, In x (isort l) <-> In x l.
Proof. intros. apply sort_by_In. Qed.
Lemma isort_length : forall l, length (isort l) = length l.
Proof. intros. apply sort_by_length. Qed.

(** Strictly ascending lists: the canonical form of a set of candidates. *)
Definition ascending : list nat -> Prop := StronglySorted lt.

Lemma ascending_NoDup : forall l, ascending l -> NoDup l.
Proof.
  induction 1 as [|x l Hs IH Hf]; constructor; auto. intro Hi.
  rewrite Forall_forall in Hf. specialize (Hf _ Hi). lia.
Qed.

Lemma leb_total_nat : forall x y, (x <=? y) = true \/ (y <=? x) = true.
Proof. intros. rewrite !Nat.leb_le. lia. Qed.
Lemma leb_trans_nat : forall x y z, (x <=? y) = true -> (y <=? z) = true -> (x <=? z) = true.
Proof. intros x y z. rewrite !Nat.leb_le. lia. Qed.

Lemma isort_ascending : forall l, NoDup l -> ascending (isort l).
Proof.
  intros l Hn.
  assert (Hs := sort_by_sorted Nat.leb leb_total_nat leb_trans_nat l).
  assert (Hn' : NoDup (isort l)) by (eapply Permutation_NoDup; [apply isort_perm|auto]).
  unfold isort in *. revert Hn'. induction Hs as [|x r Hr IH Hx]; intros Hn'; constructor.
  - apply IH. inversion Hn'; auto.
  - inversion Hn'; subst. rewrite Forall_forall in *. intros y Hy.
    specialize (Hx y Hy). apply Nat.leb_le in Hx.
    assert (x <> y) by (intro; subst; auto). lia.
Qed.

Lemma ascending_le : forall l, ascending l -> StronglySorted (fun x y => (x <=? y) = true) l.
Proof.
  induction 1; constructor; auto. eapply Forall_impl; [|eassumption].
  intros y Hy. simpl in *. apply Nat.leb_le. lia.
Qed.

Lemma isort_id : forall l, ascending l -> isort l = l.
Proof. intros. apply sort_by_id, ascending_le; auto. Qed.

Lemma ascending_ext : forall a b, ascending a -> ascending b ->
  (forall x, In x a <-> In x b) -> a = b.
Proof.
  intros a b Ha Hb H.
  apply (sorted_perm_unique Nat.leb leb_total_nat).
  - intros x y _ _. rewrite !Nat.leb_le. lia.
  - apply NoDup_Permutation; auto using ascending_NoDup.
  - apply ascending_le; auto.
  - apply ascending_le; auto.
Qed.

Lemma isort_perm_eq : forall a b, Permutation a b -> isort a = isort b.
Proof.
  intros. apply sort_by_unique; auto using leb_total_nat.
  - apply leb_trans_nat.
  - intros x y _ _. rewrite !Nat.leb_le. lia.
Qed.

Lemma isort_set_eq : forall a b, NoDup a -> NoDup b ->
  (forall x, In x a <-> In x b) -> isort a = isort b.
Proof. intros. apply isort_perm_eq, NoDup_Permutation; auto. Qed.

Lemma ascending_seq : forall n s, ascending (seq s n).
Proof.
  induction n; intros s; simpl; constructor; auto.
  - apply IHn.
  - apply Forall_forall. intros y Hy. apply in_seq in Hy. lia.
Qed.

Lemma sublist_ascending : forall a l, sublist a l -> ascending l -> ascending a.
Proof.
  induction 1; intros Ha.
  - constructor.
  - inversion Ha; subst. constructor; [apply IHsublist; auto|].
    rewrite Forall_forall in *. intros y Hy. apply H3. eapply sublist_incl; eauto.
  - inversion Ha; auto.
Qed.

Lemma ascending_sublist : forall a l, ascending a -> ascending l -> incl a l -> sublist a l.
Proof.
  intros a l. revert a. induction l as [|x r IH]; intros a Ha Hl Hi.
  - destruct a; [constructor|]. exfalso. apply (Hi n); left; auto.
  - destruct a as [|y a]; [constructor|].
    inversion Ha; subst. inversion Hl; subst.
    assert (Hr : incl a r).
    { intros z Hz. pose proof Hi as Hi0. specialize (Hi z (or_intror Hz)). destruct Hi as [->|]; auto.
      rewrite Forall_forall in *. specialize (H2 _ Hz).
      assert (Hy : In y (z :: r)) by (apply Hi0; left; auto).
      destruct Hy as [->|Hy]; [lia|]. specialize (H4 _ Hy). lia. }
    destruct (Hi y (or_introl eq_refl)) as [->|Hy].
    + constructor. apply IH; auto.
    + apply sub_skip. apply IH; auto. intros z [->|Hz]; auto.
Qed.

(** Every committee of size [k] is produced by [combinations] exactly once. *)
Lemma combinations_seq : forall m k c,
  In c (combinations (seq 0 m) k) <->
  ascending c /\ length c = k /\ Forall (fun x => x < m) c.
Proof.
  intros m k c. rewrite combinations_sublist. split.
  - intros [H L]. split; [|split]; auto.
    + eapply sublist_ascending; eauto using ascending_seq.
    + apply Forall_forall. intros x Hx. apply (sublist_incl _ _ _ H) in Hx.
      apply in_seq in Hx. lia.
  - intros (Ha & L & Hf). split; auto.
    apply ascending_sublist; auto using ascending_seq.
    intros x Hx. rewrite Forall_forall in Hf. apply in_seq. specialize (Hf _ Hx). lia.
Qed.

(** ** rationals *)

Lemma Qle_bool_false : forall x y, Qle_bool x y = false <-> (y < x)%Q.
Proof.
  intros x y. destruct (Qle_bool x y) eqn:E.
  - apply Qle_bool_iff in E. split; [discriminate|intro; exfalso; lra].
  - split; auto. intros _. apply Qnot_le_lt. intro H. apply Qle_bool_iff in H. congruence.
Qed.

Lemma Qltb_lt : forall x y, Qltb x y = true <-> (x < y)%Q.
Proof. intros. unfold Qltb. rewrite negb_true_iff. apply Qle_bool_false. Qed.

Lemma Qltb_ge : forall x y, Qltb x y = false <-> (y <= x)%Q.
Proof. intros. unfold Qltb. rewrite negb_false_iff. apply Qle_bool_iff. Qed.

Lemma Qeq_bool_false : forall x y, Qeq_bool x y = false <-> ~ (x == y)%Q.
Proof.
  intros. destruct (Qeq_bool x y) eqn:E.
  - apply Qeq_bool_iff in E. split; [discriminate|tauto].
  - split; auto. intros _ H. apply Qeq_bool_iff in H. congruence.
Qed.

Ltac qbool :=
  repeat match goal with
  | H : Qle_bool _ _ = true |- _ => apply Qle_bool_iff in H
  | H : Qle_bool _ _ = false |- _ => apply Qle_bool_false in H
  | H : Qltb _ _ = true |- _ => apply Qltb_lt in H
  | H : Qltb _ _ = false |- _ => apply Qltb_ge in H
  | H : Qeq_bool _ _ = true |- _ => apply Qeq_bool_iff in H
  | H : Qeq_bool _ _ = false |- _ => apply Qeq_bool_false in H
  | |- Qle_bool _ _ = true => apply Qle_bool_iff
  | |- Qle_bool _ _ = false => apply Qle_bool_false
  | |- Qltb _ _ = true => apply Qltb_lt
  | |- Qltb _ _ = false => apply Qltb_ge
  | |- Qeq_bool _ _ = true => apply Qeq_bool_iff
  | |- Qeq_bool _ _ = false => apply Qeq_bool_false
  end.

Lemma Qeq_bool_comp : forall x x' y y', (x == x')%Q -> (y == y')%Q ->
  Qeq_bool x y = Qeq_bool x' y'.
Proof.
  intros. destruct (Qeq_bool x' y') eqn:E; qbool; rewrite H, H0; auto.
Qed.
Lemma Qle_bool_comp' : forall x x' y y', (x == x')%Q -> (y == y')%Q ->
  Qle_bool x y = Qle_bool x' y'.
Proof.
  intros. destruct (Qle_bool x' y') eqn:E; qbool; rewrite H, H0; auto.
Qed.
Lemma Qltb_comp : forall x x' y y', (x == x')%Q -> (y == y')%Q ->
  Qltb x y = Qltb x' y'.
Proof. intros. unfold Qltb. f_equal. apply Qle_bool_comp'; auto. Qed.

Lemma Qsum_app : forall a b, (Qsum (a ++ b) == Qsum a + Qsum b)%Q.
Proof. induction a; simpl; intros; [lra|]. rewrite IHa. lra. Qed.

Lemma Qsum_perm : forall a b, Permutation a b -> (Qsum a == Qsum b)%Q.
Proof. induction 1; simpl; lra. Qed.

Lemma Qsum_map_ext : forall (A:Type) (f g : A -> Q) l,
  (forall x, In x l -> (f x == g x)%Q) -> (Qsum (map f l) == Qsum (map g l))%Q.
Proof.
  induction l; simpl; intros H; [lra|]. rewrite H by auto.
  rewrite IHl by (intros; apply H; auto). lra.
Qed.

Lemma Qsum_map_le : forall (A:Type) (f g : A -> Q) l,
  (forall x, In x l -> (f x <= g x)%Q) -> (Qsum (map f l) <= Qsum (map g l))%Q.
Proof.
  induction l; simpl; intros H; [lra|].
  assert (f a <= g a)%Q by auto.
  assert (Qsum (map f l) <= Qsum (map g l))%Q by (apply IHl; intros; apply H; auto). lra.
Qed.

Lemma Qsum_map_lt : forall (A:Type) (f g : A -> Q) l,
  (forall x, In x l -> (f x <= g x)%Q) ->
  (exists x, In x l /\ (f x < g x)%Q) ->
  (Qsum (map f l) < Qsum (map g l))%Q.
Proof.
  induction l; simpl; intros H (x & Hx & Hlt); [tauto|].
  assert (f a <= g a)%Q by auto.
  assert (Qsum (map f l) <= Qsum (map g l))%Q by (apply Qsum_map_le; auto).
  destruct Hx as [->|Hx]; [lra|].
  assert (Qsum (map f l) < Qsum (map g l))%Q by (apply IHl; eauto). lra.
Qed.

Lemma Qsum_map_plus : forall (A:Type) (f g : A -> Q) l,
  (Qsum (map (fun x => f x + g x) l) == Qsum (map f l) + Qsum (map g l))%Q.
Proof. induction l; simpl; [lra|]. rewrite IHl. lra. Qed.

Lemma Qsum_map_scal : forall (A:Type) (f : A -> Q) a l,
  (Qsum (map (fun x => a * f x) l) == a * Qsum (map f l))%Q.
Proof. induction l; simpl; [ring|]. rewrite IHl. ring. Qed.

Lemma Qsum_map_zero : forall (A:Type) (f : A -> Q) l,
  (forall x, In x l -> (f x == 0)%Q) -> (Qsum (map f l) == 0)%Q.
Proof.
  induction l; simpl; intros; [lra|]. rewrite H by auto.
  rewrite IHl; [lra|]. intros; apply H; auto.
Qed.

Lemma Qsum_map_nonneg : forall (A:Type) (f : A -> Q) l,
  (forall x, In x l -> (0 <= f x)%Q) -> (0 <= Qsum (map f l))%Q.
Proof.
  induction l; simpl; intros; [lra|].
  assert (0 <= f a)%Q by auto.
  assert (0 <= Qsum (map f l))%Q by (apply IHl; auto). lra.
Qed.

Lemma Qsum_map_const : forall (A:Type) (a : Q) (l : list A),
  (Qsum (map (fun _ => a) l) == a * Qnat (length l))%Q.
Proof.
  induction l; simpl.
  - unfold Qnat. simpl. ring.
  - rewrite IHl. unfold Qnat. rewrite Nat2Z.inj_succ.
    unfold Z.succ. rewrite inject_Z_plus. simpl. ring.
Qed.

Lemma Qsum_swap : forall (A B:Type) (f : A -> B -> Q) la lb,
  (Qsum (map (fun a => Qsum (map (fun b => f a b) lb)) la) ==
   Qsum (map (fun b => Qsum (map (fun a => f a b) la)) lb))%Q.
Proof.
  induction la; simpl; intros.
  - rewrite Qsum_map_zero; [lra|]. auto with qarith.
  - rewrite IHla. rewrite <- Qsum_map_plus. apply Qsum_map_ext. intros; lra.
Qed.

Lemma Qsum_filter : forall (A:Type) (f : A -> Q) (P : A -> bool) l,
  (Qsum (map f (filter P l)) == Qsum (map (fun x => if P x then f x else 0) l))%Q.
Proof. induction l; simpl; [lra|]. destruct (P a); simpl; rewrite IHl; lra. Qed.

Lemma Qnat_plus : forall a b, (Qnat (a + b) == Qnat a + Qnat b)%Q.
Proof. intros. unfold Qnat. rewrite Nat2Z.inj_add, inject_Z_plus. reflexivity. Qed.
Lemma Qnat_S : forall a, (Qnat (S a) == Qnat a + 1)%Q.
Proof. intros. rewrite <- Nat.add_1_r, Qnat_plus. reflexivity. Qed.
Lemma Qnat_mult : forall a b, (Qnat (a * b) == Qnat a * Qnat b)%Q.
Proof. intros. unfold Qnat. rewrite Nat2Z.inj_mul, inject_Z_mult. reflexivity. Qed.
Lemma Qnat_le : forall a b, a <= b <-> (Qnat a <= Qnat b)%Q.
Proof. intros. unfold Qnat. rewrite <- Zle_Qle. lia. Qed.
Lemma Qnat_lt : forall a b, a < b <-> (Qnat a < Qnat b)%Q.
Proof. intros. unfold Qnat. rewrite <- Zlt_Qlt. lia. Qed.
Lemma Qnat_eq : forall a b, a = b <-> (Qnat a == Qnat b)%Q.
Proof. intros. unfold Qnat. rewrite inject_Z_injective. lia. Qed.
Lemma Qnat_nonneg : forall a, (0 <= Qnat a)%Q.
Proof. intros. change 0%Q with (Qnat 0). apply Qnat_le. lia. Qed.
Lemma Qnat_pos : forall a, 0 < a -> (0 < Qnat a)%Q.
Proof. intros. change 0%Q with (Qnat 0). apply Qnat_lt. lia. Qed.

Lemma Qmaxl_spec : forall l x,
  (In (Qmaxl x l) (x :: l)) /\ (forall y, In y (x :: l) -> (y <= Qmaxl x l)%Q).
Proof.
  induction l as [|y r IH]; intros x.
  - simpl. split; auto. intros z [->|[]]. lra.
  - cbn [Qmaxl]. destruct (Qltb x y) eqn:E; qbool.
    + destruct (IH y) as [H1 H2]. split.
      * destruct H1; simpl; auto.
      * intros z [->|Hz]; [|apply H2; auto].
        apply Qle_trans with y; [lra|apply H2; left; auto].
    + destruct (IH x) as [H1 H2]. split.
      * destruct H1; simpl; auto.
      * intros z [->|[->|Hz]]; [apply H2; left; auto| |apply H2; right; auto].
        apply Qle_trans with x; [lra|apply H2; left; auto].
Qed.

Lemma Qminl_spec : forall l x,
  (In (Qminl x l) (x :: l)) /\ (forall y, In y (x :: l) -> (Qminl x l <= y)%Q).
Proof.
  induction l as [|y r IH]; intros x.
  - simpl. split; auto. intros z [->|[]]. lra.
  - cbn [Qminl]. destruct (Qltb y x) eqn:E; qbool.
    + destruct (IH y) as [H1 H2]. split.
      * destruct H1; simpl; auto.
      * intros z [->|Hz]; [|apply H2; auto].
        apply Qle_trans with y; [apply H2; left; auto|lra].
    + destruct (IH x) as [H1 H2]. split.
      * destruct H1; simpl; auto.
      * intros z [->|[->|Hz]]; [apply H2; left; auto| |apply H2; right; auto].
        apply Qle_trans with x; [apply H2; left; auto|lra].
Qed.

Lemma Qindex_spec : forall x l i, Qindex x l = Some i ->
  i < length l /\ (nthQ l i == x)%Q /\ forall j, j < i -> ~ (nthQ l j == x)%Q.
Proof.
  induction l as [|y r IH]; simpl; intros i H; [discriminate|].
  destruct (Qeq_bool y x) eqn:E; qbool.
  - inversion H; subst. split; [lia|]. split; auto. intros; lia.
  - destruct (Qindex x r) as [j|] eqn:Ej; simpl in H; [|discriminate].
    inversion H; subst. destruct (IH j eq_refl) as (H1 & H2 & H3).
    split; [lia|]. split; auto. intros [|j'] Hj; [exact E|apply (H3 j'); lia].
Qed.

Lemma Qindex_total : forall x l, In x l -> exists i, Qindex x l = Some i.
Proof.
  induction l as [|y r IH]; simpl; intros H; [tauto|].
  destruct (Qeq_bool y x) eqn:E; [eauto|].
  destruct H as [->|H].
  - qbool. exfalso. apply E. reflexivity.
  - destruct (IH H) as [i ->]. eexists; reflexivity.
Qed.

(** ** arrays *)

Lemma upd_length : forall (A:Type) (f : A -> A) i l, length (upd f i l) = length l.
Proof. induction i; destruct l; simpl; auto. Qed.

Lemma nth_upd : forall (A:Type) (f : A -> A) i j l d,
  nth j (upd f i l) d = if (j =? i) && (j <? length l) then f (nth j l d) else nth j l d.
Proof.
  induction i; destruct l, j; simpl; intros; auto.
  { rewrite andb_comm. reflexivity. }
  rewrite IHi. change (S j <? S (length l)) with (j <? length l). reflexivity.
Qed.

Lemma NoDup_firstn : forall (A:Type) n (l : list A), NoDup l -> NoDup (firstn n l).
Proof.
  intros A n l H. rewrite <- (firstn_skipn n l) in H.
  revert H. generalize (skipn n l). generalize (firstn n l). clear.
  induction l as [|x r IH]; intros b H; [constructor|].
  simpl in H. inversion H; subst. constructor.
  - intro. apply H2. apply in_app_iff; auto.
  - eapply IH; eauto.
Qed.

Lemma firstn_In : forall (A:Type) n (l : list A) x, In x (firstn n l) -> In x l.
Proof.
  intros A n l x H. rewrite <- (firstn_skipn n l). apply in_app_iff; auto.
Qed.
