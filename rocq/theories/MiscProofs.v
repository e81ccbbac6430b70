(** * Facts about the model of misc.py *)
From Coq Require Import Ascii String DecimalString DecimalNat Decimal DecimalFacts.
From Coq Require Import List Arith Bool ZArith QArith Lia Permutation Sorted Factorial.
From Verif Require Import Prelude Misc.
Import ListNotations.
Open Scope nat_scope.

(** ** Order of strings *)

Lemma ascii_eq_of_nat : forall a b, nat_of_ascii a = nat_of_ascii b -> a = b.
Proof. intros a b H. rewrite <- (ascii_nat_embedding a), <- (ascii_nat_embedding b), H. auto. Qed.

Lemma str_leb_refl : forall a, str_leb a a = true.
Proof. induction a; simpl; auto. rewrite Nat.ltb_irrefl. auto. Qed.

Lemma str_leb_total : forall a b, str_leb a b = true \/ str_leb b a = true.
Proof.
  induction a as [|x r IH]; intros [|y s]; simpl; auto.
  destruct (Nat.ltb_spec (nat_of_ascii x) (nat_of_ascii y)); auto.
  destruct (Nat.ltb_spec (nat_of_ascii y) (nat_of_ascii x)); auto.
Qed.

Lemma str_leb_trans : forall a b c, str_leb a b = true -> str_leb b c = true -> str_leb a c = true.
Proof.
  induction a as [|x r IH]; intros [|y s] [|z t]; simpl; auto; try discriminate.
  destruct (Nat.ltb_spec (nat_of_ascii x) (nat_of_ascii y));
  destruct (Nat.ltb_spec (nat_of_ascii y) (nat_of_ascii x));
  destruct (Nat.ltb_spec (nat_of_ascii y) (nat_of_ascii z));
  destruct (Nat.ltb_spec (nat_of_ascii z) (nat_of_ascii y));
  destruct (Nat.ltb_spec (nat_of_ascii x) (nat_of_ascii z));
  destruct (Nat.ltb_spec (nat_of_ascii z) (nat_of_ascii x));
  try discriminate; try lia; intros; auto; try discriminate.
  eapply IH; eauto.
Qed.

Lemma str_leb_antisym : forall a b, str_leb a b = true -> str_leb b a = true -> a = b.
Proof.
  induction a as [|x r IH]; intros [|y s]; simpl; auto; try discriminate.
  destruct (Nat.ltb_spec (nat_of_ascii x) (nat_of_ascii y));
  destruct (Nat.ltb_spec (nat_of_ascii y) (nat_of_ascii x)); try discriminate; try lia.
  intros. f_equal; auto. apply ascii_eq_of_nat. lia.
Qed.

(** ** The printed form determines the set *)

Definition is_digit (a : ascii) : bool := (48 <=? nat_of_ascii a) && (nat_of_ascii a <=? 57).
Fixpoint all_digits (s : string) : bool :=
  match s with EmptyString => true | String a r => is_digit a && all_digits r end.

Lemma string_of_uint_digits : forall u, all_digits (NilEmpty.string_of_uint u) = true.
Proof. induction u; simpl; auto. Qed.

Lemma str_nat_digits : forall n, all_digits (str_nat n) = true.
Proof. intros. apply string_of_uint_digits. Qed.

Lemma str_nat_nonempty : forall n, str_nat n <> EmptyString.
Proof.
  intros n. unfold str_nat. intro H.
  assert (E : Nat.to_uint n = Nil).
  { destruct (Nat.to_uint n); simpl in H; try discriminate; auto. }
  assert (Hn : Nat.of_uint (Nat.to_uint n) = n) by apply DecimalNat.Unsigned.of_to.
  rewrite E in Hn. simpl in Hn. subst n. discriminate E.
Qed.

Lemma str_nat_inj : forall a b, str_nat a = str_nat b -> a = b.
Proof.
  intros a b H. unfold str_nat in H.
  apply (f_equal NilEmpty.uint_of_string) in H.
  rewrite !NilEmpty.usu in H. inversion H.
  rewrite <- (DecimalNat.Unsigned.of_to a), <- (DecimalNat.Unsigned.of_to b). congruence.
Qed.

Definition starts_nondigit (s : string) : bool :=
  match s with EmptyString => true | String a _ => negb (is_digit a) end.

Lemma digits_split : forall x y s t,
  all_digits x = true -> all_digits y = true ->
  starts_nondigit s = true -> starts_nondigit t = true ->
  (x ++ s)%string = (y ++ t)%string -> x = y /\ s = t.
Proof.
  induction x as [|a x IH]; intros y s t Hx Hy Hs Ht H.
  - destruct y as [|b y]; simpl in *; auto. subst s. simpl in Hs.
    apply andb_true_iff in Hy as [Hy _]. rewrite Hy in Hs. discriminate.
  - destruct y as [|b y]; simpl in *.
    + subst t. simpl in Ht. apply andb_true_iff in Hx as [Hx _]. rewrite Hx in Ht. discriminate.
    + inversion H; subst. apply andb_true_iff in Hx as [_ Hx]. apply andb_true_iff in Hy as [_ Hy].
      destruct (IH y s t); auto. subst. auto.
Qed.

Lemma string_app_assoc : forall a b c : string, ((a ++ b) ++ c)%string = (a ++ (b ++ c))%string.
Proof. induction a; simpl; intros; auto. rewrite IHa. auto. Qed.

Open Scope string_scope.

Lemma concat_cons : forall x l, l <> [] ->
  String.concat ", " (x :: l) = (x ++ ", " ++ String.concat ", " l).
Proof. intros x [|y l] H; [congruence|reflexivity]. Qed.

Lemma join_inj : forall l l' suf,
  (forall x, In x l -> all_digits x = true /\ x <> EmptyString) ->
  (forall x, In x l' -> all_digits x = true /\ x <> EmptyString) ->
  (exists r, suf = String "}"%char r) ->
  String.concat ", " l ++ suf = String.concat ", " l' ++ suf -> l = l'.
Proof.
  induction l as [|x l IH]; intros l' suf H H' (rs & Hs) E.
  - destruct l' as [|y l']; auto. exfalso. simpl in E.
    destruct (H' y (or_introl eq_refl)) as [Hd Hne].
    destruct l' as [|z l'].
    + subst suf. destruct y; [congruence|]. simpl in E. inversion E; subst.
      discriminate Hd.
    + subst suf. destruct y; [congruence|]. simpl in E. inversion E; subst.
      discriminate Hd.
  - destruct (H x (or_introl eq_refl)) as [Hd Hne].
    destruct l' as [|y l'].
    + exfalso. simpl in E. subst suf. destruct x as [|a x]; [congruence|].
      simpl in Hd. apply andb_true_iff in Hd as [Hd _].
      destruct l; simpl in E; inversion E; subst; discriminate Hd.
    + destruct (H' y (or_introl eq_refl)) as [Hd' Hne'].
      destruct l as [|x2 l]; destruct l' as [|y2 l'].
      * simpl in E. subst suf. apply digits_split in E; auto. destruct E; congruence.
      * exfalso. rewrite (concat_cons y) in E by discriminate. simpl (String.concat ", " [x]) in E.
        rewrite !string_app_assoc in E. subst suf.
        apply digits_split in E; auto. destruct E as [_ E]. discriminate E.
      * exfalso. rewrite (concat_cons x) in E by discriminate. simpl (String.concat ", " [y]) in E.
        rewrite !string_app_assoc in E. subst suf.
        apply digits_split in E; auto. destruct E as [_ E]. discriminate E.
      * rewrite (concat_cons x), (concat_cons y) in E by discriminate.
        rewrite !string_app_assoc in E. apply digits_split in E; auto.
        destruct E as [-> E]. inversion E as [E'].
        assert (x2 :: l = y2 :: l')%list.
        { apply (IH (y2 :: l')%list suf); eauto; intros; [apply H|apply H']; right; auto. }
        congruence.
Qed.

Close Scope string_scope.

Lemma str_set_inj : forall a b, NoDup a -> NoDup b ->
  str_set_of_candidates a = str_set_of_candidates b -> forall x, In x a <-> In x b.
Proof.
  intros a b Ha Hb H. unfold str_set_of_candidates in H. simpl in H. inversion H as [E].
  apply join_inj in E.
  - assert (Hp : Permutation (map str_nat a) (map str_nat b)).
    { eapply perm_trans; [apply (sort_by_perm _ str_leb)|]. unfold sort_str in E. rewrite E.
      apply Permutation_sym, sort_by_perm. }
    intros x. split; intro Hx.
    + assert (In (str_nat x) (map str_nat b)) as Hi
        by (eapply Permutation_in; [eauto|apply in_map; auto]).
      apply in_map_iff in Hi as (y & Ey & Hy). apply str_nat_inj in Ey. subst; auto.
    + assert (In (str_nat x) (map str_nat a)) as Hi
        by (eapply Permutation_in; [apply Permutation_sym; eauto|apply in_map; auto]).
      apply in_map_iff in Hi as (y & Ey & Hy). apply str_nat_inj in Ey. subst; auto.
  - intros x Hx. unfold sort_str in Hx. rewrite sort_by_In in Hx. apply in_map_iff in Hx as (n & <- & _).
    split; [apply str_nat_digits|apply str_nat_nonempty].
  - intros x Hx. unfold sort_str in Hx. rewrite sort_by_In in Hx. apply in_map_iff in Hx as (n & <- & _).
    split; [apply str_nat_digits|apply str_nat_nonempty].
  - eexists; reflexivity.
Qed.

Lemma committee_leb_total : forall a b, committee_leb a b = true \/ committee_leb b a = true.
Proof. intros. apply str_leb_total. Qed.
Lemma committee_leb_trans : forall a b c,
  committee_leb a b = true -> committee_leb b c = true -> committee_leb a c = true.
Proof. unfold committee_leb. intros. eapply str_leb_trans; eauto. Qed.
Lemma committee_leb_antisym : forall a b, ascending a -> ascending b ->
  committee_leb a b = true -> committee_leb b a = true -> a = b.
Proof.
  intros a b Ha Hb H1 H2. apply ascending_ext; auto.
  apply str_set_inj; auto using ascending_NoDup. apply str_leb_antisym; auto.
Qed.

(** ** sorted_committees *)

Lemma candidate_set_ok : forall l, NoDup l -> candidate_set l = Ok (isort l).
Proof. intros. unfold candidate_set. apply nodupb_NoDup in H. rewrite H. auto. Qed.

Lemma candidate_set_inv : forall l c, candidate_set l = Ok c -> NoDup l /\ c = isort l.
Proof.
  unfold candidate_set. intros l c H. destruct (nodupb l) eqn:E; [|discriminate].
  inversion H. split; auto. apply nodupb_NoDup; auto.
Qed.

Lemma rmapM_candidate_set : forall cs, Forall (@NoDup nat) cs ->
  rmapM candidate_set cs = Ok (map isort cs).
Proof.
  induction cs; simpl; intros H; auto. inversion H; subst.
  rewrite candidate_set_ok by auto. simpl. rewrite IHcs; auto.
Qed.

Lemma rmapM_candidate_set_inv : forall cs ds, rmapM candidate_set cs = Ok ds ->
  Forall (@NoDup nat) cs /\ ds = map isort cs.
Proof.
  induction cs; simpl; intros ds H.
  - inversion H; auto.
  - destruct (candidate_set a) eqn:E; simpl in H; [|discriminate].
    destruct (rmapM candidate_set cs) eqn:E2; simpl in H; [|discriminate].
    apply candidate_set_inv in E as [Hn ->]. destruct (IHcs _ eq_refl) as [Hf ->].
    inversion H; subst. auto.
Qed.

Lemma sorted_committees_ok : forall cs, Forall (@NoDup nat) cs ->
  sorted_committees cs = Ok (sort_by committee_leb (map isort cs)).
Proof. intros. unfold sorted_committees. rewrite rmapM_candidate_set by auto. auto. Qed.

Lemma sorted_committees_err : forall cs, ~ Forall (@NoDup nat) cs ->
  sorted_committees cs = Err ValueError.
Proof.
  intros cs H. unfold sorted_committees.
  assert (E : rmapM candidate_set cs = Err ValueError).
  { induction cs as [|c r IH]; [exfalso; apply H; constructor|].
    simpl. unfold candidate_set at 1. destruct (nodupb c) eqn:E; auto. simpl.
    rewrite IH; auto. intro. apply H. constructor; auto. apply nodupb_NoDup; auto. }
  rewrite E. auto.
Qed.

(** For committees already in canonical form. *)
Lemma map_isort_id : forall cs, Forall ascending cs -> map isort cs = cs.
Proof. induction 1; simpl; auto. rewrite isort_id by auto. congruence. Qed.

Lemma sorted_committees_asc : forall cs, Forall ascending cs ->
  sorted_committees cs = Ok (sort_by committee_leb cs).
Proof.
  intros. rewrite sorted_committees_ok.
  - rewrite map_isort_id; auto.
  - eapply Forall_impl; [|eassumption]. apply ascending_NoDup.
Qed.

Definition comm_sorted : list (list nat) -> Prop :=
  StronglySorted (fun a b => committee_leb a b = true).

Lemma sort_committees_sorted : forall cs, comm_sorted (sort_by committee_leb cs).
Proof. intros. apply sort_by_sorted; [apply committee_leb_total|apply committee_leb_trans]. Qed.

(** The result depends only on the set of committees. *)
Lemma sort_committees_perm : forall cs ds, Forall ascending cs ->
  Permutation cs ds -> sort_by committee_leb cs = sort_by committee_leb ds.
Proof.
  intros cs ds Ha Hp. apply sort_by_unique; auto.
  - apply committee_leb_total.
  - apply committee_leb_trans.
  - intros x y Hx Hy. rewrite Forall_forall in Ha. apply committee_leb_antisym; auto.
Qed.

Lemma sorted_same_elements : forall cs ds, Forall ascending cs -> Forall ascending ds ->
  NoDup cs -> NoDup ds -> comm_sorted cs -> comm_sorted ds ->
  (forall c, In c cs <-> In c ds) -> cs = ds.
Proof.
  intros cs ds Hc Hd Nc Nd Sc Sd H.
  apply (sorted_perm_unique committee_leb committee_leb_total); auto.
  - intros x y Hx Hy. rewrite Forall_forall in Hc. apply committee_leb_antisym; auto.
  - apply NoDup_Permutation; auto.
Qed.

(** ** CandidateSet validation *)

Lemma py_nodupb_iff : forall l, py_nodupb l = true <-> NoDup l.
Proof.
  assert (E : forall x l, existsb (pyobj_eqb x) l = true <-> In x l).
  { intros x l. rewrite existsb_exists. split.
    - intros (y & Hy & E). destruct x, y; simpl in E; try discriminate.
      + apply Z.eqb_eq in E. subst; auto.
      + apply Nat.eqb_eq in E. subst; auto.
    - intro H. exists x. split; auto. destruct x; simpl; [apply Z.eqb_refl|apply Nat.eqb_refl]. }
  induction l as [|x r IH]; simpl.
  - split; auto using NoDup_nil.
  - rewrite andb_true_iff, negb_true_iff, IH. split.
    + intros [H1 H2]. constructor; auto. intro. apply E in H. congruence.
    + intro H. inversion H; subst. split; auto.
      destruct (existsb (pyobj_eqb x) r) eqn:Ex; auto. apply E in Ex. tauto.
Qed.

Lemma candidate_set_new_ok : forall l nc s, candidate_set_new l nc = Ok s ->
  NoDup s /\ l = map (fun c => PyInt (Z.of_nat c)) s /\
  (forall m, nc = Some m -> Forall (fun c => (Z.of_nat c < m)%Z) s).
Proof.
  intros l nc s. unfold candidate_set_new.
  destruct (py_nodupb l) eqn:E1; [|discriminate].
  destruct (forallb is_int l) eqn:E2; [|discriminate].
  destruct (forallb (fun c => Z.leb 0 (int_val c)) l) eqn:E3; [|discriminate]. simpl.
  destruct (match nc with Some m => existsb (fun c => Z.leb m (int_val c)) l | None => false end) eqn:E4;
    [discriminate|].
  intro H; inversion H; subst; clear H. apply py_nodupb_iff in E1.
  assert (Hid : l = map (fun c => PyInt (Z.of_nat c)) (map (fun c => Z.to_nat (int_val c)) l)).
  { rewrite map_map. rewrite <- (map_id l) at 1. apply map_ext_in. intros c Hc.
    rewrite forallb_forall in E2, E3. specialize (E2 c Hc). specialize (E3 c Hc).
    destruct c; [|discriminate]. simpl in *. apply Z.leb_le in E3. rewrite Z2Nat.id; auto. }
  split; [|split; auto].
  - rewrite Hid in E1. apply NoDup_map_inv in E1. auto.
  - intros m ->. apply Forall_forall. intros c Hc. apply in_map_iff in Hc as (o & <- & Ho).
    rewrite forallb_forall in E2, E3. specialize (E2 o Ho). specialize (E3 o Ho).
    apply Z.leb_le in E3. rewrite Z2Nat.id by auto.
    destruct (Z.ltb_spec (int_val o) m); auto. exfalso.
    assert (existsb (fun c => Z.leb m (int_val c)) l = true).
    { apply existsb_exists. exists o. split; auto. apply Z.leb_le. lia. }
    congruence.
Qed.

Lemma candidate_set_new_accepts : forall s nc, NoDup s ->
  (forall m, nc = Some m -> Forall (fun c => (Z.of_nat c < m)%Z) s) ->
  candidate_set_new (map (fun c => PyInt (Z.of_nat c)) s) nc = Ok s.
Proof.
  intros s nc Hn Hm. unfold candidate_set_new.
  assert (E1 : py_nodupb (map (fun c => PyInt (Z.of_nat c)) s) = true).
  { apply py_nodupb_iff. apply NoDup_map_inj; auto. intros x y _ _ H. inversion H. lia. }
  rewrite E1. simpl.
  assert (E2 : forallb is_int (map (fun c => PyInt (Z.of_nat c)) s) = true).
  { apply forallb_forall. intros o Ho. apply in_map_iff in Ho as (c & <- & _). auto. }
  rewrite E2. simpl.
  assert (E3 : forallb (fun c => Z.leb 0 (int_val c)) (map (fun c => PyInt (Z.of_nat c)) s) = true).
  { apply forallb_forall. intros o Ho. apply in_map_iff in Ho as (c & <- & _). simpl. apply Z.leb_le. lia. }
  rewrite E3. simpl.
  assert (E4 : match nc with Some m => existsb (fun c => Z.leb m (int_val c)) (map (fun c => PyInt (Z.of_nat c)) s)
                        | None => false end = false).
  { destruct nc as [m|]; auto. apply not_true_iff_false. intro H. apply existsb_exists in H as (o & Ho & H).
    apply in_map_iff in Ho as (c & <- & Hc). simpl in H. apply Z.leb_le in H.
    specialize (Hm m eq_refl). rewrite Forall_forall in Hm. specialize (Hm c Hc). lia. }
  rewrite E4. f_equal. rewrite map_map. rewrite <- (map_id s) at 2. apply map_ext. intro c. simpl. lia.
Qed.

(** ** hamming *)

Lemma hamming_sym : forall a b, hamming a b = hamming b a.
Proof. intros. unfold hamming. rewrite !app_length. lia. Qed.

Lemma hamming_zero : forall a b, hamming a b = 0 <-> (forall x, In x a <-> In x b).
Proof.
  intros a b. unfold hamming. rewrite app_length. fold (diff a b). fold (diff b a). split.
  - intro H. assert (Ha : diff a b = []) by (destruct (diff a b); simpl in *; auto; lia).
    assert (Hb : diff b a = []) by (destruct (diff b a); simpl in *; auto; lia).
    intro x. split; intro Hx.
    + destruct (in_dec Nat.eq_dec x b); auto. assert (In x (diff a b)) by (apply diff_In; auto).
      rewrite Ha in H0. destruct H0.
    + destruct (in_dec Nat.eq_dec x a); auto. assert (In x (diff b a)) by (apply diff_In; auto).
      rewrite Hb in H0. destruct H0.
  - intro H. assert (Ha : diff a b = []).
    { destruct (diff a b) as [|x l] eqn:E; auto. exfalso.
      assert (Hx : In x (diff a b)) by (rewrite E; left; auto). apply diff_In in Hx.
      destruct Hx as [Hx Hy]. apply Hy, H; auto. }
    assert (Hb : diff b a = []).
    { destruct (diff b a) as [|x l] eqn:E; auto. exfalso.
      assert (Hx : In x (diff b a)) by (rewrite E; left; auto). apply diff_In in Hx.
      destruct Hx as [Hx Hy]. apply Hy, H; auto. }
    rewrite Ha, Hb. auto.
Qed.

Lemma hamming_triangle : forall a b c, NoDup a -> NoDup b -> NoDup c ->
  hamming a c <= hamming a b + hamming b c.
Proof.
  intros a b c Ha Hb Hc. unfold hamming. rewrite !app_length.
  fold (diff a b) (diff b a) (diff b c) (diff c b) (diff a c) (diff c a).
  assert (H1 : length (diff a c) <= length (diff a b ++ diff b c)).
  { apply NoDup_incl_length; auto using NoDup_diff. intros x Hx. apply diff_In in Hx as [Hx Hy].
    apply in_app_iff. rewrite !diff_In. destruct (in_dec Nat.eq_dec x b); tauto. }
  assert (H2 : length (diff c a) <= length (diff c b ++ diff b a)).
  { apply NoDup_incl_length; auto using NoDup_diff. intros x Hx. apply diff_In in Hx as [Hx Hy].
    apply in_app_iff. rewrite !diff_In. destruct (in_dec Nat.eq_dec x b); tauto. }
  rewrite app_length in H1, H2. lia.
Qed.

(** ** powerset *)

Lemma powerset_In : forall (A:Type) (s : list A) ms c,
  In c (powerset s ms) <-> sublist c s /\ match ms with None => True | Some m => length c <= m end.
Proof.
  intros A s ms c. unfold powerset. rewrite in_flat_map. split.
  - intros (r & Hr & Hc). apply in_seq in Hr. apply combinations_sublist in Hc as [Hs Hl].
    split; auto. destruct ms; auto. lia.
  - intros [Hs Hm]. exists (length c). split.
    + apply in_seq. split; [lia|]. apply sublist_length in Hs. destruct ms; lia.
    + apply combinations_sublist. auto.
Qed.

Lemma NoDup_flat_map : forall (A B:Type) (f : A -> list B) l,
  NoDup l -> (forall x, In x l -> NoDup (f x)) ->
  (forall x y z, In x l -> In y l -> In z (f x) -> In z (f y) -> x = y) ->
  NoDup (flat_map f l).
Proof.
  induction l; simpl; intros Hn Hf Hd; [constructor|]. inversion Hn; subst.
  apply NoDup_app_intro; auto.
  - apply IHl; auto. intros; eapply Hd; eauto.
  - intros z Hz Hz'. apply in_flat_map in Hz' as (y & Hy & Hz').
    assert (a = y) by (eapply Hd; eauto). subst; auto.
Qed.

Lemma powerset_NoDup : forall (A:Type) (s : list A) ms, NoDup s -> NoDup (powerset s ms).
Proof.
  intros. unfold powerset. apply NoDup_flat_map.
  - apply seq_NoDup.
  - intros. apply combinations_NoDup; auto.
  - intros x y z _ _ Hx Hy. apply combinations_length in Hx, Hy. congruence.
Qed.

(** ** binom *)

(** number of k-subsets *)
Lemma combinations_count : forall (A:Type) (l : list A) k,
  length (combinations l k) * (fact k * fact (length l - k)) =
  if k <=? length l then fact (length l) else 0.
Proof.
  induction l as [|x r IH]; intros k; destruct k; simpl length.
  - simpl. auto.
  - simpl. auto.
  - simpl. rewrite Nat.sub_0_r || idtac. lia.
  - cbn [combinations]. rewrite app_length, map_length.
    replace (S (length r) - S k) with (length r - k) by lia.
    change (S k <=? S (length r)) with (k <=? length r).
    pose proof (IH k) as H1. pose proof (IH (S k)) as H2.
    destruct (Nat.leb_spec k (length r)).
    + destruct (Nat.leb_spec (S k) (length r)).
      * replace (length r - k) with (S (length r - S k)) in * by lia.
        set (n := length r) in *. set (a := length (combinations r k)) in *.
        set (b := length (combinations r (S k))) in *.
        assert (Hf : fact (S (n - S k)) = S (n - S k) * fact (n - S k)) by reflexivity.
        assert (Hk : fact (S k) = S k * fact k) by reflexivity.
        assert (Hn : fact (S n) = S n * fact n) by reflexivity.
        rewrite Hf in *. rewrite Hk in *. rewrite Hn.
        set (F := fact (n - S k)) in *. set (G := fact k) in *.
        replace (S n) with (S k + S (n - S k)) by lia.
        set (d := S (n - S k)) in *. nia.
      * assert (length r = k) by lia.
        assert (length (combinations r (S k)) = 0).
        { assert (fact (S k) * fact (length r - S k) <> 0).
          { pose proof (lt_O_fact (S k)). pose proof (lt_O_fact (length r - S k)). nia. }
          nia. }
        rewrite H3. subst k. rewrite Nat.sub_diag in *. simpl fact in *.
        change (fact (S (length r))) with (S (length r) * fact (length r)). nia.
    + destruct (Nat.leb_spec (S k) (length r)); [lia|].
      assert (length (combinations r k) = 0).
      { pose proof (lt_O_fact k). pose proof (lt_O_fact (length r - k)). nia. }
      assert (length (combinations r (S k)) = 0).
      { pose proof (lt_O_fact (S k)). pose proof (lt_O_fact (length r - S k)). nia. }
      nia.
Qed.

Lemma binom_correct : forall (A:Type) (l : list A) k,
  binom (Z.of_nat (length l)) (Z.of_nat k) = Z.of_nat (length (combinations l k)).
Proof.
  intros A l k. pose proof (combinations_count A l k) as H. unfold binom, factorial.
  destruct (Z.ltb_spec (Z.of_nat (length l)) 0); [lia|]. cbn [rbind].
  destruct (Z.ltb_spec (Z.of_nat k) 0); [lia|]. cbn [rbind].
  destruct (Nat.leb_spec k (length l)).
  - destruct (Z.ltb_spec (Z.of_nat (length l) - Z.of_nat k) 0); [lia|]. cbn [rbind].
    rewrite <- Nat2Z.inj_sub by lia. rewrite !Nat2Z.id.
    pose proof (lt_O_fact k). pose proof (lt_O_fact (length l - k)).
    rewrite Z.div_div by lia. rewrite <- Nat2Z.inj_mul.
    rewrite <- H. rewrite Nat2Z.inj_mul. apply Z.div_mul. nia.
  - destruct (Z.ltb_spec (Z.of_nat (length l) - Z.of_nat k) 0); [|lia]. cbn [rbind].
    pose proof (lt_O_fact k). pose proof (lt_O_fact (length l - k)).
    assert (length (combinations l k) = 0) by nia. lia.
Qed.

(** ** comparing lists of committees *)

Lemma existsb_set_eqb : forall c cs,
  existsb (set_eqb c) cs = true <-> exists d, In d cs /\ forall x, In x c <-> In x d.
Proof.
  intros. rewrite existsb_exists. split; intros (d & Hd & H); exists d; split; auto;
    apply set_eqb_iff; auto.
Qed.

Lemma compare_iff : forall a b, compare_list_of_committees a b = true <->
  (forall c, In c a -> exists d, In d b /\ forall x, In x c <-> In x d) /\
  (forall c, In c b -> exists d, In d a /\ forall x, In x c <-> In x d).
Proof.
  intros. unfold compare_list_of_committees. rewrite andb_true_iff, !forallb_forall.
  setoid_rewrite existsb_set_eqb. tauto.
Qed.
