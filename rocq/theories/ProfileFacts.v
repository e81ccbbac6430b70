(** * Further facts used by Claims_Profile.v *)
From Coq Require Import String.
From Coq Require Import List Arith Bool ZArith QArith Lia Lqa Permutation Sorted.
From Verif Require Import Prelude Misc MiscProofs Preferences Spec Compute SpecCompute PrefProofs EquivProofs Heap HeapProofs.
Import ListNotations.
Open Scope nat_scope.

Lemma sorted_committees_perm : forall cs, Forall (@NoDup nat) cs ->
  exists l, sorted_committees cs = Ok l /\ in_printed_order l /\ Permutation l (map isort cs).
Proof.
  intros cs H. rewrite sorted_committees_ok by auto. eexists. split; [reflexivity|]. split.
  - apply sort_committees_sorted.
  - apply Permutation_sym, sort_by_perm.
Qed.

Lemma sorted_committees_det : forall cs ds ds', Forall (@NoDup nat) cs ->
  Permutation cs ds' -> Forall2 (@Permutation nat) ds' ds ->
  sorted_committees cs = sorted_committees ds.
Proof.
  intros cs ds ds' Hn Hp Hf.
  assert (Hn' : Forall (@NoDup nat) ds') by (eapply Permutation_Forall; eauto).
  assert (Hn2 : Forall (@NoDup nat) ds).
  { clear -Hf Hn'. induction Hf; constructor; inversion Hn'; subst; auto. eapply Permutation_NoDup; eauto. }
  rewrite !sorted_committees_ok by auto. f_equal.
  assert (E : map isort ds' = map isort ds).
  { clear -Hf. induction Hf; simpl; auto. f_equal; auto. apply isort_perm_eq; auto. }
  rewrite <- E. apply sort_committees_perm.
  - apply Forall_forall. intros c Hc. apply in_map_iff in Hc as (x & <- & Hx). rewrite Forall_forall in Hn.
    apply isort_ascending; auto.
  - apply Permutation_map; auto.
Qed.

Lemma compare_equivalence :
  (forall a, compare_list_of_committees a a = true) /\
  (forall a b, compare_list_of_committees a b = compare_list_of_committees b a) /\
  (forall a b c, compare_list_of_committees a b = true -> compare_list_of_committees b c = true ->
     compare_list_of_committees a c = true) /\
  (forall a b a', (forall W, In W a <-> In W a') ->
     compare_list_of_committees a b = compare_list_of_committees a' b).
Proof.
  repeat split.
  - intro a. apply compare_iff. split; intros c Hc; exists c; split; auto; tauto.
  - intros a b. apply Bool.eq_iff_eq_true. rewrite !compare_iff. tauto.
  - intros a b c. rewrite !compare_iff. intros [A B] [C D]. split; intros x Hx.
    + destruct (A x Hx) as (y & Hy & E). destruct (C y Hy) as (z & Hz & F). exists z. split; auto.
      intro t. rewrite E. auto.
    + destruct (D x Hx) as (y & Hy & E). destruct (B y Hy) as (z & Hz & F). exists z. split; auto.
      intro t. rewrite E. auto.
  - intros a b a' H. apply Bool.eq_iff_eq_true. rewrite !compare_iff. split; intros [A B]; split; intros x Hx.
    + apply A. apply H; auto.
    + destruct (B x Hx) as (y & Hy & E). exists y. split; auto. apply H; auto.
    + apply A. apply H; auto.
    + destruct (B x Hx) as (y & Hy & E). exists y. split; auto. apply H; auto.
Qed.

Lemma verify_expected_iff : forall actual expected resolute,
  verify_expected actual expected resolute = Ok tt <->
  if resolute then exists c, actual = [c] /\ exists d, In d expected /\ set_same c d
  else (forall c, In c actual -> exists d, In d expected /\ set_same c d) /\
       (forall c, In c expected -> exists d, In d actual /\ set_same c d).
Proof.
  intros a x [|]; simpl.
  - split.
    + destruct a as [|c [|]]; try discriminate. destruct (existsb (set_eqb c) x) eqn:E; [|discriminate].
      intros _. exists c. split; auto. apply existsb_set_eqb; auto.
    + intros (c & -> & H). apply existsb_set_eqb in H. rewrite H. auto.
  - unfold set_same. rewrite <- compare_iff. destruct (compare_list_of_committees a x); split; congruence.
Qed.

Lemma history_inv : forall nc names p ops,
  profile_new nc names = Ok p ->
  Forall (fun o => match o with OpWeighted ord => forall l, Permutation (ord l) l | _ => True end) ops ->
  let q := fold_left run_op ops p in
  wf q /\ Z.of_nat (num_cand q) = nc /\ cand_names q = cand_names p /\
  List.length (cand_names q) = num_cand q.
Proof.
  intros nc names p ops H Hl q. apply profile_new_ok in H as (A & _ & B & C & _).
  destruct (run_ops_inv ops p Hl A) as [D [E F]]. fold q in D, E, F. rewrite E, F. auto.
Qed.

Lemma history_flags : forall nc names p ops, profile_new nc names = Ok p ->
  Forall (fun o => match o with
                   | OpAdd (ArgVoter v) | OpSet _ (ArgVoter v) => weight_is_int v = true -> exists z, (weight v == inject_Z z)%Q
                   | OpAddMany l => Forall (fun a => match a with
                        | ArgVoter v => weight_is_int v = true -> exists z, (weight v == inject_Z z)%Q
                        | _ => True end) l
                   | _ => True end) ops ->
  Forall (fun v => weight_is_int v = true -> exists z, (weight v == inject_Z z)%Q) (voters (fold_left run_op ops p)).
Proof.
  intros nc names p ops H Hf. apply profile_new_ok in H as (_ & A & _). apply (run_ops_flags ops p).
  - eapply Forall_impl; [|exact Hf]. intros [[]| |? []| |]; simpl; auto.
  - rewrite A. constructor.
Qed.

Lemma weighted_preserves : forall ord p, (forall l, Permutation (ord l) l) -> wf p ->
  let q := convert_to_weighted ord p in
  (total_weight q == total_weight p)%Q /\ (forall c, (support q c == support p c)%Q) /\
  (forall f W, (Thiele f q W == Thiele f p W)%Q) /\
  (forall i j v u, i <> j -> nth_error (voters q) i = Some v -> nth_error (voters q) j = Some u ->
     ~ set_same (approved v) (approved u)).
Proof.
  intros ord p Ho Hw q. pose proof (same_election_sym _ _ (weighted_same_election ord p Ho)) as S. fold q in S.
  split; [apply same_total_weight; auto|]. split; [intro; apply same_support; auto|].
  split; [intros; apply same_Thiele; auto|]. apply weighted_distinct; auto.
Qed.

Lemma unit_preserves : forall p q, wf p ->
  Forall (fun v => weight_is_int v = true -> exists z, (weight v == inject_Z z)%Q) (voters p) ->
  convert_to_unit_weights p = (Ok tt, q) ->
  (total_weight q == total_weight p)%Q /\ (forall c, (support q c == support p c)%Q) /\
  (forall f W, (Thiele f q W == Thiele f p W)%Q) /\ unit_weights q.
Proof.
  intros p q Hw Hf H. destruct (unit_same_election p q Hw Hf H) as [S U]. apply same_election_sym in S.
  split; [apply same_total_weight; auto|]. split; [intro; apply same_support; auto|].
  split; auto. intros; apply same_Thiele; auto.
Qed.

Lemma conversion_results : forall e p, wf p ->
  (forall ord, (forall l, Permutation (ord l) l) -> same_results e p (convert_to_weighted ord p)) /\
  (forall q, Forall (fun v => weight_is_int v = true -> exists z, (weight v == inject_Z z)%Q) (voters p) ->
     convert_to_unit_weights p = (Ok tt, q) -> same_results e p q).
Proof.
  intros e p Hw. split.
  - intros ord Ho. apply same_election_results; auto; [|apply weighted_same_election; auto].
    apply weighted_inv; auto.
  - intros q Hf H. destruct (unit_same_election p q Hw Hf H) as [S U]. apply same_election_results; auto.
    pose proof (unit_inv p Hw) as [A _]. rewrite H in A. exact A.
Qed.

Lemma dominate_order : forall p,
  (forall W, dominate p W W <> Ok true) /\
  (forall W1 W2, dominate p W1 W2 = Ok true -> dominate p W2 W1 <> Ok true) /\
  (forall W1 W2 W3, dominate p W1 W2 = Ok true -> dominate p W2 W3 = Ok true -> dominate p W1 W3 = Ok true).
Proof.
  intro p.
  assert (K : forall W1 W2, dominate p W1 W2 = Ok true <-> (NoDup W1 /\ NoDup W2) /\
             ((forall v, In v (voters p) -> util v W2 <= util v W1) /\
                  exists v, In v (voters p) /\ util v W2 < util v W1)).
  { intros W1 W2. destruct (nodupb W1) eqn:E1; destruct (nodupb W2) eqn:E2.
    1: { apply nodupb_NoDup in E1, E2. destruct (dominate_spec p W1 W2 E1 E2) as (b & -> & H). rewrite <- H.
         split; [intro G; inversion G; auto|intros [_ ->]; auto]. }
    all: rewrite dominate_dup; [split; [discriminate|intros [[A B] _]; apply nodupb_NoDup in A, B; congruence]|
         intros [A B]; apply nodupb_NoDup in A, B; congruence]. }
  repeat split.
  - intro W. rewrite K. intros [_ [_ (v & _ & H)]]. lia.
  - intros W1 W2. rewrite !K. intros [_ [A _]] [_ [_ (v & Hv & B)]]. specialize (A v Hv). lia.
  - intros W1 W2 W3. rewrite !K. intros [[N1 N2] [A (v & Hv & L)]] [[_ N3] [B _]]. repeat split; auto.
    + intros u Hu. specialize (A u Hu). specialize (B u Hu). lia.
    + exists v. split; auto. specialize (B v Hv). lia.
Qed.

Lemma hamming_metric : 
  (forall a b, hamming a b = length (filter (fun x => negb (mem x b)) a) + length (filter (fun x => negb (mem x a)) b)) /\
  (forall a b, hamming a b = hamming b a) /\
  (forall a b, hamming a b = 0 <-> set_same a b) /\
  (forall a b c, NoDup a -> NoDup b -> NoDup c -> hamming a c <= hamming a b + hamming b c).
Proof.
  split; [intros; unfold hamming; rewrite app_length; auto|]. split; [apply hamming_sym|].
  split; [apply hamming_zero|apply hamming_triangle].
Qed.

Lemma binom_counts : forall m k, exists subsets,
  NoDup subsets /\
  (forall c, In c subsets <-> ascending c /\ length c = k /\ Forall (fun x => x < m) c) /\
  binom (Z.of_nat m) (Z.of_nat k) = Z.of_nat (length subsets).
Proof.
  intros m k. exists (combinations (seq 0 m) k). split; [apply combinations_NoDup, seq_NoDup|].
  split; [intro c; apply combinations_seq|].
  rewrite <- binom_correct, seq_length. reflexivity.
Qed.

Lemma binom_zero : forall n k, (n < 0 \/ k < 0 \/ n < k)%Z -> binom n k = 0%Z.
Proof.
  intros n k H. unfold binom, factorial.
  destruct (Z.ltb_spec n 0); [reflexivity|]. cbn [rbind]. destruct (Z.ltb_spec k 0); [reflexivity|]. cbn [rbind].
  destruct (Z.ltb_spec (n - k) 0); [reflexivity|]. lia.
Qed.

Lemma store_refines : forall acts a i o op, let s := fold_left step acts empty_store in
  target a = Some i -> as_op s a = Some op -> get s i = Some o ->
  exists o', get (step s a) i = Some o' /\ view (step s a) o' = run_op (view s o) op.
Proof. intros. eapply step_refines; eauto. apply steps_spec, empty_inv. Qed.

(** ** What the successful calls do *)
(** the voter that an argument of [add_voter] stands for: a copy of it, or a new voter
    of weight 1 with these approvals *)
Definition given (a : voter_arg) (v : voter) : Prop :=
  match a with
  | ArgVoter u => v = u
  | ArgSet l => weight v = 1%Q /\ weight_is_int v = true /\ l = map (fun c => PyInt (Z.of_nat c)) (approved v)
  end.
Lemma unique_voter_given : forall p a v, unique_voter p a = Ok v -> given a v.
Proof.
  intros p a v H. destruct a as [u|l]; cbn [unique_voter] in H; apply voter_new_ok in H as (_ & A & B & C).
  - cbn. destruct u as [ua uw ui], v as [va vw vi]; cbn in *. f_equal; auto.
    clear -C. revert va C. induction ua as [|x ua IH]; intros [|y va] C; cbn in C; try discriminate; auto.
    inversion C. f_equal; [lia|auto].
  - cbn. auto.
Qed.
Lemma add_voter_effect : forall p a q, add_voter p a = (Ok tt, q) ->
  exists v, given a v /\ q = mkProfile (num_cand p) (cand_names p) (voters p ++ [v]).
Proof.
  intros p a q H. unfold add_voter in H. destruct (unique_voter p a) as [v|] eqn:E; [|discriminate].
  exists v. split; [eapply unique_voter_given; eauto|]. inversion H. reflexivity.
Qed.
Lemma add_voters_effect : forall l p q, add_voters p l = (Ok tt, q) ->
  exists vs, Forall2 given l vs /\ q = mkProfile (num_cand p) (cand_names p) (voters p ++ vs).
Proof.
  induction l as [|a l IH]; intros p q H; cbn [add_voters] in H.
  - inversion H. exists []. split; [constructor|]. rewrite app_nil_r. destruct q; auto.
  - destruct (add_voter p a) as [[[]|] p'] eqn:E; [|discriminate].
    destruct (add_voter_effect p a p' E) as (v & Hv & ->). destruct (IH _ _ H) as (vs & Hvs & ->). cbn.
    exists (v :: vs). split; [constructor; auto|]. rewrite <- app_assoc. reflexivity.
Qed.
Lemma replace_nth_nth : forall A i j (x : A) l, nth_error (replace_nth i x l) j =
  if i =? j then (if j <? length l then Some x else None) else nth_error l j.
Proof.
  intros A. induction i as [|i IH]; intros j x [|y l]; destruct j as [|j]; cbn; auto.
  - destruct (i =? j); auto.
  - rewrite IH. reflexivity.
Qed.
Lemma set_voter_effect : forall p i a q, set_voter p i a = (Ok tt, q) ->
  exists v, given a v /\ i < length (voters p) /\ nth_error (voters q) i = Some v /\
    (forall j, j <> i -> nth_error (voters q) j = nth_error (voters p) j) /\
    num_cand q = num_cand p /\ cand_names q = cand_names p.
Proof.
  intros p i a q H. unfold set_voter in H. destruct (unique_voter p a) as [v|] eqn:E; [|discriminate].
  destruct (i <? length (voters p)) eqn:L; [|discriminate]. inversion H; subst q. cbn.
  exists v. split; [eapply unique_voter_given; eauto|]. apply Nat.ltb_lt in L as L'. split; auto. split; [|split; auto].
  - rewrite replace_nth_nth, Nat.eqb_refl, L. auto.
  - intros j Hj. rewrite replace_nth_nth. destruct (Nat.eqb_spec i j); [subst; congruence|auto].
Qed.

Lemma new_profile_content : forall nc names p, profile_new nc names = Ok p ->
  voters p = [] /\ Z.of_nat (num_cand p) = nc /\
  cand_names p = match names with
                 | Some (n :: l) => firstn (Z.to_nat nc) (n :: l)
                 | _ => map str_nat (seq 0 (Z.to_nat nc))
                 end.
Proof.
  intros nc names p H. unfold profile_new in H. destruct (Z.leb_spec nc 0); [discriminate|].
  destruct names as [[|n l]|]; [| |]; try (inversion H; subst p; cbn [voters num_cand cand_names]; repeat split; auto; lia).
  destruct (_ <? _); [discriminate|]. inversion H; subst p; cbn [voters num_cand cand_names]. repeat split; auto. lia.
Qed.
Lemma profile_queries : forall p,
  (total_weight p == wsum (voters p))%Q /\
  (has_unit_weights p = true <-> unit_weights p) /\
  NoDup (approved_candidates p) /\
  (forall c, In c (approved_candidates p) <-> exists v, In v (voters p) /\ approves v c = true).
Proof.
  intros p. split; [|split; [|split]].
  - unfold total_weight, wsum. assert (K : forall vs s, (fold_left (fun s v => s + weight v)%Q vs s == s + Qsum (map weight vs))%Q).
    { unfold Qsum. induction vs as [|v vs IH]; intros s; cbn [fold_left map fold_right]; [ring|]. rewrite IH. ring. }
    rewrite K. ring.
  - unfold has_unit_weights, unit_weights. rewrite forallb_forall, Forall_forall.
    split; intros H v Hv; apply Qeq_bool_iff; auto.
  - unfold approved_candidates. apply NoDup_nodup.
  - intros c. unfold approved_candidates. unfold dedup. rewrite nodup_In, in_flat_map. split; intros (v & A & B); exists v; split; auto.
    + apply mem_In. auto.
    + apply mem_In in B. auto.
Qed.
