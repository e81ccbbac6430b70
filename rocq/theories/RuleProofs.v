(** * Proofs about the rule table and the parameter checks *)
From Coq Require Import String.
From Coq Require Import List Arith Bool ZArith QArith Lia Lqa Permutation Sorted.
From Verif Require Import Prelude Misc Preferences Scores Rule Spec Compute.
Import ListNotations.
Open Scope nat_scope.
Local Open Scope string_scope.

(** legality of [max_num_of_committees] *)
Definition maxn_legal (resolute : bool) (maxn : option pyobj) : Prop :=
  match maxn with
  | None => True
  | Some (PyInt z) => (1 <= z)%Z /\ resolute = false
  | Some (PyOther _) => False
  end.
Definition size_legal (p : profile) (k : Z) : Prop :=
  (1 <= k <= Z.of_nat (num_cand p))%Z /\ voters p <> [].

Lemma str_in_iff : forall s l, str_in s l = true <-> In s l.
Proof.
  intros. unfold str_in. rewrite existsb_exists. split.
  - intros (x & H & E). apply String.eqb_eq in E. subst; auto.
  - intro H. exists s. split; auto. apply String.eqb_refl.
Qed.

Lemma verify_cases : forall r p k alg resolute maxn,
  verify_compute_parameters r p k alg resolute maxn =
  match (Z.leb 1 k && Z.leb k (Z.of_nat (num_cand p)) && negb (Nat.eqb (List.length (voters p)) 0))%bool with
  | false => Err ValueError
  | true => if str_in alg (algorithms r) then
              if existsb (Bool.eqb resolute) (resolute_values r) then
                match maxn with
                | None => Ok tt
                | Some (PyOther _) => Err ValueError
                | Some (PyInt z) => if (Z.leb 1 z && negb resolute)%bool then Ok tt else Err ValueError
                end
              else Err NotImplementedError
            else Err UnknownAlgorithm
  end.
Proof.
  intros. unfold verify_compute_parameters.
  destruct (Z.ltb_spec k 1); destruct (Z.leb_spec 1 k); try lia; auto.
  destruct (Z.ltb_spec (Z.of_nat (num_cand p)) k); destruct (Z.leb_spec k (Z.of_nat (num_cand p))); try lia; auto.
  destruct (Nat.eqb (List.length (voters p)) 0); auto. simpl. destruct (str_in alg (algorithms r)); auto. simpl.
  destruct (existsb (Bool.eqb resolute) (resolute_values r)); auto. simpl.
  destruct maxn as [[z|]|]; auto. destruct (Z.ltb_spec z 1); destruct (Z.leb_spec 1 z); try lia; auto.
  destruct resolute; auto.
Qed.

Lemma size_legal_iff : forall p k,
  (Z.leb 1 k && Z.leb k (Z.of_nat (num_cand p)) && negb (Nat.eqb (List.length (voters p)) 0))%bool = true <-> size_legal p k.
Proof.
  intros. rewrite !andb_true_iff, !Z.leb_le, negb_true_iff, Nat.eqb_neq. unfold size_legal.
  rewrite length_zero_iff_nil. tauto.
Qed.

Lemma resolute_in : forall b l, existsb (Bool.eqb b) l = true <-> In b l.
Proof.
  intros. rewrite existsb_exists. split.
  - intros (x & H & E). apply Bool.eqb_prop in E. subst; auto.
  - intro H. exists b. split; auto. apply Bool.eqb_reflx.
Qed.

Lemma maxn_legal_cases : forall resolute maxn,
  match maxn with
  | None => Ok tt
  | Some (PyOther _) => Err ValueError
  | Some (PyInt z) => if (Z.leb 1 z && negb resolute)%bool then Ok tt else Err ValueError
  end = Ok tt <-> maxn_legal resolute maxn.
Proof.
  intros resolute [[z|]|]; simpl; split; try tauto; try discriminate.
  - destruct (Z.leb_spec 1 z); destruct resolute; simpl; try discriminate. auto.
  - intros [A ->]. apply Z.leb_le in A. rewrite A. auto.
Qed.

Lemma verify_exact : forall r p k alg resolute maxn,
  let out := verify_compute_parameters r p k alg resolute maxn in
  (out = Ok tt <-> size_legal p k /\ In alg (algorithms r) /\ In resolute (resolute_values r) /\ maxn_legal resolute maxn) /\
  (out = Err UnknownAlgorithm <-> size_legal p k /\ ~ In alg (algorithms r)) /\
  (out = Err NotImplementedError <-> size_legal p k /\ In alg (algorithms r) /\ ~ In resolute (resolute_values r)) /\
  (out = Err ValueError <-> ~ size_legal p k \/
       (In alg (algorithms r) /\ In resolute (resolute_values r) /\ ~ maxn_legal resolute maxn)) /\
  (out = Ok tt \/ out = Err UnknownAlgorithm \/ out = Err NotImplementedError \/ out = Err ValueError).
Proof.
  intros r p k alg resolute maxn out. unfold out. rewrite verify_cases.
  rewrite <- size_legal_iff, <- str_in_iff, <- resolute_in, <- maxn_legal_cases.
  destruct (_ && _ && _)%bool; [|intuition (discriminate || auto)].
  destruct (str_in alg (algorithms r)); [|intuition (discriminate || auto)].
  destruct (existsb _ _); [|intuition (discriminate || auto)].
  destruct (match maxn with None => _ | _ => _ end) as [[]|[]] eqn:E; try (intuition (discriminate || auto); fail);
  exfalso; destruct maxn as [[z|]|]; try discriminate; destruct (Z.leb 1 z && negb resolute)%bool; discriminate.
Qed.

(** a parameter check that fails makes the whole call fail with the same error *)
Lemma run_error : forall e id p k alg resolute maxn body r err,
  lookup_rule e id = Ok r -> alg <> "fastest" ->
  verify_compute_parameters r p k alg resolute maxn = Err err ->
  run e id p k alg resolute maxn body = Err err.
Proof.
  intros e id p k alg resolute maxn body r err Hr Ha Hv. unfold run. rewrite Hr. simpl. unfold prologue.
  apply String.eqb_neq in Ha. rewrite Ha. simpl. rewrite Hv. reflexivity.
Qed.

(** ** fastest *)
Definition usable (i : installed) (a : string) : Prop :=
  (In a ["gurobi"; "mip-gurobi"] -> has_gurobi i = true) /\
  (a = "gmpy2-fractions" -> has_gmpy2 i = true) /\
  (a = "ortools-cp" -> has_ortools i = true).

Lemma known_algorithms : forall e id r, lookup_rule e id = Ok r -> incl (algorithms r) ALGORITHM_IDS.
Proof.
  intros e id r H. unfold lookup_rule, rule_of_id in H.
  assert (K : forall id r, listed_rule id = Some r -> incl (algorithms r) ALGORITHM_IDS).
  { clear. intros id r H. unfold listed_rule in H.
    repeat match type of H with (if ?c then _ else _) = _ => destruct c end;
      inversion H; subst; clear; intros x Hx; cbn in Hx |- *; intuition. }
  destruct (listed_rule id) as [r'|] eqn:E.
  - inversion H; subst. eapply K; eauto.
  - destruct (prefix "seq" id || prefix "revseq" id)%bool; [|discriminate].
    destruct (get_marginal_scorefct _ _ _) as [|[]]; try discriminate.
    destruct (listed_rule (if prefix "seq" id then drop 3 id else drop 6 id)); [|discriminate].
    inversion H; subst. intros x Hx. cbn in Hx |- *. intuition.
Qed.

Lemma available_iff : forall i a, In a ALGORITHM_IDS -> (str_in a (available_algorithms i) = true <-> usable i a).
Proof.
  intros i a Ha. rewrite str_in_iff. unfold available_algorithms. rewrite filter_In.
  destruct i as [g m o]. unfold usable.
  cbn in Ha. repeat (destruct Ha as [<-|Ha]; [
    cbn; destruct g, m, o; cbn; intuition (try discriminate; auto)|]). destruct Ha.
Qed.

Lemma filter_head : forall (A:Type) (f : A -> bool) l a r, filter f l = a :: r ->
  exists l1 l2, l = (l1 ++ a :: l2)%list /\ (forall b, In b l1 -> f b = false) /\ f a = true.
Proof.
  induction l as [|x l IH]; simpl; intros a r H; [discriminate|]. destruct (f x) eqn:E.
  - inversion H; subst. exists [], l. simpl. intuition.
  - destruct (IH a r H) as (l1 & l2 & -> & A1 & A2). exists (x :: l1), l2. split; auto. split; auto.
    intros b [<-|Hb]; auto.
Qed.

Lemma fastest_spec : forall e i id r, lookup_rule e id = Ok r ->
  match fastest_available_algorithm i r with
  | Ok a => usable i a /\ exists faster slower, algorithms r = (faster ++ a :: slower)%list /\
              forall b, In b faster -> ~ usable i b
  | Err err => err = NoAvailableAlgorithm /\ forall b, In b (algorithms r) -> ~ usable i b
  end.
Proof.
  intros e i id r H. pose proof (known_algorithms e id r H) as K. unfold fastest_available_algorithm, rule_available.
  destruct (filter _ (algorithms r)) as [|a rest] eqn:E.
  - split; auto. intros b Hb Hu. apply (available_iff i b (K b Hb)) in Hu.
    assert (In b []) by (rewrite <- E; apply filter_In; auto). auto.
  - apply filter_head in E as (l1 & l2 & El & A1 & A2). assert (Ia : In a (algorithms r)) by (rewrite El; apply in_elt).
    split; [apply (available_iff i a (K a Ia)); auto|]. exists l1, l2. split; auto.
    intros b Hb Hu. assert (Ib : In b (algorithms r)) by (rewrite El; apply in_or_app; auto).
    apply (available_iff i b (K b Ib)) in Hu. rewrite A1 in Hu; auto. discriminate.
Qed.

Lemma fastest_exists : forall e i id r, lookup_rule e id = Ok r ->
  ((exists a, fastest_available_algorithm i r = Ok a) <-> id <> "leximaxphragmen" \/ has_gurobi i = true).
Proof.
  intros e i id r H. pose proof (fastest_spec e i id r H) as F.
  assert (K : forall id r, listed_rule id = Some r -> id <> "leximaxphragmen" ->
            In "standard" (algorithms r) \/ In "brute-force" (algorithms r) \/
            In "mip-cbc" (algorithms r) \/ In "standard-fractions" (algorithms r)).
  { clear. intros id r H Hne. unfold listed_rule in H. apply String.eqb_neq in Hne. rewrite Hne in H.
    repeat match type of H with (if ?c then _ else _) = _ => destruct c end;
      inversion H; subst; cbn; clear; intuition. }
  assert (L : listed_rule "leximaxphragmen" = Some (mkRule "leximaxphragmen" ["gurobi"] OPT_RESOLUTE)) by reflexivity.
  unfold lookup_rule, rule_of_id in H. split.
  - intros [a Ha]. rewrite Ha in F. destruct F as (U & l1 & l2 & El & _).
    destruct (string_dec id "leximaxphragmen") as [->|]; auto. right. rewrite L in H. inversion H; subst. cbn in El.
    destruct l1 as [|x [|]]; try discriminate. inversion El; subst. apply U. cbn; auto.
  - intros Hc. destruct (fastest_available_algorithm i r) as [a|] eqn:E; eauto. destruct F as [_ F]. exfalso.
    assert (U : forall b, In b (algorithms r) -> In b ["standard"; "brute-force"; "mip-cbc"; "standard-fractions"] -> False).
    { intros b Hb Hb'. apply (F b Hb). cbn in Hb'. unfold usable.
      destruct Hb' as [<-|[<-|[<-|[<-|[]]]]]; cbn; (repeat split; intro HH); intuition discriminate. }
    destruct (listed_rule id) as [r'|] eqn:E1.
    + inversion H; subst. destruct (string_dec id "leximaxphragmen") as [->|Hne].
      * rewrite L in E1. inversion E1; subst. destruct Hc as [Hc|Hc]; [congruence|].
        apply (F "gurobi"); [cbn; auto|]. unfold usable; cbn. repeat split; auto; discriminate.
      * destruct (K id r E1 Hne) as [X|[X|[X|X]]]; apply (U _ X); cbn; auto.
    + destruct (prefix "seq" id || prefix "revseq" id)%bool; [|discriminate].
      destruct (get_marginal_scorefct _ _ _) as [|[]]; try discriminate.
      destruct (listed_rule (if prefix "seq" id then drop 3 id else drop 6 id)); [|discriminate].
      inversion H; subst. apply (U "standard"); cbn; auto.
Qed.

Lemma fastest_passes : forall e i id r a, lookup_rule e id = Ok r -> fastest_available_algorithm i r = Ok a ->
  forall p k resolute maxn, verify_compute_parameters r p k a resolute maxn <> Err UnknownAlgorithm.
Proof.
  intros e i id r a Hr Ha p k resolute maxn H. pose proof (fastest_spec e i id r Hr) as F. rewrite Ha in F.
  destruct F as (_ & l1 & l2 & El & _).
  apply (verify_exact r p k a resolute maxn) in H as [_ H]. apply H. rewrite El. apply in_elt.
Qed.
