(** * Monroe's rule: the score and the brute-force algorithm *)
From Coq Require Import String.
From Coq Require Import List Arith Bool ZArith QArith Lia Permutation.
From Verif Require Import Prelude Misc MiscProofs Preferences Scores Spec Search Rule RulesThiele Common ThieleProofs
  Compute SpecCompute ComputeProofs RulesMonroe SpecMonroe MonroeProofs MonroeFlow.
Import ListNotations.
Local Open Scope string_scope.
Open Scope nat_scope.

(** ** Existence *)
Fixpoint pos (c : nat) (L : list nat) : nat :=
  match L with [] => 0 | d :: r => if c =? d then 0 else S (pos c r) end.
Lemma map_pos : forall L (h : nat -> nat), NoDup L -> map (fun c => h (pos c L)) L = map h (seq 0 (length L)).
Proof.
  induction L as [|d L IH]; intros h Hn; [reflexivity|]. inversion Hn; subst. cbn [map length seq pos]. rewrite Nat.eqb_refl. f_equal.
  rewrite <- seq_shift, map_map. rewrite <- (IH (fun t => h (S t))) by auto. apply map_ext_in. intros c Hc.
  destruct (Nat.eqb_spec c d); [subst; contradiction|reflexivity].
Qed.
Lemma pos_lt : forall L c, In c L -> pos c L < length L.
Proof.
  induction L as [|d L IH]; intros c H; simpl; [destruct H|]. destruct (Nat.eqb_spec c d); [lia|]. destruct H; [congruence|].
  apply IH in H. lia.
Qed.

Lemma sum_quota_gen : forall a b j, list_sum (map (fun t => a + (if t <? b then 1 else 0)) (seq 0 j)) = j * a + Nat.min j b.
Proof.
  intros a b j. induction j as [|j IH]; [reflexivity|]. rewrite seq_S, map_app, list_sum_app, IH. change (0 + j) with j.
  unfold map, list_sum, fold_right. rewrite Nat.mul_succ_l. destruct (Nat.ltb_spec j b); lia.
Qed.
Lemma sum_quota : forall n k, k <> 0 -> list_sum (map (quota_of n k) (seq 0 k)) = n.
Proof.
  intros n k Hk. unfold quota_of. rewrite sum_quota_gen. pose proof (Nat.mod_upper_bound n k Hk).
  rewrite Nat.min_r by lia. symmetry. apply Nat.div_mod. auto.
Qed.
Lemma quota_bounds : forall n k t, k <> 0 -> n / k <= quota_of n k t <= (n + (k - 1)) / k.
Proof.
  intros n k t Hk. unfold quota_of. destruct (Nat.eq_dec (n mod k) 0) as [E|E].
  - rewrite ceil_exact by auto. rewrite E. destruct (Nat.ltb_spec t 0); lia.
  - rewrite ceil_inexact by auto. destruct (t <? n mod k); lia.
Qed.

Lemma assignment_exists : forall p W, NoDup W -> W <> [] -> exists phi, monroe_assignment p W phi.
Proof.
  intros p W HW Hne. set (n := length (voters p)). set (k := length W).
  assert (Hk : k <> 0) by (apply k_pos; auto).
  destruct (extend_assignment W (fun c => quota_of n k (pos c W)) n (fun _ => None)) as (phi & A & B & C & _); auto.
  - rewrite map_pos by auto. apply sum_quota. auto.
  - discriminate.
  - intros c Hc. rewrite used_cnt. rewrite filter_none by reflexivity. simpl. lia.
  - exists phi. split; [exact A|]. split; auto. intros c Hc. rewrite C by auto. apply quota_bounds. auto.
Qed.

(** all lists of length [n] over [W] *)
Fixpoint words (W : list nat) (n : nat) : list (list nat) :=
  match n with 0 => [[]] | S n' => flat_map (fun c => map (cons c) (words W n')) W end.
Lemma words_In : forall W n l, length l = n -> Forall (fun c => In c W) l -> In l (words W n).
Proof.
  intros W n. induction n as [|n IH]; intros l Hl HF; destruct l as [|c l]; try discriminate; simpl; auto.
  inversion HF; subst. apply in_flat_map. exists c. split; auto. apply in_map. apply IH; auto.
Qed.

Definition assignmentb (p : profile) (W phi : list nat) : bool :=
  (length phi =? length (voters p)) && forallb (fun c => mem c W) phi &&
  forallb (fun c => (length (voters p) / length W <=? cnt phi c) &&
                    (cnt phi c <=? (length (voters p) + (length W - 1)) / length W)) W.
Lemma assignmentb_iff : forall p W phi, assignmentb p W phi = true <-> monroe_assignment p W phi.
Proof.
  intros p W phi. unfold assignmentb, monroe_assignment. rewrite !andb_true_iff, Nat.eqb_eq, !forallb_forall, Forall_forall.
  split.
  - intros [[H1 H2] H3]. split; auto. split; [intros c Hc; apply mem_In; auto|]. intros c Hc. specialize (H3 c Hc).
    apply andb_true_iff in H3 as [H3 H4]. apply Nat.leb_le in H3, H4. lia.
  - intros (H1 & H2 & H3). split; [split|]; auto; [intros c Hc; apply mem_In; auto|]. intros c Hc. specialize (H3 c Hc).
    apply andb_true_iff. rewrite !Nat.leb_le. lia.
Qed.

Lemma max_element : forall (A : Type) (f : A -> nat) l, l <> [] -> exists a, In a l /\ forall b, In b l -> f b <= f a.
Proof.
  intros A f l. induction l as [|x l IH]; [congruence|]. intros _. destruct l as [|y l].
  - exists x. split; [left; auto|]. intros b [<-|[]]. lia.
  - destruct IH as (a & Ha & H); [discriminate|]. destruct (le_lt_dec (f a) (f x)).
    + exists x. split; [left; auto|]. intros b [<-|Hb]; auto. specialize (H b Hb). lia.
    + exists a. split; [right; auto|]. intros b [<-|Hb]; auto. lia.
Qed.

Lemma monroe_score_exists : forall p W, NoDup W -> W <> [] -> exists s, is_monroe_score p W s.
Proof.
  intros p W HW Hne. set (l := filter (assignmentb p W) (words W (length (voters p)))).
  assert (Hl : forall phi, monroe_assignment p W phi <-> In phi l).
  { intros phi. unfold l. rewrite filter_In, assignmentb_iff. split; [|tauto]. intros H. split; auto.
    destruct H as (H1 & H2 & _). apply words_In; auto. }
  destruct (max_element _ (represented p) l) as (phi & Hphi & Hmax).
  { destruct (assignment_exists p W HW Hne) as (phi & H). apply Hl in H. intros E. rewrite E in H. destruct H. }
  exists (represented p phi). split; [exists phi; split; auto; apply Hl; auto|]. intros psi H. apply Hmax, Hl. auto.
Qed.

Theorem monroescore_correct : forall nx p W, networkx_correct nx -> NoDup W -> W <> [] ->
  exists s, monroescore nx p W = Ok (Z.of_nat s) /\ is_monroe_score p W s.
Proof.
  intros nx p W Hx HW Hne. unfold monroescore. destruct W as [|c W']; [congruence|]. set (W := c :: W') in *.
  destruct (Nat.eqb_spec (length (voters p) mod length W) 0) as [E|E].
  - apply monroescore_matching_correct; auto.
  - destruct (monroe_score_exists p W HW Hne) as (s & Hs). exists s. split; auto.
    unfold monroescore_flowbased. destruct Hx as [_ Hx].
    destruct Hs as ((phi & H1 & H2) & H3).
    rewrite (Hx (flow_network p W) (Z.of_nat (length (voters p)) - Z.of_nat s)%Z).
    + do 2 f_equal. lia.
    + split.
      * destruct (assignment_to_flow p W HW Hne E phi H1) as (x & Hf & Hcost). exists x. split; auto. rewrite Hcost, H2. reflexivity.
      * intros x Hf. destruct (flow_to_assignment p W HW Hne E x Hf) as (psi & Hpsi & ->). specialize (H3 psi Hpsi). lia.
Qed.

Lemma monroe_score_unique : forall p W s s', is_monroe_score p W s -> is_monroe_score p W s' -> s = s'.
Proof. intros p W s s' ((phi & A & B) & C) ((phi' & A' & B') & C'). specialize (C phi' A'). specialize (C' phi A). lia. Qed.

(** ** Brute force *)
Definition score_value (nx : networkx) (p : profile) (W : list nat) : Z :=
  match monroescore nx p W with Ok z => z | Err _ => 0%Z end.

Lemma monroe_scan_eq : forall nx p cs opt best, (forall W, In W cs -> exists z, monroescore nx p W = Ok z) ->
  monroe_scan nx p cs opt best =
  Ok (fst (fold_left (scan_step (fun s b => (b <? s)%Z) Z.eqb (score_value nx p) true) cs (opt, best))).
Proof.
  intros nx p cs. induction cs as [|W cs IH]; intros opt best H; [reflexivity|]. cbn [monroe_scan fold_left].
  destruct (H W (or_introl eq_refl)) as (z & E). assert (E' : score_value nx p W = z) by (unfold score_value; rewrite E; auto).
  assert (H' : forall V, In V cs -> exists z, monroescore nx p V = Ok z) by (intros; apply H; right; auto).
  unfold scan_step at 2. rewrite E, E'. cbn [rbind]. destruct (best <? z)%Z; [apply IH; auto|].
  destruct (z =? best)%Z; apply IH; auto.
Qed.

Theorem monroe_bruteforce_correct : forall nx p k resolute maxn, networkx_correct nx -> 1 <= k <= num_cand p -> valid_max maxn ->
  answers (monroe_winner p k) resolute maxn (monroe_bruteforce nx p k resolute maxn).
Proof.
  intros nx p k resolute maxn Hx Hk Hm. unfold monroe_bruteforce.
  assert (Hs : forall W, is_committee p k W -> exists s, monroescore nx p W = Ok (Z.of_nat s) /\ is_monroe_score p W s).
  { intros W (H1 & H2 & _). apply monroescore_correct; auto; [apply ascending_NoDup; auto|]. intros ->. simpl in H2. lia. }
  rewrite monroe_scan_eq.
  2:{ intros W HW. apply combos_committee in HW. destruct (Hs W HW) as (s & E & _). eauto. }
  cbn [rbind].
  change (fst (fold_left _ (combinations (candidates p) k) ([], (-1)%Z))) with
    (fst (scan (fun s b => (b <? s)%Z) Z.eqb (score_value nx p) true (-1)%Z (combinations (candidates p) k))).
  assert (G1 : forall x y z : Z, (fun a b => (b <=? a)%Z) x y = true -> (fun a b => (b <=? a)%Z) y z = true -> (fun a b => (b <=? a)%Z) x z = true).
  { cbn. intros x y z. rewrite !Z.leb_le. lia. }
  assert (G2 : forall x y : Z, (fun a b => (b <=? a)%Z) x y = true \/ (fun a b => (b <=? a)%Z) y x = true).
  { cbn. intros x y. rewrite !Z.leb_le. lia. }
  assert (G3 : forall x y : Z, (y <? x)%Z = negb (x <=? y)%Z).
  { intros x y. destruct (Z.ltb_spec y x), (Z.leb_spec x y); auto; lia. }
  assert (G4 : forall x y : Z, (y <? x)%Z = false -> (x =? y)%Z = (y <=? x)%Z).
  { intros x y. rewrite Z.ltb_ge. intros. destruct (Z.eqb_spec x y), (Z.leb_spec y x); auto; lia. }
  assert (G5 : forall c, In c (combinations (candidates p) k) -> (-1 <=? score_value nx p c)%Z = true).
  { intros W HW. apply combos_committee in HW. destruct (Hs W HW) as (s & E & _). unfold score_value. rewrite E. apply Z.leb_le. lia. }
  destruct (brute_all_props (fun s b => (b <? s)%Z) Z.eqb (score_value nx p) (-1)%Z (fun a b => (b <=? a)%Z) G1 G2 G3 G4 p k ltac:(lia) G5) as (A & B & C).
  apply answers_finish; auto.
  intros W. rewrite (brute_all_In (fun s b => (b <? s)%Z) Z.eqb (score_value nx p) (-1)%Z (fun a b => (b <=? a)%Z) G1 G2 G3 G4 p k ltac:(lia) G5).
  unfold monroe_winner. split; intros [HW H]; split; auto.
  - destruct (Hs W HW) as (s & E & (phi & P1 & P2) & P3). exists phi. split; auto.
    intros W' phi' HW' H'. specialize (H W' HW'). destruct (Hs W' HW') as (s' & E' & _ & Q3).
    unfold score_value in H. rewrite E, E' in H. apply Z.leb_le in H. specialize (Q3 phi' H'). lia.
  - intros W' HW'. destruct H as (phi & P1 & P2). destruct (Hs W HW) as (s & E & _ & P3).
    destruct (Hs W' HW') as (s' & E' & (phi' & Q1 & Q2) & Q3). unfold score_value. rewrite E, E'. apply Z.leb_le.
    specialize (P3 phi P1). specialize (P2 W' phi' HW' Q1). lia.
Qed.

Lemma unit_weights_b : forall p, unit_weights p -> has_unit_weights p = true.
Proof.
  intros p Hu. unfold has_unit_weights. apply forallb_forall. intros v Hv.
  unfold unit_weights in Hu. rewrite Forall_forall in Hu. apply Qeq_bool_iff. auto.
Qed.
Lemma not_unit_weights_b : forall p, ~ unit_weights p -> has_unit_weights p = false.
Proof.
  intros p Hu. apply not_true_iff_false. intro H. apply Hu. unfold has_unit_weights in H.
  rewrite forallb_forall in H. apply Forall_forall. intros v Hv. apply Qeq_bool_iff. auto.
Qed.

Lemma monroe_winner_exists : forall p k, 1 <= k <= num_cand p -> exists W, monroe_winner p k W.
Proof.
  intros p k Hk.
  set (l := filter (fun x => assignmentb p (fst x) (snd x))
                   (flat_map (fun W => map (pair W) (words W (length (voters p)))) (combinations (candidates p) k))).
  assert (Hl : forall W phi, is_committee p k W /\ monroe_assignment p W phi <-> In (W, phi) l).
  { intros W phi. unfold l. rewrite filter_In, in_flat_map. cbn [fst snd]. rewrite assignmentb_iff. split.
    - intros [HW H]. split; auto. exists W. split; [apply combos_committee; auto|]. apply in_map.
      destruct H as (H1 & H2 & _). apply words_In; auto.
    - intros [(W' & HW' & H') H]. apply in_map_iff in H' as (y & E & _). inversion E; subst. apply combos_committee in HW'. auto. }
  destruct (max_element _ (fun x => represented p (snd x)) l) as ([W phi] & Hin & Hmax).
  { destruct (committee_exists p k ltac:(lia)) as (W & HW).
    destruct (assignment_exists p W) as (phi & H).
    - destruct HW as (H1 & _). apply ascending_NoDup; auto.
    - destruct HW as (_ & H2 & _). intros ->. simpl in H2. lia.
    - intros E. assert (In (W, phi) l) by (apply Hl; auto). rewrite E in H0. destruct H0. }
  apply Hl in Hin as [H1 H2]. exists W. split; auto. exists phi. split; auto. intros W' phi' HW' H'.
  apply (Hmax (W', phi')). apply Hl. auto.
Qed.

Theorem compute_monroe_correct : forall nx e p k resolute maxn, networkx_correct nx -> valid_call p k resolute maxn -> unit_weights p ->
  answers (monroe_winner p k) resolute (limit maxn) (compute_monroe nx e p (Z.of_nat k) "brute-force" resolute maxn).
Proof.
  intros nx e p k resolute maxn Hx Hc Hu. unfold compute_monroe.
  erewrite run_ok; eauto; try reflexivity; [|destruct resolute; reflexivity].
  pose proof (valid_limit _ _ _ _ Hc) as Hm. destruct Hc as (Hw & _ & Hk & _).
  rewrite unit_weights_b by auto. simpl String.eqb. simpl String.prefix. cbv iota. cbn [negb].
  pose proof (monroe_bruteforce_correct nx p k resolute (limit maxn) Hx Hk Hm) as HA.
  destruct (answers_nonempty _ _ _ _ (monroe_winner_exists p k Hk) Hm HA) as (l & E & Hne).
  rewrite E in *. cbn [rbind]. destruct l as [|W l]; [congruence|].
  assert (HW : monroe_winner p k W).
  { destruct HA as (l' & E' & _ & _ & HP & _). inversion E'; subst. apply HP. left. auto. }
  destruct HW as ((H1 & H2 & _) & _).
  destruct (monroescore_correct nx p W Hx) as (s & -> & _); auto.
  - apply ascending_NoDup; auto.
  - intros ->. simpl in H2. lia.
Qed.

Theorem compute_monroe_rejects : forall nx e p k alg resolute maxn, valid_call p k resolute maxn -> ~ unit_weights p ->
  In alg ["gurobi"; "mip-gurobi"; "mip-cbc"; "ortools-cp"; "brute-force"] ->
  compute_monroe nx e p (Z.of_nat k) alg resolute maxn = Err ValueError.
Proof.
  intros nx e p k alg resolute maxn Hc Hu Ha. unfold compute_monroe.
  destruct Ha as [<-|[<-|[<-|[<-|[<-|[]]]]]];
    (erewrite run_ok; eauto; try reflexivity; [rewrite not_unit_weights_b by auto; reflexivity|destruct resolute; reflexivity]).
Qed.
