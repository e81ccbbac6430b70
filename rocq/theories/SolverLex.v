(** * Lexicographic optimisation with a solver: lexcc and lexicographic minimax AV *)
From Coq Require Import String.
From Coq Require Import List Arith Bool ZArith QArith Lia Lqa Permutation.
From Verif Require Import Prelude Misc MiscProofs Preferences Scores Spec SpecRules Common ScoresProofs ThieleProofs OptProofs
  Milp MilpProofs RulesSolver SolverProofs.
Import ListNotations.
Open Scope nat_scope.
Local Open Scope list_scope.

(** Every weight is a multiple of some number larger than 1e-8, so two different
    sums of weights differ by more than the tolerance of the constraints. *)
Definition granular_by (u : Q) (p : profile) : Prop :=
  (ACCURACY < u)%Q /\ forall v, In v (voters p) -> exists n, (weight v == Qnat n * u)%Q.
Definition granular (p : profile) : Prop := exists u, granular_by u p.

Lemma Qsum_multiple : forall (A : Type) (u : Q) (f : A -> Q) l, (forall a, In a l -> exists n, (f a == Qnat n * u)%Q) ->
  exists n, (Qsum (map f l) == Qnat n * u)%Q.
Proof.
  intros A u f l. induction l as [|a l IH]; intros H.
  - exists 0. unfold Qsum, Qnat; cbn. ring.
  - destruct (H a) as [n En]; [left; auto|]. destruct IH as [n' En']; [intros; apply H; right; auto|].
    exists (n + n'). cbn [map]. unfold Qsum; cbn [fold_right]. fold (Qsum (map f l)). rewrite En, En'. unfold Qnat.
    rewrite Nat2Z.inj_add, inject_Z_plus. ring.
Qed.

Lemma multiple_gap : forall u a b x y, (ACCURACY < u)%Q -> (x == Qnat a * u)%Q -> (y == Qnat b * u)%Q ->
  (x <= y)%Q -> (y - ACCURACY <= x)%Q -> (x == y)%Q.
Proof.
  intros u a b x y Hu Hx Hy H1 H2. unfold ACCURACY in *. destruct (Nat.lt_trichotomy a b) as [H|[->|H]]; [|lra|].
  - exfalso. assert (Qnat a + 1 <= Qnat b)%Q by (rewrite <- Qnat_S'; apply Qnat_le'; lia). nra.
  - exfalso. assert (Qnat b + 1 <= Qnat a)%Q by (rewrite <- Qnat_S'; apply Qnat_le'; lia). nra.
Qed.

Lemma granular_weight : forall u p v, wf p -> granular_by u p -> In v (voters p) -> (u <= weight v)%Q.
Proof.
  intros u p v Hw [Hu H] Hv. destruct (H v Hv) as [n En]. assert (0 < weight v)%Q by (apply (wf_approved p v); auto).
  unfold ACCURACY in Hu. destruct n as [|n]; [change (Qnat 0) with 0%Q in En; lra|].
  rewrite Qnat_S' in En. assert (0 <= Qnat n)%Q by (change 0%Q with (Qnat 0); apply Qnat_le'; lia). nra.
Qed.

Lemma Qsum_map_gap : forall (A : Type) (f g : A -> Q) (d : Q) l a, (forall b, In b l -> (f b <= g b)%Q) -> In a l ->
  (f a + d <= g a)%Q -> (Qsum (map f l) + d <= Qsum (map g l))%Q.
Proof.
  intros A f g d l a. induction l as [|b l IH]; intros H Hin Hd; [destruct Hin|]. cbn [map]. unfold Qsum; cbn [fold_right].
  fold (Qsum (map f l)) (Qsum (map g l)). assert (f b <= g b)%Q by (apply H; left; auto).
  assert (Qsum (map f l) <= Qsum (map g l))%Q by (apply Qsum_map_le; intros; apply H; right; auto).
  destruct Hin as [->|Hin]; [lra|]. assert (Qsum (map f l) + d <= Qsum (map g l))%Q by (apply IH; auto; intros; apply H; right; auto). lra.
Qed.

(** ** The weight of voters with at least [i] approved members *)
Definition reaches (v : voter) (W : list nat) (i : nat) : Q := if i <=? util v W then 1%Q else 0%Q.
Lemma at_least_sum : forall p W i, (at_least_weight p W i == Qsum (map (fun iv => weight (snd iv) * reaches (snd iv) W i) (numbered p)))%Q.
Proof.
  intros p W i. unfold at_least_weight, wsum. rewrite (Qsum_filter _ weight (fun v => i <=? util v W)).
  rewrite <- (numbered_sum (fun v => if i <=? util v W then weight v else 0)%Q p). apply Qsum_map_ext. intros (j, v) _. cbn [snd].
  unfold reaches. destruct (i <=? util v W); lra.
Qed.
Lemma at_least_multiple : forall u p W i, granular_by u p -> exists n, (at_least_weight p W i == Qnat n * u)%Q.
Proof.
  intros u p W i [_ H]. unfold at_least_weight, wsum. apply Qsum_multiple. intros v Hv. apply filter_In in Hv as [Hv _]. auto.
Qed.
Lemma atleast_entry : forall p W i, wf p -> 1 <= i -> (thiele_score (atleast i) p W == at_least_weight p W i)%Q.
Proof. intros. apply lexcc_entry; auto. Qed.

(** the value of [utility[(voter, y)]], 0 if there is no such variable *)
Definition uval (x : assignment) (k : nat) (iv : nat * voter) (y : nat) : Q :=
  if y <=? max_in_committee k (snd iv) then x (Utility (fst iv) y) else 0%Q.

Lemma ev_atleast : forall x p k y, 1 <= y ->
  (ev x (utility_score (atleast y) p k) == Qsum (map (fun iv => weight (snd iv) * uval x k iv y) (numbered p)))%Q.
Proof.
  intros x p k y Hy. rewrite ev_utility_score. apply Qsum_map_ext. intros (i, v) _. cbn [fst snd]. unfold uval; cbn [fst snd].
  assert (G : forall M a, (Qsum (map (fun z => atleast y z * x (Utility i z)) (seq a M)) ==
                           (if (a <=? y) && (y <? a + M) then x (Utility i y) else 0))%Q).
  { induction M as [|M IH]; intros a; cbn [seq map].
    - replace ((a <=? y) && (y <? a + 0)) with false; [reflexivity|]. symmetry. apply andb_false_iff.
      destruct (Nat.leb_spec a y); auto. right. apply Nat.ltb_ge. lia.
    - unfold Qsum; cbn [fold_right]. fold (Qsum (map (fun z => atleast y z * x (Utility i z)) (seq (S a) M)))%Q. rewrite IH.
      unfold atleast at 1, marginal. destruct (Nat.eq_dec a y) as [->|Hne].
      + rewrite Z.eqb_refl. rewrite Nat.leb_refl. replace (S y <=? y) with false by (symmetry; apply Nat.leb_gt; lia). cbn [andb].
        replace (y <? y + S M) with true by (symmetry; apply Nat.ltb_lt; lia). lra.
      + replace (Z.of_nat a =? Z.of_nat y)%Z with false by (symmetry; apply Z.eqb_neq; lia).
        replace ((a <=? y) && (y <? a + S M)) with ((S a <=? y) && (y <? S a + M)); [lra|].
        destruct (Nat.leb_spec (S a) y), (Nat.leb_spec a y), (Nat.ltb_spec y (S a + M)), (Nat.ltb_spec y (a + S M)); auto; lia. }
  rewrite G. replace ((1 <=? y) && (y <? 1 + max_in_committee k v)) with (y <=? max_in_committee k v); [reflexivity|].
  destruct (Nat.leb_spec y (max_in_committee k v)), (Nat.leb_spec 1 y), (Nat.ltb_spec y (1 + max_in_committee k v)); auto; lia.
Qed.

(** if the variables below [y] say how many members are approved, the one for [y] says at most that *)
Lemma next_utility : forall p k m x i v y, wf p -> binary_committee p x -> incl (utility_decls p k) (decls m) ->
  incl (utility_cons p k) (cons m) -> feasible m x -> In (i, v) (numbered p) -> 1 <= y ->
  (forall z, 1 <= z < y -> (uval x k (i, v) z == reaches v (members p x) z)%Q) ->
  ((uval x k (i, v) y == 0)%Q \/ (uval x k (i, v) y == 1)%Q) /\ (uval x k (i, v) y <= reaches v (members p x) y)%Q.
Proof.
  intros p k m x i v y Hw Hb Hd Hc Hf Hiv Hy Hlt.
  destruct (utility_feasible p k m x i v Hw Hb Hd Hc Hf Hiv) as [Hbin Hsum]. unfold uval in *; cbn [fst snd] in *.
  set (M := max_in_committee k v) in *. set (t := util v (members p x)) in *.
  destruct (Nat.leb_spec y M) as [HyM|HyM].
  2:{ split; [left; reflexivity|]. unfold reaches. destruct (y <=? _); lra. }
  split; [apply Hbin; lia|]. unfold reaches. fold t. destruct (Nat.leb_spec y t) as [Hyt|Hyt].
  { destruct (Hbin y) as [A|A]; [lia| |]; rewrite A; lra. }
  (* the first t variables are 1 and sum to t *)
  assert (Hones : forall z, 1 <= z <= t -> (x (Utility i z) == 1)%Q).
  { intros z Hz. specialize (Hlt z ltac:(lia)). replace (z <=? M) with true in Hlt by (symmetry; apply Nat.leb_le; lia).
    unfold reaches in Hlt. fold t in Hlt. replace (z <=? t) with true in Hlt by (symmetry; apply Nat.leb_le; lia). auto. }
  assert (Hsplit : seq 1 M = seq 1 t ++ seq (S t) (y - S t) ++ y :: seq (S y) (M - y)).
  { replace M with (t + ((y - S t) + S (M - y))) at 1 by lia. rewrite seq_app. f_equal. rewrite seq_app. cbn [Nat.add].
    f_equal. replace (S (t + (y - S t))) with y by lia. reflexivity. }
  rewrite Hsplit, !map_app, !Qsum_app in Hsum. cbn [map] in Hsum.
  assert (E1 : (Qsum (map (fun z => x (Utility i z)) (seq 1 t)) == Qnat t)%Q).
  { rewrite (Qsum_map_ext _ _ (fun _ => 1%Q)) by (intros z Hz; apply in_seq in Hz; apply Hones; lia). rewrite Qsum_map_const, seq_length. lra. }
  assert (Hnn : forall z, 1 <= z <= M -> (0 <= x (Utility i z))%Q) by (intros z Hz; destruct (Hbin z Hz) as [A|A]; rewrite A; lra).
  assert (E2 : (0 <= Qsum (map (fun z => x (Utility i z)) (seq (S t) (y - S t))))%Q).
  { apply Qsum_map_nonneg. intros z Hz. apply in_seq in Hz. apply Hnn. lia. }
  assert (E3 : (0 <= Qsum (map (fun z => x (Utility i z)) (seq (S y) (M - y))))%Q).
  { apply Qsum_map_nonneg. intros z Hz. apply in_seq in Hz. apply Hnn. lia. }
  unfold Qsum in Hsum at 3. cbn [fold_right] in Hsum. fold (Qsum (map (fun z => x (Utility i z)) (seq (S y) (M - y)))) in Hsum. lra.
Qed.

Lemma utilities_uval : forall p k W i v y, wf p -> is_committee p k W -> In (i, v) (numbered p) ->
  (uval (utilities_of p W) k (i, v) y == reaches v W y)%Q.
Proof.
  intros p k W i v y Hw HW Hiv. unfold uval, reaches; cbn [fst snd utilities_of].
  pose proof (util_le_max p k W v Hw (numbered_voter _ _ _ Hiv) HW). apply numbered_In in Hiv. rewrite Hiv.
  destruct (Nat.leb_spec y (max_in_committee k v)), (Nat.leb_spec y (util v W)); try reflexivity. lia.
Qed.

Section LexCC.
  Variables (s : solver) (p : profile) (k : nat) (u : Q).
  Hypothesis Hw : wf p.
  Hypothesis Hk : k <= num_cand p.
  Hypothesis Hg : granular_by u p.
  Hypothesis Hs : forall sc, solves s p k (lexcc_program p k sc).

  Definition sat (sc : list Q) (i : nat) (W : list nat) : Prop := (at_least_weight p W i == nth (i - 1) sc 0)%Q.
  Definition agrees (sc : list Q) (n : nat) (W : list nat) : Prop := forall i, 1 <= i <= n -> sat sc i W.
  (** each entry is the best value among the committees that agree with the entries before it *)
  Definition lex_inv (sc : list Q) : Prop :=
    (exists W, is_committee p k W /\ agrees sc (length sc) W) /\
    forall i W, 1 <= i <= length sc -> is_committee p k W -> agrees sc (i - 1) W -> (at_least_weight p W i <= nth (i - 1) sc 0)%Q.

  Lemma lexcc_parts : forall sc, incl (in_committee_vars p) (decls (lexcc_program p k sc)) /\
    incl (utility_decls p k) (decls (lexcc_program p k sc)) /\ incl (utility_cons p k) (cons (lexcc_program p k sc)) /\
    In (size_con p k) (cons (lexcc_program p k sc)).
  Proof.
    intros sc. repeat split; intros; cbn [decls cons lexcc_program]; try intros d Hd.
    - apply in_or_app. auto.
    - apply in_or_app. auto.
    - right. apply in_or_app. auto.
    - left. auto.
  Qed.

  Lemma lexcc_bound : forall sc i x, 1 <= i <= length sc -> feasible (lexcc_program p k sc) x ->
    (nth (i - 1) sc 0 - ACCURACY <= ev x (utility_score (atleast i) p k))%Q.
  Proof.
    intros sc i x Hi [_ Fc]. rewrite Forall_forall in Fc.
    assert (H : holds x (CGe (utility_score (atleast (S (i - 1))) p k) (lconst (nth (i - 1) sc 0 - ACCURACY)%Q))).
    { apply Fc. cbn [cons lexcc_program]. right. apply in_or_app. right. apply in_map_iff. exists (i - 1, nth (i - 1) sc 0%Q). split; auto.
      assert (G : forall (l : list Q) a j, j < length l -> In (a + j, nth j l 0%Q) (combine (seq a (length l)) l)).
      { induction l as [|q l IH]; intros a j Hj; [simpl in Hj; lia|]. cbn [length seq combine]. destruct j as [|j].
        - left. cbn. f_equal. lia.
        - right. specialize (IH (S a) j). replace (a + S j) with (S a + j) by lia. apply IH. simpl in Hj. lia. }
      apply (G sc 0). lia. }
    cbn [holds] in H. rewrite ev_const in H. replace (S (i - 1)) with i in H by lia. exact H.
  Qed.

  Lemma lexcc_feasible : forall sc x, lex_inv sc -> feasible (lexcc_program p k sc) x ->
    forall n, n <= length sc -> agrees sc n (members p x) /\
      forall y i v, In (i, v) (numbered p) -> 1 <= y <= n -> (uval x k (i, v) y == reaches v (members p x) y)%Q.
  Proof using Hw Hk Hg.
    intros sc x [Hsome Hinv] Hf. destruct (lexcc_parts sc) as (Pv & Pd & Pc & Ps).
    assert (Hb : binary_committee p x) by (eapply binary_of_decls; eauto).
    assert (HW : is_committee p k (members p x)).
    { apply size_of_con; auto. destruct Hf as [_ Fc]. rewrite Forall_forall in Fc. auto. }
    induction n as [|n IH]; intros Hn.
    { split; [intros i Hi; lia|]. intros; lia. }
    destruct IH as [IH1 IH2]; [lia|]. set (y := S n) in *.
    assert (Hnext : forall i v, In (i, v) (numbered p) ->
      ((uval x k (i, v) y == 0)%Q \/ (uval x k (i, v) y == 1)%Q) /\ (uval x k (i, v) y <= reaches v (members p x) y)%Q).
    { intros i v Hiv. eapply (next_utility p k (lexcc_program p k sc) x i v y); eauto; [lia|]. intros z Hz. apply IH2; auto. lia. }
    assert (Hup : (at_least_weight p (members p x) y <= nth (y - 1) sc 0)%Q).
    { apply Hinv; auto; [lia|]. intros i Hi. apply IH1. lia. }
    assert (Hlow := lexcc_bound sc y x ltac:(lia) Hf). rewrite ev_atleast in Hlow by lia.
    assert (Hterm : forall iv, In iv (numbered p) -> (weight (snd iv) * uval x k iv y <= weight (snd iv) * reaches (snd iv) (members p x) y)%Q).
    { intros (i, v) Hiv. cbn [snd]. destruct (Hnext i v Hiv) as [_ Hle].
      assert (0 < weight v)%Q by (apply (wf_approved p v); auto; eapply numbered_voter; eauto). nra. }
    assert (Hsum := Qsum_map_le _ _ _ (numbered p) Hterm). rewrite <- at_least_sum in Hsum.
    assert (Hval : (at_least_weight p (members p x) y == nth (y - 1) sc 0)%Q).
    { destruct (at_least_multiple u p (members p x) y Hg) as [a Ha].
      assert (Hex : exists b, (nth (y - 1) sc 0 == Qnat b * u)%Q).
      { destruct Hsome as (W0 & HW0 & Hag). destruct (at_least_multiple u p W0 y Hg) as [b Eb]. exists b.
        specialize (Hag y ltac:(lia)). unfold sat in Hag. rewrite <- Hag. auto. }
      destruct Hex as [b Hb']. eapply multiple_gap; eauto; [apply Hg|lra]. }
    split.
    - intros i Hi. destruct (Nat.eq_dec i y) as [->|Hne]; [exact Hval|]. apply IH1. lia.
    - intros z i v Hiv Hz. destruct (Nat.eq_dec z y) as [->|Hne]; [|apply IH2; auto; lia].
      destruct (Hnext i v Hiv) as [Hbin Hle]. unfold reaches in *. destruct (y <=? util v (members p x)) eqn:E.
      2:{ destruct Hbin as [A|A]; rewrite A in *; lra. }
      destruct Hbin as [A|A]; [|auto]. exfalso.
      assert (Hgap : (Qsum (map (fun iv => weight (snd iv) * uval x k iv y) (numbered p)) + weight v <= at_least_weight p (members p x) y)%Q).
      { rewrite at_least_sum. apply (Qsum_map_gap _ _ _ (weight v) (numbered p) (i, v)); auto. cbn [snd]. unfold reaches. rewrite E, A. lra. }
      pose proof (granular_weight u p v Hw Hg (numbered_voter _ _ _ Hiv)) as Hwv. destruct Hg as [Hu _]. lra.
  Qed.

  Lemma lexcc_step : forall resolute maxn sc, valid_max maxn -> lex_inv sc ->
    exists cs q, optimize_rule s MIP_THRESHOLD p k (Some (atleast_score p (S (length sc)))) resolute maxn (lexcc_program p k sc) = Ok (cs, Some q) /\
      answers (fun W => is_committee p k W /\ agrees sc (length sc) W /\ forall W', is_committee p k W' -> agrees sc (length sc) W' ->
                 (at_least_weight p W' (S (length sc)) <= at_least_weight p W (S (length sc)))%Q) resolute maxn (sorted_committees cs) /\
      exists W r, cs = W :: r /\ is_committee p k W /\ agrees sc (length sc) W /\
        forall W', is_committee p k W' -> agrees sc (length sc) W' ->
          (at_least_weight p W' (S (length sc)) <= at_least_weight p W (S (length sc)))%Q.
  Proof using Hw Hk Hg Hs.
    intros resolute maxn sc Hm Hinv. destruct (lexcc_parts sc) as (Pv & Pd & Pc & Ps).
    set (y := S (length sc)).
    destruct (encoding_opt s MIP_THRESHOLD p k resolute maxn (lexcc_program p k sc) (agrees sc (length sc)) (fun W => at_least_weight p W y))
      with (score := Some (atleast_score p y)) as (cs & q & E & _ & HA & (W & r & Ec & (HW & HP & Hbest) & _) & _); auto.
    - unfold MIP_THRESHOLD. lra.
    - intros x Hx. apply (lexcc_feasible sc x Hinv Hx (length sc)). lia.
    - intros x Hx. cbn [objective lexcc_program]. fold y. rewrite ev_atleast by lia. rewrite at_least_sum. apply Qsum_map_le.
      intros (i, v) Hiv. cbn [snd].
      assert (Hb : binary_committee p x) by (eapply binary_of_decls; eauto).
      destruct (next_utility p k (lexcc_program p k sc) x i v y Hw Hb Pd Pc Hx Hiv) as [_ Hle]; [lia| |].
      + intros z Hz. apply (lexcc_feasible sc x Hinv Hx (length sc)); auto. lia.
      + assert (0 < weight v)%Q by (apply (wf_approved p v); auto; eapply numbered_voter; eauto). nra.
    - intros W HW HP. exists (utilities_of p W). split; [split|split].
      + cbn [decls lexcc_program]. apply utilities_decls_ok. auto.
      + pose proof (utilities_cons_ok p k W Hw HW) as Hc. inversion Hc as [|a b H1 H2]; subst. cbn [cons lexcc_program]. constructor; auto.
        apply Forall_app. split; auto. apply Forall_forall. intros c Hc'. apply in_map_iff in Hc' as ((j, q) & <- & Hjq).
        cbn [holds fst snd]. rewrite ev_const, (utilities_score_ok p k W (atleast (S j)) Hw HW).
        assert (Hj : j < length sc /\ q = nth j sc 0%Q).
        { clear - Hjq. assert (G : forall (l : list Q) a, In (j, q) (combine (seq a (length l)) l) -> a <= j /\ j - a < length l /\ q = nth (j - a) l 0%Q).
          { induction l as [|h l IH]; intros a; cbn [length seq combine]; [intros []|]. intros [E|H].
            - injection E as -> ->. rewrite Nat.sub_diag. cbn. repeat split; lia.
            - apply IH in H as (A & B & C). replace (j - a) with (S (j - S a)) by lia. cbn. repeat split; auto; lia. }
          apply G in Hjq. rewrite Nat.sub_0_r in Hjq. tauto. }
        destruct Hj as [Hj ->]. specialize (HP (S j) ltac:(lia)). unfold sat in HP. replace (S j - 1) with j in HP by lia.
        rewrite <- HP, <- thiele_score_correct, atleast_entry by (auto; try lia; apply Forall_forall; intros v Hv; apply (wf_approved p v); auto).
        unfold ACCURACY. lra.
      + eapply utilities_members; eauto.
      + cbn [objective lexcc_program]. fold y. rewrite (utilities_score_ok p k W (atleast y) Hw HW).
        rewrite <- thiele_score_correct, atleast_entry by (auto; try lia; apply Forall_forall; intros v Hv; apply (wf_approved p v); auto). reflexivity.
    - destruct Hinv as [Hsome _]. exact Hsome.
    - intros W HW HP. exists (thiele_score (atleast y) p W). split; auto. apply atleast_entry; auto. lia.
    - exists cs, q. split; auto. split.
      + eapply answers_ext; [|exact HA]. intros V. unfold enc_winner, slack. split; intros (A & B & C); split; auto; split; auto.
        * intros W' HW' HP'. specialize (C W' HW' HP'). lra.
        * intros W' HW' HP'. specialize (C W' HW' HP'). lra.
      + exists W, r. split; auto. split; auto. split; auto. intros W' HW' HP'. specialize (Hbest W' HW' HP'). lra.
  Qed.

  Lemma agrees_app : forall sc q n W, n <= length sc -> (agrees (sc ++ [q]) n W <-> agrees sc n W).
  Proof.
    intros sc q n W Hn. unfold agrees, sat. split; intros H i Hi; specialize (H i Hi); rewrite app_nth1 in * by lia; auto.
  Qed.

  Lemma lexcc_iterations_ok : forall n sc, lex_inv sc -> exists sc',
    lexcc_iterations s p k (seq (S (length sc)) n) sc = Ok sc' /\ length sc' = length sc + n /\ lex_inv sc'.
  Proof using Hw Hk Hg Hs.
    induction n as [|n IH]; intros sc Hinv; cbn [seq lexcc_iterations].
    - exists sc. split; auto.
    - destruct (lexcc_step true None sc I Hinv) as (cs & q & -> & _ & (W & r & -> & HW & HP & Hbest)). cbn [rbind fst].
      set (y := S (length sc)) in *.
      assert (Ey : (thiele_score (atleast y) p W == at_least_weight p W y)%Q) by (apply atleast_entry; auto; lia).
      set (sc1 := sc ++ [thiele_score (atleast y) p W]).
      assert (Hl : length sc1 = y) by (unfold sc1; rewrite app_length; simpl; lia).
      assert (Hnth : nth (length sc) sc1 0%Q = thiele_score (atleast y) p W) by (unfold sc1; rewrite app_nth2, Nat.sub_diag by lia; reflexivity).
      assert (Hinv1 : lex_inv sc1).
      { split.
        - exists W. split; auto. rewrite Hl. intros i Hi. destruct (Nat.eq_dec i y) as [->|Hne].
          + unfold sat. replace (y - 1) with (length sc) by lia. rewrite Hnth. lra.
          + apply (agrees_app sc _ (length sc)); auto; lia.
        - intros i V Hi HV Hag. rewrite Hl in Hi. destruct (Nat.eq_dec i y) as [->|Hne].
          + replace (y - 1) with (length sc) in * by lia. rewrite Hnth, Ey. apply Hbest; auto. apply (agrees_app sc (thiele_score (atleast y) p W)); auto.
          + unfold sc1. rewrite app_nth1 by lia. destruct Hinv as [_ Hinv]. apply Hinv; auto; [lia|]. apply (agrees_app sc (thiele_score (atleast y) p W)); auto. lia. }
      destruct (IH sc1 Hinv1) as (sc' & E & Hl' & Hi'). rewrite Hl in E. exists sc'. split; [exact E|]. split; auto. lia.
  Qed.

  Lemma first_difference : forall (x y : nat -> Q) n, (forall i, 1 <= i <= n -> (x i == y i)%Q) \/
    exists i, 1 <= i <= n /\ ~ (x i == y i)%Q /\ forall j, 1 <= j < i -> (x j == y j)%Q.
  Proof.
    intros x y n. induction n as [|n [IH|(i & Hi & Hne & Heq)]]; [left; intros; lia| |].
    - destruct (Qeq_dec (x (S n)) (y (S n))) as [E|E].
      + left. intros i Hi. destruct (Nat.eq_dec i (S n)) as [->|]; auto. apply IH. lia.
      + right. exists (S n). split; [lia|]. split; auto. intros j Hj. apply IH. lia.
    - right. exists i. split; [lia|]. auto.
  Qed.

  Lemma lex_inv_winner : forall sc W, lex_inv sc -> k = S (length sc) ->
    (is_committee p k W /\ agrees sc (length sc) W /\ forall W', is_committee p k W' -> agrees sc (length sc) W' ->
       (at_least_weight p W' k <= at_least_weight p W k)%Q) ->
    lexcc_winner p k W.
  Proof.
    intros sc W [_ Hinv] Ek (HW & Hag & Hbest). split; auto. intros W' HW'.
    destruct (first_difference (at_least_weight p W) (at_least_weight p W') k) as [H|(i & Hi & Hne & Heq)]; [left; auto|].
    right. exists i. split; auto. split; auto.
    assert (Hag' : agrees sc (i - 1) W').
    { intros j Hj. unfold sat. rewrite <- (Heq j) by lia. apply Hag. lia. }
    assert (at_least_weight p W' i <= at_least_weight p W i)%Q; [|apply Qle_lteq in H as [H|H]; auto; exfalso; apply Hne; lra].
    destruct (Nat.eq_dec i k) as [->|Hik].
    - apply Hbest; auto. replace (length sc) with (k - 1) by lia. auto.
    - pose proof (Hag i ltac:(lia)) as Es. unfold sat in Es. rewrite Es. apply Hinv; auto. lia.
  Qed.

  Lemma lex_ge_antisym : forall x y, lex_ge k x y -> lex_ge k y x -> forall i, 1 <= i <= k -> (x i == y i)%Q.
  Proof.
    intros x y [H|(i & Hi & Hlt & Heq)] H2 j Hj; auto. exfalso. destruct H2 as [H2|(i' & Hi' & Hlt' & Heq')].
    - specialize (H2 i Hi). lra.
    - destruct (Nat.lt_trichotomy i i') as [H|[->|H]]; [specialize (Heq' i); lra || (specialize (Heq' ltac:(lia)); lra)|lra|specialize (Heq i' ltac:(lia)); lra].
  Qed.

  Theorem gurobi_lexcc_correct : forall resolute maxn, 1 <= k -> valid_max maxn ->
    answers (lexcc_winner p k) resolute maxn (gurobi_lexcc s p k resolute maxn).
  Proof using Hw Hk Hg Hs.
    intros resolute maxn Hk1 Hm. unfold gurobi_lexcc.
    assert (Hinv0 : lex_inv []).
    { split; [|intros i W Hi; simpl in Hi; lia]. exists (seq 0 k). split; [|intros i Hi; simpl in Hi; lia].
      split; [apply ascending_seq|]. split; [apply seq_length|]. apply Forall_forall. intros c Hc. apply in_seq in Hc. lia. }
    destruct (lexcc_iterations_ok (k - 1) [] Hinv0) as (sc & E & Hl & Hinv). cbn [length] in E, Hl. rewrite E. cbn [rbind].
    destruct (lexcc_step resolute maxn sc Hm Hinv) as (cs & q & Eo & HA & (W & r & Ec & HW)).
    replace (S (length sc)) with k in * by lia. rewrite Eo. cbn [rbind fst]. rewrite Ec. rewrite <- Ec.
    eapply answers_ext; [|exact HA]. intros V. split.
    - intros HV. eapply lex_inv_winner; eauto. lia.
    - intros HV. pose proof (lex_inv_winner sc W Hinv ltac:(lia) HW) as HWw. destruct HV as [HV1 HV2], HWw as [HW1 HW2].
      assert (Heq := lex_ge_antisym _ _ (HV2 W HW1) (HW2 V HV1)). destruct HW as (_ & Hag & Hbest).
      split; auto. split.
      + intros i Hi. unfold sat. rewrite (Heq i) by lia. apply Hag. auto.
      + intros W' HW' HP'. rewrite (Heq k) by lia. auto.
  Qed.
End LexCC.

(** ** Lexicographic minimax AV *)
Definition indicator (b : bool) : Q := if b then 1%Q else 0%Q.
Lemma count_sum : forall (A : Type) (b : A -> bool) (l : list A), (Qsum (map (fun a => indicator (b a)) l) == Qnat (length (filter b l)))%Q.
Proof.
  intros A b l. induction l as [|a l IH]; [reflexivity|]. cbn [map filter]. unfold Qsum; cbn [fold_right]. fold (Qsum (map (fun a => indicator (b a)) l)).
  rewrite IH. unfold indicator. destruct (b a); cbn [length]; [rewrite Qnat_S'|]; lra.
Qed.
Definition near (v : voter) (W : list nat) (d : nat) : bool := distance (approved v) W <=? d.
Lemma within_sum : forall p W d, (Qnat (num_voters_within d p W) == Qsum (map (fun iv => indicator (near (snd iv) W d)) (numbered p)))%Q.
Proof.
  intros p W d. rewrite (numbered_sum (fun v => indicator (near v W d)) p), count_sum. unfold num_voters_within.
  erewrite filter_ext; [reflexivity|]. intros v. unfold near. rewrite hamming_distance. reflexivity.
Qed.

Lemma length_diff_inter : forall a b : list nat, length (inter a b) + length (diff a b) = length a.
Proof.
  intros a b. unfold inter, diff. induction a as [|x a IH]; auto. cbn [filter]. destruct (mem x b); cbn [negb length]; lia.
Qed.
Lemma inter_length_sym : forall a b : list nat, NoDup a -> NoDup b -> length (inter a b) = length (inter b a).
Proof.
  intros a b Ha Hb. apply Permutation_length. apply NoDup_Permutation; try apply NoDup_filter; auto.
  intros x. unfold inter. rewrite !filter_In, !mem_In. tauto.
Qed.
Lemma distance_range : forall p k W v, wf p -> In v (voters p) -> is_committee p k W ->
  (length (approved v) - k) + (k - length (approved v)) <= distance (approved v) W <= length (approved v) + k.
Proof.
  intros p k W v Hw Hv (HA & Hl & _). destruct (wf_approved p v Hw Hv) as (Hn & _ & _). unfold distance.
  pose proof (length_diff_inter (approved v) W). pose proof (length_diff_inter W (approved v)).
  pose proof (inter_length_sym (approved v) W Hn (ascending_NoDup _ HA)). lia.
Qed.

(** the assignment that belongs to a committee *)
Definition distances_of (p : profile) (W : list nat) : assignment := fun x =>
  match x with
  | InCommittee c => of_committee W c
  | AtMost i d => match nth_error (voters p) i with Some v => indicator (near v W d) | None => 0%Q end
  | _ => 0%Q
  end.

Section LexMinimax.
  Variables (s : solver) (p : profile) (k : nat).
  Hypothesis Hw : wf p.
  Hypothesis Hk : k <= num_cand p.
  Hypothesis Hs : forall cn d, solves s p k (lexminimaxav_program p k cn d).

  Lemma lexmm_parts : forall cn d, incl (in_committee_vars p) (decls (lexminimaxav_program p k cn d)) /\
    In (size_con p k) (cons (lexminimaxav_program p k cn d)).
  Proof. intros. split; [intros x Hx; apply in_or_app; auto|left; auto]. Qed.

  (** every voter counted within distance [d] is within distance [d] *)
  Lemma at_most_le : forall cn nd x d i v, feasible (lexminimaxav_program p k cn nd) x -> d <= num_cand p -> In (i, v) (numbered p) ->
    (ev x (at_most_lin k i v d) <= indicator (near v (members p x) d))%Q.
  Proof using Hw Hk.
    intros cn nd x d i v Hf Hd Hiv. destruct (lexmm_parts cn nd) as [Pv Ps]. pose proof Hf as [Fd Fc]. rewrite Forall_forall in Fd, Fc.
    assert (Hb : binary_committee p x) by (eapply binary_of_decls; eauto).
    assert (HW : is_committee p k (members p x)) by (apply size_of_con; auto).
    pose proof (numbered_voter _ _ _ Hiv) as Hv. pose proof (distance_range p k _ v Hw Hv HW) as [D1 D2].
    unfold at_most_lin. destruct (Nat.ltb_spec d (length (approved v) - k + (k - length (approved v)))).
    { rewrite ev_const. unfold indicator. destruct (near _ _ _); lra. }
    destruct (Nat.leb_spec (length (approved v) + k) d).
    { rewrite ev_const. unfold near. replace (distance (approved v) (members p x) <=? d) with true by (symmetry; apply Nat.leb_le; lia). cbn. lra. }
    rewrite ev_var.
    assert (Hin : In d (seq 0 (num_cand p + 1))) by (apply in_seq; lia).
    destruct (Fd (mkDecl (AtMost i d) Binary None None)) as [A _].
    { apply in_or_app. right. apply in_flat_map. exists (i, v). split; auto. apply in_map_iff. exists d. auto. }
    cbn in A. destruct A as [A|A]; [rewrite A; unfold indicator; destruct (near _ _ _); lra|].
    assert (H2 : holds x (COnlyIf (AtMost i d) (CLe (distance_lin p v) (lconst (Qnat d))))).
    { apply Fc. cbn [cons lexminimaxav_program]. right. apply in_or_app. left. apply in_flat_map. exists (i, v). split; auto.
      apply in_map_iff. exists d. split; auto. apply filter_In. split; auto. unfold at_most_is_var. apply andb_true_iff. cbn [snd].
      rewrite !negb_true_iff. split; [apply Nat.ltb_ge|apply Nat.leb_gt]; lia. }
    cbn [holds] in H2. specialize (H2 A). rewrite ev_const, (ev_distance p x v Hw Hb Hv) in H2. apply Qnat_le' in H2.
    unfold near. replace (distance (approved v) (members p x) <=? d) with true by (symmetry; apply Nat.leb_le; lia). rewrite A. cbn. lra.
  Qed.
  Lemma at_most_count_le : forall cn nd x d, feasible (lexminimaxav_program p k cn nd) x -> d <= num_cand p ->
    (ev x (at_most_count p k d) <= Qnat (num_voters_within d p (members p x)))%Q.
  Proof using Hw Hk.
    intros cn nd x d Hf Hd. unfold at_most_count. rewrite ev_sum, map_map, within_sum. apply Qsum_map_le. intros (i, v) Hiv. cbn [fst snd].
    eapply at_most_le; eauto.
  Qed.
  Lemma at_most_count_of : forall W d, is_committee p k W -> d <= num_cand p ->
    (ev (distances_of p W) (at_most_count p k d) == Qnat (num_voters_within d p W))%Q.
  Proof using Hw Hk.
    intros W d HW Hd. unfold at_most_count. rewrite ev_sum, map_map, within_sum. apply Qsum_map_ext. intros (i, v) Hiv. cbn [fst snd].
    pose proof (distance_range p k W v Hw (numbered_voter _ _ _ Hiv) HW) as [D1 D2]. apply numbered_In in Hiv.
    unfold at_most_lin, near. destruct (Nat.ltb_spec d (length (approved v) - k + (k - length (approved v)))).
    { rewrite ev_const. replace (distance (approved v) W <=? d) with false by (symmetry; apply Nat.leb_gt; lia). reflexivity. }
    destruct (Nat.leb_spec (length (approved v) + k) d).
    { rewrite ev_const. replace (distance (approved v) W <=? d) with true by (symmetry; apply Nat.leb_le; lia). reflexivity. }
    rewrite ev_var. cbn [distances_of]. rewrite Hiv. reflexivity.
  Qed.

  (** the committees that meet the constraints found so far *)
  Definition meets (cn : list (nat * nat)) (W : list nat) : Prop := forall d n, In (d, n) cn -> n <= num_voters_within d p W.

  Lemma lexmm_step : forall resolute maxn cn nd, valid_max maxn -> (forall d n, In (d, n) cn -> d <= num_cand p) -> nd <= num_cand p ->
    (exists W, is_committee p k W /\ meets cn W) ->
    let winner W := is_committee p k W /\ meets cn W /\ forall W', is_committee p k W' -> meets cn W' ->
                      num_voters_within nd p W' <= num_voters_within nd p W in
    exists cs q, optimize_rule s MIP_THRESHOLD p k (Some (within_score p nd)) resolute maxn (lexminimaxav_program p k cn nd) = Ok (cs, Some q) /\
      answers winner resolute maxn (sorted_committees cs) /\ exists W r, cs = W :: r /\ winner W.
  Proof using Hw Hk Hs.
    intros resolute maxn cn nd Hm Hcn Hnd Hsome winner. destruct (lexmm_parts cn nd) as [Pv Ps].
    destruct (encoding_opt s MIP_THRESHOLD p k resolute maxn (lexminimaxav_program p k cn nd) (meets cn) (fun W => Qnat (num_voters_within nd p W)))
      with (score := Some (within_score p nd)) as (cs & q & E & _ & HA & (W & r & Ec & (HW & HP & Hbest) & _) & _); auto.
    - unfold MIP_THRESHOLD. lra.
    - intros x Hx d n Hdn. pose proof Hx as [_ Fc]. rewrite Forall_forall in Fc.
      assert (H2 : holds x (CGe (at_most_count p k d) (lconst (Qnat n - ACCURACY)%Q))).
      { apply Fc. cbn [cons lexminimaxav_program]. right. apply in_or_app. right. apply in_map_iff. exists (d, n). split; auto. apply -> in_rev. auto. }
      cbn [holds] in H2. rewrite ev_const in H2. pose proof (at_most_count_le cn nd x d Hx (Hcn d n Hdn)) as H3.
      destruct (Nat.le_gt_cases n (num_voters_within d p (members p x))) as [|Hlt]; auto. exfalso.
      assert (Qnat (num_voters_within d p (members p x)) + 1 <= Qnat n)%Q by (rewrite <- Qnat_S'; apply Qnat_le'; lia). unfold ACCURACY in H2. lra.
    - intros x Hx. cbn [objective lexminimaxav_program]. eapply at_most_count_le; eauto.
    - intros W HW HP. exists (distances_of p W).
      assert (Hb : binary_committee p (distances_of p W)) by (eapply of_committee_binary; intros; reflexivity).
      assert (Em : members p (distances_of p W) = W) by (eapply of_committee_members; eauto).
      split; [split|split]; auto.
      + cbn [decls lexminimaxav_program]. apply Forall_app. split; apply Forall_forall; intros dd Hd.
        * unfold in_committee_vars in Hd. apply in_map_iff in Hd as (c & <- & _). split; [|split; exact I]. cbn.
          unfold of_committee. destruct (mem c W); [right|left]; reflexivity.
        * apply in_flat_map in Hd as ((i, v) & Hiv & Hd). apply in_map_iff in Hd as (d & <- & _). split; [|split; exact I]. cbn.
          apply numbered_In in Hiv. rewrite Hiv. unfold indicator. destruct (near v W d); [right|left]; reflexivity.
      + cbn [cons lexminimaxav_program]. constructor; [apply size_con_of; auto; rewrite Em; auto|]. apply Forall_app. split; apply Forall_forall; intros c Hc.
        * apply in_flat_map in Hc as ((i, v) & Hiv & Hc). apply in_map_iff in Hc as (d & <- & _). cbn [holds fst snd].
          rewrite ev_const, (ev_distance p _ v Hw Hb (numbered_voter _ _ _ Hiv)), Em. cbn [distances_of]. apply numbered_In in Hiv. rewrite Hiv.
          unfold indicator, near. destruct (Nat.leb_spec (distance (approved v) W) d); [intros _; apply Qnat_le'; auto|]. intros A. lra.
        * apply in_map_iff in Hc as ((d, n) & <- & Hdn). apply in_rev in Hdn. cbn [holds fst snd]. rewrite ev_const, (at_most_count_of W d HW (Hcn d n Hdn)).
          specialize (HP d n Hdn). apply Qnat_le' in HP. unfold ACCURACY. lra.
      + cbn [objective lexminimaxav_program]. apply at_most_count_of; auto.
    - intros W HW HP. eexists. split; [reflexivity|reflexivity].
    - exists cs, q. split; auto. assert (Hiff : forall slk V, (slk == 0)%Q -> (enc_winner p k (meets cn) (fun W => Qnat (num_voters_within nd p W)) slk V <-> winner V)).
      { intros slk V Hz. unfold enc_winner, winner. split; intros (A & B & C); split; auto; split; auto; intros W' HW' HP'; specialize (C W' HW' HP').
        - apply Qnat_le'. lra.
        - apply Qnat_le' in C. lra. }
      split; [eapply answers_ext; [|exact HA]; intros V; apply Hiff; reflexivity|]. exists W, r. split; auto. apply (Hiff 0%Q); [reflexivity|]. split; auto.
  Qed.

  (** [cn] holds the optimal counts for all distances from [d] up to [top] *)
  Definition mm_inv (top d : nat) (cn : list (nat * nat)) : Prop :=
    d <= top <= num_cand p /\
    (exists W0, is_committee p k W0 /\ meets cn W0) /\
    (forall e n, In (e, n) cn -> d <= e <= top) /\
    (exists n r, cn = (d, n) :: r) /\
    (forall e, d <= e <= top -> exists n, In (e, n) cn) /\
    In (top, length (voters p)) cn /\
    (* a committee that meets the constraints for all larger distances has at most [n] voters within distance [e] *)
    (forall e n W, In (e, n) cn -> is_committee p k W -> (forall e' n', In (e', n') cn -> e < e' -> n' <= num_voters_within e' p W) ->
       num_voters_within e p W <= n).

  Lemma next_distance_ok : forall top d cn, mm_inv top d cn -> next_distance cn = d - 1.
  Proof.
    intros top d cn (_ & _ & Hr & (n & r & ->) & _). unfold next_distance. cbn [map fst].
    assert (H : fold_left Nat.min (map fst r) d = d).
    { assert (G : forall l, (forall e, In e l -> d <= e) -> fold_left Nat.min l d = d).
      { induction l as [|e l IH]; intros H; auto. cbn [fold_left]. rewrite Nat.min_l by (apply H; left; auto). apply IH. intros; apply H; right; auto. }
      apply G. intros e He. apply in_map_iff in He as ((e', n') & <- & Hin). apply (Hr e' n'). right. auto. }
    rewrite H. auto.
  Qed.

  Definition mm_winner (cn : list (nat * nat)) (W : list nat) : Prop := is_committee p k W /\ meets cn W.

  Lemma mm_extend : forall top d cn W, mm_inv top (S d) cn -> is_committee p k W -> meets cn W ->
    (forall W', is_committee p k W' -> meets cn W' -> num_voters_within d p W' <= num_voters_within d p W) ->
    mm_inv top d ((d, num_voters_within d p W) :: cn).
  Proof.
    intros top d cn W (H1 & H2 & H3 & H4 & H5 & H6 & H7) HW HP Hbest. split; [lia|]. split.
    { exists W. split; auto. intros e n [E|Hin]; [injection E as <- <-; auto|auto]. }
    split.
    { intros e n [E|Hin]; [injection E as <- <-; lia|]. specialize (H3 e n Hin). lia. }
    split; [eauto|]. split.
    { intros e He. destruct (Nat.eq_dec e d) as [->|]; [eexists; left; reflexivity|]. destruct (H5 e) as [n5 Hn5]; [lia|]. exists n5. right. auto. }
    split; [right; auto|].
    intros e n V [E|Hin] HV Hlarger.
    - injection E as <- <-. apply Hbest; auto. intros e' n' Hin. apply Hlarger; [right; auto|]. specialize (H3 e' n' Hin). lia.
    - apply (H7 e n V Hin HV). intros e' n' Hin' Hlt. apply Hlarger; auto. right. auto.
  Qed.

  Lemma lexmm_iterations_ok : forall resolute maxn top d cn cs, valid_max maxn -> mm_inv top d cn -> 0 < d ->
    exists cn' cs', lexminimaxav_iterations s p k resolute maxn (rev (seq 0 d)) cn cs = Ok cs' /\
      mm_inv top 0 cn' /\ answers (mm_winner cn') resolute maxn (sorted_committees cs').
  Proof using Hw Hk Hs.
    intros resolute maxn top d. induction d as [|d IH]; intros cn cs Hm Hinv Hd; [lia|].
    replace (rev (seq 0 (S d))) with (d :: rev (seq 0 d)) by (rewrite seq_S, rev_app_distr; reflexivity).
    cbn [lexminimaxav_iterations]. rewrite (next_distance_ok top (S d) cn Hinv). replace (S d - 1) with d by lia.
    pose proof Hinv as (I1 & I2 & I3 & I4 & I5 & I6 & I7).
    assert (Hcn : forall e n, In (e, n) cn -> e <= num_cand p) by (intros e n Hin; specialize (I3 e n Hin); lia).
    destruct d as [|d].
    - cbn [Nat.eqb]. destruct (lexmm_step resolute maxn cn 0 Hm Hcn ltac:(lia) I2) as (cs' & q & -> & HA & (W & r & Ec & HW & HP & Hbest)).
      cbn [rbind fst]. rewrite Ec. cbn [seq rev lexminimaxav_iterations]. rewrite <- Ec.
      exists ((0, num_voters_within 0 p W) :: cn), cs'. split; auto. split; [apply mm_extend; auto|].
      eapply answers_ext; [|exact HA]. intros V. split.
      + intros (A & B & C). split; auto. intros e n [E|Hin]; [|auto]. injection E as <- <-. auto.
      + intros (A & B). assert (HV : meets cn V) by (intros e n Hin; apply B; right; auto). split; auto. split; auto.
        intros W' HW' HP'. specialize (B 0 _ (or_introl eq_refl)). specialize (Hbest W' HW' HP'). lia.
    - cbn [Nat.eqb]. destruct (lexmm_step true None cn (S d) I Hcn ltac:(lia) I2) as (cs' & q & -> & HA & (W & r & Ec & HW & HP & Hbest)).
      cbn [rbind fst]. rewrite Ec. apply (IH ((S d, num_voters_within (S d) p W) :: cn) (W :: r)); auto; [|lia].
      apply mm_extend; auto.
  Qed.

  Lemma within_at_least : forall W d, num_voters_within d p W + voters_at_least p W (S d) = length (voters p).
  Proof.
    intros W d. unfold num_voters_within, voters_at_least. induction (voters p) as [|v l IH]; auto. cbn [filter]. rewrite hamming_distance.
    change (S d <=? distance (approved v) W) with (d <? distance (approved v) W).
    destruct (Nat.leb_spec (distance (approved v) W) d), (Nat.ltb_spec d (distance (approved v) W)); cbn [length] in *; try lia.
  Qed.
  Lemma at_least_zero : forall W, voters_at_least p W 0 = length (voters p).
  Proof. intros W. unfold voters_at_least. induction (voters p); cbn; auto. Qed.

  Lemma mm_final : forall top cn W, mm_inv top 0 cn -> (forall V, meets cn V -> num_voters_within top p V = length (voters p)) ->
    mm_winner cn W -> lexminimaxav_winner p k W.
  Proof using Hw Hk.
    intros top cn W (I1 & I2 & I3 & I4 & I5 & I6 & I7) Htop (HW & HP). split; auto. intros W' HW'.
    (* search the first difference from [top] downwards *)
    assert (Hsearch : forall j, j <= S top ->
      (forall e, top < e + j -> e <= top -> num_voters_within e p W = num_voters_within e p W') \/
      exists d, num_voters_within d p W' < num_voters_within d p W /\ d <= top /\
                forall e, d < e <= top -> num_voters_within e p W = num_voters_within e p W').
    { induction j as [|j IH]; intros Hj; [left; intros; lia|]. destruct IH as [IH|IH]; [lia| |right; auto].
      set (d := top - j). destruct (Nat.eq_dec (num_voters_within d p W) (num_voters_within d p W')) as [E|E].
      - left. intros e He1 He2. destruct (Nat.eq_dec e d) as [->|]; auto. apply IH; lia.
      - right. exists d. split; [|split; [lia|intros e He; apply IH; lia]].
        destruct (I5 d) as [n Hn]; [lia|].
        assert (num_voters_within d p W' <= n).
        { apply (I7 d n W' Hn HW'). intros e' n' Hin Hlt. pose proof (I3 e' n' Hin). rewrite <- IH by lia. apply HP. auto. }
        specialize (HP d n Hn). lia. }
    assert (HWtop : num_voters_within top p W = length (voters p)) by (apply Htop; auto).
    assert (Habove : forall V e, num_voters_within top p V = length (voters p) -> top <= e -> num_voters_within e p V = length (voters p)).
    { intros V e HV He. unfold num_voters_within in *.
      assert (length (filter (fun v => hamming (approved v) V <=? top) (voters p)) <= length (filter (fun v => hamming (approved v) V <=? e) (voters p))).
      { clear - He. induction (voters p) as [|v l IH]; auto. cbn [filter].
        destruct (Nat.leb_spec (hamming (approved v) V) top), (Nat.leb_spec (hamming (approved v) V) e); cbn [length]; lia. }
      pose proof (filter_length_le _ (fun v => hamming (approved v) V <=? e) (voters p)). lia. }
    destruct (Nat.eq_dec (num_voters_within top p W') (length (voters p))) as [E|E].
    - destruct (Hsearch (S top) ltac:(lia)) as [H|(d & Hd & Hdt & Heq)].
      + left. intros d. destruct d as [|d]; [rewrite !at_least_zero; auto|].
        pose proof (within_at_least W d). pose proof (within_at_least W' d).
        assert (num_voters_within d p W = num_voters_within d p W'); [|lia].
        destruct (Nat.le_gt_cases d top) as [Hle|Hgt]; [apply H; lia|]. rewrite !Habove by (auto; lia). auto.
      + right. exists (S d). split; [pose proof (within_at_least W d); pose proof (within_at_least W' d); lia|].
        intros e He. destruct e as [|e]; [lia|]. pose proof (within_at_least W e). pose proof (within_at_least W' e).
        assert (num_voters_within e p W = num_voters_within e p W'); [|lia].
        destruct (Nat.le_gt_cases e top) as [Hle|Hgt]; [apply Heq; lia|]. rewrite !Habove by (auto; lia). auto.
    - (* some voter of W' is further away than [top]: compare at the largest distance where they differ *)
      assert (Hle : forall e, num_voters_within e p W' <= length (voters p)) by (intros e; unfold num_voters_within; apply filter_length_le).
      assert (Hbig : exists D, top <= D /\ num_voters_within D p W' < length (voters p) /\ forall e, D < e -> num_voters_within e p W' = length (voters p)).
      { assert (Hmax : num_voters_within (num_cand p) p W' = length (voters p)).
        { destruct HW' as (A & _ & B). unfold num_voters_within. clear - Hw A B. pose proof (fun v => wf_approved p v Hw) as Hv.
          assert (G : forall l, incl l (voters p) -> length (filter (fun v => hamming (approved v) W' <=? num_cand p) l) = length l).
          { induction l as [|v l IH]; intros Hi; auto. cbn [filter]. destruct (Hv v) as (X & Y & _); [apply Hi; left; auto|].
            rewrite hamming_distance. pose proof (distance_bound (approved v) W' (num_cand p) X (ascending_NoDup _ A) Y B).
            replace (distance (approved v) W' <=? num_cand p) with true by (symmetry; apply Nat.leb_le; auto). cbn [length]. f_equal. apply IH. intros z Hz. apply Hi. right. auto. }
          apply G. intros z; auto. }
        assert (G : forall j, top + j <= num_cand p -> (exists D, num_cand p - j <= D /\ num_voters_within D p W' < length (voters p) /\ forall e, D < e -> num_voters_within e p W' = length (voters p)) \/
                              forall e, num_cand p - j <= e -> num_voters_within e p W' = length (voters p)).
        { induction j as [|j IH]; intros Hj.
          - right. intros e He. apply (fun HH => HH). clear - He Hmax. unfold num_voters_within in *.
            assert (length (filter (fun v => hamming (approved v) W' <=? num_cand p) (voters p)) <= length (filter (fun v => hamming (approved v) W' <=? e) (voters p))).
            { assert (num_cand p <= e) by lia. clear - H. induction (voters p) as [|v l IH]; auto. cbn [filter].
              destruct (Nat.leb_spec (hamming (approved v) W') (num_cand p)), (Nat.leb_spec (hamming (approved v) W') e); cbn [length]; lia. }
            pose proof (filter_length_le _ (fun v => hamming (approved v) W' <=? e) (voters p)). lia.
          - destruct IH as [(D & A & B & C)|IH]; [lia|left; exists D; repeat split; auto; lia|].
            destruct (Nat.eq_dec (num_voters_within (num_cand p - S j) p W') (length (voters p))) as [E'|E'].
            + right. intros e He. destruct (Nat.eq_dec e (num_cand p - S j)) as [->|]; auto. apply IH. lia.
            + left. exists (num_cand p - S j). split; [lia|]. split; [specialize (Hle (num_cand p - S j)); lia|]. intros e He. apply IH. lia. }
        destruct (G (num_cand p - top) ltac:(lia)) as [(D & A & B & C)|H]; [exists D; repeat split; auto; lia|].
        exfalso. apply E. apply H. lia. }
      destruct Hbig as (D & HD1 & HD2 & HD3). right. exists (S D).
      pose proof (within_at_least W D). pose proof (within_at_least W' D). pose proof (Habove W D HWtop HD1). split; [lia|].
      intros e He. destruct e as [|e]; [lia|]. pose proof (within_at_least W e). pose proof (within_at_least W' e).
      pose proof (Habove W e HWtop ltac:(lia)). pose proof (HD3 e ltac:(lia)). lia.
  Qed.

  Lemma mm_final_iff : forall top cn W, mm_inv top 0 cn -> (mm_winner cn W <-> lexminimaxav_winner p k W).
  Proof using Hw Hk.
    intros top cn W Hinv. pose proof Hinv as (I1 & (W0 & HW0 & HP0) & I3 & I4 & I5 & I6 & I7).
    assert (Htop : forall V, meets cn V -> num_voters_within top p V = length (voters p)).
    { intros V HV. specialize (HV top _ I6). unfold num_voters_within in *.
      pose proof (filter_length_le _ (fun v => hamming (approved v) V <=? top) (voters p)). lia. }
    split; [apply (mm_final top); auto|]. intros [HW Hb]. split; auto.
    assert (H0 : lexminimaxav_winner p k W0) by (apply (mm_final top cn); auto; split; auto).
    assert (E : forall d, voters_at_least p W d = voters_at_least p W0 d).
    { destruct (Hb W0 HW0) as [E|(d & Hd & He)]; auto. destruct H0 as [_ H0]. destruct (H0 W HW) as [E|(d' & Hd' & He')]; [intros; symmetry; auto|].
      exfalso. destruct (Nat.lt_trichotomy d d') as [Hlt|[Heq|Hlt]]; [specialize (He d' Hlt)|subst d'|specialize (He' d Hlt)]; lia. }
    intros d n Hin. specialize (HP0 d n Hin). pose proof (within_at_least W d). pose proof (within_at_least W0 d). specialize (E (S d)). lia.
  Qed.

  Theorem gurobi_lexminimaxav_correct : forall resolute maxn, voters p <> [] -> valid_max maxn -> solves s p k (minimaxav_program p k) ->
    answers (lexminimaxav_winner p k) resolute maxn (gurobi_lexminimaxav s p k resolute maxn).
  Proof using Hw Hk Hs.
    intros resolute maxn Hne Hm Hs1. unfold gurobi_lexminimaxav.
    pose proof (solver_minimaxav_correct s MIP_THRESHOLD p k true None ltac:(unfold MIP_THRESHOLD; lra) Hw Hk I Hs1) as HA.
    destruct HA as (l & -> & _ & _ & HPl & Hlen). destruct l as [|W [|? ?]]; try discriminate. clear Hlen. cbn [rbind].
    destruct (HPl W (or_introl eq_refl)) as [HW Hbest]. set (D := minimaxav_score p W).
    pose proof (minimax_max_distance p W) as HD. fold D in HD. pose proof HD as (HD1 & HD2 & _). destruct (HD2 Hne) as (v0 & Hv0 & Ev0).
    assert (HDn : D <= num_cand p).
    { rewrite <- Ev0. destruct (wf_approved p v0 Hw Hv0) as (X & Y & _). destruct HW as (A & _ & B). apply distance_bound; auto. apply ascending_NoDup; auto. }
    assert (Hall : forall V d, (forall v, In v (voters p) -> distance (approved v) V <= d) -> num_voters_within d p V = length (voters p)).
    { intros V d H. unfold num_voters_within. revert H. generalize (voters p). intros l. induction l as [|v l IH]; intros H; auto.
      cbn [filter]. rewrite hamming_distance. replace (distance (approved v) V <=? d) with true by (symmetry; apply Nat.leb_le; apply H; left; auto).
      cbn [length]. f_equal. apply IH. intros; apply H; right; auto. }
    assert (Hgoal : forall cs, (exists V, lexminimaxav_winner p k V) -> answers (lexminimaxav_winner p k) resolute maxn (sorted_committees cs) ->
      answers (lexminimaxav_winner p k) resolute maxn (do sorted <- sorted_committees cs; match sorted with [] => Err IndexError | _ => Ok sorted end)).
    { intros cs Hex Hl. destruct (answers_nonempty _ _ _ _ Hex Hm Hl) as (l & E & Hnil). rewrite E in *. cbn [rbind]. destruct l; [congruence|auto]. }
    destruct (Nat.eq_dec D 0) as [E0|E0].
    - rewrite E0. cbn [seq rev lexminimaxav_iterations rbind].
      assert (Hz : forall V, is_committee p k V -> distance (approved v0) V = 0 -> V = W).
      { intros V HV E. apply ascending_ext; [apply HV|apply HW|]. rewrite E0 in Ev0. unfold distance in E, Ev0.
        assert (X : forall A B : list nat, length (diff A B) = 0 -> forall x, In x A -> In x B).
        { intros A B HL x Hx. destruct (diff A B) as [|y ys] eqn:Ed; [|discriminate]. destruct (in_dec Nat.eq_dec x B); auto.
          exfalso. assert (In x (diff A B)) by (apply diff_In; auto). rewrite Ed in *. auto. }
        intros x. split; intros Hx.
        - apply (X (approved v0)); [lia|]. apply (X V); [lia|auto].
        - apply (X (approved v0)); [lia|]. apply (X W); [lia|auto]. }
      assert (HWw : lexminimaxav_winner p k W).
      { split; auto. intros W' HW'. assert (Hn0 : forall d, voters_at_least p W (S d) = 0).
        { intros d. pose proof (within_at_least W d). rewrite (Hall W d) in *; [lia|]. intros v Hv. specialize (HD1 v Hv). lia. }
        destruct (Nat.eq_dec (distance (approved v0) W') 0) as [E|E]; [rewrite (Hz W' HW' E); left; auto|].
        assert (G : forall j, (exists d, voters_at_least p W d < voters_at_least p W' d /\ forall e, d < e -> voters_at_least p W e = voters_at_least p W' e) \/
                               forall e, num_cand p < e + j -> e <> 0 -> voters_at_least p W' e = 0).
        { induction j as [|j [IH|IH]]; auto.
          - right. intros e He _. destruct e as [|e]; [lia|]. pose proof (within_at_least W' e). rewrite (Hall W' e) in *; [lia|]. intros v Hv.
            destruct (wf_approved p v Hw Hv) as (X & Y & _). destruct HW' as (A & _ & B).
            pose proof (distance_bound (approved v) W' (num_cand p) X (ascending_NoDup _ A) Y B). lia.
          - destruct (Nat.le_gt_cases (S j) (num_cand p)) as [Hj|Hj].
            2:{ right. intros e He He0. apply IH; lia. }
            set (d := num_cand p - j). assert (Hd : exists d', d = S d') by (exists (num_cand p - S j); unfold d; lia). destruct Hd as [d' Hd].
            destruct (Nat.eq_dec (voters_at_least p W' d) 0) as [Ez|Ez].
            + right. intros e He He0. destruct (Nat.eq_dec e d) as [->|]; auto. apply IH; lia.
            + left. exists d. split; [rewrite Hd, Hn0, <- Hd; lia|]. intros e He. destruct e as [|e]; [lia|]. rewrite Hn0. symmetry. apply IH; lia. }
        destruct (G (num_cand p + 1)) as [Hx|Hx]; [right; auto|]. exfalso.
        specialize (Hx 1 ltac:(lia) ltac:(lia)). unfold voters_at_least in Hx.
        destruct (filter _ (voters p)) as [|y ys] eqn:Ef; [|discriminate].
        assert (In v0 (filter (fun v => 1 <=? distance (approved v) W') (voters p))) by (apply filter_In; split; auto; apply Nat.leb_le; lia).
        rewrite Ef in *. auto. }
      apply Hgoal; [eauto|]. rewrite sorted_committees_asc by (constructor; [apply HW|constructor]).
      change (sort_by committee_leb [W]) with [W]. exists [W]. split; auto. split; [repeat constructor; intros []|]. split; [apply printed_single|].
      split; [intros V [<-|[]]; auto|].
      assert (Hu : forall V, lexminimaxav_winner p k V -> In V [W]).
      { intros V [HV HVb]. left. symmetry. apply Hz; auto. destruct (HVb W HW) as [E|(d & Hd & He)].
        - destruct HWw as [_ HWb]. assert (num_voters_within 0 p V = length (voters p)).
          { pose proof (within_at_least V 0). pose proof (within_at_least W 0). rewrite (E 1) in *. rewrite (Hall W 0) in *; [lia|]. intros v Hv. specialize (HD1 v Hv). lia. }
          destruct (Nat.eq_dec (distance (approved v0) V) 0) as [|Ne]; auto. exfalso.
          pose proof (within_at_least V 0). assert (Hx : voters_at_least p V 1 = 0) by lia. unfold voters_at_least in Hx.
          destruct (filter _ (voters p)) as [|y ys] eqn:Ef; [|discriminate].
          assert (In v0 (filter (fun v => 1 <=? distance (approved v) V) (voters p))) by (apply filter_In; split; auto; apply Nat.leb_le; lia).
          rewrite Ef in *. auto.
        - exfalso. destruct d as [|d]; [rewrite !at_least_zero in Hd; lia|].
          pose proof (within_at_least W d). rewrite (Hall W d) in *; [lia|]. intros v Hv. specialize (HD1 v Hv). lia. }
      destruct resolute; auto. destruct maxn as [n|]; auto.
    - destruct (lexmm_iterations_ok resolute maxn D D [(D, length (voters p))] [W] Hm) as (cn' & cs' & -> & Hinv & HA); [|lia|].
      + split; [lia|]. split.
        { exists W. split; auto. intros e n [E|[]]. injection E as <- <-. rewrite Hall; auto. }
        split; [intros e n [E|[]]; injection E as <- <-; lia|]. split; [eauto|].
        split; [intros e He; exists (length (voters p)); left; f_equal; lia|]. split; [left; auto|].
        intros e n V [E|[]] _ _. injection E as <- <-. apply filter_length_le.
      + cbn [rbind]. apply Hgoal.
        * pose proof Hinv as (_ & (W0 & HW0 & HP0) & _). exists W0. apply (mm_final_iff D cn'); auto. split; auto.
        * eapply answers_ext; [|exact HA]. intros V. apply (mm_final_iff D). auto.
  Qed.
End LexMinimax.
