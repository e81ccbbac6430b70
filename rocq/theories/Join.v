(** * Joining two elections (C67), and rules that refine each other (C68) *)
From Coq Require Import String.
From Coq Require Import List Arith Bool ZArith QArith Lia Lqa Permutation Sorted.
From Verif Require Import Milp RulesSolver SpecLoads SolverCompute SolverLex RulesMonroe RulesMore.
From Verif Require Import Prelude Misc Common MiscProofs Preferences Scores ScoresProofs Rule Spec SpecRules Compute SpecCompute SpecSeq
  SpecMonroe ComputeProofs Guarantees ComputeAll SpecAll AllProofs Mono TieBreak SpecVary Vary VaryAll.
Import ListNotations.
Local Open Scope string_scope.
Open Scope nat_scope.
Local Open Scope list_scope.

Section Join.
  Variables p q r : profile.
  Hypothesis HJ : joined p q r.

  Lemma join_committee : forall k W, (is_committee q k W <-> is_committee p k W) /\ (is_committee r k W <-> is_committee p k W).
  Proof using HJ. intros k W. destruct HJ as (E1 & E2 & _). unfold is_committee. rewrite E1, E2. tauto. Qed.

  (** the set of winners of the joined election, if some committee wins in both *)
  Definition consistent (P Q R : list nat -> Prop) : Prop := (exists W, P W /\ Q W) -> forall W, R W <-> P W /\ Q W.

  Lemma maximises_join : forall k (s t u : list nat -> Q), (forall W, (u W == s W + t W)%Q) ->
    consistent (maximises s p k) (maximises t q k) (maximises u r k).
  Proof using HJ.
    intros k s t u E (W0 & [C0 B0] & [_ B0']) W. destruct (join_committee k W) as [Jq Jr]. split.
    - intros [C B]. apply Jr in C. assert (H0 : is_committee r k W0) by (apply (proj2 (join_committee k W0)); auto).
      pose proof (B W0 H0) as H. rewrite !E in H. pose proof (B0 W C). pose proof (B0' W (proj2 Jq C)).
      split; (split; [tauto|]); intros V HV; [specialize (B0 V HV)|specialize (B0' V HV)]; lra.
    - intros [[C B] [_ B']]. split; [apply Jr; auto|]. intros V HV. rewrite !E. apply (proj2 (join_committee k V)) in HV.
      specialize (B V HV). specialize (B' V (proj2 (proj1 (join_committee k V)) HV)). lra.
  Qed.
  Lemma thiele_join : forall f W, (Thiele f r W == Thiele f p W + Thiele f q W)%Q.
  Proof using HJ. intros f W. unfold Thiele. destruct HJ as (_ & _ & ->). rewrite map_app, Qsum_app. reflexivity. Qed.
  Lemma support_join : forall c, (support r c == support p c + support q c)%Q.
  Proof using HJ. intros c. unfold support, supporters, wsum. destruct HJ as (_ & _ & ->). rewrite filter_app, map_app, Qsum_app. reflexivity. Qed.
  Lemma sav_support_join : forall c, (sav_support r c == sav_support p c + sav_support q c)%Q.
  Proof using HJ. intros c. unfold sav_support, supporters. destruct HJ as (_ & _ & ->). rewrite filter_app, map_app, Qsum_app. reflexivity. Qed.
  Lemma sum_over_join : forall (f g h : nat -> Q) W, (forall c, (h c == f c + g c)%Q) -> (Qsum (map h W) == Qsum (map f W) + Qsum (map g W))%Q.
  Proof using.
    intros f g h W H. induction W as [|c W IH]; cbn [map Qsum fold_right]; [reflexivity|]. unfold Qsum in *. cbn [fold_right]. rewrite IH, H. ring.
  Qed.
  Lemma at_least_join : forall W i, (at_least_weight r W i == at_least_weight p W i + at_least_weight q W i)%Q.
  Proof using HJ. intros W i. unfold at_least_weight, wsum. destruct HJ as (_ & _ & ->). rewrite filter_app, map_app, Qsum_app. reflexivity. Qed.
  Lemma distances_join : forall W d, voters_at_least r W d = voters_at_least p W d + voters_at_least q W d.
  Proof using HJ. intros W d. unfold voters_at_least. destruct HJ as (_ & _ & ->). rewrite filter_app, app_length. reflexivity. Qed.

  Lemma lex_ge_add : forall k x y x' y', lex_ge k x y -> lex_ge k x' y' -> lex_ge k (fun i => x i + x' i)%Q (fun i => y i + y' i)%Q.
  Proof using.
    intros k x y x' y' [H|(i & Hi & Hl & He)] [H'|(j & Hj & Hl' & He')].
    - left. intros i Hi. rewrite (H i Hi), (H' i Hi). reflexivity.
    - right. exists j. split; auto. split; [rewrite (H j Hj); lra|]. intros a Ha. rewrite (H a ltac:(lia)), (He' a Ha). reflexivity.
    - right. exists i. split; auto. split; [rewrite (H' i Hi); lra|]. intros a Ha. rewrite (H' a ltac:(lia)), (He a Ha). reflexivity.
    - right. destruct (lt_eq_lt_dec i j) as [[Hlt|E]|Hgt].
      + exists i. split; auto. split; [rewrite (He' i ltac:(lia)); lra|]. intros a Ha. rewrite (He a Ha), (He' a ltac:(lia)). reflexivity.
      + subst j. exists i. split; auto. split; [lra|]. intros a Ha. rewrite (He a Ha), (He' a Ha). reflexivity.
      + exists j. split; auto. split; [rewrite (He j ltac:(lia)); lra|]. intros a Ha. rewrite (He a ltac:(lia)), (He' a Ha). reflexivity.
  Qed.
  Lemma lex_ge_antisym : forall k x y, lex_ge k x y -> lex_ge k y x -> forall i, 1 <= i <= k -> (x i == y i)%Q.
  Proof using.
    intros k x y [H|(i & Hi & Hl & He)] H'; [auto|]. exfalso. destruct H' as [H'|(j & Hj & Hl' & He')].
    - specialize (H' i Hi). lra.
    - destruct (lt_eq_lt_dec i j) as [[Hlt|E]|Hgt].
      + specialize (He' i ltac:(lia)). lra.
      + subst j. lra.
      + specialize (He j ltac:(lia)). lra.
  Qed.
  Lemma lex_ge_ext : forall k x x' y y', (forall i, (x i == x' i)%Q) -> (forall i, (y i == y' i)%Q) -> lex_ge k x y -> lex_ge k x' y'.
  Proof using.
    intros k x x' y y' E E' [H|(i & Hi & Hl & He)].
    - left. intros i Hi. rewrite <- E, <- E'. auto.
    - right. exists i. split; auto. split; [rewrite <- E, <- E'; auto|]. intros a Ha. rewrite <- E, <- E'. auto.
  Qed.
  (** if both summands are at most [x] and [x'] and the sum is at least their sum, both are equal *)
  Lemma lex_ge_split : forall k x y x' y', lex_ge k x y -> lex_ge k x' y' -> lex_ge k (fun i => y i + y' i)%Q (fun i => x i + x' i)%Q ->
    lex_ge k y x /\ lex_ge k y' x'.
  Proof using.
    intros k x y x' y' H H' HS. pose proof (lex_ge_antisym _ _ _ (lex_ge_add _ _ _ _ _ H H') HS) as E. cbv beta in E.
    destruct H as [H|(i & Hi & Hl & He)]; destruct H' as [H'|(j & Hj & Hl' & He')].
    - split; left; intros i Hi; symmetry; auto.
    - exfalso. specialize (E j Hj). specialize (H j Hj). lra.
    - exfalso. specialize (E i Hi). specialize (H' i Hi). lra.
    - exfalso. destruct (lt_eq_lt_dec i j) as [[Hlt|Eij]|Hgt].
      + specialize (E i Hi). specialize (He' i ltac:(lia)). lra.
      + subst j. specialize (E i Hi). lra.
      + specialize (E j Hj). specialize (He j ltac:(lia)). lra.
  Qed.
  Lemma lexcc_join : forall k, consistent (lexcc_winner p k) (lexcc_winner q k) (lexcc_winner r k).
  Proof using HJ.
    intros k (W0 & [C0 B0] & [_ B0']) W. destruct (join_committee k W) as [Jq Jr]. split.
    - intros [C B]. apply Jr in C. assert (H0 : is_committee r k W0) by (apply (proj2 (join_committee k W0)); auto).
      destruct (lex_ge_split k (at_least_weight p W0) (at_least_weight p W) (at_least_weight q W0) (at_least_weight q W)) as [H1 H2]; auto.
      + apply B0'. apply Jq. auto.
      + eapply lex_ge_ext; [| |exact (B W0 H0)]; intros i; apply at_least_join.
      + split; (split; [tauto|]); intros V HV; eapply lex_ge_trans; eauto.
    - intros [[C B] [_ B']]. split; [apply Jr; auto|]. intros V HV. apply (proj2 (join_committee k V)) in HV.
      eapply lex_ge_ext; [| |apply lex_ge_add; [exact (B V HV)|exact (B' V (proj2 (proj1 (join_committee k V)) HV))]]; intros i; symmetry; apply at_least_join.
  Qed.

  Lemma lexm_add : forall f g f' g', lexm f g -> lexm f' g' -> lexm (fun d => f d + f' d) (fun d => g d + g' d).
  Proof using.
    intros f g f' g' [H|(i & Hl & He)] [H'|(j & Hl' & He')].
    - left. intros d. rewrite H, H'. auto.
    - right. exists j. split; [rewrite H; lia|]. intros a Ha. rewrite H, He'; auto.
    - right. exists i. split; [rewrite H'; lia|]. intros a Ha. rewrite H', He; auto.
    - right. destruct (lt_eq_lt_dec i j) as [[Hlt|E]|Hgt].
      + exists j. split; [rewrite (He j Hlt); lia|]. intros a Ha. rewrite (He a ltac:(lia)), (He' a Ha). auto.
      + subst j. exists i. split; [lia|]. intros a Ha. rewrite (He a Ha), (He' a Ha). auto.
      + exists i. split; [rewrite (He' i Hgt); lia|]. intros a Ha. rewrite (He a Ha), (He' a ltac:(lia)). auto.
  Qed.
  Lemma lexm_antisym : forall f g, lexm f g -> lexm g f -> forall d, f d = g d.
  Proof using.
    intros f g [H|(i & Hl & He)] H'; [auto|]. exfalso. destruct H' as [H'|(j & Hl' & He')].
    - specialize (H' i). lia.
    - destruct (lt_eq_lt_dec i j) as [[Hlt|E]|Hgt].
      + specialize (He j Hlt). lia.
      + subst j. lia.
      + specialize (He' i Hgt). lia.
  Qed.
  Lemma lexm_split : forall f g f' g', lexm f g -> lexm f' g' -> lexm (fun d => g d + g' d) (fun d => f d + f' d) -> lexm g f /\ lexm g' f'.
  Proof using.
    intros f g f' g' H H' HS. pose proof (lexm_antisym _ _ (lexm_add _ _ _ _ H H') HS) as E. cbv beta in E.
    destruct H as [H|(i & Hl & He)]; destruct H' as [H'|(j & Hl' & He')].
    - split; left; auto.
    - exfalso. specialize (E j). specialize (H j). lia.
    - exfalso. specialize (E i). specialize (H' i). lia.
    - exfalso. destruct (lt_eq_lt_dec i j) as [[Hlt|Eij]|Hgt].
      + specialize (E j). specialize (He j Hlt). lia.
      + subst j. specialize (E i). lia.
      + specialize (E i). specialize (He' i Hgt). lia.
  Qed.
  Lemma lexminimaxav_join : forall k, consistent (lexminimaxav_winner p k) (lexminimaxav_winner q k) (lexminimaxav_winner r k).
  Proof using HJ.
    intros k (W0 & [C0 B0] & [_ B0']) W. destruct (join_committee k W) as [Jq Jr].
    assert (JE : forall A B, lexm (voters_at_least r A) (voters_at_least r B) <->
      lexm (fun d => voters_at_least p A d + voters_at_least q A d) (fun d => voters_at_least p B d + voters_at_least q B d)).
    { intros A B. unfold lexm. split; (intros [H|(d & Hl & He)]; [left; intros d; specialize (H d)|right; exists d; split; [|intros a Ha; specialize (He a Ha)]]);
      rewrite ?distances_join in *; auto. }
    split.
    - intros [C B]. apply Jr in C. assert (H0 : is_committee r k W0) by (apply (proj2 (join_committee k W0)); auto).
      destruct (lexm_split (voters_at_least p W0) (voters_at_least p W) (voters_at_least q W0) (voters_at_least q W)) as [H1 H2].
      + apply B0; auto.
      + apply B0'; auto. apply Jq. auto.
      + apply JE. exact (B W0 H0).
      + split; (split; [tauto|]); intros V HV; (eapply lexm_trans; [eassumption|]); [apply B0|apply B0']; auto.
    - intros [[C B] [_ B']]. split; [apply Jr; auto|]. intros V HV. apply (proj2 (join_committee k V)) in HV. apply JE.
      apply lexm_add; [exact (B V HV)|exact (B' V (proj2 (proj1 (join_committee k V)) HV))].
  Qed.
  (** minimax AV: a committee winning in both elections wins in the joined one *)
  Lemma minimaxav_join : forall k W, minimaxav_winner p k W -> minimaxav_winner q k W -> minimaxav_winner r k W.
  Proof using HJ.
    intros k W [C B] [_ B']. split; [apply (proj2 (join_committee k W)); auto|]. intros V d d' HV Hd Hd'.
    apply (proj2 (join_committee k V)) in HV. pose proof (proj2 (proj1 (join_committee k V)) HV) as HVq.
    destruct (max_distance_exists p W) as (a & Ha). destruct (max_distance_exists q W) as (b & Hb).
    destruct (max_distance_exists p V) as (a' & Ha'). destruct (max_distance_exists q V) as (b' & Hb').
    specialize (B V a a' HV Ha Ha'). specialize (B' V b b' HVq Hb Hb').
    assert (K : forall A x y z, max_distance p A x -> max_distance q A y -> max_distance r A z -> z = Nat.max x y).
    { clear - HJ. intros A x y z (X1 & X2 & X3) (Y1 & Y2 & Y3) (Z1 & Z2 & Z3). destruct HJ as (_ & _ & Er). rewrite Er in *.
      assert (L1 : x <= z). { destruct (voters p) as [|v0 l] eqn:E; [rewrite X3; auto; lia|]. destruct X2 as (v & Hv & <-); [discriminate|]. apply Z1, in_or_app. auto. }
      assert (L2 : y <= z). { destruct (voters q) as [|v0 l] eqn:E; [rewrite Y3; auto; lia|]. destruct Y2 as (v & Hv & <-); [discriminate|]. apply Z1, in_or_app. auto. }
      assert (L3 : z <= Nat.max x y); [|lia]. destruct (voters p ++ voters q) as [|v0 l] eqn:E; [rewrite Z3; auto; lia|].
      destruct Z2 as (v & Hv & <-); [discriminate|]. rewrite <- E in Hv. apply in_app_iff in Hv as [Hv|Hv]; [specialize (X1 v Hv)|specialize (Y1 v Hv)]; lia. }
    rewrite (K W a b d Ha Hb Hd), (K V a' b' d' Ha' Hb' Hd'). lia.
  Qed.
End Join.

(** ** Refinements *)
Lemma Thiele_cc_at_least : forall p W, wf p -> (Thiele cc_w p W == at_least_weight p W 1)%Q.
Proof.
  intros p W Hw. unfold Thiele, at_least_weight, wsum. clear Hw. induction (voters p) as [|v l IH]; [reflexivity|].
  cbn [map]. change (Qsum (?a :: ?b)) with (a + Qsum b)%Q. rewrite IH. cbn [filter].
  assert (E : (Qsum (map cc_w (seq 1 (util v W))) == if 1 <=? util v W then 1 else 0)%Q).
  { destruct (util v W) as [|n]; [reflexivity|]. cbn [seq map Nat.leb]. change (Qsum (?a :: ?b)) with (a + Qsum b)%Q.
    assert (Z : forall n a, 2 <= a -> (Qsum (map cc_w (seq a n)) == 0)%Q).
    { induction n0 as [|n0 IHn]; intros a Ha; [reflexivity|]. cbn [seq map]. change (Qsum (?a :: ?b)) with (a + Qsum b)%Q. rewrite IHn by lia.
      unfold cc_w. destruct (a =? 1) eqn:Ea; [apply Nat.eqb_eq in Ea; lia|]. reflexivity. }
    rewrite Z by lia. reflexivity. }
  rewrite E. destruct (1 <=? util v W); cbn [map]; [change (Qsum (?a :: ?b)) with (a + Qsum b)%Q|]; ring.
Qed.
Lemma lexcc_refines : forall p k W, wf p -> 1 <= k -> lexcc_winner p k W -> maximises (Thiele cc_w p) p k W.
Proof.
  intros p k W Hw Hk [C B]. split; auto. intros V HV. rewrite !Thiele_cc_at_least by auto. destruct (B V HV) as [H|(i & Hi & Hl & He)].
  - rewrite (H 1) by lia. apply Qle_refl.
  - destruct (Nat.eq_dec i 1) as [->|Hne]; [lra|]. rewrite (He 1) by lia. apply Qle_refl.
Qed.
Lemma max_distance_at_least : forall p W d, max_distance p W d -> (forall x, d < x -> voters_at_least p W x = 0) /\ (voters p <> [] -> 0 < voters_at_least p W d).
Proof.
  intros p W d (H1 & H2 & _). split.
  - intros x Hx. unfold voters_at_least. rewrite (proj2 (length_zero_iff_nil _)); auto. apply length_zero_iff_nil, length_zero_iff_nil.
    destruct (filter (fun v => x <=? distance (approved v) W) (voters p)) as [|v l] eqn:E; auto. exfalso.
    assert (Hv : In v (filter (fun v => x <=? distance (approved v) W) (voters p))) by (rewrite E; left; auto).
    apply filter_In in Hv as [Hv Hx']. apply Nat.leb_le in Hx'. specialize (H1 v Hv). lia.
  - intros Hne. destruct (H2 Hne) as (v & Hv & E). unfold voters_at_least.
    assert (Hin : In v (filter (fun v => d <=? distance (approved v) W) (voters p))) by (apply filter_In; split; auto; apply Nat.leb_le; lia).
    destruct (filter (fun v => d <=? distance (approved v) W) (voters p)); [destruct Hin|cbn; lia].
Qed.
Lemma lexminimaxav_refines : forall p k W, voters p <> [] -> lexminimaxav_winner p k W -> minimaxav_winner p k W.
Proof.
  intros p k W Hne [C B]. split; auto. intros V d d' HV Hd Hd'. destruct (le_lt_dec d d') as [|Hlt]; auto. exfalso.
  destruct (max_distance_at_least p W d Hd) as [A1 A2]. destruct (max_distance_at_least p V d' Hd') as [A3 _]. specialize (A2 Hne). specialize (A3 d Hlt).
  destruct (B V HV) as [H|(x & Hl & He)]; [specialize (H d); lia|].
  destruct (lt_eq_lt_dec x d) as [[Hx|Ex]|Hx].
  - specialize (He d Hx). lia.
  - subst x. lia.
  - destruct (max_distance_at_least p V d' Hd') as [A4 _]. rewrite (A4 x) in Hl by lia. lia.
Qed.
