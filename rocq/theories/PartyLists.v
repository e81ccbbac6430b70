(** * Apportionment on party-list profiles: proofs (C85) *)
From Coq Require Import String.
From Coq Require Import List Arith Bool ZArith QArith Lia Lqa Permutation Sorted.
From Verif Require Import Milp RulesSolver SpecLoads SolverCompute SolverLex RulesMonroe RulesMore SolverMore.
From Verif Require Import Prelude Misc Common MiscProofs Preferences Scores ScoresProofs Rule Spec SpecRules Compute SpecCompute SpecSeq SpecAxioms
  SpecMonroe PhragmenProofs EnestroemProofs MesProofs MesFinal ComputeProofs ThieleProofs Guarantees Proportional ComputeAll SpecAll AllProofs Mono SpecParty.
Import ListNotations.
Local Open Scope string_scope.
Open Scope nat_scope.
Local Open Scope list_scope.

(** ** parties and seats *)
Section Seats.
  Variable p : profile.
  Notation same := (same_party p).

  Lemma same_iff : forall c d, same c d = true <-> forall v, In v (voters p) -> approves v c = approves v d.
  Proof using.
    intros c d. unfold same_party. rewrite forallb_forall. split; intros H v Hv; specialize (H v Hv); [apply eqb_prop|apply eqb_true_iff]; auto.
  Qed.
  Lemma same_refl : forall c, same c c = true.
  Proof using. intros c. apply same_iff. auto. Qed.
  Lemma same_sym : forall c d, same c d = same d c.
  Proof using.
    intros c d. destruct (same c d) eqn:E; symmetry.
    - apply same_iff. intros v Hv. symmetry. revert v Hv. apply same_iff. auto.
    - apply not_true_iff_false. intros H. apply not_true_iff_false in E. apply E. apply same_iff. intros v Hv. symmetry. revert v Hv. apply same_iff. auto.
  Qed.
  Lemma same_left : forall c d x, same c d = true -> same c x = same d x.
  Proof using.
    intros c d x H. rewrite same_iff in H. unfold same_party.
    assert (E : forall l, incl l (voters p) -> forallb (fun v => Bool.eqb (approves v c) (approves v x)) l = forallb (fun v => Bool.eqb (approves v d) (approves v x)) l).
    { induction l as [|v l IH]; intros HI; [reflexivity|]. cbn. rewrite (H v) by (apply HI; left; auto). f_equal. apply IH. intros a Ha. apply HI. right. auto. }
    apply E. apply incl_refl.
  Qed.
  Lemma same_support : forall c d, same c d = true -> support p c = support p d.
  Proof using.
    intros c d H. rewrite same_iff in H. unfold support, supporters. f_equal. apply filter_ext_in. auto.
  Qed.

  Lemma seats_same : forall W c d, same c d = true -> seats p W c = seats p W d.
  Proof using. intros W c d H. unfold seats. f_equal. apply filter_ext. intros x. apply same_left. auto. Qed.
  Lemma seats_cons : forall W x c, seats p (x :: W) c = (if same c x then 1 else 0) + seats p W c.
  Proof using. intros W x c. unfold seats. cbn. destruct (same c x); reflexivity. Qed.
  Lemma seats_in : forall W c d, In d W -> same c d = true -> 1 <= seats p W c.
  Proof using.
    intros W c d H E. unfold seats. assert (In d (filter (same c) W)) by (apply filter_In; auto).
    destruct (filter (same c) W); [contradiction|]. cbn. lia.
  Qed.
  Lemma seats_incl : forall L W c, NoDup L -> incl L W -> seats p L c <= seats p W c.
  Proof using.
    intros L W c N H. apply NoDup_incl_length; [apply NoDup_filter; auto|]. intros x Hx. apply filter_In in Hx as [Hx E]. apply filter_In. auto.
  Qed.
  Lemma seats_set : forall L W c, NoDup L -> NoDup W -> set_same L W -> seats p L c = seats p W c.
  Proof using. intros L W c N N' H. apply Nat.le_antisymm; apply seats_incl; auto; intros x Hx; apply H; auto. Qed.
  Lemma seats_lt : forall L W c x, NoDup L -> incl L W -> In x W -> ~ In x L -> same c x = true -> S (seats p L c) <= seats p W c.
  Proof using.
    intros L W c x N HI Hx Hn E. pose proof (seats_incl (x :: L) W c) as H. rewrite seats_cons, E in H. apply H.
    - constructor; auto.
    - intros y [<-|Hy]; auto.
  Qed.
  Lemma seats_more : forall L W c, NoDup W -> seats p L c < seats p W c -> exists y, In y W /\ ~ In y L /\ same c y = true.
  Proof using.
    intros L W c N H. destruct (existsb (fun y => same c y && negb (mem y L)) W) eqn:E.
    - apply existsb_exists in E as (y & Hy & E). apply andb_true_iff in E as [E1 E2]. apply negb_true_iff in E2. apply mem_false in E2. eauto.
    - exfalso. assert (seats p W c <= seats p L c); [|lia]. apply NoDup_incl_length; [apply NoDup_filter; auto|].
      intros y Hy. apply filter_In in Hy as [Hy Ey]. apply filter_In. split; auto.
      destruct (mem y L) eqn:M; [apply mem_In; auto|]. exfalso. apply not_true_iff_false in E. apply E. apply existsb_exists. exists y. rewrite Ey, M. auto.
  Qed.
  Lemma seats_without : forall W x c, NoDup W -> In x W -> seats p W c = (if same c x then 1 else 0) + seats p (without x W) c.
  Proof using.
    intros W x c N Hx. rewrite <- seats_cons. apply seats_set; auto.
    - constructor; [|apply NoDup_filter; auto]. unfold without. rewrite filter_In. intros [_ H]. apply negb_true_iff in H. apply Nat.eqb_neq in H. auto.
    - intros y. cbn. unfold without. rewrite filter_In, negb_true_iff, Nat.eqb_neq. destruct (Nat.eq_dec x y) as [<-|Hn]; [tauto|]. split.
      + intros H. right. split; auto.
      + intros [?|[? ?]]; [contradiction|auto].
  Qed.
End Seats.

(** ** seats given by priority: [m c s] is the claim of the party of [c] to its [s]-th seat *)
Section Priority.
  Variable p : profile.
  Variable m : nat -> nat -> Q.
  Hypothesis Hm : forall c d s, same_party p c d = true -> (m c s == m d s)%Q.
  Hypothesis Hmono : forall c i j, 1 <= i -> i <= j -> (m c j <= m c i)%Q.
  Notation same := (same_party p).

  Definition fair (W : list nat) : Prop :=
    forall c d, In c W -> d < num_cand p -> ~ In d W -> (m d (S (seats p W d)) <= m c (seats p W c))%Q.
  Definition best (L : list nat) (x : nat) : Prop :=
    fresh p L x /\ forall d, fresh p L d -> (m d (S (seats p L d)) <= m x (S (seats p L x)))%Q.

  Lemma fair_step : forall L x, fair L -> best L x -> fair (x :: L).
  Proof using Hm Hmono.
    intros L x HF [[Hx Hxn] HB] c d Hc Hd Hn.
    assert (Hdn : ~ In d L) by (intros ?; apply Hn; right; auto).
    assert (H1 : (m d (S (seats p (x :: L) d)) <= m d (S (seats p L d)))%Q).
    { apply Hmono; [lia|]. rewrite seats_cons. destruct (same d x); lia. }
    destruct (same c x) eqn:E.
    - pose proof (HB d (conj Hd Hdn)) as H2.
      assert (H3 : (m c (seats p (x :: L) c) == m x (S (seats p L x)))%Q).
      { rewrite seats_cons, E. cbn. rewrite (seats_same p L c x E). apply Hm. auto. }
      rewrite H3. lra.
    - assert (Hc' : In c L). { destruct Hc as [<-|Hc]; auto. rewrite same_refl in E. discriminate. }
      pose proof (HF c d Hc' Hd Hdn) as H2. assert (H3 : seats p (x :: L) c = seats p L c) by (rewrite seats_cons, E; reflexivity).
      rewrite H3. lra.
  Qed.

  Lemma fair_set : forall L W, NoDup L -> NoDup W -> set_same L W -> fair L -> fair W.
  Proof using.
    intros L W N N' H HF c d Hc Hd Hn. rewrite <- !(seats_set p L W) by auto. apply HF; auto; [apply H; auto|]. intros Hd'. apply Hn. apply H. auto.
  Qed.

  Lemma fair_next : forall W L, fair W -> NoDup W -> Forall (fun c => c < num_cand p) W -> NoDup L -> incl L W -> length L < length W ->
    exists x, In x W /\ best L x.
  Proof using Hm Hmono.
    intros W L HF N HR NL HI Hlen.
    assert (Hne : diff W L <> []).
    { intros E. assert (length W <= length L); [|lia]. apply NoDup_incl_length; auto. intros x Hx.
      destruct (mem x L) eqn:M; [apply mem_In; auto|]. apply mem_false in M. assert (In x (diff W L)) by (apply diff_In; auto). rewrite E in H. contradiction. }
    destruct (argmax_exists (fun x => m x (S (seats p L x))) (diff W L) Hne) as (x & Hx & HB).
    apply diff_In in Hx as [Hx Hxn]. rewrite Forall_forall in HR. exists x. split; auto. split; [split; auto|].
    intros d [Hd Hdn]. destruct (in_dec Nat.eq_dec d W) as [Hw|Hw]; [apply HB; apply diff_In; auto|].
    destruct (Nat.eq_dec (seats p L d) (seats p W d)) as [E|E].
    - rewrite E. pose proof (HF x d Hx Hd Hw) as H1.
      assert (H2 : (m x (seats p W x) <= m x (S (seats p L x)))%Q).
      { apply Hmono; [lia|]. apply (seats_lt p L W x x); auto. apply same_refl. }
      lra.
    - pose proof (seats_incl p L W d NL HI). destruct (seats_more p L W d N) as (y & Hy & Hyn & Ey); [lia|].
      specialize (HB y). rewrite (seats_same p L d y Ey). rewrite (Hm d y _ Ey). apply HB. apply diff_In. auto.
  Qed.

  (** the same committees can be filled one candidate at a time *)
  Inductive filled (L0 : list nat) : list nat -> Prop :=
  | filled_start : filled L0 L0
  | filled_step : forall L x, filled L0 L -> best L x -> filled L0 (x :: L).
  Lemma filled_ok : forall L0 L, NoDup L0 -> Forall (fun c => c < num_cand p) L0 -> fair L0 -> filled L0 L ->
    NoDup L /\ Forall (fun c => c < num_cand p) L /\ fair L.
  Proof using Hm Hmono.
    intros L0 L N R F H. induction H as [|L x H (N' & R' & F') Hx]; auto. pose proof Hx as [[Hx1 Hx2] _]. split; [constructor; auto|]. split; [constructor; auto|].
    apply fair_step; auto.
  Qed.
  Lemma fill_up : forall W, fair W -> NoDup W -> Forall (fun c => c < num_cand p) W -> forall n L0, NoDup L0 -> incl L0 W -> length W = n + length L0 ->
    exists L, filled L0 L /\ NoDup L /\ incl L W /\ length L = length W.
  Proof using Hm Hmono.
    intros W F N R n. induction n as [|n IH]; intros L0 N0 HI Hl.
    - exists L0. split; [constructor|]. auto.
    - destruct (fair_next W L0 F N R N0 HI) as (x & Hx & HB); [lia|].
      destruct (IH (x :: L0)) as (L & HL & H1 & H2 & H3).
      + destruct HB as [[_ Hn] _]. constructor; auto.
      + intros y [<-|Hy]; auto.
      + cbn. lia.
      + exists L. split; auto. clear - HL HB. induction HL; [|constructor; auto]. constructor; auto. constructor.
  Qed.
  Lemma isort_of_full : forall L W, NoDup L -> ascending W -> incl L W -> length L = length W -> W = isort L.
  Proof using.
    intros L W N A HI Hl. assert (HI' : incl W L) by (apply NoDup_length_incl; auto; lia).
    rewrite <- (isort_id W A). apply isort_perm_eq. apply NoDup_Permutation; auto; [apply ascending_NoDup; auto|]. intros x. split; auto.
  Qed.


  Lemma fair_remove : forall W x, fair W -> NoDup W -> In x W -> (forall c, In c W -> (m x (seats p W x) <= m c (seats p W c))%Q) -> fair (without x W).
  Proof using Hm Hmono.
    intros W x HF N Hx HB c d Hc Hd Hn.
    assert (Hc' : In c W /\ c <> x). { unfold without in Hc. apply filter_In in Hc as [Hc E]. apply negb_true_iff in E. apply Nat.eqb_neq in E. auto. }
    destruct Hc' as [Hc' Hcx].
    assert (H1 : (m c (seats p W c) <= m c (seats p (without x W) c))%Q).
    { apply Hmono; [apply (seats_in p _ c c); auto; apply same_refl|]. rewrite (seats_without p W x c) by auto. lia. }
    pose proof (seats_without p W x d N Hx) as H2. destruct (same d x) eqn:E.
    - cbn in H2. rewrite <- H2. rewrite (seats_same p W d x E), (Hm d x _ E). pose proof (HB c Hc'). lra.
    - cbn in H2. assert (Hdw : ~ In d W).
      { intros Hdw. apply Hn. unfold without. apply filter_In. split; auto. apply negb_true_iff. apply Nat.eqb_neq. intros ->. rewrite same_refl in E. discriminate. }
      rewrite <- H2. pose proof (HF c d Hc' Hd Hdw). lra.
  Qed.

  Lemma fair_prev : forall W U, fair W -> NoDup W -> W <> [] -> NoDup U -> Forall (fun c => c < num_cand p) U -> incl W U -> length W < length U ->
    exists x, In x U /\ ~ In x W /\ forall c, In c U -> (m x (seats p U x) <= m c (seats p U c))%Q.
  Proof using Hm Hmono.
    intros W U HF N HW NU HR HI Hlen.
    assert (Hne : diff U W <> []).
    { intros E. assert (length U <= length W); [|lia]. apply NoDup_incl_length; auto. intros x Hx.
      destruct (mem x W) eqn:M; [apply mem_In; auto|]. apply mem_false in M. assert (In x (diff U W)) by (apply diff_In; auto). rewrite E in H. contradiction. }
    destruct (argmax_exists (fun x => - m x (seats p U x))%Q (diff U W) Hne) as (x & Hx & HB).
    apply diff_In in Hx as [Hx Hxn]. rewrite Forall_forall in HR. exists x. split; auto. split; auto. intros c Hc.
    destruct (in_dec Nat.eq_dec c W) as [Hw|Hw].
    - destruct (Nat.eq_dec (seats p U c) (seats p W c)) as [E|E].
      + rewrite E. pose proof (HF c x Hw (HR x Hx) Hxn) as H1.
        assert (H2 : (m x (seats p U x) <= m x (S (seats p W x)))%Q).
        { apply Hmono; [lia|]. apply (seats_lt p W U x x); auto. apply same_refl. }
        lra.
      + pose proof (seats_incl p W U c N HI). destruct (seats_more p W U c NU) as (y & Hy & Hyn & Ey); [lia|].
        specialize (HB y). cbn beta in HB. rewrite (seats_same p U c y Ey), (Hm c y _ Ey).
        assert (- m y (seats p U y) <= - m x (seats p U x))%Q by (apply HB; apply diff_In; auto). lra.
    - assert (- m c (seats p U c) <= - m x (seats p U x))%Q by (apply (HB c); apply diff_In; auto). lra.
  Qed.

  (** the committees of maximal score, if adding a candidate adds its party's claim *)
  Variable score : list nat -> Q.
  Hypothesis Hset : forall L W, set_same L W -> (score L == score W)%Q.
  Hypothesis Hadd : forall L c, NoDup L -> ~ In c L -> c < num_cand p -> (score (c :: L) == score L + m c (S (seats p L c)))%Q.

  Lemma without_spec : forall W x y, In y (without x W) <-> In y W /\ y <> x.
  Proof using. intros W x y. unfold without. rewrite filter_In, negb_true_iff, Nat.eqb_neq. tauto. Qed.
  Lemma without_set : forall W x, In x W -> set_same (x :: without x W) W.
  Proof using.
    intros W x Hx y. cbn. rewrite without_spec. destruct (Nat.eq_dec x y) as [<-|Hn]; [tauto|]. split; [intros [?|[? ?]]; [contradiction|auto]|auto].
  Qed.
  Lemma score_without : forall W x, NoDup W -> Forall (fun c => c < num_cand p) W -> In x W -> (score W == score (without x W) + m x (seats p W x))%Q.
  Proof using Hset Hadd.
    intros W x N HR Hx. rewrite Forall_forall in HR. rewrite <- (Hset _ _ (without_set W x Hx)). rewrite Hadd; auto.
    - rewrite (seats_without p W x x N Hx), same_refl. reflexivity.
    - apply NoDup_filter; auto.
    - rewrite without_spec. tauto.
  Qed.
  (** swapping [x] for [y] *)
  Lemma swap_ok : forall k W x y, is_committee p k W -> In x W -> y < num_cand p -> ~ In y W ->
    is_committee p k (isort (y :: without x W)) /\ (score (isort (y :: without x W)) == score W - m x (seats p W x) + m y (S (seats p (without x W) y)))%Q.
  Proof using Hset Hadd.
    intros k W x y (A & L & R) Hx Hy Hn. pose proof (ascending_NoDup W A) as N.
    assert (N' : NoDup (without x W)) by (apply NoDup_filter; auto).
    assert (Hn' : ~ In y (without x W)) by (rewrite without_spec; tauto).
    assert (Hl : S (length (without x W)) = length W) by (apply without_length; auto).
    split.
    - apply isort_committee; [constructor; auto|cbn; lia|]. rewrite Forall_forall in R. constructor; auto. apply Forall_forall. intros z Hz. apply without_spec in Hz as [Hz _]. auto.
    - rewrite (Hset _ (y :: without x W)) by (intros z; apply isort_In). rewrite Hadd by auto. pose proof (score_without W x N R Hx). lra.
  Qed.

  Lemma maximal_fair : forall k W, maximises score p k W -> fair W.
  Proof using Hm Hmono Hset Hadd.
    intros k W [HW HB] c d Hc Hd Hn. destruct (swap_ok k W c d HW Hc Hd Hn) as [HC HE]. specialize (HB _ HC). rewrite HE in HB.
    pose proof HW as (A & _ & _). pose proof (ascending_NoDup W A) as N. pose proof (seats_without p W c d N Hc) as Hs. destruct (same d c) eqn:E.
    - rewrite (seats_same p W d c E), (Hm d c _ E). apply Hmono; [|lia]. apply (seats_in p W c c); auto. apply same_refl.
    - cbn in Hs. rewrite Hs. lra.
  Qed.

  Lemma fair_dominates : forall k W, is_committee p k W -> fair W -> forall n V, is_committee p k V -> length (diff V W) <= n -> (score V <= score W)%Q.
  Proof using Hm Hmono Hset Hadd.
    intros k W HW HF. pose proof HW as (AW & LW & RW). pose proof (ascending_NoDup W AW) as NW.
    induction n as [|n IH]; intros V HV Hn; pose proof HV as (AV & LV & RV); pose proof (ascending_NoDup V AV) as NV.
    - assert (E : diff V W = []) by (apply length_zero_iff_nil; lia).
      assert (HI : incl V W). { intros x Hx. destruct (mem x W) eqn:M; [apply mem_In; auto|]. apply mem_false in M. assert (In x (diff V W)) by (apply diff_In; auto). rewrite E in H. contradiction. }
      assert (HI' : incl W V) by (apply NoDup_length_incl; [auto|lia|auto]). rewrite (Hset V W); [apply Qle_refl|]. split; auto.
    - destruct (diff V W) as [|d D] eqn:ED.
      { apply (IH V HV). rewrite ED. cbn. lia. }
      assert (Hd : In d (diff V W)) by (rewrite ED; left; auto). apply diff_In in Hd as [Hd Hdn].
      (* a swap that does not decrease the score *)
      assert (HS : exists x y, In x V /\ ~ In x W /\ In y W /\ ~ In y V /\ (m x (seats p V x) <= m y (S (seats p (without x V) y)))%Q).
      { destruct (existsb (fun y => same d y && negb (mem y V)) W) eqn:E.
        - apply existsb_exists in E as (y & Hy & E). apply andb_true_iff in E as [E1 E2]. apply negb_true_iff, mem_false in E2.
          exists d, y. split; auto. split; auto. split; auto. split; auto.
          rewrite (seats_without p V d d) by auto. rewrite same_refl. cbn. rewrite (seats_same p _ d y E1), (Hm d y _ E1). apply Qle_refl.
        - assert (H1 : forall y, In y W -> same d y = true -> In y V).
          { intros y Hy Ey. destruct (mem y V) eqn:M; [apply mem_In; auto|]. exfalso. apply not_true_iff_false in E. apply E. apply existsb_exists. exists y. rewrite Ey, M. auto. }
          assert (Hc : exists c, In c W /\ ~ In c V).
          { destruct (diff W V) as [|c C] eqn:EC.
            - exfalso. assert (HI : incl W V). { intros x Hx. destruct (mem x V) eqn:M; [apply mem_In; auto|]. apply mem_false in M. assert (In x (diff W V)) by (apply diff_In; auto). rewrite EC in H. contradiction. }
              apply Hdn. apply (NoDup_length_incl NW) in HI; [auto|lia].
            - exists c. apply diff_In. rewrite EC. left. auto. }
          destruct Hc as (c & Hc & Hcn).
          assert (Edc : same d c = false). { apply not_true_iff_false. intros Es. apply Hcn. auto. }
          (* another member of c's party to drop, if there is one *)
          destruct (existsb (fun x => same c x && negb (mem x W)) V) eqn:E'.
          + apply existsb_exists in E' as (x & Hx & E'). apply andb_true_iff in E' as [E1 E2]. apply negb_true_iff, mem_false in E2.
            exists x, c. split; auto. split; auto. split; auto. split; auto.
            rewrite (seats_without p V x x) by auto. rewrite same_refl. cbn. rewrite (seats_same p _ c x E1), (Hm c x _ E1). apply Qle_refl.
          + exists d, c. split; auto. split; auto. split; auto. split; auto.
            assert (S1 : S (seats p W d) <= seats p V d).
            { assert (incl (d :: filter (same d) W) (filter (same d) V)).
              { intros z [<-|Hz]; apply filter_In; [split; auto; apply same_refl|]. apply filter_In in Hz as [Hz Ez]. auto. }
              apply NoDup_incl_length in H; [exact H|]. constructor; [rewrite filter_In; tauto|apply NoDup_filter; auto]. }
            assert (S2 : S (seats p V c) <= seats p W c).
            { assert (incl (c :: filter (same c) V) (filter (same c) W)).
              { intros z [<-|Hz]; apply filter_In; [split; auto; apply same_refl|]. apply filter_In in Hz as [Hz Ez]. split; auto.
                destruct (mem z W) eqn:M; [apply mem_In; auto|]. exfalso. apply not_true_iff_false in E'. apply E'. apply existsb_exists. exists z. rewrite Ez, M. auto. }
              apply NoDup_incl_length in H; [exact H|]. constructor; [rewrite filter_In; tauto|apply NoDup_filter; auto]. }
            assert (S3 : seats p (without d V) c = seats p V c). { rewrite (seats_without p V d c) by auto. rewrite same_sym, Edc. reflexivity. }
            rewrite S3. rewrite Forall_forall in RV. pose proof (HF c d Hc (RV d Hd) Hdn) as F1.
            assert (F2 : (m d (seats p V d) <= m d (S (seats p W d)))%Q) by (apply Hmono; lia).
            assert (F3 : (m c (seats p W c) <= m c (S (seats p V c)))%Q) by (apply Hmono; lia). lra. }
      destruct HS as (x & y & Hx & Hxn & Hy & Hyn & HS). rewrite Forall_forall in RW.
      destruct (swap_ok k V x y HV Hx (RW y Hy) Hyn) as [HC HE].
      assert (HL : (score (isort (y :: without x V)) <= score W)%Q).
      { apply IH; auto. assert (HD : S (length (diff (isort (y :: without x V)) W)) <= length (diff V W)).
        { assert (HI : incl (x :: diff (isort (y :: without x V)) W) (diff V W)).
          { intros z [<-|Hz]; apply diff_In; auto. apply diff_In in Hz as [Hz Hzn]. rewrite isort_In in Hz. destruct Hz as [<-|Hz]; [contradiction|]. apply without_spec in Hz as [Hz _]. auto. }
          apply NoDup_incl_length in HI; [exact HI|]. destruct HC as (AC & _ & _). constructor.
          - rewrite diff_In, isort_In. cbn. rewrite without_spec. intros [[->|[_ H]] _]; auto.
          - apply NoDup_filter. apply ascending_NoDup. auto. }
        rewrite ED in HD. cbn [length] in HD, Hn. lia. }
      rewrite HE in HL. lra.
  Qed.

  Lemma maximises_fair : forall k W, maximises score p k W <-> is_committee p k W /\ fair W.
  Proof using Hm Hmono Hset Hadd.
    intros k W. split.
    - intros H. split; [apply H|]. eapply maximal_fair; eauto.
    - intros [HC HF]. split; auto. intros V HV. eapply fair_dominates; eauto.
  Qed.
End Priority.
