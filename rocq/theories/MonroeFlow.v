(** * The flow network of the Monroe score *)
From Coq Require Import List Arith Bool ZArith QArith Lia Permutation.
From Verif Require Import Prelude Misc MiscProofs Preferences Spec RulesMonroe SpecMonroe MonroeProofs.
Import ListNotations.
Open Scope nat_scope.

Lemma node_eqb_eq : forall a b, node_eqb a b = true <-> a = b.
Proof.
  intros [i|c|] [j|d|]; simpl; try (split; congruence).
  - rewrite Nat.eqb_eq. split; congruence.
  - rewrite Nat.eqb_eq. split; congruence.
Qed.
Lemma node_eq_dec : forall a b : node, {a = b} + {a <> b}.
Proof. decide equality; apply Nat.eq_dec. Defined.
Lemma arc_eq_dec : forall a b : arc, {a = b} + {a <> b}.
Proof. decide equality; auto using Nat.eq_dec, Z.eq_dec, node_eq_dec. Defined.

(** flows as functions on arcs *)
Lemma as_function : forall (A : list arc) (x : list nat), NoDup A -> length x = length A -> exists f, x = map f A.
Proof.
  induction A as [|a A IH]; intros x Hn Hl.
  - destruct x; [|discriminate]. exists (fun _ => 0). reflexivity.
  - destruct x as [|y x]; [discriminate|]. inversion Hn; subst. destruct (IH x) as (f & Hf); auto.
    exists (fun b => if arc_eq_dec b a then y else f b). simpl. destruct (arc_eq_dec a a); [|congruence].
    f_equal. rewrite Hf. apply map_ext_in. intros b Hb. destruct (arc_eq_dec b a); [subst; contradiction|auto].
Qed.

Lemma combine_map : forall (A B : Type) (f : A -> B) l, combine l (map f l) = map (fun a => (a, f a)) l.
Proof. intros A B f l. induction l; simpl; auto. rewrite IHl. reflexivity. Qed.

Lemma filter_map_pair : forall (P : arc -> bool) (f : arc -> nat) A,
  map snd (filter (fun af => P (fst af)) (map (fun a => (a, f a)) A)) = map f (filter P A).
Proof. intros P f A. induction A as [|a A IH]; simpl; auto. destruct (P a); simpl; rewrite IH; auto. Qed.

Lemma flow_into_map : forall g f v, flow_into g (map f (arcs g)) v =
  list_sum (map f (filter (fun a => node_eqb (arc_to a) v) (arcs g))).
Proof. intros. unfold flow_into. rewrite combine_map. f_equal. apply (filter_map_pair (fun a => node_eqb (arc_to a) v)). Qed.
Lemma flow_out_map : forall g f v, flow_out_of g (map f (arcs g)) v =
  list_sum (map f (filter (fun a => node_eqb (arc_from a) v) (arcs g))).
Proof. intros. unfold flow_out_of. rewrite combine_map. f_equal. apply (filter_map_pair (fun a => node_eqb (arc_from a) v)). Qed.

Lemma list_sum_flat : forall (A B : Type) (f : B -> nat) (g : A -> list B) l,
  list_sum (map f (flat_map g l)) = list_sum (map (fun a => list_sum (map f (g a))) l).
Proof. intros A B f g l. induction l; simpl; auto. rewrite map_app, list_sum_app, IHl. reflexivity. Qed.
Lemma filter_flat : forall (A B : Type) (P : B -> bool) (g : A -> list B) l,
  filter P (flat_map g l) = flat_map (fun a => filter P (g a)) l.
Proof. intros A B P g l. induction l; simpl; auto. rewrite filter_app, IHl. reflexivity. Qed.
Lemma filter_map' : forall (A B : Type) (P : B -> bool) (g : A -> B) l, filter P (map g l) = map g (filter (fun a => P (g a)) l).
Proof. intros A B P g l. induction l; simpl; auto. destruct (P (g a)); simpl; rewrite IHl; auto. Qed.
Lemma filter_none : forall (A : Type) (P : A -> bool) l, (forall a, In a l -> P a = false) -> filter P l = [].
Proof. intros A P l H. induction l; simpl; auto. rewrite (H a) by (left; auto). apply IHl. intros; apply H; right; auto. Qed.
Lemma filter_eqb : forall W c, NoDup W -> In c W -> filter (fun d => d =? c) W = [c].
Proof.
  intros W c Hn Hc. induction W as [|d W IH]; [destruct Hc|]. inversion Hn; subst. simpl. destruct (Nat.eqb_spec d c) as [->|Hne].
  - f_equal. apply filter_none. intros x Hx. apply Nat.eqb_neq. intros ->. auto.
  - apply IH; auto. destruct Hc; [congruence|auto].
Qed.
Lemma list_sum_zero : forall (A : Type) (l : list A), list_sum (map (fun _ => 0) l) = 0.
Proof. intros A l. induction l; simpl; auto. Qed.
Lemma list_sum_ext : forall (A : Type) (f g : A -> nat) l, (forall a, In a l -> f a = g a) -> list_sum (map f l) = list_sum (map g l).
Proof. intros. f_equal. apply map_ext_in. auto. Qed.

  Definition Zsum (l : list Z) : Z := fold_right Z.add 0%Z l.
  Lemma Zsum_app : forall a b, Zsum (a ++ b) = (Zsum a + Zsum b)%Z.
  Proof. induction a; simpl; intros; auto. rewrite IHa. lia. Qed.
  Lemma Zsum_flat : forall (A B : Type) (f : B -> Z) (h : A -> list B) l,
    Zsum (map f (flat_map h l)) = Zsum (map (fun a => Zsum (map f (h a))) l).
  Proof. intros A B f h l. induction l; simpl; auto. rewrite map_app, Zsum_app, IHl. reflexivity. Qed.
  Lemma Zsum_zero : forall (A : Type) (f : A -> Z) l, (forall a, In a l -> f a = 0%Z) -> Zsum (map f l) = 0%Z.
  Proof. intros A f l H. induction l; simpl; auto. rewrite (H a) by (left; auto). rewrite IHl by (intros; apply H; right; auto). reflexivity. Qed.

  Lemma cnt_as_sum : forall phi c, cnt phi c = list_sum (map (fun i => if nth i phi 0 =? c then 1 else 0) (seq 0 (length phi))).
  Proof.
    intros phi c. induction phi as [|x phi IH]; [reflexivity|]. cbn [length seq map list_sum fold_right nth].
    change (fold_right Nat.add 0) with list_sum. rewrite <- seq_shift, map_map. cbn [nth]. rewrite <- IH. simpl.
    destruct (Nat.eq_dec x c) as [->|Hx]; [rewrite Nat.eqb_refl; lia|]. apply Nat.eqb_neq in Hx. rewrite Hx. lia.
  Qed.

  Lemma the_one : forall (h : nat -> nat) L, list_sum (map h L) = 1 -> exists c, In c L /\ h c = 1 /\ forall d, In d L -> d <> c -> h d = 0.
  Proof.
    intros h L. induction L as [|x L IH]; simpl; [discriminate|]. change (fold_right Nat.add 0) with list_sum. intros H.
    destruct (h x) as [|m] eqn:E.
    - destruct IH as (c & Hc & H1 & H2); auto. exists c. split; auto. split; auto. intros d [<-|Hd] Hn; auto.
    - assert (Hz : list_sum (map h L) = 0) by lia. exists x. split; auto. split; [lia|]. intros d [<-|Hd] Hn; [congruence|].
      clear - Hz Hd. induction L as [|y L IH]; [destruct Hd|]. simpl in Hz. destruct Hd as [<-|Hd]; [lia|apply IH; auto; lia].
  Qed.

  Lemma choose_list : forall (P : nat -> nat -> Prop) m, (forall i, i < m -> exists c, P i c) ->
    exists l, length l = m /\ forall i, i < m -> P i (nth i l 0).
  Proof.
    intros P m H. induction m as [|m IH].
    - exists []. split; auto. intros; lia.
    - destruct IH as (l & Hl & HP); [intros; apply H; lia|]. destruct (H m) as (c & Hc); [lia|].
      exists (l ++ [c]). rewrite app_length. simpl. split; [lia|]. intros i Hi. destruct (Nat.eq_dec i m) as [->|Hne].
      + rewrite app_nth2 by lia. rewrite Hl, Nat.sub_diag. auto.
      + rewrite app_nth1 by lia. apply HP. lia.
  Qed.


Lemma sum_indicator : forall W c, NoDup W -> In c W -> list_sum (map (fun d => if c =? d then 1 else 0) W) = 1.
Proof.
  intros W c HW Hc. induction W as [|d L IH]; [destruct Hc|]. inversion HW; subst. cbn [map list_sum fold_right].
  change (fold_right Nat.add 0) with list_sum. destruct (Nat.eqb_spec c d) as [->|Hn].
  - rewrite (list_sum_ext _ _ (fun _ => 0)), list_sum_zero; auto. intros x Hx. destruct (Nat.eqb_spec d x); subst; auto; contradiction.
  - destruct Hc; [congruence|]. rewrite IH; auto.
Qed.
Lemma Zsum_indicator : forall (W : list nat) (h : nat -> Z) c, NoDup W -> In c W ->
  Zsum (map (fun d => (h d * Z.of_nat (if Nat.eqb c d then 1%nat else 0%nat))%Z) W) = h c.
Proof.
  intros W h c HW Hc. induction W as [|d L IH]; [destruct Hc|]. inversion HW; subst. cbn [map Zsum fold_right].
  change (fold_right Z.add 0%Z) with Zsum. destruct (Nat.eqb_spec c d) as [->|Hn].
  - rewrite Zsum_zero; [lia|]. intros x Hx. destruct (Nat.eqb_spec d x); subst; [contradiction|lia].
  - destruct Hc; [congruence|]. rewrite IH; auto. lia.
Qed.

Section Flow.
  Variables (p : profile) (W : list nat).
  Hypothesis HW : NoDup W.
  Hypothesis Hne : W <> [].
  Let n := length (voters p).
  Let k := length W.
  Let low := n / k.
  Let g := flow_network p W.
  Let cost i c := if voter_approves p i c then 0%Z else 1%Z.
  Let arcv i c := mkArc (NVoter i) (NCand c) (cost i c) 1.
  Let arcs_s c := mkArc (NCand c) NSink 0%Z 1.

  Lemma arcs_eq : arcs g = map arcs_s W ++ flat_map (fun i => map (arcv i) W) (seq 0 n).
  Proof using. reflexivity. Qed.

  Lemma arcs_NoDup : NoDup (arcs g).
  Proof using HW.
    rewrite arcs_eq. apply NoDup_app_intro.
    - apply FinFun.Injective_map_NoDup; auto. intros a b E. inversion E; auto.
    - apply NoDup_flat_map; [apply seq_NoDup| |].
      + intros i _. apply FinFun.Injective_map_NoDup; auto. intros a b E. inversion E; auto.
      + intros i j y Hi Hj H1 H2. apply in_map_iff in H1 as (a & <- & H1). apply in_map_iff in H2 as (b & E & _). inversion E. auto.
    - intros a H1 H2. apply in_map_iff in H1 as (c & <- & _). apply in_flat_map in H2 as (i & _ & H2).
      apply in_map_iff in H2 as (d & E & _). discriminate.
  Qed.

  Lemma into_cand : forall f c, In c W -> flow_into g (map f (arcs g)) (NCand c) = list_sum (map (fun i => f (arcv i c)) (seq 0 n)).
  Proof using HW.
    intros f c Hc. rewrite flow_into_map, arcs_eq, filter_app, filter_map'. simpl.
    rewrite filter_none by reflexivity. simpl. rewrite filter_flat, list_sum_flat. apply list_sum_ext. intros i _.
    rewrite filter_map'. simpl. rewrite filter_eqb by auto. simpl. lia.
  Qed.
  Lemma out_cand : forall f c, In c W -> flow_out_of g (map f (arcs g)) (NCand c) = f (arcs_s c).
  Proof using HW.
    intros f c Hc. rewrite flow_out_map, arcs_eq, filter_app, filter_map'. simpl. rewrite filter_eqb by auto.
    rewrite filter_flat, map_app, list_sum_app, list_sum_flat. simpl.
    rewrite (list_sum_ext _ _ (fun _ => 0)), list_sum_zero; [lia|]. intros i _.
    rewrite filter_map'. simpl. rewrite filter_none; auto.
  Qed.
  Lemma into_voter : forall f i, flow_into g (map f (arcs g)) (NVoter i) = 0.
  Proof using.
    intros f i. rewrite flow_into_map, arcs_eq, filter_app, filter_map'. simpl. rewrite filter_none by reflexivity. simpl.
    rewrite filter_flat, list_sum_flat. rewrite (list_sum_ext _ _ (fun _ => 0)), list_sum_zero; auto. intros j _.
    rewrite filter_map'. simpl. rewrite filter_none; auto.
  Qed.
  Lemma out_voter : forall f i, i < n -> flow_out_of g (map f (arcs g)) (NVoter i) = list_sum (map (fun c => f (arcv i c)) W).
  Proof using.
    intros f i Hi. rewrite flow_out_map, arcs_eq, filter_app, filter_map'. simpl. rewrite filter_none by reflexivity. simpl.
    rewrite filter_flat, list_sum_flat.
    rewrite (list_sum_ext _ _ (fun j => if j =? i then list_sum (map (fun c => f (arcv i c)) W) else 0)).
    - assert (Hi' : In i (seq 0 n)) by (apply in_seq; lia).
      assert (Hn' : NoDup (seq 0 n)) by apply seq_NoDup. revert Hi' Hn'. generalize (seq 0 n) as l.
      induction l as [|j l IH]; [intros []|]. intros Hj Hn'. inversion Hn'; subst. cbn [map list_sum fold_right].
      change (fold_right Nat.add 0) with list_sum. destruct (Nat.eqb_spec j i) as [->|Hji].
      + rewrite (list_sum_ext nat _ (fun _ => 0) l), list_sum_zero; [lia|]. intros j Hj'. destruct (Nat.eqb_spec j i); subst; auto. contradiction.
      + apply IH; auto. destruct Hj; [congruence|auto].
    - intros j _. rewrite filter_map'. simpl. destruct (j =? i) eqn:E.
      + apply Nat.eqb_eq in E. subst j. rewrite map_map. f_equal. f_equal. clear. induction W; simpl; auto. f_equal. auto.
      + rewrite filter_none; auto.
  Qed.
  Lemma into_sink : forall f, flow_into g (map f (arcs g)) NSink = list_sum (map (fun c => f (arcs_s c)) W).
  Proof using.
    intros f. rewrite flow_into_map, arcs_eq, filter_app, filter_map'. simpl.
    rewrite filter_flat, map_app, list_sum_app, list_sum_flat, map_map.
    rewrite (list_sum_ext nat _ (fun _ => 0) (seq 0 n)), list_sum_zero.
    - replace (filter (fun _ : nat => true) W) with W; [lia|]. clear. induction W; simpl; auto. f_equal; auto.
    - intros j _. rewrite filter_map'. simpl. rewrite filter_none; auto.
  Qed.
  Lemma out_sink : forall f, flow_out_of g (map f (arcs g)) NSink = 0.
  Proof using.
    intros f. rewrite flow_out_map, arcs_eq, filter_app, filter_map'. simpl. rewrite filter_none by reflexivity.
    simpl. rewrite filter_flat, list_sum_flat. rewrite (list_sum_ext _ _ (fun _ => 0)), list_sum_zero; auto.
    intros j _. rewrite filter_map'. simpl. rewrite filter_none; auto.
  Qed.

  Lemma cost_map : forall f, flow_cost g (map f (arcs g)) =
    Zsum (map (fun i => Zsum (map (fun c => (cost i c * Z.of_nat (f (arcv i c)))%Z) W)) (seq 0 n)).
  Proof using.
    intros f. unfold flow_cost. change (fold_right Z.add 0%Z) with Zsum. rewrite combine_map, map_map. cbn [fst snd].
    rewrite arcs_eq, map_app, Zsum_app, map_map, Zsum_zero by (intros; reflexivity). rewrite Zsum_flat. rewrite Z.add_0_l.
    f_equal. apply map_ext. intros i. rewrite map_map. reflexivity.
  Qed.

  Definition from_assignment (phi : list nat) (a : arc) : nat :=
    match arc_from a, arc_to a with
    | NVoter i, NCand c => if nth i phi 0 =? c then 1 else 0
    | NCand c, NSink => cnt phi c - low
    | _, _ => 0
    end.

  Lemma unrepresented : forall phi, length phi = n ->
    Zsum (map (fun i => cost i (nth i phi 0)) (seq 0 n)) = (Z.of_nat n - Z.of_nat (represented p phi))%Z.
  Proof using W.
    intros phi H. rewrite represented_ids by exact H. fold n. rewrite <- (seq_length n 0) at 2.
    generalize (seq 0 n) as l. induction l as [|i l IH]; [reflexivity|]. cbn [map filter length Zsum fold_right].
    change (fold_right Z.add 0%Z) with Zsum. rewrite IH. unfold cost. destruct (voter_approves p i (nth i phi 0)); cbn [length]; lia.
  Qed.

  Lemma assignment_to_flow : n mod k <> 0 -> forall phi, monroe_assignment p W phi ->
    exists x, is_flow g x /\ flow_cost g x = (Z.of_nat n - Z.of_nat (represented p phi))%Z.
  Proof using HW Hne.
    intros Hm phi (A & B & C). fold n k in A, C. assert (Hk : k <> 0) by (apply k_pos; auto).
    rewrite ceil_inexact in C by auto.
    assert (Hin : forall i, i < n -> In (nth i phi 0) W).
    { intros i Hi. rewrite Forall_forall in B. apply B. apply nth_In. lia. }
    set (f := from_assignment phi). exists (map f (arcs g)). split.
    - split; [apply map_length|]. split.
      + apply Forall_forall. intros [a y] H. rewrite combine_map in H. apply in_map_iff in H as (a' & E & H). inversion E; subst a' y.
        cbn [fst snd]. rewrite arcs_eq in H. apply in_app_iff in H as [H|H].
        * apply in_map_iff in H as (c & <- & Hc). cbn. specialize (C c Hc). unfold low in *; lia.
        * apply in_flat_map in H as (i & Hi & H). apply in_map_iff in H as (c & <- & Hc). cbn. destruct (nth i phi 0 =? c); lia.
      + intros v d Hd. cbn in Hd. destruct Hd as [Hd|Hd]; [|apply in_app_iff in Hd as [Hd|Hd]].
        * inversion Hd; subst v d. rewrite into_sink, out_sink. fold n k low. cbn.
          assert (E : list_sum (map (fun c => cnt phi c - low) W) + list_sum (map (fun _ => low) W) = list_sum (map (cnt phi) W)).
          { apply list_sum_sub. intros c Hc. specialize (C c Hc). unfold low in *; lia. }
          rewrite sum_const in E. fold k in E. rewrite <- (length_cnt_sum W phi) in E; auto.
          2:{ intros c Hc. rewrite Forall_forall in B. auto. }
          rewrite A in E. unfold f, arcs_s. cbn. lia.
        * apply in_map_iff in Hd as (c & E & Hc). inversion E; subst v d. rewrite into_cand, out_cand by auto. cbn.
          rewrite <- A, <- cnt_as_sum. specialize (C c Hc). fold k. unfold low in *; fold n; lia.
        * apply in_map_iff in Hd as (i & E & Hi). inversion E; subst v d. apply in_seq in Hi. fold n in Hi.
          rewrite into_voter, out_voter by lia. cbn. rewrite (sum_indicator W (nth i phi 0)); auto. apply Hin. lia.
    - rewrite cost_map, <- unrepresented by auto. f_equal. apply map_ext_in. intros i Hi. apply in_seq in Hi.
      apply (Zsum_indicator W (cost i)); auto. apply Hin. lia.
  Qed.

  Lemma flow_to_assignment : n mod k <> 0 -> forall x, is_flow g x ->
    exists phi, monroe_assignment p W phi /\ flow_cost g x = (Z.of_nat n - Z.of_nat (represented p phi))%Z.
  Proof using HW Hne.
    intros Hm x (Hl & Hcap & Hd). assert (Hk : k <> 0) by (apply k_pos; auto).
    destruct (as_function (arcs g) x arcs_NoDup Hl) as (f & ->).
    assert (Hone : forall i, i < n -> list_sum (map (fun c => f (arcv i c)) W) = 1).
    { intros i Hi. specialize (Hd (NVoter i) (-1)%Z). rewrite into_voter, out_voter in Hd by auto.
      assert (H : In (NVoter i, (-1)%Z) (demands g)).
      { cbn. right. apply in_app_iff. right. apply in_map_iff. exists i. split; auto. apply in_seq. fold n. lia. }
      specialize (Hd H). lia. }
    destruct (choose_list (fun i c => In c W /\ f (arcv i c) = 1 /\ forall d, In d W -> d <> c -> f (arcv i d) = 0) n) as (phi & A & HP).
    { intros i Hi. apply the_one. auto. }
    assert (Hz : forall i c, i < n -> In c W -> f (arcv i c) = if nth i phi 0 =? c then 1 else 0).
    { intros i c Hi Hc. destruct (HP i Hi) as (H1 & H2 & H3). destruct (Nat.eqb_spec (nth i phi 0) c) as [<-|Hn]; auto. }
    exists phi. split.
    - split; [exact A|]. split.
      + apply Forall_forall. intros c Hc. apply (In_nth _ _ 0) in Hc as (i & Hi & <-). apply HP. lia.
      + intros c Hc. fold n k. rewrite ceil_inexact by auto.
        assert (H : In (NCand c, Z.of_nat low) (demands g)).
        { cbn. right. apply in_app_iff. left. apply in_map_iff. exists c. split; auto. }
        specialize (Hd _ _ H). rewrite into_cand, out_cand in Hd by auto.
        rewrite (list_sum_ext _ _ (fun i => if nth i phi 0 =? c then 1 else 0)) in Hd.
        2:{ intros i Hi. apply in_seq in Hi. apply Hz; auto. lia. }
        rewrite <- A, <- cnt_as_sum in Hd.
        assert (Hc1 : f (arcs_s c) <= 1).
        { rewrite Forall_forall in Hcap. specialize (Hcap (arcs_s c, f (arcs_s c))). rewrite combine_map in Hcap.
          apply Hcap. apply (in_map (fun a => (a, f a))). rewrite arcs_eq. apply in_app_iff. left. apply in_map. auto. }
        fold low. lia.
    - rewrite cost_map, <- unrepresented by auto. f_equal. apply map_ext_in. intros i Hi. apply in_seq in Hi.
      rewrite <- (Zsum_indicator W (cost i) (nth i phi 0)) by (auto; apply HP; lia).
      f_equal. apply map_ext_in. intros c Hc. rewrite Hz; auto. lia.
  Qed.
End Flow.
