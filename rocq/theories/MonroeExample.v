(** * An exhaustive-search implementation of the two networkx functions

    It shows that the contract [networkx_correct] can be met. *)
From Coq Require Import List Arith Bool ZArith QArith Lia Permutation.
From Verif Require Import Prelude Misc MiscProofs Preferences Spec RulesMonroe SpecMonroe MonroeProofs MonroeFlow.
Import ListNotations.
Open Scope nat_scope.

Fixpoint best {A} (f : A -> Z) (d : A) (l : list A) : A :=
  match l with [] => d | x :: r => let y := best f d r in if (f y <? f x)%Z then x else y end.
Lemma best_In : forall A f (d : A) l, In (best f d l) (d :: l).
Proof. intros A f d l. induction l as [|x l IH]; [left; auto|]. cbn [best]. destruct (f (best f d l) <? f x)%Z; simpl in *; tauto. Qed.
Lemma best_max : forall A f (d : A) l x, In x (d :: l) -> (f x <= f (best f d l))%Z.
Proof.
  intros A f d l. induction l as [|y l IH]; intros x H; [destruct H as [<-|[]]; simpl; lia|]. cbn [best].
  assert (H' : x = y \/ In x (d :: l)) by (simpl in *; intuition). destruct (Z.ltb_spec (f (best f d l)) (f y)).
  - destruct H' as [->|H']; [lia|]. specialize (IH x H'). lia.
  - destruct H' as [->|H']; [lia|]. apply IH. auto.
Qed.

Definition edge_eq_dec : forall a b : match_edge, {a = b} + {a <> b}.
Proof. unfold match_edge. repeat decide equality. Defined.
Definition pair_eq_dec : forall a b : nat * nat, {a = b} + {a <> b}.
Proof. repeat decide equality. Defined.

Definition nodup_b {A} (dec : forall a b : A, {a = b} + {a <> b}) (l : list A) : bool := length (nodup dec l) =? length l.
Lemma nodup_b_iff : forall A (dec : forall a b : A, {a = b} + {a <> b}) l, nodup_b dec l = true <-> NoDup l.
Proof.
  intros A dec l. unfold nodup_b. rewrite Nat.eqb_eq. split.
  - intros H. apply (NoDup_incl_NoDup (NoDup_nodup dec l)); [lia|]. intros x Hx. apply nodup_In in Hx. auto.
  - intros H. rewrite nodup_fixed_point; auto.
Qed.

Definition matching_b (M : list match_edge) : bool := nodup_b Nat.eq_dec (map fst M) && nodup_b pair_eq_dec (map snd M).
Definition ref_matching (E : list match_edge) : list match_edge :=
  best (fun M => Z.of_nat (length M)) [] (filter matching_b (powerset (nodup edge_eq_dec E) None)).

Lemma sublist_of_filter : forall (A : Type) (f : A -> bool) l, sublist (filter f l) l.
Proof. intros A f l. induction l as [|x l IH]; simpl; [constructor|]. destruct (f x); constructor; auto. Qed.

Lemma ref_matching_ok : forall E, is_maximum_matching E (ref_matching E).
Proof.
  intros E. unfold ref_matching. set (l := filter matching_b (powerset (nodup edge_eq_dec E) None)).
  assert (Hl : forall M, In M ([] :: l) -> is_matching E M).
  { intros M [<-|HM]; [split; [intros x []|split; constructor]|]. apply filter_In in HM as [H1 H2]. apply andb_true_iff in H2 as [H2 H3].
    apply nodup_b_iff in H2, H3. split; auto. apply powerset_In in H1 as [H1 _]. intros x Hx. apply (sublist_incl _ _ _ H1) in Hx.
    apply nodup_In in Hx. auto. }
  split; [apply Hl, best_In|]. intros M' (HM1 & HM2 & HM3).
  set (dec := fun x => if in_dec edge_eq_dec x M' then true else false).
  set (M := filter dec (nodup edge_eq_dec E)).
  assert (HN : NoDup M') by (eapply NoDup_map_inv; eauto).
  assert (HP : Permutation M' M).
  { apply NoDup_Permutation; auto; [apply NoDup_filter, NoDup_nodup|]. intros x. unfold M. rewrite filter_In, nodup_In. unfold dec.
    destruct (in_dec edge_eq_dec x M'); intuition. discriminate. }
  assert (HM : In M ([] :: l)).
  { right. apply filter_In. split; [apply powerset_In; split; [apply sublist_of_filter|exact I]|]. apply andb_true_iff. rewrite !nodup_b_iff.
    split; (eapply Permutation_NoDup; [apply Permutation_map; exact HP|auto]). }
  pose proof (best_max _ (fun M : list match_edge => Z.of_nat (length M)) [] l M HM) as H. cbv beta in H. rewrite (Permutation_length HP). apply Nat2Z.inj_le. exact H.
Qed.

(** all flows within the capacities *)
Fixpoint bounded_flows (A : list arc) : list (list nat) :=
  match A with [] => [[]] | a :: r => flat_map (fun v => map (cons v) (bounded_flows r)) (seq 0 (S (arc_capacity a))) end.
Lemma bounded_flows_In : forall A x, In x (bounded_flows A) <-> length x = length A /\ Forall (fun af => snd af <= arc_capacity (fst af)) (combine A x).
Proof.
  induction A as [|a A IH]; intros x; cbn [bounded_flows].
  - destruct x; simpl; [intuition constructor|]. split; [intros [H|[]]; discriminate|intros [H _]; discriminate].
  - rewrite in_flat_map. split.
    + intros (v & Hv & H). apply in_map_iff in H as (y & <- & H). apply IH in H as [H1 H2]. apply in_seq in Hv. simpl. split; [lia|].
      constructor; auto. simpl. lia.
    + intros [Hl HF]. destruct x as [|v x]; [discriminate|]. simpl in HF. inversion HF; subst. exists v. simpl in H1. split; [apply in_seq; lia|].
      apply in_map, IH. auto.
Qed.

Definition flow_b (g : network) (x : list nat) : bool :=
  forallb (fun vd => (Z.of_nat (flow_into g x (fst vd)) - Z.of_nat (flow_out_of g x (fst vd)) =? snd vd)%Z) (demands g).
Definition ref_flow (g : network) : option Z :=
  match filter (flow_b g) (bounded_flows (arcs g)) with
  | [] => None
  | x :: r => Some (flow_cost g (best (fun y => (- flow_cost g y)%Z) x r))
  end.

Lemma ref_flow_ok : forall g c, is_min_cost g c -> ref_flow g = Some c.
Proof.
  intros g c ((x0 & Hx0 & Hc) & Hmin). unfold ref_flow.
  assert (Hf : forall x, is_flow g x <-> In x (filter (flow_b g) (bounded_flows (arcs g)))).
  { intros x. rewrite filter_In, bounded_flows_In. unfold is_flow, flow_b. rewrite forallb_forall. split.
    - intros (H1 & H2 & H3). split; auto. intros [v d] Hin. apply Z.eqb_eq. apply H3. auto.
    - intros ((H1 & H2) & H3). split; auto. split; auto. intros v d Hin. specialize (H3 _ Hin). apply Z.eqb_eq in H3. auto. }
  apply Hf in Hx0. destruct (filter (flow_b g) (bounded_flows (arcs g))) as [|x r] eqn:E; [destruct Hx0|].
  set (f := fun y => (- flow_cost g y)%Z).
  pose proof (best_In _ f x r) as H1. rewrite <- Hf in H1. specialize (Hmin _ H1).
  pose proof (best_max _ f x r x0 Hx0) as H2. unfold f in H2 at 1 2. f_equal. fold f. lia.
Qed.

Definition ref_nx : networkx := mkNetworkx ref_matching ref_flow.
Lemma ref_nx_ok : networkx_correct ref_nx.
Proof. split; [apply ref_matching_ok|apply ref_flow_ok]. Qed.
