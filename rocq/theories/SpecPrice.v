(** * Priceability, as in the papers cited in properties.py

    "Multi-Winner Voting with Approval Preferences", Definition 4.8, and "Market-Based Explanations of
    Collective Decisions", Section 3.1.  Voter [i] has the budget [weight * B]; every candidate costs 1. *)
From Coq Require Import List Arith Bool ZArith QArith Qminmax.
From Verif Require Import Prelude Preferences Spec SpecAxioms.
Import ListNotations.
Open Scope nat_scope.

(** [pay i c] is what voter [i] pays for candidate [c] *)
Record price_system (p : profile) (W : list nat) (B : Q) (pay : nat -> nat -> Q) : Prop := {
  budget_nonneg : (0 <= B)%Q;
  pay_nonneg : forall i c, i < length (voters p) -> c < num_cand p -> (0 <= pay i c)%Q;
  pay_budget : forall i, i < length (voters p) -> (Qsum (map (pay i) (seq 0 (num_cand p))) <= voter_weight p i * B)%Q;
  pay_approved : forall i c, i < length (voters p) -> c < num_cand p -> ~ In c (ballot p i) -> (pay i c == 0)%Q;
  pay_members : forall c, c < num_cand p -> In c W -> (Qsum (map (fun i => pay i c) (seq 0 (length (voters p)))) == 1)%Q;
  pay_others : forall c, c < num_cand p -> ~ In c W -> (Qsum (map (fun i => pay i c) (seq 0 (length (voters p)))) == 0)%Q
}.
(** the money that voter [i] does not spend on the committee *)
Definition left_over (p : profile) (W : list nat) (B : Q) (pay : nat -> nat -> Q) (i : nat) : Q :=
  (voter_weight p i * B - Qsum (map (pay i) W))%Q.
Definition who_approve (p : profile) (c : nat) : list nat := filter (fun i => mem c (ballot p i)) (seq 0 (length (voters p))).

Definition priceable (p : profile) (W : list nat) : Prop := exists B pay, price_system p W B pay /\
  forall c, c < num_cand p -> ~ In c W -> (Qsum (map (left_over p W B pay) (who_approve p c)) <= 1)%Q.
(** what voter [i] could offer for one more candidate: its unspent money, or one of its payments *)
Definition could_offer (p : profile) (W : list nat) (B : Q) (pay : nat -> nat -> Q) (i : nat) : Q :=
  fold_right Qmax (left_over p W B pay i) (map (pay i) W).
Definition stable_priceable (p : profile) (W : list nat) : Prop := exists B pay, price_system p W B pay /\
  forall c, c < num_cand p -> ~ In c W -> (Qsum (map (could_offer p W B pay) (who_approve p c)) <= 1)%Q.

(** There are fewer approved candidates than seats: the papers exclude this case. *)
Definition few_approved (p : profile) (W : list nat) : Prop :=
  exists A, NoDup A /\ length A < length W /\ forall i c, i < length (voters p) -> In c (ballot p i) -> In c A.
Definition takes_all_approved (p : profile) (W : list nat) : Prop :=
  forall i c, i < length (voters p) -> In c (ballot p i) -> In c W.
(** what the two checks decide *)
Definition passes_price_check (p : profile) (W : list nat) (stable : bool) : Prop :=
  (few_approved p W /\ takes_all_approved p W) \/
  (~ few_approved p W /\ if stable then stable_priceable p W else priceable p W).
