(** * Specification of near ties for the other rules whose default algorithm is "float-fractions" *)
From Coq Require Import List Arith Bool ZArith QArith Qabs.
From Verif Require Import Prelude Misc Preferences Spec SpecSeq SpecMore SpecFloat.
Import ListNotations.
Open Scope nat_scope.

(** [x] is at most [y], up to the relative and absolute margin 2 * 10^-12 *)
Definition nearly_le (x y : Q) : Prop := (x <= (1 + phragmen_margin) * y + phragmen_margin)%Q.

(** E Pluribus Hugo without near ties: whenever, in some round, the points of two remaining candidates are equal up to the margin, they are equal. *)
Definition eph_no_near_ties (p : profile) (k : nat) : Prop := forall R c d,
  eph_reaches p k R -> In c R -> In d R -> nearly_le (points p R c) (points p R d) -> (points p R c <= points p R d)%Q.

(** Elections in which the errors of budgets stay below the tolerance: [k * (6 * k + 9 + 5 * n)] and this times the total weight are at most 4300,
    [n] being the number of voters *)
Definition small_budgets (p : profile) (k : nat) : Prop :=
  let s := (Qnat k * (6 * Qnat k + 9 + 5 * Qnat (length (voters p))))%Q in (s <= 4300)%Q /\ (s * wsum (voters p) <= 4300)%Q.
(** The consensus rule without near ties: in every round no budget is positive but within the margin, and a candidate whose support is the largest one
    up to the margin has the largest support. *)
Definition consensus_no_near_ties (p : profile) (k : nat) : Prop := forall L x,
  runs_from p (consensus_choice p) (consensus_update p) [] (fun _ => 0%Q) L x -> length L < k ->
  (forall i, i < length (voters p) -> (earned p x i <= phragmen_margin)%Q -> (earned p x i <= 0)%Q) /\
  (forall c, fresh p L c -> (forall d, fresh p L d -> nearly_le (sum (backers p x d) (earned p x)) (sum (backers p x c) (earned p x))) -> consensus_choice p L x c).

(** The same for Eneström's method, where errors can double in every round: [2 ^ (k - 1) * (2.1 * n + 20)] and this times the total weight are at most 4300 *)
Definition small_purses (p : profile) (k : nat) : Prop :=
  let s := (Qnat (2 ^ (k - 1)) * ((21 # 10) * Qnat (length (voters p)) + 20))%Q in (s <= 4300)%Q /\ (s * wsum (voters p) <= 4300)%Q.
Definition enestroem_no_near_ties (p : profile) (k : nat) : Prop := forall L x c,
  runs_from p (richest_choice p) (enestroem_update p k) [] (w p) L x -> length L < k -> fresh p L c ->
  (forall d, fresh p L d -> nearly_le (purse p x d) (purse p x c)) -> richest_choice p L x c.

(** The Method of Equal Shares, where the budgets of all voters are at most [K] in total ([K] is [k], or up to [k * N] with the increment completion):
    [(k + 1) * (1.1 * n + 24) * (K + 1)] is at most 4000, [n] being the number of voters; for integer weights of at most [N] in total the prices are
    multiples of a fraction that is larger than the margin. *)
Definition small_shares (p : profile) (k K : nat) : Prop :=
  ((Qnat k + 1) * ((11 # 10) * Qnat (length (voters p)) + 24) * (Qnat K + 1) <= 4000)%Q.
Definition clear_shares (k K N : nat) : Prop :=
  (Z.of_nat N ^ (Z.of_nat k + 2) * (2 * Z.of_nat K + 4) < 500000000000)%Z.
