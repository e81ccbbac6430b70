(** * Specifications of the sequential (one candidate at a time) rules of
    Phragmén type, independent of the algorithms

    A rule of this type keeps one number per voter (a load or a budget) and adds
    one candidate at a time.  Numbers are rationals compared with [==]. *)
From Coq Require Import List Arith Bool ZArith QArith Lia Permutation Sorted.
From Verif Require Import Prelude Misc Preferences Spec.
Import ListNotations.
Open Scope nat_scope.

(** Voters are identified by their position in the profile. *)
Definition the_voter (p : profile) (i : nat) : voter := nth i (voters p) (mkVoter [] 1 true).
Definition voter_ids (p : profile) : list nat := seq 0 (length (voters p)).
Definition w (p : profile) (i : nat) : Q := weight (the_voter p i).
Definition likes (p : profile) (i c : nat) : bool := approves (the_voter p i) c.
(** the voters approving [c] *)
Definition fans (p : profile) (c : nat) : list nat := filter (fun i => likes p i c) (voter_ids p).
Definition sum (l : list nat) (x : nat -> Q) : Q := Qsum (map x l).

(** [x] and [y] give every voter the same number *)
Definition agree (p : profile) (x y : nat -> Q) : Prop :=
  forall i, i < length (voters p) -> (x i == y i)%Q.

Section Sequential.
  Variable p : profile.
  (** [choice W x c]: [c] may be added to [W] when the voters' numbers are [x];
      [update W x c x']: the numbers afterwards. *)
  Variable choice : list nat -> (nat -> Q) -> nat -> Prop.
  Variable update : list nat -> (nat -> Q) -> nat -> (nat -> Q) -> Prop.

  (** [runs_from W0 x0 W x]: [W] (last choice first) and [x] are obtained from
      [W0], [x0] by a sequence of choices. *)
  Inductive runs_from (W0 : list nat) (x0 : nat -> Q) : list nat -> (nat -> Q) -> Prop :=
  | run_start : forall x, agree p x x0 -> runs_from W0 x0 W0 x
  | run_step : forall W x c x', runs_from W0 x0 W x -> choice W x c -> update W x c x' ->
      runs_from W0 x0 (c :: W) x'.

  (** ties broken towards the lowest-numbered candidate *)
  Inductive lex_runs_from (W0 : list nat) (x0 : nat -> Q) : list nat -> (nat -> Q) -> Prop :=
  | lex_run_start : forall x, agree p x x0 -> lex_runs_from W0 x0 W0 x
  | lex_run_step : forall W x c x', lex_runs_from W0 x0 W x -> choice W x c ->
      (forall d, choice W x d -> c <= d) -> update W x c x' -> lex_runs_from W0 x0 (c :: W) x'.

  (** committees of size [k] that some way of breaking ties selects *)
  Definition run_winner (W0 : list nat) (x0 : nat -> Q) (k : nat) (W : list nat) : Prop :=
    exists L x, runs_from W0 x0 L x /\ length L = k /\ W = isort L.
  Definition lex_run_winner (W0 : list nat) (x0 : nat -> Q) (k : nat) (W : list nat) : Prop :=
    exists L x, lex_runs_from W0 x0 L x /\ length L = k /\ W = isort L.
End Sequential.

(** a candidate that is not in [W] *)
Definition fresh (p : profile) (W : list nat) (c : nat) : Prop := c < num_cand p /\ ~ In c W.

(** ** Sequential Phragmén: the maximum load that adding [c] would give its
    supporters, who share one unit of load equally per weight *)
Definition new_load (p : profile) (load : nat -> Q) (c : nat) : Q :=
  ((1 + sum (fans p c) (fun i => w p i * load i)) / sum (fans p c) (w p))%Q.

(** a supported candidate with the lowest new load; any candidate once nobody
    approves a candidate outside [W] *)
Definition phragmen_choice (p : profile) (W : list nat) (load : nat -> Q) (c : nat) : Prop :=
  fresh p W c /\
  if (0 <? length (fans p c)) then
    forall d, fresh p W d -> fans p d <> [] -> (new_load p load c <= new_load p load d)%Q
  else forall d, fresh p W d -> fans p d = [].

Definition phragmen_update (p : profile) (W : list nat) (load : nat -> Q) (c : nat) (load' : nat -> Q) : Prop :=
  agree p load' (fun i => if likes p i c then new_load p load c else load i).

Definition phragmen_winner (p : profile) : nat -> list nat -> Prop :=
  run_winner p (phragmen_choice p) (phragmen_update p) [] (fun _ => 0%Q).
Definition phragmen_lex_winner (p : profile) : nat -> list nat -> Prop :=
  lex_run_winner p (phragmen_choice p) (phragmen_update p) [] (fun _ => 0%Q).

(** every candidate with a supporter has enough support that loads stay below
    the sentinel values used by the code; any profile whose weights are at least
    1 satisfies this *)
Definition enough_support (p : profile) (k : nat) : Prop :=
  forall c, c < num_cand p -> support p c == 0 \/ (Qnat k < Qnat (k + 1) * support p c)%Q.

(** ** Phragmén's method in Eneström's version: voters' budgets start at their
    weights; a seat costs total weight / k *)
Definition purse (p : profile) (b : nat -> Q) (c : nat) : Q := sum (fans p c) b.
Definition richest_choice (p : profile) (W : list nat) (b : nat -> Q) (c : nat) : Prop :=
  fresh p W c /\ forall d, fresh p W d -> (purse p b d <= purse p b c)%Q.
(** supporters pay the price in proportion to their budgets, or all they have *)
Definition enestroem_update (p : profile) (k : nat) (W : list nat) (b : nat -> Q) (c : nat) (b' : nat -> Q) : Prop :=
  let price := (wsum (voters p) / Qnat k)%Q in
  ((price < purse p b c)%Q ->
     agree p b' (fun i => if likes p i c then b i - price * (b i / purse p b c) else b i)%Q) /\
  ((purse p b c <= price)%Q ->
     agree p b' (fun i => if likes p i c then 0 else b i)%Q).
Definition enestroem_winner (p : profile) (k : nat) : list nat -> Prop :=
  run_winner p (richest_choice p) (enestroem_update p k) [] (w p) k.
Definition enestroem_lex_winner (p : profile) (k : nat) : list nat -> Prop :=
  lex_run_winner p (richest_choice p) (enestroem_update p k) [] (w p) k.

(** ** Consensus rule: in every round each voter receives its weight; only voters
    with a positive budget count; the winner's counted supporters pay the total
    weight, in proportion to their weights *)
Definition earned (p : profile) (b : nat -> Q) (i : nat) : Q := (b i + w p i)%Q.
Definition backers (p : profile) (b : nat -> Q) (c : nat) : list nat :=
  filter (fun i => Qltb 0 (earned p b i)) (fans p c).
Definition consensus_choice (p : profile) (W : list nat) (b : nat -> Q) (c : nat) : Prop :=
  fresh p W c /\ forall d, fresh p W d ->
    (sum (backers p b d) (earned p b) <= sum (backers p b c) (earned p b))%Q.
Definition consensus_update (p : profile) (W : list nat) (b : nat -> Q) (c : nat) (b' : nat -> Q) : Prop :=
  agree p b' (fun i => if mem i (backers p b c)
                       then earned p b i - w p i * (wsum (voters p) / sum (backers p b c) (w p))
                       else earned p b i)%Q.
Definition consensus_winner (p : profile) : nat -> list nat -> Prop :=
  run_winner p (consensus_choice p) (consensus_update p) [] (fun _ => 0%Q).
Definition consensus_lex_winner (p : profile) : nat -> list nat -> Prop :=
  lex_run_winner p (consensus_choice p) (consensus_update p) [] (fun _ => 0%Q).

(** ** Method of Equal Shares *)
Definition Qmin (x y : Q) : Q := if Qle_bool x y then x else y.
(** what [c]'s supporters pay in total if nobody pays more than [rho] per weight *)
Definition collected (p : profile) (b : nat -> Q) (c : nat) (rho : Q) : Q :=
  sum (fans p c) (fun i => Qmin (b i) (rho * w p i)).
(** [c] costs 1; [rho] is the lowest maximum payment per weight at which it can be bought *)
Definition price_of (p : profile) (b : nat -> Q) (c : nat) (rho : Q) : Prop :=
  (collected p b c rho == 1)%Q /\ forall r, (r < rho)%Q -> (collected p b c r < 1)%Q.
Definition mes_choice (p : profile) (W : list nat) (b : nat -> Q) (c : nat) : Prop :=
  fresh p W c /\ exists rho, price_of p b c rho /\
    forall d r, fresh p W d -> price_of p b d r -> (rho <= r)%Q.
Definition mes_update (p : profile) (W : list nat) (b : nat -> Q) (c : nat) (b' : nat -> Q) : Prop :=
  exists rho, price_of p b c rho /\
    agree p b' (fun i => if likes p i c then b i - Qmin (b i) (rho * w p i) else b i)%Q.
(** nobody can be bought any more *)
Definition mes_stuck (p : profile) (W : list nat) (b : nat -> Q) : Prop :=
  forall c, fresh p W c -> (purse p b c < 1)%Q.
(** every voter starts with its share of [k] *)
Definition equal_share (p : profile) (k : nat) (i : nat) : Q := (w p i * Qnat k / wsum (voters p))%Q.

(** an election of up to [k] candidates that stops early only if nobody can be
    bought; voter [i] starts with [start i] *)
Definition mes_ends (p : profile) (k : nat) (start : nat -> Q) (L : list nat) (b : nat -> Q) : Prop :=
  runs_from p (mes_choice p) (mes_update p) [] start L b /\
  (length L = k \/ length L < k /\ mes_stuck p L b).
Definition mes_lex_ends (p : profile) (k : nat) (start : nat -> Q) (L : list nat) (b : nat -> Q) : Prop :=
  lex_runs_from p (mes_choice p) (mes_update p) [] start L b /\
  (length L = k \/ length L < k /\ mes_stuck p L b).

(** ways to fill the committee [L] left with budgets [b] *)
Definition completion := list nat -> (nat -> Q) -> list nat -> Prop.
Definition no_completion : completion := fun L b W => W = isort L.
(** sequential Phragmén, loads starting at minus the unspent budget per weight *)
Definition phragmen_completion (p : profile) (k : nat) : completion := fun L b W =>
  run_winner p (phragmen_choice p) (phragmen_update p) L (fun i => - b i / w p i)%Q k W.
Definition phragmen_lex_completion (p : profile) (k : nat) : completion := fun L b W =>
  lex_run_winner p (phragmen_choice p) (phragmen_update p) L (fun i => - b i / w p i)%Q k W.
(** the most approved candidates outside [L] *)
Definition av_completion (p : profile) (k : nat) : completion := fun L b W =>
  is_committee p k W /\ incl L W /\
  forall c d, In c W -> ~ In c L -> d < num_cand p -> ~ In d W -> (support p d <= support p c)%Q.

Definition mes_winner (p : profile) (k : nat) (start : nat -> Q) (fill : completion) (W : list nat) : Prop :=
  exists L b, mes_ends p k start L b /\
    (length L = k -> W = isort L) /\ (length L < k -> fill L b W).
Definition mes_lex_winner (p : profile) (k : nat) (start : nat -> Q) (fill : completion) (W : list nat) : Prop :=
  exists L b, mes_lex_ends p k start L b /\
    (length L = k -> W = isort L) /\ (length L < k -> fill L b W).

(** increment completion: voter budgets as for the smallest virtual committee size
    [n >= k] for which the method itself elects [k] candidates; if fewer than [k]
    candidates are approved by anybody, all of these and some others *)
Definition supported (p : profile) : list nat :=
  filter (fun c => 0 <? length (fans p c)) (seq 0 (num_cand p)).
Definition mes_increment_winner (p : profile) (k : nat) (W : list nat) : Prop :=
  (length (supported p) < k -> is_committee p k W /\ incl (supported p) W) /\
  (k <= length (supported p) ->
   exists n L b, k <= n /\ mes_lex_ends p k (equal_share p n) L b /\ length L = k /\ W = isort L /\
     forall n' L' b', k <= n' < n -> mes_lex_ends p k (equal_share p n') L' b' -> length L' < k).
(** what the increment completion needs in order to succeed; integer weights satisfy it *)
Definition unit_support (p : profile) : Prop :=
  forall c, In c (supported p) -> (1 <= support p c)%Q.
