(** * What Monroe's rule and Greedy Monroe compute *)
From Coq Require Import List Arith Bool ZArith QArith Lia.
From Verif Require Import Prelude Misc Preferences Spec RulesMonroe.
Import ListNotations.
Open Scope nat_scope.

(** A Monroe assignment gives every voter a representative in the committee; all
    members represent the same number of voters, up to one if the committee size
    does not divide the number of voters.  [nth i phi _] represents voter [i]. *)
Definition monroe_assignment (p : profile) (W : list nat) (phi : list nat) : Prop :=
  let n := length (voters p) in
  let k := length W in
  length phi = n /\ Forall (fun c => In c W) phi /\
  forall c, In c W -> n / k <= count_occ Nat.eq_dec phi c <= (n + (k - 1)) / k.

(** how many voters approve their representative *)
Definition represented (p : profile) (phi : list nat) : nat :=
  length (filter (fun vc => approves (fst vc) (snd vc)) (combine (voters p) phi)).

Definition is_monroe_score (p : profile) (W : list nat) (s : nat) : Prop :=
  (exists phi, monroe_assignment p W phi /\ represented p phi = s) /\
  forall phi, monroe_assignment p W phi -> represented p phi <= s.

Definition monroe_winner (p : profile) (k : nat) (W : list nat) : Prop :=
  is_committee p k W /\
  exists phi, monroe_assignment p W phi /\
    forall W' phi', is_committee p k W' -> monroe_assignment p W' phi' -> represented p phi' <= represented p phi.

(** ** The contract of networkx *)

(** a set of edges no two of which share an endpoint *)
Definition is_matching (E M : list match_edge) : Prop :=
  incl M E /\ NoDup (map fst M) /\ NoDup (map snd M).
Definition is_maximum_matching (E M : list match_edge) : Prop :=
  is_matching E M /\ forall M', is_matching E M' -> length M' <= length M.

Definition node_eqb (a b : node) : bool :=
  match a, b with
  | NVoter i, NVoter j => i =? j
  | NCand c, NCand d => c =? d
  | NSink, NSink => true
  | _, _ => false
  end.
(** an integer flow, one number per arc *)
Definition flow_into (g : network) (x : list nat) (v : node) : nat :=
  list_sum (map snd (filter (fun af => node_eqb (arc_to (fst af)) v) (combine (arcs g) x))).
Definition flow_out_of (g : network) (x : list nat) (v : node) : nat :=
  list_sum (map snd (filter (fun af => node_eqb (arc_from (fst af)) v) (combine (arcs g) x))).
Definition is_flow (g : network) (x : list nat) : Prop :=
  length x = length (arcs g) /\
  Forall (fun af => snd af <= arc_capacity (fst af)) (combine (arcs g) x) /\
  forall v d, In (v, d) (demands g) -> (Z.of_nat (flow_into g x v) - Z.of_nat (flow_out_of g x v) = d)%Z.
Definition flow_cost (g : network) (x : list nat) : Z :=
  fold_right Z.add 0%Z (map (fun af => (arc_weight (fst af) * Z.of_nat (snd af))%Z) (combine (arcs g) x)).
Definition is_min_cost (g : network) (c : Z) : Prop :=
  (exists x, is_flow g x /\ flow_cost g x = c) /\ forall x, is_flow g x -> (c <= flow_cost g x)%Z.

(** networkx computes maximum matchings, and the cost of a cheapest flow if there is a flow *)
Definition networkx_correct (nx : networkx) : Prop :=
  (forall E, is_maximum_matching E (maximum_matching nx E)) /\
  (forall g c, is_min_cost g c -> capacity_scaling nx g = Some c).

(** ** Greedy Monroe *)

(** the [t]-th member (counted from 0) represents this many voters: the first
    [n mod k] districts have one voter more *)
Definition quota_of (n k t : nat) : nat := n / k + (if t <? n mod k then 1 else 0).

Definition fans_among (p : profile) (vs : list nat) (c : nat) : list nat :=
  filter (fun i => match nth_error (voters p) i with Some v => approves v c | None => false end) vs.

(** [greedy_monroe_run p k L rem]: after choosing the candidates [L], in this order,
    the voters [rem] (ascending) are still without a representative.  Each round
    picks the candidate that most of them approve, the smallest one among ties, and
    gives it its first supporters, as many as the district holds. *)
Inductive greedy_monroe_run (p : profile) (k : nat) : list nat -> list nat -> Prop :=
| gm_start : greedy_monroe_run p k [] (seq 0 (length (voters p)))
| gm_step : forall L rem c,
    greedy_monroe_run p k L rem -> c < num_cand p -> ~ In c L ->
    (forall d, d < num_cand p -> ~ In d L ->
       length (fans_among p rem d) < length (fans_among p rem c) \/
       (length (fans_among p rem d) = length (fans_among p rem c) /\ c <= d)) ->
    greedy_monroe_run p k (L ++ [c])
      (diff rem (firstn (quota_of (length (voters p)) k (length L)) (fans_among p rem c))).

Definition greedy_monroe_winner (p : profile) (k : nat) (W : list nat) : Prop :=
  exists L rem, greedy_monroe_run p k L rem /\ length L = k /\ W = isort L.

(** the printed assignment: every member with the voters it represents *)
Definition monroe_districts (p : profile) (W : list nat) (D : list (nat * list nat)) : Prop :=
  let n := length (voters p) in
  let k := length W in
  (forall c, In c W <-> In c (map fst D)) /\ NoDup (map fst D) /\
  NoDup (flat_map snd D) /\ (forall i, In i (flat_map snd D) <-> i < n) /\
  forall c vs, In (c, vs) D -> n / k <= length vs <= (n + (k - 1)) / k.

(** how many voters are represented by somebody they approve *)
Definition districts_score (p : profile) (D : list (nat * list nat)) : nat :=
  list_sum (map (fun d => length (fans_among p (snd d) (fst d))) D).
