(** * Model of Random Serial Dictator and E Pluribus Hugo *)
From Coq Require Import String.
From Coq Require Import List Arith Bool ZArith QArith.
From Verif Require Import Prelude Misc Preferences Scores Search Rule RulesThiele Compute ComputeSeq.
Import ListNotations.
Local Open Scope string_scope.
Open Scope nat_scope.

(** Python's [random] module as used by [compute_rsd]: the result of one call of
    [random.shuffle] and of [random.sample]. *)
Record random := mkRandom {
  shuffle : list (list nat) -> list (list nat);
  sample : list nat -> nat -> list nat
}.

(** abcrules.py 4383-4386: [committee.add(cand)] until the committee is full *)
Fixpoint rsd_add (k : nat) (committee approved : list nat) : list nat :=
  match approved with
  | [] => committee
  | cand :: r =>
      let committee' := if mem cand committee then committee else (committee ++ [cand])%list in
      if length committee' =? k then committee' else rsd_add k committee' r
  end.

(** [committee.update(approved)] *)
Definition set_update (committee approved : list nat) : list nat :=
  fold_left (fun s c => if mem c s then s else (s ++ [c])%list) approved committee.

(** abcrules.py 4378-4392: the loop over the dictators with its [else] branch *)
Fixpoint rsd_loop (rnd : random) (p : profile) (k : nat) (approval_sets : list (list nat)) (committee : list nat)
  : list nat :=
  match approval_sets with
  | [] =>
      let remaining_candidates := filter (fun c => negb (mem c committee)) (candidates p) in
      set_update committee (sample rnd remaining_candidates (k - length committee))
  | approved :: r =>
      let committee' :=
        if length committee + length approved <=? k then set_update committee approved
        else rsd_add k committee approved in
      if length committee' =? k then committee' else rsd_loop rnd p k r committee'
  end.

(** abcrules.py 4304-4406, [compute_rsd] *)
Definition compute_rsd (rnd : random) (e : env) (p : profile) (k : Z) (algorithm : string) (resolute : bool)
           (maxn : option pyobj) : result (list (list nat)) :=
  run e "rsd" p k algorithm resolute maxn (fun alg k maxn =>
    if negb (has_unit_weights p) then Err ValueError
    else if String.eqb alg "standard" then
      let approval_sets := map (fun v => isort (approved v)) (voters p) in
      sorted_committees [rsd_loop rnd p k (shuffle rnd approval_sets) []]
    else Err UnknownAlgorithm).

(** ** E Pluribus Hugo *)

(** abcrules.py 4514-4521: both scores of the remaining candidates *)
Definition sdv_score (p : profile) (remaining : list nat) (cand : nat) : Q :=
  fold_left (fun s v =>
    let remaining_approved := filter (fun c => mem c (approved v)) remaining in
    if mem cand remaining_approved then (s + weight v / Qnat (length remaining_approved))%Q else s)
    (voters p) 0%Q.
Definition eph_av_score (p : profile) (remaining : list nat) (cand : nat) : Q :=
  fold_left (fun s v =>
    let remaining_approved := filter (fun c => mem c (approved v)) remaining in
    if mem cand remaining_approved then (s + weight v)%Q else s)
    (voters p) 0%Q.

(** abcrules.py 4523-4531: the candidates to be eliminated; a list with one value
    has no second smallest one *)
Definition elimination (p : profile) (remaining : list nat) : result (list nat) :=
  match nth_error (sort_by Qle_bool (map (sdv_score p remaining) remaining)) 1 with
  | None => Err IndexError
  | Some cutoff_sdv =>
      let cands := filter (fun c => Qle_bool (sdv_score p remaining c) cutoff_sdv) remaining in
      do cutoff_av <- py_min (map (eph_av_score p remaining) cands);
      Ok (filter (fun c => Qle_bool (eph_av_score p remaining c) cutoff_av) cands)
  end.

(** abcrules.py 4513-4545: [while True]; every round eliminates a candidate, hence
    the number of candidates suffices as fuel.  Sets of small integers are visited
    in ascending order. *)
Fixpoint eph_loop (p : profile) (k : nat) (maxn : option nat) (fuel : nat) (remaining : list nat)
  : result (list (list nat)) :=
  match fuel with
  | 0 => Err OutOfFuel
  | S fuel =>
      do elim <- elimination p remaining;
      if length remaining - length elim <=? k then
        let num := length remaining - k in
        do cs <- sorted_committees (map (fun selection => diff remaining selection) (combinations elim num));
        Ok (cut maxn cs)
      else eph_loop p k maxn fuel (diff remaining elim)
  end.

(** abcrules.py 4489-4545, [_eph_algorithm], with exact fractions *)
Definition eph_algorithm (p : profile) (k : nat) (resolute : bool) (maxn : option nat) : result (list (list nat)) :=
  eph_loop p k (if resolute then Some 1 else maxn) (S (num_cand p)) (candidates p).

(** abcrules.py 4409-4486, [compute_eph] *)
Definition compute_eph (e : env) (p : profile) (k : Z) (algorithm : string) (resolute : bool)
           (maxn : option pyobj) : result (list (list nat)) :=
  run e "eph" p k algorithm resolute maxn (fun alg k maxn =>
    with_fractions e "eph" alg p k resolute maxn
      (do cs <- eph_algorithm p k resolute maxn; sorted_committees cs)).
