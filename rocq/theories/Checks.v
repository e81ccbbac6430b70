(** * Model of abcvoting/properties.py: the combinatorial checks

    The ILP-based variants (algorithm "gurobi") are modelled in CheckSolver.v; here
    they are reached through the parameter [gurobi].  The verbose output is
    modelled in CheckReport.v. *)
From Coq Require Import String.
From Coq Require Import List Arith Bool ZArith QArith Lia Lqa Qround.
From Verif Require Import Prelude Misc Preferences.
Import ListNotations.
Local Open Scope string_scope.
Open Scope nat_scope.

(** [profile[i]] (preferences.py 231-232) *)
Definition voter_at (p : profile) (i : nat) : voter := nth i (voters p) (mkVoter [] 1 true).
Definition indices (p : profile) : list nat := seq 0 (List.length (voters p)).

(** [len(voter.approved & committee)] *)
Definition utility (v : voter) (committee : list nat) : nat := List.length (inter (approved v) committee).

(** Python [sum(profile[vi].weight for vi in group)] *)
Definition group_weight (p : profile) (group : list nat) : Q :=
  fold_left (fun s i => s + weight (voter_at p i))%Q group 0%Q.

(** [quota = Fraction(profile.total_weight(), len(committee))] unless given
    (e.g. properties.py 283-287); [len(committee) == 0] raises. *)
Definition quota_of (p : profile) (committee : list nat) (quota : option Q) : result Q :=
  match quota with
  | Some q => Ok q
  | None => if Nat.eqb (List.length committee) 0 then Err ZeroDivisionError
            else Ok (total_weight p / Qnat (List.length committee))%Q
  end.

(** [CandidateSet(committee, num_cand=profile.num_cand)], e.g. properties.py 290 *)
Definition checked_committee (p : profile) (committee : list nat) : result (list nat) :=
  candidate_set_new (map (fun c => PyInt (Z.of_nat c)) committee) (Some (Z.of_nat (num_cand p))).

(** [int(profile.total_weight() / quota)]: division by zero raises, [int]
    truncates towards zero. *)
Definition upper_bound (p : profile) (quota : Q) : result Z :=
  if Qeq_bool quota 0 then Err ZeroDivisionError
  else let q := (total_weight p / quota)%Q in Ok (Z.quot (Qnum q) (QDen q)).

(** properties.py 539-576, [_check_JR] *)
Definition check_JR_core (p : profile) (committee : list nat) (quota : Q) : bool :=
  forallb (fun cand =>
    let group := filter (fun i => mem cand (approved (voter_at p i)) &&
                                  Nat.eqb (utility (voter_at p i) committee) 0) (indices p) in
    negb (Qle_bool quota (group_weight p group))) (candidates p).

(** properties.py 443-536, [check_JR] *)
Definition check_JR (p : profile) (committee : list nat) (quota : option Q) : result bool :=
  do q <- quota_of p committee quota;
  do w <- checked_committee p committee;
  Ok (check_JR_core p w q).

(** properties.py 579-604, [_check_pareto_optimality_brute_force] *)
Fixpoint no_dominating (p : profile) (committee : list nat) (others : list (list nat)) : result bool :=
  match others with
  | [] => Ok true
  | o :: r => do d <- dominate p o committee;
              if d then Ok false else no_dominating p committee r
  end.
Definition check_pareto_core (p : profile) (committee : list nat) : result bool :=
  no_dominating p committee (combinations (candidates p) (List.length committee)).

(** voters to consider for [ell] (properties.py 727-730) *)
Definition short_of (p : profile) (committee : list nat) (ell : nat) : list nat :=
  filter (fun i => utility (voter_at p i) committee <? ell) (indices p).

(** [set.intersection] of the approval sets of a non-empty group (properties.py 744) *)
Definition joint_approvals (p : profile) (group : list nat) : list nat :=
  match group with
  | [] => []
  | i :: r => fold_left (fun s j => inter s (approved (voter_at p j))) r (approved (voter_at p i))
  end.
(** union of the approval sets (properties.py 894-896) *)
Definition union_approvals (p : profile) (group : list nat) : list nat :=
  dedup (flat_map (fun i => approved (voter_at p i)) group).

(** properties.py 697-762, [_check_EJR_brute_force]: the body for one [ell] *)
Definition EJR_ell (p : profile) (committee : list nat) (quota : Q) (ell : nat) : bool :=
  let min_group_size := Qceiling (Qnat ell * quota) in
  let vs := short_of p committee ell in
  if Qltb (group_weight p vs) (inject_Z min_group_size) then true
  else forallb (fun g => List.length (joint_approvals p g) <? ell)
               (combinations vs (Z.to_nat min_group_size)).

Definition check_EJR_core (p : profile) (committee : list nat) (quota : Q) : result bool :=
  do ub <- upper_bound p quota;
  Ok (forallb (EJR_ell p committee quota) (seq 1 (Z.to_nat ub))).

(** properties.py 844-918, [_check_PJR_brute_force] *)
Definition PJR_ell (p : profile) (committee : list nat) (quota : Q) (ell : nat) : bool :=
  let min_group_size := Qceiling (Qnat ell * quota) in
  let vs := short_of p committee ell in
  if Qltb (group_weight p vs) (inject_Z min_group_size) then true
  else forallb (fun g => (List.length (joint_approvals p g) <? ell) ||
                         negb (List.length (inter (union_approvals p g) committee) <? ell))
               (combinations vs (Z.to_nat min_group_size)).

Definition check_PJR_core (p : profile) (committee : list nat) (quota : Q) : result bool :=
  do ub <- upper_bound p quota;
  Ok (forallb (PJR_ell p committee quota) (seq 1 (Z.to_nat ub))).

(** properties.py 1070-1119, [_check_EJR_plus].  The dictionary
    [supporters_by_utility] has the keys 0..upper bound: looking up a larger
    utility raises KeyError. *)
Fixpoint EJR_plus_loop (p : profile) (committee : list nat) (quota : Q) (ub : Z) (cands : list nat) : result bool :=
  match cands with
  | [] => Ok true
  | cand :: r =>
      if mem cand committee then EJR_plus_loop p committee quota ub r
      else
        let sup := filter (fun i => mem cand (approved (voter_at p i))) (indices p) in
        if existsb (fun i => Z.ltb ub (Z.of_nat (utility (voter_at p i) committee))) sup then Err KeyError
        else if existsb (fun ell =>
                 let group := filter (fun i => utility (voter_at p i) committee <=? ell) sup in
                 Qle_bool (Qnat (S ell) * quota) (group_weight p group)) (seq 0 (Z.to_nat ub))
        then Ok false
        else EJR_plus_loop p committee quota ub r
  end.
Definition check_EJR_plus_core (p : profile) (committee : list nat) (quota : Q) : result bool :=
  do ub <- upper_bound p quota; EJR_plus_loop p committee quota ub (candidates p).

(** properties.py 1005-1067, [check_EJR_plus] *)
Definition check_EJR_plus (p : profile) (committee : list nat) (quota : option Q) : result bool :=
  do q <- quota_of p committee quota;
  do w <- checked_committee p committee;
  check_EJR_plus_core p w q.

(** properties.py 1424-1481, [_check_FJR_brute_force] *)
Definition check_FJR_core (p : profile) (committee : list nat) (quota : Q) : result bool :=
  do ub <- upper_bound p quota;
  Ok (forallb (fun T =>
        forallb (fun beta =>
          let group := filter (fun i => (beta <=? utility (voter_at p i) T) &&
                                        (utility (voter_at p i) committee <=? beta - 1)) (indices p) in
          negb (Qle_bool (Qnat (List.length T) * quota) (group_weight p group)))
          (seq 1 (List.length T)))
        (flat_map (combinations (approved_candidates p)) (seq 0 (Z.to_nat (ub + 1))))).

(** properties.py 1630-1669, [_check_core_brute_force] *)
Definition check_core_core (p : profile) (committee : list nat) (quota : Q) : result bool :=
  do ub <- upper_bound p quota;
  Ok (forallb (fun T =>
        let group := filter (fun i => utility (voter_at p i) committee <? utility (voter_at p i) T) (indices p) in
        Nat.eqb (List.length group) 0 ||
        negb (Qle_bool (Qnat (List.length T) * quota) (group_weight p group)))
        (flat_map (combinations (approved_candidates p)) (seq 0 (Z.to_nat (ub + 1))))).

(** The checks with a choice of algorithm: properties.py 143-221
    (check_pareto_optimality), 224-331 (check_EJR), 334-440 (check_PJR),
    1348-1421 (check_FJR), 1556-1627 (check_core). *)
Definition dispatch (algorithm : string) (brute gurobi : result bool) : result bool :=
  let algorithm := if String.eqb algorithm "fastest" then "gurobi" else algorithm in
  if String.eqb algorithm "brute-force" then brute
  else if String.eqb algorithm "gurobi" then gurobi
  else Err NotImplementedError.

Definition check_pareto_optimality (gurobi : profile -> list nat -> result bool)
           (p : profile) (committee : list nat) (algorithm : string) : result bool :=
  do w <- checked_committee p committee;
  dispatch algorithm (check_pareto_core p w) (gurobi p w).

Definition check_with_quota (brute gurobi : profile -> list nat -> Q -> result bool)
           (p : profile) (committee : list nat) (quota : option Q) (algorithm : string) : result bool :=
  do q <- quota_of p committee quota;
  do w <- checked_committee p committee;
  dispatch algorithm (brute p w q) (gurobi p w q).

Definition check_EJR := check_with_quota check_EJR_core.
Definition check_PJR := check_with_quota check_PJR_core.
Definition check_FJR := check_with_quota check_FJR_core.
Definition check_core := check_with_quota check_core_core.
