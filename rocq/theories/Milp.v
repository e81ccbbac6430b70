(** * Mixed-integer linear programs and the solver loops

    The programs that abcrules_gurobi.py, abcrules_mip.py and abcrules_ortools.py
    build, and the loop that all three modules use to enumerate optimal committees. *)
From Coq Require Import String.
From Coq Require Import List Arith Bool ZArith QArith.
From Verif Require Import Prelude Misc Preferences.
Import ListNotations.
Open Scope nat_scope.

(** The variables that occur in the programs; the numbers are candidates, voters
    (by position), distances and so on. *)
Inductive var :=
| InCommittee (c : nat)          (* in_committee[cand] *)
| Utility (i x : nat)            (* utility[(voter, x)] *)
| Satisfaction                   (* satisfaction (Monroe) *)
| Partition (c i : nat)          (* partition[(cand, voter)] *)
| Satisfied (i : nat)            (* satisfaction[voter_id] (CC, OR-Tools) *)
| Load (i c : nat)               (* load[(voter, cand)] *)
| LoadBound                      (* loadbound, newloadbound *)
| BoundFor (i j : nat)           (* loadbound_constraint[(i, j)] *)
| MaxHamming                     (* max_hamming_distance *)
| AtMost (i d : nat)             (* voteratmostdistances[(i, dist)] *)
| Minimum                        (* minimum (maximin support) *)
| Assigned (i c : nat)           (* f[vi, cand] *)
| InGroup (i : nat)              (* in_group[voter] (properties.py) *)
| InCut (c : nat)                (* in_cut[cand], set T *)
| Ell                            (* ell *)
| Payment (i c : nat)            (* payment[voter][cand] *)
| Budget                         (* budget *)
| MaxPayment (i : nat) (c : nat) (* auxiliary maxima *)
| Above (i x : nat)
| Other (n i j : nat).

Inductive vtype := Binary | Integer | Continuous.
(** [model.addVar(lb=..., ub=..., vtype=...)] *)
Record decl := mkDecl { dvar : var; dtype : vtype; dlow : option Q; dhigh : option Q }.

(** a linear expression: coefficients and a constant *)
Definition lin : Type := list (Q * var) * Q.
Inductive con :=
| CLe (a b : lin)
| CGe (a b : lin)
| CEq (a b : lin)
| COnlyIf (v : var) (c : con).    (* enforced only if the binary variable [v] is 1 *)
(** every program maximises its objective *)
Record milp := mkMilp { decls : list decl; cons : list con; objective : lin }.

(** [quicksum(v for v in l)] and friends *)
Definition lvar (v : var) : lin := ([(1%Q, v)], 0%Q).
Definition lconst (q : Q) : lin := ([], q).
Definition lsum (l : list lin) : lin := (flat_map fst l, Qsum (map snd l)).
Definition lscale (q : Q) (e : lin) : lin := (map (fun t => ((q * fst t)%Q, snd t)) (fst e), (q * snd e)%Q).
Definition ladd (a b : lin) : lin := (fst a ++ fst b, (snd a + snd b)%Q).
Definition lsub (a b : lin) : lin := ladd a (lscale (-1) b).
Definition vsum (l : list var) : lin := lsum (map lvar l).

(** ** Meaning *)
Definition assignment := var -> Q.
Definition ev (x : assignment) (e : lin) : Q := (Qsum (map (fun t => fst t * x (snd t)) (fst e)) + snd e)%Q.
Fixpoint holds (x : assignment) (c : con) : Prop :=
  match c with
  | CLe a b => (ev x a <= ev x b)%Q
  | CGe a b => (ev x b <= ev x a)%Q
  | CEq a b => (ev x a == ev x b)%Q
  | COnlyIf v c => (x v == 1)%Q -> holds x c
  end.
Definition in_domain (x : assignment) (d : decl) : Prop :=
  match dtype d with
  | Binary => (x (dvar d) == 0)%Q \/ (x (dvar d) == 1)%Q
  | Integer => exists z, (x (dvar d) == inject_Z z)%Q
  | Continuous => True
  end /\
  match dlow d with Some q => (q <= x (dvar d))%Q | None => True end /\
  match dhigh d with Some q => (x (dvar d) <= q)%Q | None => True end.
Definition feasible (m : milp) (x : assignment) : Prop :=
  Forall (in_domain x) (decls m) /\ Forall (holds x) (cons m).
Definition optimal (m : milp) (x : assignment) : Prop :=
  feasible m x /\ forall y, feasible m y -> (ev y (objective m) <= ev x (objective m))%Q.

(** ** Solvers *)
Inductive status := Optimal (x : assignment) | Infeasible | OtherStatus.
Definition solver := milp -> status.
(** An exact solver: its answers are right, and it gives up on unbounded programs only. *)
Definition correct_on (s : solver) (m : milp) : Prop :=
  match s m with
  | Optimal x => optimal m x
  | Infeasible => forall x, ~ feasible m x
  | OtherStatus => forall q, exists x, feasible m x /\ (q < ev x (objective m))%Q
  end.

(** Programs that a solver can be expected to handle: conditions ([COnlyIf]) are on declared integer
    variables, and in every feasible solution the integer variables lie between [-B] and [B]. *)
Definition is_int (d : decl) : bool := match dtype d with Continuous => false | _ => true end.
Definition int_vars (m : milp) : list var := map dvar (filter is_int (decls m)).
Fixpoint guards (c : con) : list var := match c with COnlyIf v c => v :: guards c | _ => [] end.
Definition guarded (m : milp) : Prop := forall c v, In c (cons m) -> In v (guards c) -> In v (int_vars m).
Definition bounded_integers (B : nat) (m : milp) : Prop :=
  forall x v, feasible m x -> In v (int_vars m) -> (- inject_Z (Z.of_nat B) <= x v <= inject_Z (Z.of_nat B))%Q.
(** The assumption about the solver libraries, for programs of the size of an election: right answers. *)
Definition election_size (p : profile) : nat := num_cand p + length (voters p) + 1.
Definition exact_solver (p : profile) (s : solver) : Prop :=
  forall m, guarded m -> bounded_integers (election_size p) m -> correct_on s m.

(** abcrules_gurobi.py 13-14, abcrules_mip.py 11-12 *)
Definition ACCURACY : Q := (1 # 100000000)%Q.
Definition CMP_ACCURACY : Q := (1 # 10000000)%Q.

(** [model.addConstr(c)] *)
Definition add_con (m : milp) (c : con) : milp := mkMilp (decls m) (cons m ++ [c]) (objective m).
(** abcrules_gurobi.py 138: sum(in_committee[cand] for cand in committee) <= committeesize - 1 *)
Definition exclusion (k : nat) (committee : list nat) : con :=
  CLe (vsum (map InCommittee committee)) (lconst (Qnat k - 1)).
(** abcrules_gurobi.py 73: model.addVars(profile.num_cand, vtype=BINARY) *)
Definition in_committee_vars (p : profile) : list decl :=
  map (fun c => mkDecl (InCommittee c) Binary None None) (candidates p).

Section Loop.
  Variables (s : solver) (threshold : Q) (p : profile) (k : nat).
  (** [committeescorefct]; [None] if the objective value itself is compared *)
  Variable score : option (list nat -> result Q).
  Variables (resolute : bool) (maxn : option nat).

  Definition slack : Q := match score with None => CMP_ACCURACY | Some _ => 0%Q end.
  (** abcrules_gurobi.py 91-97, abcrules_mip.py 114-120, abcrules_ortools.py 86 *)
  Definition read_committee (x : assignment) : list nat :=
    filter (fun c => Qle_bool threshold (x (InCommittee c))) (candidates p).

  (** [max_num_of_committees is not None and len(committees) >= max_num_of_committees] *)
  Definition enough (committees : list (list nat)) : bool :=
    match maxn with None => false | Some n => n <=? length committees end.

  (** abcrules_gurobi.py 78-140, abcrules_mip.py 96-165, abcrules_ortools.py 68-116: the loop of
      [_optimize_rule_gurobi], [_optimize_rule_mip] and [_optimize_rule_ortools].
      Gurobi and Python MIP read a variable as 1 if it is at least 0.9 ([threshold]),
      OR-Tools if it is at least 1; the OR-Tools version always has a score function. *)
  Fixpoint opt_loop (fuel : nat) (m : milp) (committees : list (list nat)) (maxscore : option Q)
    : result (list (list nat) * option Q) :=
    match fuel with
    | 0 => Err OutOfFuel
    | S fuel =>
        match s m with
        | OtherStatus => Err RuntimeError
        | Infeasible => match committees with [] => Err RuntimeError | _ => Ok (committees, maxscore) end
        | Optimal x =>
            let committee := read_committee x in
            if negb (length committee =? k) then Err RuntimeError
            else
              do objective_value <- match score with
                                    | None => Ok (ev x (objective m))
                                    | Some f => f committee
                                    end;
              let continue_with ms :=
                let committees' := committees ++ [committee] in
                if resolute then Ok (committees', Some ms)
                else if enough committees' then Ok (committees', Some ms)
                else opt_loop fuel (add_con m (exclusion k committee)) committees' (Some ms) in
              match maxscore with
              | None => continue_with objective_value
              | Some ms =>
                  if Qltb (ms + slack) objective_value then Err RuntimeError
                  else if Qltb objective_value (ms - slack) then Ok (committees, maxscore)
                  else continue_with ms
              end
        end
    end.

  (** [_optimize_rule_gurobi] and [_optimize_rule_mip] (with [reuse_model=True], the only
      value used), [_optimize_rule_ortools], with the program that [set_opt_model_func] builds.
      Every round finds a new committee or stops, hence the fuel. *)
  Definition optimize_rule (m : milp) : result (list (list nat) * option Q) :=
    opt_loop (S (length (combinations (candidates p) k))) m [] None.
End Loop.
