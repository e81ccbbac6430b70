(** * Model of abcvoting/properties.py: the checks that use Gurobi

    [gb] is the solver.  Dictionaries keyed by [Voter] objects are indexed by the position of the
    voter; the verbose output and the witnesses it prints ([detailed_information]) are modelled in CheckReport.v.
    Gurobi variables are nonnegative unless declared otherwise. *)
From Coq Require Import String.
From Coq Require Import List Arith Bool ZArith QArith.
From Verif Require Import Prelude Misc Preferences Checks Milp.
Import ListNotations.
Local Open Scope string_scope.
Open Scope nat_scope.
Local Open Scope list_scope.

Definition binary (v : var) : decl := mkDecl v Binary None None.
Definition nonneg (v : var) : decl := mkDecl v Continuous (Some 0%Q) None.
(** [quicksum(voter.weight * in_group[vi] for vi, voter in enumerate(profile))] *)
Definition chosen_weight (p : profile) : lin :=
  lsum (map (fun i => lscale (weight (voter_at p i)) (lvar (InGroup i))) (indices p)).
(** [in_cut.sum()], [set_of_candidates.sum()] *)
Definition chosen_count (p : profile) : lin := vsum (map InCut (candidates p)).

(** The three-way [if] on [model.Status] at the end of every check; a feasible program is a violation. *)
Definition holds_if_infeasible (gb : solver) (m : milp) : result bool :=
  match gb m with
  | Optimal _ => Ok false
  | Infeasible => Ok true
  | OtherStatus => Err RuntimeError
  end.

(** properties.py 607-694, [_check_pareto_optimality_gurobi] *)
Definition pareto_program (p : profile) (committee : list nat) : milp :=
  let sizes := seq 1 (length committee) in
  let strictly_more i := Other 0 i 0 in
  mkMilp (flat_map (fun i => map (fun x => binary (Utility i x)) sizes) (indices p) ++
          map (fun c => binary (InCommittee c)) (candidates p) ++
          map (fun i => binary (strictly_more i)) (indices p))
         (map (fun i => CEq (vsum (map (Utility i) sizes)) (vsum (map InCommittee (approved (voter_at p i))))) (indices p) ++
          [CGe (vsum (map strictly_more (indices p))) (lconst 1)] ++
          map (fun i => CGe (vsum (map (Utility i) sizes))
                            (ladd (lconst (Qnat (utility (voter_at p i) committee))) (lvar (strictly_more i)))) (indices p) ++
          [CEq (vsum (map InCommittee (candidates p))) (lconst (Qnat (length committee)))])
         (lsum (flat_map (fun i => map (fun x => lvar (Utility i x)) sizes) (indices p))).
Definition pareto_gurobi (gb : solver) (p : profile) (committee : list nat) : result bool :=
  holds_if_infeasible gb (pareto_program p committee).

(** properties.py 788-817, [_check_EJR_gurobi], and 944-977, [_check_PJR_gurobi]: the common part *)
Definition ell_decls (p : profile) : list decl :=
  mkDecl Ell Integer (Some 0%Q) None :: map (fun i => binary (InGroup i)) (indices p) ++ map (fun c => binary (InCut c)) (candidates p).
Definition ell_cons (p : profile) (quota : Q) (ub : Z) : list con :=
  [CGe (lvar Ell) (lconst 1); CLe (lvar Ell) (lconst (inject_Z ub));
   CGe (chosen_weight p) (lscale quota (lvar Ell));
   CGe (chosen_count p) (lvar Ell)] ++
  flat_map (fun i => flat_map (fun c => if mem c (approved (voter_at p i)) then []
                                        else [CLe (lvar (InCut c)) (lsub (lconst 1) (lvar (InGroup i)))])
                              (candidates p)) (indices p).
(** properties.py 765-841, [_check_EJR_gurobi] *)
Definition EJR_program (p : profile) (committee : list nat) (quota : Q) (ub : Z) : milp :=
  mkMilp (ell_decls p)
         (ell_cons p quota ub ++
          map (fun i => COnlyIf (InGroup i) (CLe (lconst (Qnat (utility (voter_at p i) committee + 1))) (lvar Ell))) (indices p))
         (lconst 0).
Definition EJR_gurobi (gb : solver) (p : profile) (committee : list nat) (quota : Q) : result bool :=
  do ub <- upper_bound p quota;
  holds_if_infeasible gb (EJR_program p committee quota ub).

(** properties.py 921-1002, [_check_PJR_gurobi] *)
Definition in_union (c : nat) : var := Other 1 c 0.
Definition PJR_program (p : profile) (committee : list nat) (quota : Q) (ub : Z) : milp :=
  mkMilp (ell_decls p ++ map (fun c => binary (in_union c)) (candidates p))
         (ell_cons p quota ub ++
          flat_map (fun i => map (fun c => CGe (lvar (in_union c)) (lvar (InGroup i))) (approved (voter_at p i))) (indices p) ++
          [CLe (ladd (vsum (map in_union committee)) (lconst 1)) (lvar Ell)])
         (lconst 0).
Definition PJR_gurobi (gb : solver) (p : profile) (committee : list nat) (quota : Q) : result bool :=
  do ub <- upper_bound p quota;
  holds_if_infeasible gb (PJR_program p committee quota ub).

(** properties.py 1484-1553, [_check_FJR_gurobi]; [Ell] is beta *)
Definition approved_chosen (p : profile) (i : nat) : lin :=
  lsum (map (fun c => lscale (if mem c (approved (voter_at p i)) then 1 else 0) (lvar (InCut c))) (candidates p)).
Definition FJR_program (p : profile) (committee : list nat) (quota : Q) (ub : Z) : milp :=
  mkMilp (map (fun i => binary (InGroup i)) (indices p) ++ map (fun c => binary (InCut c)) (candidates p) ++
          [mkDecl Ell Integer (Some 1%Q) (Some (inject_Z ub))])
         ([CLe (lvar Ell) (chosen_count p);
           CLe (lscale quota (chosen_count p)) (chosen_weight p);
           CGe (vsum (map InGroup (indices p))) (lconst 1)] ++
          flat_map (fun i =>
            [CLe (lscale (Qnat (utility (voter_at p i) committee)) (lvar (InGroup i))) (lsub (lvar Ell) (lconst 1));
             CGe (approved_chosen p i)
                 (lsub (lvar Ell) (lscale (inject_Z ub) (lsub (lconst 1) (lvar (InGroup i)))))]) (indices p))
         (lconst 0).
Definition FJR_gurobi (gb : solver) (p : profile) (committee : list nat) (quota : Q) : result bool :=
  do ub <- upper_bound p quota;
  holds_if_infeasible gb (FJR_program p committee quota ub).

(** properties.py 1672-1732, [_check_core_gurobi] *)
Definition core_program (p : profile) (committee : list nat) (quota : Q) : milp :=
  mkMilp (map (fun i => binary (InGroup i)) (indices p) ++ map (fun c => binary (InCut c)) (candidates p))
         ([CLe (lscale quota (chosen_count p)) (chosen_weight p);
           CGe (vsum (map InGroup (indices p))) (lconst 1)] ++
          map (fun i => COnlyIf (InGroup i) (CGe (approved_chosen p i) (lconst (Qnat (utility (voter_at p i) committee + 1)))))
              (indices p))
         (lconst 0).
Definition core_gurobi (gb : solver) (p : profile) (committee : list nat) (quota : Q) : result bool :=
  holds_if_infeasible gb (core_program p committee quota).

(** ** Priceability *)

(** [model.addGenConstrMax(v, vs)], "v is the maximum of vs", as the indicator constraints that define it:
    exactly one of the variables [picks] is 1, and it marks an element of [vs] that is at least [v]. *)
Definition gen_max_decls (picks : list var) : list decl := map binary picks.
Definition gen_max (v : var) (vs picks : list var) : list con :=
  map (fun u => CGe (lvar v) (lvar u)) vs ++
  [CEq (vsum picks) (lconst 1)] ++
  map (fun up => COnlyIf (snd up) (CLe (lvar v) (lvar (fst up)))) (combine vs picks).

(** properties.py 1232-1237 *)
Definition price_decls (p : profile) : list decl :=
  nonneg Budget :: flat_map (fun i => map (fun c => nonneg (Payment i c)) (candidates p)) (indices p).
(** properties.py 1240-1257: conditions 1, 2, 3 *)
Definition price_cons (p : profile) (committee : list nat) : list con :=
  map (fun i => CLe (vsum (map (Payment i) (candidates p))) (lscale (weight (voter_at p i)) (lvar Budget))) (indices p) ++
  flat_map (fun i => flat_map (fun c => if mem c (approved (voter_at p i)) then [] else [CEq (lvar (Payment i c)) (lconst 0)])
                              (candidates p)) (indices p) ++
  map (fun c => CEq (vsum (map (fun i => Payment i c) (indices p))) (lconst (if mem c committee then 1 else 0))) (candidates p).
(** [voter.weight * budget - quicksum(payment[voter][member] for member in committee)] *)
Definition unspent (p : profile) (committee : list nat) (i : nat) : lin :=
  lsub (lscale (weight (voter_at p i)) (lvar Budget)) (vsum (map (Payment i) committee)).
(** [for voter in profile if candidate in voter.approved] *)
Definition approvers (p : profile) (c : nat) : list nat := filter (fun i => mem c (approved (voter_at p i))) (indices p).
Definition outsiders (p : profile) (committee : list nat) : list nat := filter (fun c => negb (mem c committee)) (candidates p).
(** properties.py 1291-1303: condition 4 *)
Definition leftover_cons (p : profile) (committee : list nat) : list con :=
  map (fun c => CLe (lsum (map (unspent p committee) (approvers p c))) (lconst 1)) (outsiders p committee).
(** properties.py 1259-1288: condition 4*; the variables of candidate [c] and voter [i] *)
Definition extremum (i c : nat) : var := Other 0 i c.
Definition residual (i c : nat) : var := Other 1 i c.
Definition pick_payment (i c : nat) : var := Other 2 i c.
Definition pick_residual (i c : nat) : var := Other 3 i c.
Definition pick_member (i c m : nat) : var := Other (4 + m) i c.
Definition pairs (p : profile) (committee : list nat) : list (nat * nat) :=
  flat_map (fun c => map (fun i => (i, c)) (approvers p c)) (outsiders p committee).
Definition stable_decls (p : profile) (committee : list nat) : list decl :=
  flat_map (fun ic => let '(i, c) := ic in
     [nonneg (extremum i c); nonneg (residual i c); nonneg (MaxPayment i c)] ++
     gen_max_decls (map (pick_member i c) committee) ++ gen_max_decls [pick_payment i c; pick_residual i c])
    (pairs p committee).
Definition stable_cons (p : profile) (committee : list nat) : list con :=
  flat_map (fun ic => let '(i, c) := ic in
     [CEq (lvar (residual i c)) (unspent p committee i)] ++
     gen_max (MaxPayment i c) (map (Payment i) committee) (map (pick_member i c) committee) ++
     gen_max (extremum i c) [MaxPayment i c; residual i c] [pick_payment i c; pick_residual i c])
    (pairs p committee) ++
  map (fun c => CLe (vsum (map (fun i => extremum i c) (approvers p c))) (lconst 1)) (outsiders p committee).
(** properties.py 1305: minimise the budget *)
Definition price_program (p : profile) (committee : list nat) (stable : bool) : milp :=
  mkMilp (price_decls p ++ if stable then stable_decls p committee else [])
         (price_cons p committee ++ if stable then stable_cons p committee else leftover_cons p committee)
         (lscale (-1) (lvar Budget)).

(** properties.py 1199-1346, [_check_priceability_gurobi] *)
Definition priceability_gurobi (gb : solver) (p : profile) (committee : list nat) (stable : bool) : result bool :=
  let approved_cands := filter (fun c => existsb (fun v => mem c (approved v)) (voters p)) (candidates p) in
  if length approved_cands <? length committee then Ok (forallb (fun c => mem c committee) approved_cands)
  else match gb (price_program p committee stable) with
       | Optimal _ => Ok true
       | Infeasible => Ok false
       | OtherStatus => Err RuntimeError
       end.
(** properties.py 1122-1170, [check_priceability]; 1173-1196, [check_stable_priceability], is the case [stable] *)
Definition check_priceability (gb : solver) (p : profile) (committee : list nat) (algorithm : string) (stable : bool) : result bool :=
  do w <- checked_committee p committee;
  let algorithm := if String.eqb algorithm "fastest" then "gurobi" else algorithm in
  if String.eqb algorithm "gurobi" then priceability_gurobi gb p w stable
  else Err NotImplementedError.
