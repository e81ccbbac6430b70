(** * Model of abcvoting/properties.py: what the checks print

    Every public check prints a verdict (level INFO) and, if the committee fails, an explanation (level DETAILS).
    Here a check yields its result together with the messages it sends to the output object; the verdicts themselves are
    the ones of Checks.v and CheckSolver.v, but the searches also return the [detailed_information] they build.  An
    exception raised while the explanation is formatted leaves the verdict already printed. *)
From Coq Require Import String.
From Coq Require Import List Arith Bool ZArith QArith Qround.
From Verif Require Import Prelude Misc Preferences Checks Milp CheckSolver Output.
Import ListNotations.
Local Open Scope string_scope.
Open Scope nat_scope.
Local Open Scope list_scope.

(** Python's formatting of numbers: [f"{quota}"], [str(x)] of a float, [f"{x:.1f}"]; and whether
    [f"{x:.1f}"] accepts a [Fraction] (it does since Python 3.12; before, it raises TypeError) *)
Record printing := mkPrinting { str_quota : Q -> string; str_float : Q -> string; one_digit : Q -> string; fraction_format : bool }.

Definition report : Type := result bool * list message.
Definition info (s : string) : message := mkMessage INFO s true "".
Definition details (s ind : string) : message := mkMessage DETAILS s true ind.

Fixpoint first_some {A B} (f : A -> option B) (l : list A) : option B :=
  match l with
  | [] => None
  | a :: r => match f a with Some b => Some b | None => first_some f r end
  end.

(** The end of every check: [verdict] is the INFO message for success and for failure, [explain] formats the DETAILS message. *)
Definition conclude {A} (verdict : bool -> string) (explain : A -> result string) (ind : string) (r : result (option A)) : report :=
  match r with
  | Err e => (Err e, [])
  | Ok None => (Ok true, [info (verdict true)])
  | Ok (Some a) =>
      match explain a with
      | Ok s => (Ok false, [info (verdict false); details s ind])
      | Err e => (Err e, [info (verdict false)])
      end
  end.

(** e.g. properties.py 302-311: the verdict of the checks with a quota *)
Definition quota_verdict (pr : printing) (committee : list nat) (yes no : string) (quota : option Q) (b : bool) : string :=
  ("Committee " ++ str_set_of_candidates committee ++ " " ++ (if b then yes else no) ++
   match quota with None => "." | Some q => " (for quota = " ++ str_quota pr q ++ ")." end)%string.

(** e.g. properties.py 317-322: [fractional_size = sum(profile[vi].weight for vi in group) / profile.total_weight()]
    and ["{fractional_size*100:.1f}% of all voters{' (by weight)' if not profile.has_unit_weights() else ''}"].
    The quotient is a [Fraction] as soon as some weight is one. *)
Definition share_text (pr : printing) (p : profile) (group : list nat) : result string :=
  if Qeq_bool (total_weight p) 0 then Err ZeroDivisionError
  else if forallb weight_is_int (voters p) || fraction_format pr
  then Ok (one_digit pr (group_weight p group / total_weight p * 100) ++ "% of all voters" ++
           (if has_unit_weights p then "" else " (by weight)"))%string
  else Err TypeError.

(** [profile.cand_names[cand]] *)
Definition name_of (p : profile) (c : nat) : result string :=
  match nth_error (cand_names p) c with Some s => Ok s | None => Err IndexError end.

(** ** JR: properties.py 443-536 and 539-576 *)
Definition JR_search (p : profile) (committee : list nat) (quota : Q) : option (list nat * nat) :=
  first_some (fun cand =>
    let group := filter (fun i => mem cand (approved (voter_at p i)) &&
                                  Nat.eqb (utility (voter_at p i) committee) 0) (indices p) in
    if Qle_bool quota (group_weight p group) then Some (group, cand) else None) (candidates p).
Definition JR_explain (pr : printing) (p : profile) (w : list nat * nat) : result string :=
  let '(group, cand) := w in
  do share <- share_text pr p group;
  do name <- name_of p cand;
  Ok ("(The 1-cohesive group of voters " ++ str_set_of_candidates group ++ " (" ++ share ++ ")" ++
      " jointly approve candidate " ++ name ++ ", but none of them approve a candidate in the committee.)")%string.
Definition report_JR (pr : printing) (p : profile) (committee : list nat) (quota : option Q) : report :=
  match (do q <- quota_of p committee quota; do w <- checked_committee p committee; Ok (q, w)) with
  | Err e => (Err e, [])
  | Ok (q, w) => conclude (quota_verdict pr w "satisfies JR" "does not satisfy JR" quota) (JR_explain pr p) ""
                          (Ok (JR_search p w q))
  end.

(** ** The checks with a choice of algorithm (see [dispatch] in Checks.v) *)
Definition pick {A} (algorithm : string) (brute gurobi : result A) : result A :=
  let algorithm := if String.eqb algorithm "fastest" then "gurobi" else algorithm in
  if String.eqb algorithm "brute-force" then brute
  else if String.eqb algorithm "gurobi" then gurobi
  else Err NotImplementedError.
Definition report_with_quota {A} (pr : printing) (yes no ind : string) (explain : profile -> A -> result string)
  (brute gurobi : profile -> list nat -> Q -> result (option A))
  (p : profile) (committee : list nat) (quota : option Q) (algorithm : string) : report :=
  match (do q <- quota_of p committee quota; do w <- checked_committee p committee; Ok (q, w)) with
  | Err e => (Err e, [])
  | Ok (q, w) => conclude (quota_verdict pr w yes no quota) (explain p) ind (pick algorithm (brute p w q) (gurobi p w q))
  end.

(** [if model.Status == OPTIMAL: ... elif INFEASIBLE: ... else raise], reading a witness off the solution *)
Definition witness_of {A} (gb : solver) (m : milp) (read : assignment -> A) : result (option A) :=
  match gb m with
  | Optimal x => Ok (Some (read x))
  | Infeasible => Ok None
  | OtherStatus => Err RuntimeError
  end.
(** [{vi for vi, _ in enumerate(profile) if in_group[vi].Xn >= 0.9}], [{cand for cand in profile.candidates if in_cut[cand].Xn >= 0.9}] *)
Definition group_at_least (p : profile) (x : assignment) : list nat := filter (fun i => Qle_bool (9 # 10) (x (InGroup i))) (indices p).
Definition cut_at_least (p : profile) (x : assignment) : list nat := filter (fun c => Qle_bool (9 # 10) (x (InCut c))) (candidates p).
(** the same with [> 0.9] (properties.py 1540-1546) *)
Definition group_above (p : profile) (x : assignment) : list nat := filter (fun i => Qltb (9 # 10) (x (InGroup i))) (indices p).
Definition cut_above (p : profile) (x : assignment) : list nat := filter (fun c => Qltb (9 # 10) (x (InCut c))) (candidates p).
(** Python's [round(x)]: to the nearest integer, halves to the even one *)
Definition py_round (x : Q) : Z :=
  let f := Qfloor x in
  let r := (x - inject_Z f)%Q in
  if Qltb r (1 # 2) then f else if Qltb (1 # 2) r then (f + 1)%Z else if Z.even f then f else (f + 1)%Z.
(** [str(n)] of an integer *)
Definition str_Z (z : Z) : string := if Z.ltb z 0 then ("-" ++ str_nat (Z.to_nat (- z)))%string else str_nat (Z.to_nat z).

(** ** EJR: properties.py 224-331.  A witness is (cohesive_group, ell, joint_candidates). *)
Definition EJR_explain (pr : printing) (p : profile) (w : list nat * Z * list nat) : result string :=
  let '(group, ell, cands) := w in
  do share <- share_text pr p group;
  Ok ("(The " ++ str_Z ell ++ "-cohesive group of voters " ++ str_set_of_candidates group ++ " (" ++ share ++ ")" ++
      " jointly approve the candidates " ++ str_set_of_candidates cands ++ ", but none of them approves " ++ str_Z ell ++
      " candidates in the committee.)")%string.
(** properties.py 697-762: the group reported is the list of all voters considered, not the combination found *)
Definition EJR_ell_search (p : profile) (committee : list nat) (quota : Q) (ell : nat) : option (list nat * Z * list nat) :=
  let min_group_size := Qceiling (Qnat ell * quota) in
  let vs := short_of p committee ell in
  if Qltb (group_weight p vs) (inject_Z min_group_size) then None
  else first_some (fun g => let cut := joint_approvals p g in
                            if ell <=? List.length cut then Some (vs, Z.of_nat ell, cut) else None)
                  (combinations vs (Z.to_nat min_group_size)).
Definition EJR_search (p : profile) (committee : list nat) (quota : Q) : result (option (list nat * Z * list nat)) :=
  do ub <- upper_bound p quota; Ok (first_some (EJR_ell_search p committee quota) (seq 1 (Z.to_nat ub))).
(** properties.py 823-833 and 985-995 *)
Definition read_ell (p : profile) (x : assignment) : list nat * Z * list nat := (group_at_least p x, py_round (x Ell), cut_at_least p x).
Definition EJR_solve (gb : solver) (p : profile) (committee : list nat) (quota : Q) : result (option (list nat * Z * list nat)) :=
  do ub <- upper_bound p quota; witness_of gb (EJR_program p committee quota ub) (read_ell p).
Definition report_EJR (pr : printing) (gb : solver) := 
  report_with_quota pr "satisfies EJR" "does not satisfy EJR" " " (EJR_explain pr) EJR_search (EJR_solve gb).

(** ** PJR: properties.py 334-440, 844-918, 921-1002 *)
Definition PJR_explain (pr : printing) (p : profile) (w : list nat * Z * list nat) : result string :=
  let '(group, ell, cands) := w in
  do share <- share_text pr p group;
  Ok ("(The " ++ str_Z ell ++ "-cohesive group of voters " ++ str_set_of_candidates group ++ " (" ++ share ++ ")" ++
      " jointly approve the candidates " ++ str_set_of_candidates cands ++ ", but they approve fewer than " ++ str_Z ell ++
      " candidates in the committee.)")%string.
Definition PJR_ell_search (p : profile) (committee : list nat) (quota : Q) (ell : nat) : option (list nat * Z * list nat) :=
  let min_group_size := Qceiling (Qnat ell * quota) in
  let vs := short_of p committee ell in
  if Qltb (group_weight p vs) (inject_Z min_group_size) then None
  else first_some (fun g => let cut := joint_approvals p g in
                            if (ell <=? List.length cut) && (List.length (inter (union_approvals p g) committee) <? ell)
                            then Some (vs, Z.of_nat ell, cut) else None)
                  (combinations vs (Z.to_nat min_group_size)).
Definition PJR_search (p : profile) (committee : list nat) (quota : Q) : result (option (list nat * Z * list nat)) :=
  do ub <- upper_bound p quota; Ok (first_some (PJR_ell_search p committee quota) (seq 1 (Z.to_nat ub))).
Definition PJR_solve (gb : solver) (p : profile) (committee : list nat) (quota : Q) : result (option (list nat * Z * list nat)) :=
  do ub <- upper_bound p quota; witness_of gb (PJR_program p committee quota ub) (read_ell p).
Definition report_PJR (pr : printing) (gb : solver) :=
  report_with_quota pr "satisfies PJR" "does not satisfy PJR" "" (PJR_explain pr) PJR_search (PJR_solve gb).

(** ** EJR+: properties.py 1005-1067, 1070-1119.  A witness is (cohesive_group, joint_candidate, ell). *)
Definition EJR_plus_explain (pr : printing) (p : profile) (w : list nat * nat * nat) : result string :=
  let '(group, cand, ell) := w in
  do share <- share_text pr p group;
  do name <- name_of p cand;
  Ok ("(The group of voters " ++ str_set_of_candidates group ++ " (" ++ share ++ ")" ++ " deserves " ++ str_nat ell ++
      " candidates, and jointly approve candidate " ++ name ++ " which is not part of the committee, but no member approves at least " ++
      str_nat ell ++ " members of the committee.)")%string.
Fixpoint EJR_plus_search (p : profile) (committee : list nat) (quota : Q) (ub : Z) (cands : list nat) : result (option (list nat * nat * nat)) :=
  match cands with
  | [] => Ok None
  | cand :: r =>
      if mem cand committee then EJR_plus_search p committee quota ub r
      else
        let sup := filter (fun i => mem cand (approved (voter_at p i))) (indices p) in
        if existsb (fun i => Z.ltb ub (Z.of_nat (utility (voter_at p i) committee))) sup then Err KeyError
        else match first_some (fun ell =>
                 let group := filter (fun i => utility (voter_at p i) committee <=? ell) sup in
                 if Qle_bool (Qnat (S ell) * quota) (group_weight p group) then Some (group, cand, S ell) else None)
                 (seq 0 (Z.to_nat ub)) with
             | Some w => Ok (Some w)
             | None => EJR_plus_search p committee quota ub r
             end
  end.
Definition report_EJR_plus (pr : printing) (p : profile) (committee : list nat) (quota : option Q) : report :=
  match (do q <- quota_of p committee quota; do w <- checked_committee p committee; Ok (q, w)) with
  | Err e => (Err e, [])
  | Ok (q, w) => conclude (quota_verdict pr w "satisfies EJR+" "does not satisfy EJR+" quota) (EJR_plus_explain pr p) ""
                          (do ub <- upper_bound p q; EJR_plus_search p w q ub (candidates p))
  end.

(** ** FJR: properties.py 1348-1421, 1424-1481, 1484-1553.  A witness is (cohesive_group, beta, joint_candidates), and the
    brute-force algorithm has an integer beta where Gurobi yields a float. *)
Inductive number := PyI (n : nat) | PyF (x : Q).
Definition str_number (pr : printing) (n : number) : string :=
  match n with PyI n => str_nat n | PyF x => str_float pr x end.
(** [n - 1]; an integer beta is at least 1 *)
Definition minus_one (n : number) : number := match n with PyI n => PyI (n - 1) | PyF x => PyF (x - 1) end.
Definition FJR_explain (pr : printing) (p : profile) (w : list nat * number * list nat) : result string :=
  let '(group, beta, cands) := w in
  do share <- share_text pr p group;
  Ok ("(The weakly cohesive group of voters " ++ str_set_of_candidates group ++ "(" ++ share ++ ")" ++
      "each approve at least " ++ str_number pr beta ++ " of the " ++ str_nat (List.length cands) ++ " candidates " ++
      str_set_of_candidates cands ++ ",but all approve at most " ++ str_number pr (minus_one beta) ++
      " candidates in the committee.)")%string.
Definition FJR_search (p : profile) (committee : list nat) (quota : Q) : result (option (list nat * number * list nat)) :=
  do ub <- upper_bound p quota;
  Ok (first_some (fun T =>
        first_some (fun beta =>
          let group := filter (fun i => (beta <=? utility (voter_at p i) T) &&
                                        (utility (voter_at p i) committee <=? beta - 1)) (indices p) in
          if Qle_bool (Qnat (List.length T) * quota) (group_weight p group) then Some (group, PyI beta, T) else None)
          (seq 1 (List.length T)))
        (flat_map (combinations (approved_candidates p)) (seq 0 (Z.to_nat (ub + 1))))).
Definition FJR_solve (gb : solver) (p : profile) (committee : list nat) (quota : Q) : result (option (list nat * number * list nat)) :=
  do ub <- upper_bound p quota;
  witness_of gb (FJR_program p committee quota ub) (fun x => (group_above p x, PyF (x Ell), cut_above p x)).
Definition report_FJR (pr : printing) (gb : solver) :=
  report_with_quota pr "satisfies FJR" "does not satisfy FJR" " " (FJR_explain pr) FJR_search (FJR_solve gb).

(** ** The core: properties.py 1556-1627, 1630-1669, 1672-1732.  A witness is (coalition, objection). *)
Definition core_explain (pr : printing) (p : profile) (w : list nat * list nat) : result string :=
  let '(group, cands) := w in
  do share <- share_text pr p group;
  Ok ("(The group of voters " ++ str_set_of_candidates group ++ " (" ++ share ++ ")" ++
      " can block the outcome by proposing " ++ str_set_of_candidates cands ++
      ", in which each group member approves strictly more candidates.)")%string.
Definition core_search (p : profile) (committee : list nat) (quota : Q) : result (option (list nat * list nat)) :=
  do ub <- upper_bound p quota;
  Ok (first_some (fun T =>
        let group := filter (fun i => utility (voter_at p i) committee <? utility (voter_at p i) T) (indices p) in
        if Nat.eqb (List.length group) 0 then None
        else if Qle_bool (Qnat (List.length T) * quota) (group_weight p group) then Some (group, T) else None)
        (flat_map (combinations (approved_candidates p)) (seq 0 (Z.to_nat (ub + 1))))).
Definition core_solve (gb : solver) (p : profile) (committee : list nat) (quota : Q) : result (option (list nat * list nat)) :=
  witness_of gb (core_program p committee quota) (fun x => (group_at_least p x, cut_at_least p x)).
Definition report_core (pr : printing) (gb : solver) :=
  report_with_quota pr "is in the core" "is not in the core" "" (core_explain pr) core_search (core_solve gb).

(** ** Pareto optimality: properties.py 143-221, 579-604, 607-694 *)
Fixpoint pareto_search (p : profile) (committee : list nat) (others : list (list nat)) : result (option (list nat)) :=
  match others with
  | [] => Ok None
  | o :: r => do d <- dominate p o committee;
              if d then Ok (Some o) else pareto_search p committee r
  end.
Definition committee_at_least (p : profile) (x : assignment) : list nat := filter (fun c => Qle_bool (9 # 10) (x (InCommittee c))) (candidates p).
Definition report_pareto (gb : solver) (p : profile) (committee : list nat) (algorithm : string) : report :=
  match checked_committee p committee with
  | Err e => (Err e, [])
  | Ok w => conclude (fun b => "Committee " ++ str_set_of_candidates w ++ (if b then " is Pareto optimal." else " is not Pareto optimal."))%string
              (fun o => Ok ("(It is dominated by the committee " ++ str_set_of_candidates o ++ ".)")%string) ""
              (pick algorithm (pareto_search p w (combinations (candidates p) (List.length w)))
                              (witness_of gb (pareto_program p w) (committee_at_least p)))
  end.

(** ** Priceability: properties.py 1122-1170, 1305-1346 *)
(** [s.rjust(n)] *)
Definition rjust (n : nat) (s : string) : string := (String.concat "" (repeat " " (n - String.length s)) ++ s)%string.
Definition maxlen (l : list string) : nat := fold_right Nat.max 0 (map String.length l).
(** properties.py 1312-1319, [column_widths] *)
Definition column_width (pr : printing) (p : profile) (x : assignment) (c : nat) : nat :=
  Nat.max (String.length (str_nat c)) (maxlen (map (fun i => str_float pr (x (Payment i c))) (indices p))).
Definition voter_width (p : profile) : nat := String.length (str_nat (List.length (voters p))).
(** properties.py 1320-1338 *)
Definition payment_table (pr : printing) (p : profile) (x : assignment) : list message :=
  details (String.concat "" (repeat " " (voter_width p)) ++ " | " ++
           String.concat " | " (map (fun c => rjust (column_width pr p x c) (str_nat c)) (candidates p)))%string "" ::
  map (fun i => details (rjust (voter_width p) (str_nat i) ++ " | " ++
           String.concat " | " (map (fun c => rjust (column_width pr p x c) (str_float pr (x (Payment i c)))) (candidates p)))%string "")
      (indices p).
(** [max] of no payments raises ValueError *)
Definition report_priceability_gurobi (pr : printing) (gb : solver) (p : profile) (committee : list nat) (stable : bool) : report :=
  let approved_cands := filter (fun c => existsb (fun v => mem c (approved v)) (voters p)) (candidates p) in
  if List.length approved_cands <? List.length committee then (Ok (forallb (fun c => mem c committee) approved_cands), [])
  else match gb (price_program p committee stable) with
       | Optimal x =>
           if has_unit_weights p
           then (if Nat.eqb (List.length (voters p)) 0 then Err ValueError else Ok true,
                 details ("Budget: " ++ str_float pr (x Budget))%string "" ::
                 if Nat.eqb (List.length (voters p)) 0 then [] else payment_table pr p x)
           else (Ok true, [])
       | Infeasible => (Ok false, [details "No feasible budget and payment function" ""])
       | OtherStatus => (Err RuntimeError, [])
       end.
Definition report_priceability (pr : printing) (gb : solver) (p : profile) (committee : list nat) (algorithm : string) (stable : bool) : report :=
  match checked_committee p committee with
  | Err e => (Err e, [])
  | Ok w =>
      let algorithm := if String.eqb algorithm "fastest" then "gurobi" else algorithm in
      if String.eqb algorithm "gurobi" then
        let '(r, ms) := report_priceability_gurobi pr gb p w stable in
        match r with
        | Err e => (Err e, ms)
        | Ok b => (Ok b, ms ++ [info ("Committee " ++ str_set_of_candidates w ++ (if b then " is " else " is not ") ++
                                     (if stable then "stable " else "") ++ "priceable.")%string])
        end
      else (Err NotImplementedError, [])
  end.

(** ** properties.py 87-140, [check], and 39-84, [full_analysis], with everything they print *)
Definition report_check (pr : printing) (gb : solver) (property_name : string) (p : profile) (committee : list nat)
  (quota : option Q) (algorithm : string) : report :=
  let no_quota (r : report) : report := match quota with Some _ => (Err ValueError, []) | None => r end in
  if negb (existsb (String.eqb property_name) PROPERTY_NAMES) then (Err ValueError, [])
  else if String.eqb property_name "pareto" then no_quota (report_pareto gb p committee algorithm)
  else if String.eqb property_name "jr" then report_JR pr p committee quota
  else if String.eqb property_name "pjr" then report_PJR pr gb p committee quota algorithm
  else if String.eqb property_name "ejr" then report_EJR pr gb p committee quota algorithm
  else if String.eqb property_name "ejr+" then report_EJR_plus pr p committee quota
  else if String.eqb property_name "fjr" then report_FJR pr gb p committee quota algorithm
  else if String.eqb property_name "priceability" then no_quota (report_priceability pr gb p committee algorithm false)
  else if String.eqb property_name "stable-priceability" then no_quota (report_priceability pr gb p committee algorithm true)
  else if String.eqb property_name "core" then report_core pr gb p committee quota algorithm
  else (Err NotImplementedError, []).
Fixpoint report_all (pr : printing) (gb : solver) (names : list string) (p : profile) (committee : list nat)
  : result (list (string * bool)) * list message :=
  match names with
  | [] => (Ok [], [])
  | name :: rest =>
      let '(r, ms) := report_check pr gb name p committee None "fastest" in
      match r with
      | Err e => (Err e, ms)
      | Ok b => let '(rs, ms') := report_all pr gb rest p committee in
                (do l <- rs; Ok ((name, b) :: l), ms ++ ms')
      end
  end.
Definition full_analysis_report (pr : printing) (gb : solver) (o : output) (p : profile) (committee : list nat)
  : result (list (string * bool)) * list event :=
  let '(r, ms) := report_all pr gb PROPERTY_NAMES p committee in
  match r with
  | Err e => (Err e, SetVerbosity WARNING :: map Print ms)
  | Ok results =>
      (Ok results, SetVerbosity WARNING :: map Print ms ++ SetVerbosity (verbosity o) :: map (fun e => Print (analysis_line e)) results)
  end.
