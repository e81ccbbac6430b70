(** * Model of abcrules_gurobi.py, abcrules_mip.py and abcrules_ortools.py

    Simplifications.  The programs have exact rational coefficients (the code
    converts scores to [float]).  Dictionaries keyed by [Voter] objects are
    indexed by the position of the voter.  Solver parameters (tolerances,
    verbosity) are part of the solver, not of the program. *)
From Coq Require Import String.
From Coq Require Import List Arith Bool ZArith QArith.
From Verif Require Import Prelude Misc Preferences Scores Search Rule RulesThiele Compute RulesSeq RulesMonroe Milp.
Import ListNotations.
Local Open Scope string_scope.
Open Scope nat_scope.
Local Open Scope list_scope.

(** The three solver libraries; Python MIP drives "gurobi" or "cbc". *)
Record solvers := mkSolvers { gurobi : solver; python_mip : string -> solver; cp_sat : solver }.

(** [in_committee[cand].Xn >= 0.9] (abcrules_gurobi.py 94, abcrules_mip.py 117);
    [solver.Value(in_committee[cand]) >= 1] (abcrules_ortools.py 86) *)
Definition MIP_THRESHOLD : Q := (9 # 10)%Q.
Definition CP_THRESHOLD : Q := 1%Q.

(** [enumerate(profile)] *)
Definition numbered (p : profile) : list (nat * voter) := combine (seq 0 (length (voters p))) (voters p).

(** [model.addConstr(in_committee.sum() == committeesize)] *)
Definition size_con (p : profile) (k : nat) : con :=
  CEq (vsum (map InCommittee (candidates p))) (lconst (Qnat k)).

(** [committees, _ = _optimize_rule_...(...)]; [return sorted_committees(committees)] *)
Definition solve_and_sort (s : solver) (threshold : Q) (p : profile) (k : nat)
           (score : option (list nat -> result Q)) (resolute : bool) (maxn : option nat) (m : milp)
  : result (list (list nat)) :=
  do r <- optimize_rule s threshold p k score resolute maxn m; sorted_committees (fst r).

(** ** Thiele methods *)

(** abcrules_gurobi.py 167: max_in_committee[voter] *)
Definition max_in_committee (k : nat) (v : voter) : nat := Nat.min (length (approved v)) k.
(** abcrules_gurobi.py 164-169, abcrules_mip.py 189-193 *)
Definition utility_decls (p : profile) (k : nat) : list decl :=
  flat_map (fun iv => map (fun x => mkDecl (Utility (fst iv) x) Binary None None) (seq 1 (max_in_committee k (snd iv))))
           (numbered p).
(** abcrules_gurobi.py 175-179, abcrules_mip.py 199-202 *)
Definition utility_cons (p : profile) (k : nat) : list con :=
  map (fun iv => CEq (vsum (map (Utility (fst iv)) (seq 1 (max_in_committee k (snd iv)))))
                     (vsum (map InCommittee (approved (snd iv)))))
      (numbered p).
(** abcrules_gurobi.py 182-189, abcrules_mip.py 205-211 *)
Definition utility_score (f : nat -> Q) (p : profile) (k : nat) : lin :=
  lsum (flat_map (fun iv => map (fun x => lscale (f x * weight (snd iv)) (lvar (Utility (fst iv) x)))
                                (seq 1 (max_in_committee k (snd iv))))
                 (numbered p)).
Definition thiele_program (f : nat -> Q) (p : profile) (k : nat) : milp :=
  mkMilp (in_committee_vars p ++ utility_decls p k) (size_con p k :: utility_cons p k) (utility_score f p k).

(** abcrules_gurobi.py 194-197, abcrules_mip.py 216-219 *)
Definition monotonic_decreasing (values : list Q) : bool :=
  forallb (fun ab => Qltb (snd ab) (fst ab) || (Qeq_bool (fst ab) (snd ab) && Qeq_bool (snd ab) 0))
          (combine values (tl values)).

(** abcrules_gurobi.py 143-215, [_gurobi_thiele_methods]; abcrules_mip.py 168-238, [_mip_thiele_methods].
    [min(...)] raises ValueError if there is no positive value; the warning is not modelled. *)
Definition ilp_thiele (s : solver) (f : nat -> Q) (p : profile) (k : nat) (resolute : bool) (maxn : option nat)
  : result (list (list nat)) :=
  let score_values := map f (seq 1 k) in
  if negb (monotonic_decreasing score_values) then Err ValueError
  else
    do _ <- py_min (filter (Qltb 0) score_values);
    solve_and_sort s MIP_THRESHOLD p k (Some (fun W => Ok (thiele_score f p W))) resolute maxn (thiele_program f p k).

(** abcrules_ortools.py 126-148 *)
Definition cc_program (p : profile) (k : nat) : milp :=
  mkMilp (in_committee_vars p ++ map (fun iv => mkDecl (Satisfied (fst iv)) Binary None None) (numbered p))
         (size_con p k :: map (fun iv => CLe (lvar (Satisfied (fst iv))) (vsum (map InCommittee (approved (snd iv)))))
                              (numbered p))
         (if has_unit_weights p then vsum (map (fun iv => Satisfied (fst iv)) (numbered p))
          else lsum (map (fun iv => lscale (weight (snd iv)) (lvar (Satisfied (fst iv)))) (numbered p))).
(** abcrules_ortools.py 119-166, [_ortools_cc] *)
Definition ortools_cc (s : solver) (p : profile) (k : nat) (resolute : bool) (maxn : option nat)
  : result (list (list nat)) :=
  if negb (forallb weight_is_int (voters p)) then Err TypeError
  else solve_and_sort s CP_THRESHOLD p k (Some (fun W => Ok (thiele_score (marginal Cc) p W))) resolute maxn
                      (cc_program p k).

(** ** lexcc *)

(** abcrules_gurobi.py 219-265: iteration [len(satisfaction_constraints)] (counted from 0) *)
Definition atleast (i : nat) : nat -> Q := marginal (AtLeast (Z.of_nat i)).
Definition lexcc_program (p : profile) (k : nat) (satisfaction_constraints : list Q) : milp :=
  let iteration := length satisfaction_constraints in
  mkMilp (in_committee_vars p ++ utility_decls p k)
         (size_con p k :: utility_cons p k ++
          map (fun jq => CGe (utility_score (atleast (S (fst jq))) p k) (lconst (snd jq - ACCURACY)%Q))
              (combine (seq 0 iteration) satisfaction_constraints))
         (utility_score (atleast (S iteration)) p k).
Definition atleast_score (p : profile) (i : nat) (W : list nat) : result Q := Ok (thiele_score (atleast i) p W).
(** abcrules_gurobi.py 268-283: the iterations before the last *)
Fixpoint lexcc_iterations (s : solver) (p : profile) (k : nat) (iterations : list nat) (sc : list Q) : result (list Q) :=
  match iterations with
  | [] => Ok sc
  | iteration :: r =>
      do opt <- optimize_rule s MIP_THRESHOLD p k (Some (atleast_score p iteration)) true None (lexcc_program p k sc);
      match fst opt with
      | [] => Err IndexError
      | c :: _ => lexcc_iterations s p k r (sc ++ [thiele_score (atleast iteration) p c])
      end
  end.
(** abcrules_gurobi.py 218-298, [_gurobi_lexcc]; [committees[0]] on line 295 *)
Definition gurobi_lexcc (s : solver) (p : profile) (k : nat) (resolute : bool) (maxn : option nat)
  : result (list (list nat)) :=
  do sc <- lexcc_iterations s p k (seq 1 (k - 1)) [];
  do opt <- optimize_rule s MIP_THRESHOLD p k (Some (atleast_score p k)) resolute maxn (lexcc_program p k sc);
  match fst opt with
  | [] => Err IndexError
  | _ => sorted_committees (fst opt)
  end.

(** ** Monroe *)

Definition voter_numbers (p : profile) : list nat := seq 0 (length (voters p)).
(** [quicksum(partition[(cand, j)] for j in range(len(profile)))] *)
Definition district (p : profile) (c : nat) : lin := vsum (map (Partition c) (voter_numbers p)).
(** abcrules_gurobi.py 343-350: partition[(cand, j)] * (cand in profile[j].approved) *)
Definition represented_lin (p : profile) : lin :=
  lsum (flat_map (fun j => map (fun c => lscale (if voter_approves p j c then 1 else 0) (lvar (Partition c j)))
                               (candidates p))
                 (voter_numbers p)).
Definition partition_decls (p : profile) (typ : vtype) (low : option Q) : list decl :=
  flat_map (fun c => map (fun j => mkDecl (Partition c j) typ low None) (voter_numbers p)) (candidates p).
(** [1 - in_committee[cand]] *)
Definition absent (c : nat) : lin := lsub (lconst 1) (lvar (InCommittee c)).
(** abcrules_gurobi.py 319-340, abcrules_mip.py 258-275 *)
Definition district_cons (p : profile) (k : nat) (c : nat) : list con :=
  let n := length (voters p) in
  [CGe (district p c) (lsub (lconst (Qnat (n / k))) (lscale (Qnat n) (absent c)));
   CLe (district p c) (ladd (lconst (Qnat (n / k + (if n mod k =? 0 then 0 else 1)))) (lscale (Qnat n) (absent c)));
   CLe (district p c) (lscale (Qnat n) (lvar (InCommittee c)))].
(** abcrules_ortools.py 193-217 *)
Definition district_cons_cp (p : profile) (k : nat) (c : nat) : list con :=
  let n := length (voters p) in
  COnlyIf (InCommittee c) (CGe (district p c) (lconst (Qnat (n / k)))) ::
  COnlyIf (InCommittee c) (CLe (district p c) (lconst (Qnat (n / k + (if n mod k =? 0 then 0 else 1))))) ::
  map (fun j => CLe (lvar (Partition c j)) (lvar (InCommittee c))) (voter_numbers p).
(** the three versions differ in the declaration of [partition] and in the district constraints *)
Definition monroe_program (parts : list decl) (districts : nat -> list con) (p : profile) (k : nat) : milp :=
  mkMilp (in_committee_vars p ++ mkDecl Satisfaction Integer (Some 0%Q) (Some (Qnat (length (voters p)))) :: parts)
         (size_con p k ::
          map (fun i => CEq (vsum (map (fun c => Partition c i) (candidates p))) (lconst 1)) (voter_numbers p) ++
          flat_map districts (candidates p) ++
          [CGe (represented_lin p) (lvar Satisfaction)])
         (lvar Satisfaction).
(** abcrules_gurobi.py 302-353; the default lower bound of a variable is 0 *)
Definition monroe_gurobi (p : profile) (k : nat) : milp :=
  monroe_program (partition_decls p Integer (Some 0%Q)) (district_cons p k) p k.
(** abcrules_mip.py 242-288 *)
Definition monroe_mip (p : profile) (k : nat) : milp :=
  monroe_program (partition_decls p Binary None) (district_cons p k) p k.
(** abcrules_ortools.py 170-236 *)
Definition monroe_ortools (p : profile) (k : nat) : milp :=
  monroe_program (partition_decls p Binary None) (district_cons_cp p k) p k.
(** [committeescorefct=scores.monroescore] *)
Definition monroe_score_fct (nx : networkx) (p : profile) (W : list nat) : result Q :=
  do z <- monroescore nx p W; Ok (inject_Z z).
(** abcrules_gurobi.py 301-364, abcrules_mip.py 241-300, abcrules_ortools.py 169-247 *)
Definition solver_monroe (nx : networkx) (s : solver) (threshold : Q) (m : milp) (p : profile) (k : nat)
           (resolute : bool) (maxn : option nat) : result (list (list nat)) :=
  solve_and_sort s threshold p k (Some (monroe_score_fct nx p)) resolute maxn m.

(** ** Minimax AV *)

(** [quicksum(1 - in_committee[cand] for cand in voter.approved) + quicksum(in_committee[cand] for cand in not_approved)] *)
Definition distance_lin (p : profile) (v : voter) : lin :=
  ladd (lsum (map absent (approved v))) (vsum (map InCommittee (diff (candidates p) (approved v)))).
(** abcrules_gurobi.py 611-634, abcrules_mip.py 440-459, abcrules_ortools.py 251-273 *)
Definition minimaxav_program (p : profile) (k : nat) : milp :=
  mkMilp (in_committee_vars p ++ [mkDecl MaxHamming Integer (Some 0%Q) (Some (Qnat (num_cand p)))])
         (size_con p k :: map (fun v => CGe (lvar MaxHamming) (distance_lin p v)) (voters p))
         (lscale (-1) (lvar MaxHamming)).
(** abcrules_gurobi.py 610-646, abcrules_mip.py 439-472, abcrules_ortools.py 250-285 *)
Definition neg_minimaxav_score (p : profile) (W : list nat) : result Q := Ok (- Qnat (minimaxav_score p W))%Q.
Definition solver_minimaxav (s : solver) (threshold : Q) (p : profile) (k : nat)
           (resolute : bool) (maxn : option nat) : result (list (list nat)) :=
  solve_and_sort s threshold p k (Some (neg_minimaxav_score p)) resolute maxn (minimaxav_program p k).

(** ** Lexicographic minimax AV *)

(** abcrules_gurobi.py 653-663: [voteratmostdistances[(i, dist)]], a variable or a constant *)
Definition at_most_lin (k : nat) (i : nat) (v : voter) (dist : nat) : lin :=
  if dist <? (length (approved v) - k) + (k - length (approved v)) then lconst 0
  else if length (approved v) + k <=? dist then lconst 1
  else lvar (AtMost i dist).
Definition at_most_is_var (k : nat) (v : voter) (dist : nat) : bool :=
  negb (dist <? (length (approved v) - k) + (k - length (approved v))) && negb (length (approved v) + k <=? dist).
Definition at_most_count (p : profile) (k : nat) (dist : nat) : lin :=
  lsum (map (fun iv => at_most_lin k (fst iv) (snd iv) dist) (numbered p)).
(** abcrules_gurobi.py 650-696; [hammingdistance_constraints] is a list of its items,
    the last one added first; [new_distance] is the smallest key minus 1 *)
Definition lexminimaxav_program (p : profile) (k : nat) (constraints : list (nat * nat)) (new_distance : nat) : milp :=
  let dists := seq 0 (num_cand p + 1) in
  mkMilp (in_committee_vars p ++
          flat_map (fun iv => map (fun d => mkDecl (AtMost (fst iv) d) Binary None None) dists) (numbered p))
         (size_con p k ::
          flat_map (fun iv =>
                      map (fun d => COnlyIf (AtMost (fst iv) d) (CLe (distance_lin p (snd iv)) (lconst (Qnat d))))
                          (filter (at_most_is_var k (snd iv)) dists))
                   (numbered p) ++
          map (fun dn => CGe (at_most_count p k (fst dn)) (lconst (Qnat (snd dn) - ACCURACY)%Q)) (rev constraints))
         (at_most_count p k new_distance).
Definition within_score (p : profile) (d : nat) (W : list nat) : result Q := Ok (Qnat (num_voters_within d p W)).
(** [min(hammingdistance_constraints.keys()) - 1] *)
Definition next_distance (constraints : list (nat * nat)) : nat :=
  match map fst constraints with [] => 0 | d :: r => fold_left Nat.min r d - 1 end.
(** abcrules_gurobi.py 705-729: the loop over [range(maxdistance - 1, -1, -1)] *)
Fixpoint lexminimaxav_iterations (s : solver) (p : profile) (k : nat) (resolute : bool) (maxn : option nat)
         (distances : list nat) (constraints : list (nat * nat)) (committees : list (list nat))
  : result (list (list nat)) :=
  match distances with
  | [] => Ok committees
  | d :: r =>
      let '(resolute', maxn') := if d =? 0 then (resolute, maxn) else (true, None) in
      do opt <- optimize_rule s MIP_THRESHOLD p k (Some (within_score p d)) resolute' maxn'
                              (lexminimaxav_program p k constraints (next_distance constraints));
      match fst opt with
      | [] => Err IndexError
      | c :: _ => lexminimaxav_iterations s p k resolute maxn r ((d, num_voters_within d p c) :: constraints) (fst opt)
      end
  end.
(** abcrules_gurobi.py 649-735, [_gurobi_lexminimaxav] *)
Definition gurobi_lexminimaxav (s : solver) (p : profile) (k : nat) (resolute : bool) (maxn : option nat)
  : result (list (list nat)) :=
  do committees <- solver_minimaxav s MIP_THRESHOLD p k true None;
  match committees with
  | [] => Err IndexError
  | c :: _ =>
      let maxdistance := minimaxav_score p c in
      do cs <- lexminimaxav_iterations s p k resolute maxn (rev (seq 0 maxdistance))
                                       [(maxdistance, length (voters p))] committees;
      do sorted <- sorted_committees cs;
      match sorted with [] => Err IndexError | _ => Ok sorted end
  end.

(** ** Minimax Phragmén and leximax Phragmén *)

(** [load[(voter, cand)]]: a variable, or 0 if [cand] is not approved *)
Definition load_lin (i : nat) (v : voter) (c : nat) : lin :=
  if mem c (approved v) then lvar (Load i c) else lconst 0.
Definition load_decls (p : profile) : list decl :=
  flat_map (fun c => map (fun iv => mkDecl (Load (fst iv) c) Continuous (Some 0%Q) (Some 1%Q)) (numbered p)) (candidates p).
(** abcrules_gurobi.py 391-405 *)
Definition load_cons (p : profile) : list con :=
  map (fun c => CGe (lsum (map (fun iv => lscale (weight (snd iv)) (load_lin (fst iv) (snd iv) c)) (numbered p)))
                    (lvar (InCommittee c)))
      (candidates p).
(** [quicksum(load[(voter, cand)] for cand in voter.approved)] *)
Definition load_of (iv : nat * voter) : lin := vsum (map (Load (fst iv)) (approved (snd iv))).
(** abcrules_gurobi.py 380-414, abcrules_mip.py 316-350 *)
Definition minimaxphragmen_program (p : profile) (k : nat) : milp :=
  mkMilp (in_committee_vars p ++ load_decls p ++ [mkDecl LoadBound Continuous (Some 0%Q) (Some (Qnat k))])
         (size_con p k :: load_cons p ++ map (fun iv => CLe (load_of iv) (lvar LoadBound)) (numbered p))
         (lscale (-1) (lvar LoadBound)).

(** abcrules_gurobi.py 416-433, 512-529, abcrules_mip.py 352-369: fewer approved
    candidates than seats; neither [max_num_of_committees] nor sorting here *)
Definition fill_with_unapproved (p : profile) (k : nat) (resolute : bool) : list (list nat) :=
  let approved := approved_candidates p in
  let remaining := diff (candidates p) approved in
  let missing := k - length approved in
  if resolute then [isort (approved ++ firstn missing remaining)]
  else map (fun extra => isort (approved ++ extra)) (combinations remaining missing).

(** abcrules_gurobi.py 367-443, [_gurobi_minimaxphragmen]; abcrules_mip.py 303-380, [_mip_minimaxphragmen] *)
Definition ilp_minimaxphragmen (s : solver) (p : profile) (k : nat) (resolute : bool) (maxn : option nat)
  : result (list (list nat)) :=
  if length (approved_candidates p) <? k then Ok (fill_with_unapproved p k resolute)
  else solve_and_sort s MIP_THRESHOLD p k None resolute maxn (minimaxphragmen_program p k).

(** abcrules_gurobi.py 447-510 *)
Definition leximaxphragmen_program (p : profile) (k : nat) (loadbounds : list Q) : milp :=
  let ns := voter_numbers p in
  mkMilp (in_committee_vars p ++ load_decls p ++
          flat_map (fun i => map (fun j => mkDecl (BoundFor i j) Binary None None) ns) ns ++
          [mkDecl LoadBound Continuous (Some 0%Q) (Some (Qnat k))])
         (flat_map (fun i => [CEq (vsum (map (BoundFor i) ns)) (lconst 1);
                              CEq (vsum (map (fun j => BoundFor j i) ns)) (lconst 1)]) ns ++
          size_con p k :: load_cons p ++
          flat_map (fun ib => map (fun jv =>
                       CLe (load_of jv)
                           (lsum [lconst (snd ib); lscale (Qnat k) (lsub (lconst 1) (lvar (BoundFor (fst ib) (fst jv))));
                                  lconst ACCURACY]))
                     (numbered p))
                   (combine (seq 0 (length loadbounds)) loadbounds) ++
          map (fun jv => CLe (load_of jv)
                             (ladd (lvar LoadBound)
                                   (lsum (map (fun i => lscale (Qnat k) (lvar (BoundFor i (fst jv))))
                                              (seq 0 (length loadbounds))))))
              (numbered p))
         (lscale (-1) (lvar LoadBound)).
(** abcrules_gurobi.py 531-546; [math.isclose(x, 0, rel_tol=t, abs_tol=t)] is [abs(x) <= t] for [t < 1] *)
Fixpoint leximax_iterations (s : solver) (p : profile) (k : nat) (n : nat) (loadbounds : list Q) : result (list Q) :=
  match n with
  | 0 => Ok loadbounds
  | S n =>
      do opt <- optimize_rule s MIP_THRESHOLD p k None true None (leximaxphragmen_program p k loadbounds);
      match snd opt with
      | None => Err TypeError
      | Some neg_loadbound =>
          if Qle_bool neg_loadbound CMP_ACCURACY && Qle_bool (- CMP_ACCURACY) neg_loadbound then Ok loadbounds
          else leximax_iterations s p k n (loadbounds ++ [(- neg_loadbound)%Q])
      end
  end.
(** abcrules_gurobi.py 446-557, [_gurobi_leximaxphragmen] *)
Definition gurobi_leximaxphragmen (s : solver) (p : profile) (k : nat) (resolute : bool) (maxn : option nat)
  : result (list (list nat)) :=
  if length (approved_candidates p) <? k then Ok (fill_with_unapproved p k resolute)
  else
    do loadbounds <- leximax_iterations s p k (length (voters p) - 1) [];
    solve_and_sort s MIP_THRESHOLD p k None resolute maxn (leximaxphragmen_program p k loadbounds).

(** ** Maximin support *)

(** abcrules_gurobi.py 574-597, abcrules_mip.py 397-427 *)
Definition maximin_program (p : profile) (committee : list nat) : milp :=
  mkMilp (mkDecl Minimum Continuous (Some 0%Q) None ::
          flat_map (fun i => map (fun c => mkDecl (Assigned i c) Continuous (Some 0%Q) None) (candidates p)) (voter_numbers p))
         (map (fun iv => CEq (vsum (map (Assigned (fst iv)) (inter (approved (snd iv)) committee))) (lconst (weight (snd iv))))
              (filter (fun iv => negb (length (inter (approved (snd iv)) committee) =? 0)) (numbered p)) ++
          map (fun c => CGe (vsum (map (fun iv => Assigned (fst iv) c)
                                       (filter (fun iv => mem c (approved (snd iv))) (numbered p))))
                            (lvar Minimum))
              committee)
         (lvar Minimum).
(** abcrules_gurobi.py 560-607, [_gurobi_maximin_support_scorefct]; abcrules_mip.py 383-436 *)
Definition maximin_support_scorefct (s : solver) (p : profile) (base_committee : list nat) : result (list Q) :=
  rmapM (fun c =>
           if mem c base_committee then Ok 0%Q
           else match s (maximin_program p (base_committee ++ [c])) with
                | Optimal x => Ok (x Minimum)
                | _ => Err RuntimeError
                end)
        (candidates p).

(** ** Maximin support *)

(** abcrules.py 3837-3844 (3871-3876): the remaining candidates whose score is maximal up to 1e-7;
    [remaining_cands] is a set of small integers, iterated in ascending order *)
Definition maximin_select (scorefct : list nat -> result (list Q)) (p : profile) (committee : list nat) (unused : list Q) : result (list nat) :=
  do scores <- scorefct committee;
  let remaining := filter (fun c => negb (mem c committee)) (candidates p) in
  do highest <- py_max (map (nthQ scores) remaining);
  Ok (filter (fun c => Qle_bool (highest - CMP_ACCURACY) (nthQ scores c)) remaining).

(** abcrules.py 3822-3855, [_maximin_support_resolute] *)
Fixpoint maximin_loop (select : list nat -> result (list nat)) (rounds : nat) (committee : list nat) : result (list nat) :=
  match rounds with
  | 0 => Ok committee
  | S r =>
      do tied <- select committee;
      match tied with
      | [] => Err IndexError
      | next_cand :: _ => maximin_loop select r (committee ++ [next_cand])
      end
  end.
Definition maximin_support_resolute (scorefct : list nat -> result (list Q)) (p : profile) (k : nat) : result (list (list nat)) :=
  do committee <- maximin_loop (fun C => maximin_select scorefct p C []) k [];
  sorted_committees [committee].

(** abcrules.py 3858-3895, [_maximin_support_irresolute]; the loop is that of the other
    sequential rules ([seq_expand]), without numbers for the voters *)
Definition maximin_support_irresolute (scorefct : list nat -> result (list Q)) (p : profile) (k : nat) (maxn : option nat)
  : result (list (list nat)) :=
  do win <- dfs (seq_expand k (maximin_select scorefct p) (fun _ unused _ => unused)) maxn (tree_size (num_cand p) k) [([], [])] [];
  sorted_committees win.

(** abcrules.py 3771-3793 and 3819 *)
Definition maximin_support_rule (s : solver) (p : profile) (k : nat) (resolute : bool) (maxn : option nat) : result (list (list nat)) :=
  let scorefct := maximin_support_scorefct s p in
  do cs <- (if resolute then maximin_support_resolute scorefct p k else maximin_support_irresolute scorefct p k maxn);
  sorted_committees cs.

(** ** What the [compute_*] functions call *)

(** [solver_id=algorithm[4:]] *)
Definition mip_solver_id (algorithm : string) : string := substring 4 (String.length algorithm - 4) algorithm.
(** abcrules_mip.py 93-94 *)
Definition known_mip_solver (id : string) : bool := String.eqb id "gurobi" || String.eqb id "cbc".
Definition mip_call (sv : solvers) (algorithm : string) (f : solver -> result (list (list nat))) : result (list (list nat)) :=
  let id := mip_solver_id algorithm in
  if known_mip_solver id then f (python_mip sv id) else Err ValueError.

(** The dispatch of abcrules.py 672-712, 1088-1103, 2156-2180, 2312-2318, 2433-2455,
    3558-3573, 3675-3681, 3777-3785 to the solver modules. *)
Definition solver_rule (e : env) (nx : networkx) (sv : solvers) (rule_id algorithm : string) (p : profile) (k : nat)
           (resolute : bool) (maxn : option nat) : result (list (list nat)) :=
  if String.eqb rule_id "lexcc" then
    if String.eqb algorithm "gurobi" then gurobi_lexcc (gurobi sv) p k resolute maxn
    else Err NotImplementedError (* [abcrules_mip._mip_lexcc] does not exist; unreachable *)
  else if String.eqb rule_id "minimaxav" then
    if String.eqb algorithm "gurobi" then solver_minimaxav (gurobi sv) MIP_THRESHOLD p k resolute maxn
    else if String.eqb algorithm "ortools-cp" then solver_minimaxav (cp_sat sv) CP_THRESHOLD p k resolute maxn
    else mip_call sv algorithm (fun s => solver_minimaxav s MIP_THRESHOLD p k resolute maxn)
  else if String.eqb rule_id "lexminimaxav" then gurobi_lexminimaxav (gurobi sv) p k resolute maxn
  else if String.eqb rule_id "monroe" then
    if String.eqb algorithm "gurobi" then solver_monroe nx (gurobi sv) MIP_THRESHOLD (monroe_gurobi p k) p k resolute maxn
    else if String.eqb algorithm "ortools-cp" then solver_monroe nx (cp_sat sv) CP_THRESHOLD (monroe_ortools p k) p k resolute maxn
    else mip_call sv algorithm (fun s => solver_monroe nx s MIP_THRESHOLD (monroe_mip p k) p k resolute maxn)
  else if String.eqb rule_id "minimaxphragmen" then
    if String.eqb algorithm "gurobi" then ilp_minimaxphragmen (gurobi sv) p k resolute maxn
    else mip_call sv algorithm (fun s => ilp_minimaxphragmen s p k resolute maxn)
  else if String.eqb rule_id "leximaxphragmen" then gurobi_leximaxphragmen (gurobi sv) p k resolute maxn
  else if String.eqb rule_id "maximin-support" then
    if String.eqb algorithm "gurobi" then maximin_support_rule (gurobi sv) p k resolute maxn
    else mip_call sv algorithm (fun s => maximin_support_rule s p k resolute maxn)
  else if String.eqb algorithm "ortools-cp" then ortools_cc (cp_sat sv) p k resolute maxn
  else
    do f <- lookup_scorefct e rule_id;
    if String.eqb algorithm "gurobi" then ilp_thiele (gurobi sv) (marginal f) p k resolute maxn
    else mip_call sv algorithm (fun s => ilp_thiele s (marginal f) p k resolute maxn).

(** The environment in which the solver modules run on the solvers [sv]. *)
Definition with_solvers (nx : networkx) (sv : solvers) (e : env) : env :=
  mkEnv (inst e) (fraction_of_string e) (int_of_string e) (set_order e) (sav_float_scores e)
        (fun rule_id algorithm p k resolute maxn =>
           if String.eqb algorithm "float-fractions" then external e rule_id algorithm p k resolute maxn
           else solver_rule e nx sv rule_id algorithm p k resolute maxn).

(** abcrules.py 3485-3586, [compute_minimaxphragmen] *)
Definition compute_minimaxphragmen (e : env) (p : profile) (k : Z) (algorithm : string) (resolute : bool)
           (maxn : option pyobj) : result (list (list nat)) :=
  run e "minimaxphragmen" p k algorithm resolute maxn (fun alg k maxn =>
    if String.eqb alg "gurobi" then external e "minimaxphragmen" alg p k resolute maxn
    else if prefix "mip-" alg then external e "minimaxphragmen" alg p k resolute maxn
    else Err UnknownAlgorithm).

(** abcrules.py 3589-3706, [compute_leximaxphragmen] *)
Definition compute_leximaxphragmen (e : env) (p : profile) (k : Z) (algorithm : string) (resolute : bool)
           (maxn : option pyobj) (lexicographic_tiebreaking : bool) : result (list (list nat)) :=
  run e "leximaxphragmen" p k algorithm resolute maxn (fun alg k maxn =>
    if lexicographic_tiebreaking && negb resolute then Err ValueError
    else
      let resolute' := if lexicographic_tiebreaking then false else resolute in
      do cs <- (if String.eqb alg "gurobi" then external e "leximaxphragmen" alg p k resolute' maxn
                else Err UnknownAlgorithm);
      if lexicographic_tiebreaking then do sorted <- sorted_committees cs; Ok (firstn 1 sorted) else Ok cs).

(** abcrules.py 3709-3819, [compute_maximin_support] *)
Definition compute_maximin_support (e : env) (p : profile) (k : Z) (algorithm : string) (resolute : bool)
           (maxn : option pyobj) : result (list (list nat)) :=
  run e "maximin-support" p k algorithm resolute maxn (fun alg k maxn =>
    if String.eqb alg "gurobi" then external e "maximin-support" alg p k resolute maxn
    else if prefix "mip-" alg then external e "maximin-support" alg p k resolute maxn
    else Err UnknownAlgorithm).
