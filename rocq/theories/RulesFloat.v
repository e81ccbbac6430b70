(** * Model of the algorithm "float-fractions" of the sequential rules (abcrules.py)

    "float-fractions" is the default: it is the first entry of [Rule.algorithms] and always available.
    The loops are those of RulesSeq.v, RulesMes.v and RulesMore.v with Python's numbers (Floats.v), [division] being [x / y], and with
    [misc.isclose] in the comparisons.
    Simplification: where Python sums over a set, the order is the one in which the elements were added. *)
From Coq Require Import String.
From Coq Require Import List Arith Bool ZArith QArith Qround.
From Verif Require Import Prelude Misc Preferences Scores Search Rule RulesThiele Compute RulesSeq RulesMes RulesMore Floats.
Import ListNotations.
Open Scope nat_scope.

(** The body of the while loops (abcrules.py 2903-2958, 4008-4058, 4172-4218), as [seq_expand] of RulesSeq.v *)
Definition float_expand (k : nat) (select : list nat -> list num -> result (list nat))
           (next : list nat -> list num -> nat -> result (list num)) (s : list nat * list num)
  : result (list (child (list nat * list num))) :=
  let '(committee, a) := s in
  do sel <- select committee a;
  rmapM (fun c => let nc := committee ++ [c] in
                  if length nc =? k then Ok (Leaf (isort nc))
                  else do a' <- next committee a c; Ok (Partial (nc, a'))) sel.
(** the resolute loop (abcrules.py 2827-2866) *)
Fixpoint float_loop (select : list nat -> list num -> result (list nat))
         (next : list nat -> list num -> nat -> result (list num)) (rounds : nat) (committee : list nat) (a : list num)
  : result (list nat) :=
  match rounds with
  | 0 => Ok committee
  | S r =>
      do sel <- select committee a;
      match sel with
      | [] => Err IndexError
      | c :: _ => do a' <- next committee a c; float_loop select next r (isort (committee ++ [c])) a'
      end
  end.

Section RulesFloat.
  Variable A : arith.

  (** preferences.py 137-146 *)
  Definition total_num (p : profile) : num := nsum A (map weight_num (voters p)).

  (** ** Sequential Phragmén *)

  (** abcrules.py 2817-2819 (2889-2891) *)
  Definition f_approvers_weight (p : profile) (c : nat) : num :=
    nsum A (map weight_num (filter (fun v => mem c (approved v)) (voters p))).
  (** abcrules.py 2836-2840 (2909-2913) *)
  Definition f_approvers_load (p : profile) (load : list num) (c : nat) : num :=
    nsum A (map (fun iv => nmul A (weight_num (snd iv)) (nth_num load (fst iv)))
                (filter (fun iv => mem c (approved (snd iv))) (enum_voters p))).
  (** abcrules.py 2841-2850 (2914-2923) *)
  Definition f_new_maxload (p : profile) (k : nat) (committee : list nat) (load : list num) (c : nat) : num :=
    if mem c committee then num_of_nat (k + 2)
    else if nlt (num_of_nat 0) (f_approvers_weight p c)
         then ndiv A (nadd A (f_approvers_load p load c) (num_of_nat 1)) (f_approvers_weight p c)
         else num_of_nat (k + 1).
  (** abcrules.py 2851-2857 (2926-2932) *)
  Definition f_phragmen_select (p : profile) (k : nat) (committee : list nat) (load : list num) : result (list nat) :=
    let nm := map (f_new_maxload p k committee load) (candidates p) in
    do opt <- nmin nm;
    Ok (filter (fun c => isclose A (nth_num nm c) opt) (candidates p)).
  (** abcrules.py 2860-2862 (2933-2938) *)
  Definition f_phragmen_next (p : profile) (k : nat) (committee : list nat) (load : list num) (c : nat) : result (list num) :=
    Ok (map (fun iv => if mem c (approved (snd iv)) then f_new_maxload p k committee load c
                       else nth_num load (fst iv)) (enum_voters p)).

  (** abcrules.py 2797-2869, [_seqphragmen_resolute] *)
  Definition f_seqphragmen_resolute (p : profile) (k : nat) (start_load : list num) (partial_committee : list nat)
    : result (list (list nat)) :=
    do c <- float_loop (f_phragmen_select p k) (f_phragmen_next p k) (k - length partial_committee) partial_committee start_load;
    Ok [c].
  (** abcrules.py 2872-2960, [_seqphragmen_irresolute] *)
  Definition f_seqphragmen_irresolute (p : profile) (k : nat) (maxn : option nat) (start_load : list num) (partial_committee : list nat)
    : result (list (list nat)) :=
    do win <- dfs (float_expand k (f_phragmen_select p k) (f_phragmen_next p k)) maxn
                  (tree_size (num_cand p) k) [(partial_committee, start_load)] [];
    sorted_committees win.
  (** abcrules.py 2822-2824, 2893-2895 *)
  Definition f_zero_load (p : profile) : list num := repeat (num_of_nat 0) (length (voters p)).
  (** abcrules.py 2725-2743 and 2794 *)
  Definition f_seqphragmen (p : profile) (k : nat) (resolute : bool) (maxn : option nat) : result (list (list nat)) :=
    do cs <- (if resolute then f_seqphragmen_resolute p k (f_zero_load p) []
              else f_seqphragmen_irresolute p k maxn (f_zero_load p) []);
    sorted_committees cs.

  (** ** Phragmén-Eneström and the consensus rule *)

  (** candidates whose value is close to the largest one (abcrules.py 4026-4030, 4188-4192) *)
  Definition f_max_entries (f : nat -> num) (cands : list nat) : result (list nat) :=
    do mx <- nmax (map f cands);
    Ok (filter (fun c => isclose A (f c) mx) cands).
  (** abcrules.py 4013-4021: [support[cand] += voting_power], starting with 0 *)
  Definition f_pe_support (p : profile) (budget : list num) (c : nat) : num :=
    fold_left (fun s iv => if nle (nth_num budget (fst iv)) (num_of_nat 0) then s
                           else if mem c (approved (snd iv)) then nadd A s (nth_num budget (fst iv)) else s)
              (enum_voters p) (num_of_nat 0).
  (** abcrules.py 4010-4031 *)
  Definition f_pe_select (p : profile) (committee : list nat) (budget : list num) : result (list nat) :=
    do tied <- f_max_entries (f_pe_support p budget) (available p committee);
    match tied with [] => Err RuntimeError | _ => Ok tied end.
  (** abcrules.py 4025, 4033-4041; all tied candidates are charged according to [max_support] *)
  Definition f_pe_next (p : profile) (price : num) (committee : list nat) (budget : list num) (c : nat) : result (list num) :=
    do max_support <- nmax (map (f_pe_support p budget) (available p committee));
    let multiplier := if nlt price max_support then ndiv A (nsub A max_support price) max_support else num_of_nat 0 in
    Ok (map (fun iv => if mem c (approved (snd iv)) then nmul A (nth_num budget (fst iv)) multiplier
                       else nth_num budget (fst iv)) (enum_voters p)).
  (** abcrules.py 3987-4062, [_phragmen_enestroem_algorithm] *)
  Definition f_phragmen_enestroem (p : profile) (k : nat) (resolute : bool) (maxn : option nat) : result (list (list nat)) :=
    let maxn := if resolute then Some 1 else maxn in
    let price := ndiv A (total_num p) (num_of_nat k) in
    do win <- dfs (float_expand k (f_pe_select p) (f_pe_next p price)) maxn (tree_size (num_cand p) k)
                  [([], map weight_num (voters p))] [];
    sorted_committees win.

  (** abcrules.py 4174-4175 *)
  Definition f_cr_earn (p : profile) (budget : list num) : list num :=
    map (fun iv => nadd A (nth_num budget (fst iv)) (weight_num (snd iv))) (enum_voters p).
  (** abcrules.py 4181-4186 *)
  Definition f_cr_supporters (p : profile) (budget : list num) (c : nat) : list (nat * voter) :=
    filter (fun iv => let b := nth_num budget (fst iv) in
                      negb (nle b (num_of_nat 0) || isclose A b (num_of_nat 0)) && mem c (approved (snd iv))) (enum_voters p).
  Definition f_cr_support (p : profile) (budget : list num) (c : nat) : num :=
    fold_left (fun s iv => nadd A s (nth_num budget (fst iv))) (f_cr_supporters p budget c) (num_of_nat 0).
  (** abcrules.py 4174-4195 *)
  Definition f_cr_select (p : profile) (committee : list nat) (budget : list num) : result (list nat) :=
    do tied <- f_max_entries (f_cr_support p (f_cr_earn p budget)) (available p committee);
    match tied with [] => Err RuntimeError | _ => Ok tied end.
  (** abcrules.py 4199-4203 *)
  Definition f_cr_next (p : profile) (committee : list nat) (budget : list num) (c : nat) : result (list num) :=
    let b := f_cr_earn p budget in
    let sup := f_cr_supporters p b c in
    let share := ndiv A (total_num p) (nsum A (map (fun iv => weight_num (snd iv)) sup)) in
    Ok (map (fun iv => if mem (fst iv) (map fst sup) then nsub A (nth_num b (fst iv)) (nmul A (weight_num (snd iv)) share)
                       else nth_num b (fst iv)) (enum_voters p)).
  (** abcrules.py 4149-4221, [_consensus_rule_algorithm] *)
  Definition f_consensus_rule (p : profile) (k : nat) (resolute : bool) (maxn : option nat) : result (list (list nat)) :=
    let maxn := if resolute then Some 1 else maxn in
    do win <- dfs (float_expand k (f_cr_select p) (f_cr_next p)) maxn (tree_size (num_cand p) k)
                  [([], repeat (num_of_nat 0) (length (voters p)))] [];
    sorted_committees win.

  (** ** Method of Equal Shares *)

  (** abcrules.py 3261-3269: [budget[v] < q * profile[v].weight] and not close to it *)
  Definition f_is_poor (budget : list num) (q : num) (iv : nat * voter) : bool :=
    let b := nth_num budget (fst iv) in
    let due := nmul A q (weight_num (snd iv)) in
    nlt b due && negb (isclose A b due).
  (** abcrules.py 3255-3278, [_equal_shares_get_min_q] *)
  Fixpoint f_min_q_loop (fuel : nat) (budget : list num) (rich poor : list (nat * voter)) : result (option num) :=
    match rich with
    | [] => Ok None
    | _ =>
        match fuel with
        | 0 => Err OutOfFuel
        | S fuel' =>
            let poor_budget := nsum A (map (fun iv => nth_num budget (fst iv)) poor) in
            let q := ndiv A (nsub A (num_of_nat 1) poor_budget) (nsum A (map (fun iv => weight_num (snd iv)) rich)) in
            match filter (f_is_poor budget q) rich with
            | [] => Ok (Some q)
            | new_poor => f_min_q_loop fuel' budget (filter (fun iv => negb (f_is_poor budget q iv)) rich) (poor ++ new_poor)
            end
        end
    end.
  Definition f_min_q (p : profile) (budget : list num) (c : nat) : result (option num) :=
    let rich := filter (fun iv => mem c (approved (snd iv))) (enum_voters p) in
    f_min_q_loop (length rich) budget rich [].
  (** abcrules.py 3375-3380 *)
  Fixpoint f_min_q_dict (p : profile) (budget : list num) (cands : list nat) : result (list (nat * num)) :=
    match cands with
    | [] => Ok []
    | c :: r =>
        do q <- f_min_q p budget c;
        do d <- f_min_q_dict p budget r;
        Ok (match q with Some q => (c, q) :: d | None => d end)
    end.
  (** abcrules.py 3280-3287, 3382-3384 *)
  Definition f_mes_select (p : profile) (committee : list nat) (budget : list num) : result (list nat) :=
    do d <- f_min_q_dict p budget (available p committee);
    match d with
    | [] => Ok []
    | _ =>
        do mn <- nmin (map snd d);
        Ok (isort (map fst (filter (fun cq => isclose A (snd cq) mn) d)))
    end.
  (** abcrules.py 3388-3391 *)
  Definition f_mes_next (p : profile) (committee : list nat) (budget : list num) (c : nat) : list num :=
    match f_min_q p budget c with
    | Ok (Some q) =>
        map (fun iv => let b := nth_num budget (fst iv) in
                       if mem c (approved (snd iv)) then nsub A b (nmin2 b (nmul A q (weight_num (snd iv)))) else b) (enum_voters p)
    | _ => budget
    end.
  (** abcrules.py 3371-3431 *)
  Definition f_mes_expand (p : profile) (k : nat) (resolute : bool) (fill : list nat -> list num -> result (list (list nat)))
             (s : list nat * list num) : result (expansion (list nat * list num)) :=
    let '(committee, budget) := s in
    do tied <- f_mes_select p committee budget;
    match tied with
    | [] => do ws <- fill committee budget; Ok (Finish (map isort ws))
    | _ =>
        Ok (Branch (map (fun c => let nc := committee ++ [c] in
                                  if length nc =? k then Leaf (isort nc)
                                  else Partial (nc, f_mes_next p committee budget c))
                        (if resolute then firstn 1 tied else tied)))
    end.
  (** abcrules.py 3422-3431: [not completion] *)
  Definition f_fill_none (committee : list nat) (budget : list num) : result (list (list nat)) := Ok [committee].
  (** abcrules.py 3289-3315, [phragmen_phase] *)
  Definition f_fill_phragmen (p : profile) (k : nat) (resolute : bool) (committee : list nat) (budget : list num)
    : result (list (list nat)) :=
    let start_load := map (fun iv => ndiv A (nneg (nth_num budget (fst iv))) (weight_num (snd iv))) (enum_voters p) in
    if resolute then f_seqphragmen_resolute p k start_load committee
    else f_seqphragmen_irresolute p k None start_load committee.
  (** abcrules.py 3317-3347, [av_phase]: no division here *)
  Definition f_fill_av (p : profile) (k : nat) (committee : list nat) (budget : list num) : result (list (list nat)) :=
    av_phase p k committee k (k - length committee).
  (** abcrules.py 3360-3368 *)
  Definition f_mes_start (p : profile) (k : nat) : list num :=
    map (fun v => ndiv A (nmul A (weight_num v) (num_of_nat k)) (total_num p)) (voters p).
  (** abcrules.py 3360-3361 with [per_voter_budget = Fraction(n, total_weight)] (3472) *)
  Definition f_mes_start_increment (p : profile) (n : nat) : list num :=
    map (fun v => nmul A (weight_num v) (mkNum KFrac (Qnat n / val (total_num p))%Q)) (voters p).
  (** abcrules.py 3244-3441, [_equal_shares_algorithm] *)
  Definition f_equal_shares (p : profile) (k : nat) (resolute : bool) (maxn : option nat)
             (fill : list nat -> list num -> result (list (list nat))) (start : list num) : result (list (list nat)) :=
    let maxn := if resolute then Some 1 else maxn in
    do win <- pool_loop (f_mes_expand p k resolute fill) maxn (tree_size (num_cand p) k) [([], start)] [];
    sorted_committees win.
  (** abcrules.py 3463-3482 *)
  Fixpoint f_increment_loop (p : profile) (k rounds n : nat) : result (list (list nat)) :=
    match rounds with
    | 0 => Err RuntimeError
    | S r =>
        do cs <- f_equal_shares p k true None f_fill_none (f_mes_start_increment p n);
        match filter (fun c => length c =? k) cs with
        | [] => f_increment_loop p k r (S n)
        | ws => Ok ws
        end
    end.
  (** abcrules.py 3444-3482; [math.ceil] of an [int] or a [Fraction] is exact *)
  Definition f_equal_shares_increment (p : profile) (k : nat) : result (list (list nat)) :=
    if length (approved_candidates p) <? k then separable_rule SepAV p k true None
    else f_increment_loop p k (Z.to_nat (Qceiling (Qnat k * val (total_num p) + 1)) - k) k.
  (** abcrules.py 3125-3140 and 3241 *)
  Definition f_equal_shares_rule (p : profile) (k : nat) (resolute : bool) (maxn : option nat) (c : completion_arg)
    : result (list (list nat)) :=
    do cs <- match c with
             | IncrementCompletion => f_equal_shares_increment p k
             | NoCompletion => f_equal_shares p k resolute maxn f_fill_none (f_mes_start p k)
             | PhragmenCompletion => f_equal_shares p k resolute maxn (f_fill_phragmen p k resolute) (f_mes_start p k)
             | AvCompletion => f_equal_shares p k resolute maxn (f_fill_av p k) (f_mes_start p k)
             end;
    sorted_committees cs.

  (** ** E Pluribus Hugo *)

  (** abcrules.py 4515-4521 *)
  Definition f_sdv_score (p : profile) (remaining : list nat) (cand : nat) : num :=
    fold_left (fun s v =>
      let remaining_approved := filter (fun c => mem c (approved v)) remaining in
      if mem cand remaining_approved then nadd A s (ndiv A (weight_num v) (num_of_nat (length remaining_approved))) else s)
      (voters p) (num_of_nat 0).
  Definition f_av_score (p : profile) (remaining : list nat) (cand : nat) : num :=
    fold_left (fun s v =>
      let remaining_approved := filter (fun c => mem c (approved v)) remaining in
      if mem cand remaining_approved then nadd A s (weight_num v) else s)
      (voters p) (num_of_nat 0).
  (** abcrules.py 4523-4531 *)
  Definition f_elimination (p : profile) (remaining : list nat) : result (list nat) :=
    match nth_error (sort_by nle (map (f_sdv_score p remaining) remaining)) 1 with
    | None => Err IndexError
    | Some cutoff_sdv =>
        let cands := filter (fun c => nle (f_sdv_score p remaining c) cutoff_sdv || isclose A (f_sdv_score p remaining c) cutoff_sdv) remaining in
        do cutoff_av <- nmin (map (f_av_score p remaining) cands);
        Ok (filter (fun c => nle (f_av_score p remaining c) cutoff_av) cands)
    end.
  (** abcrules.py 4513-4545 *)
  Fixpoint f_eph_loop (p : profile) (k : nat) (maxn : option nat) (fuel : nat) (remaining : list nat) : result (list (list nat)) :=
    match fuel with
    | 0 => Err OutOfFuel
    | S fuel =>
        do elim <- f_elimination p remaining;
        if length remaining - length elim <=? k then
          let num := length remaining - k in
          do cs <- sorted_committees (map (fun selection => diff remaining selection) (combinations elim num));
          Ok (cut maxn cs)
        else f_eph_loop p k maxn fuel (diff remaining elim)
    end.
  (** abcrules.py 4489-4545, [_eph_algorithm] *)
  Definition f_eph (p : profile) (k : nat) (resolute : bool) (maxn : option nat) : result (list (list nat)) :=
    do cs <- f_eph_loop p k (if resolute then Some 1 else maxn) (S (num_cand p)) (candidates p); sorted_committees cs.

  (** ** Dispatch: what [with_fractions] (ComputeSeq.v) calls for "float-fractions" *)
  Definition float_rule (rule_id : string) (p : profile) (k : nat) (resolute : bool) (maxn : option nat) : result (list (list nat)) :=
    if String.eqb rule_id "seqphragmen" then f_seqphragmen p k resolute maxn
    else if String.eqb rule_id "phragmen-enestroem" then f_phragmen_enestroem p k resolute maxn
    else if String.eqb rule_id "consensus-rule" then f_consensus_rule p k resolute maxn
    else if String.eqb rule_id "equal-shares" then f_equal_shares_rule p k resolute maxn PhragmenCompletion
    else if String.eqb rule_id "equal-shares-with-av-completion" then f_equal_shares_rule p k resolute maxn AvCompletion
    else if String.eqb rule_id "equal-shares-with-increment-completion" then f_equal_shares_rule p k resolute maxn IncrementCompletion
    else if String.eqb rule_id "equal-shares-without-completion" then f_equal_shares_rule p k resolute maxn NoCompletion
    else if String.eqb rule_id "eph" then f_eph p k resolute maxn
    else Err UnknownRuleIDError.
  Definition with_floats (e : env) : env :=
    mkEnv (inst e) (fraction_of_string e) (int_of_string e) (set_order e) (sav_float_scores e)
          (fun rule_id algorithm p k resolute maxn =>
             if String.eqb algorithm "float-fractions" then float_rule rule_id p k resolute maxn
             else external e rule_id algorithm p k resolute maxn).
End RulesFloat.
