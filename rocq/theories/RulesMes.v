(** * Model of the Method of Equal Shares (abcrules.py 3244-3482)

    Exact arithmetic; budgets are lists indexed by voter. *)
From Coq Require Import String.
From Coq Require Import List Arith Bool ZArith QArith Qround.
From Verif Require Import Prelude Misc Preferences Scores Search Rule RulesThiele RulesSeq.
Import ListNotations.
Open Scope nat_scope.

(** abcrules.py 3255-3278, [_equal_shares_get_min_q]: the [while] loop; [None]
    if [rich] becomes empty. *)
Fixpoint min_q_loop (fuel : nat) (budget : list Q) (rich poor : list (nat * voter)) : result (option Q) :=
  match rich with
  | [] => Ok None
  | _ =>
      match fuel with
      | 0 => Err OutOfFuel
      | S fuel' =>
          let poor_budget := fold_left (fun s iv => s + nthQ budget (fst iv))%Q poor 0%Q in
          let q := ((1 - poor_budget) / fold_left (fun s iv => s + weight (snd iv)) rich 0)%Q in
          let is_poor := fun iv : nat * voter => Qltb (nthQ budget (fst iv)) (q * weight (snd iv)) in
          match filter is_poor rich with
          | [] => Ok (Some q)
          | new_poor => min_q_loop fuel' budget (filter (fun iv => negb (is_poor iv)) rich) (poor ++ new_poor)
          end
      end
  end.
Definition min_q (p : profile) (budget : list Q) (c : nat) : result (option Q) :=
  let rich := filter (fun iv => mem c (approved (snd iv))) (enum_voters p) in
  min_q_loop (length rich) budget rich [].

(** abcrules.py 3375-3380: the dictionary [min_q], in insertion order *)
Fixpoint min_q_dict (p : profile) (budget : list Q) (cands : list nat) : result (list (nat * Q)) :=
  match cands with
  | [] => Ok []
  | c :: r =>
      do q <- min_q p budget c;
      do d <- min_q_dict p budget r;
      Ok (match q with Some q => (c, q) :: d | None => d end)
  end.
(** abcrules.py 3382-3384, [sorted(tied_cands)] with [find_minimum_dict_entries]
    (3280-3287); empty if no candidate is affordable *)
Definition mes_select (p : profile) (committee : list nat) (budget : list Q) : result (list nat) :=
  do d <- min_q_dict p budget (available p committee);
  match d with
  | [] => Ok []
  | _ =>
      do mn <- py_min (map snd d);
      Ok (isort (map fst (filter (fun cq => Qeq_bool (snd cq) mn) d)))
  end.

(** abcrules.py 3388-3391; the price of a tied candidate is its entry in [min_q] *)
Definition mes_next (p : profile) (committee : list nat) (budget : list Q) (c : nat) : list Q :=
  match min_q p budget c with
  | Ok (Some q) =>
      map (fun iv => let b := nthQ budget (fst iv) in
                     if mem c (approved (snd iv))
                     then (b - (if Qltb (q * weight (snd iv)) b then q * weight (snd iv) else b))%Q
                     else b) (enum_voters p)
  | _ => budget
  end.

(** What one popped (committee, budget) pair leads to: longer or finished
    committees, or a set of committees that fill the popped one. *)
Inductive expansion St := Branch (cs : list (child St)) | Finish (ws : list (list nat)).
Arguments Branch {St} _.
Arguments Finish {St} _.

(** abcrules.py 3370-3439, the [while] loop; [winning_committees.update] is a
    sequence of [set_add]s; lines 3433-3435 cut off what a completion added too much. *)
Fixpoint pool_loop {St} (expand : St -> result (expansion St)) (maxn : option nat)
         (fuel : nat) (stack : list St) (win : list (list nat)) : result (list (list nat)) :=
  match stack with
  | [] => Ok win
  | s :: rest =>
      match fuel with
      | 0 => Err OutOfFuel
      | S fuel' =>
          do ex <- expand s;
          let '(ps, win', stop) :=
            match ex with
            | Branch cs => process maxn cs win
            | Finish ws => ([], fold_left (fun win w => set_add w win) ws win, false)
            end in
          if stop then Ok win'
          else match maxn with
               | Some n => if n <=? length win'
                           then (do s <- sorted_committees win'; Ok (firstn n s))
                           else pool_loop expand maxn fuel' (ps ++ rest) win'
               | None => pool_loop expand maxn fuel' (ps ++ rest) win'
               end
      end
  end.

(** abcrules.py 3371-3431, the body of the loop *)
Definition mes_expand (p : profile) (k : nat) (resolute : bool)
           (fill : list nat -> list Q -> result (list (list nat))) (s : list nat * list Q)
  : result (expansion (list nat * list Q)) :=
  let '(committee, budget) := s in
  do tied <- mes_select p committee budget;
  match tied with
  | [] => do ws <- fill committee budget; Ok (Finish (map isort ws))
  | _ =>
      Ok (Branch (map (fun c => let nc := committee ++ [c] in
                                if length nc =? k then Leaf (isort nc)
                                else Partial (nc, mes_next p committee budget c))
                      (if resolute then firstn 1 tied else tied)))
  end.

(** abcrules.py 3422-3431: [not completion] *)
Definition fill_none (committee : list nat) (budget : list Q) : result (list (list nat)) :=
  Ok [committee].

(** abcrules.py 3289-3315, [phragmen_phase] *)
Definition fill_phragmen (p : profile) (k : nat) (resolute : bool) (committee : list nat) (budget : list Q)
  : result (list (list nat)) :=
  let start_load := map (fun iv => (- nthQ budget (fst iv) / weight (snd iv))%Q) (enum_voters p) in
  if resolute then seqphragmen_resolute p k start_load committee
  else seqphragmen_irresolute p k None start_load committee.

(** abcrules.py 3317-3347, [av_phase]: the [for] loop *)
Fixpoint av_phase (p : profile) (k : nat) (committee : list nat) (rounds num_missing : nat)
  : result (list (list nat)) :=
  match rounds with
  | 0 => Err RuntimeError
  | S r =>
      do av_committees <- separable_rule SepAV p num_missing false None;
      let new := map (fun comm => isort (committee ++ filter (fun c => negb (mem c committee)) comm))
                     av_committees in
      if existsb (fun nc => k <? length nc) new then Err RuntimeError
      else match filter (fun nc => length nc =? k) new with
           | [] => av_phase p k committee r (S num_missing)
           | ws => Ok ws
           end
  end.
Definition fill_av (p : profile) (k : nat) (committee : list nat) (budget : list Q) : result (list (list nat)) :=
  av_phase p k committee k (k - length committee).

(** abcrules.py 3360-3368: starting budgets *)
Definition mes_start (p : profile) (k : nat) : list Q :=
  map (fun v => (weight v * Qnat k / total_weight p)%Q) (voters p).
(** abcrules.py 3360-3361 with [per_voter_budget = Fraction(n, total_weight)] (3472) *)
Definition mes_start_increment (p : profile) (n : nat) : list Q :=
  map (fun v => (weight v * (Qnat n / total_weight p))%Q) (voters p).

(** abcrules.py 3244-3441, [_equal_shares_algorithm] *)
Definition equal_shares (p : profile) (k : nat) (resolute : bool) (maxn : option nat)
           (fill : list nat -> list Q -> result (list (list nat))) (start : list Q)
  : result (list (list nat)) :=
  let maxn := if resolute then Some 1 else maxn in
  do win <- pool_loop (mes_expand p k resolute fill) maxn (tree_size (num_cand p) k) [([], start)] [];
  sorted_committees win.

(** abcrules.py 3463-3482: the [for] loop of the increment completion *)
Fixpoint increment_loop (p : profile) (k rounds n : nat) : result (list (list nat)) :=
  match rounds with
  | 0 => Err RuntimeError
  | S r =>
      do cs <- equal_shares p k true None fill_none (mes_start_increment p n);
      match filter (fun c => length c =? k) cs with
      | [] => increment_loop p k r (S n)
      | ws => Ok ws
      end
  end.
(** abcrules.py 3444-3482, [_equal_shares_algorithm_with_increment_completion];
    [range(k, math.ceil(k * total_weight + 1))] *)
Definition equal_shares_increment (p : profile) (k : nat) : result (list (list nat)) :=
  if length (approved_candidates p) <? k then separable_rule SepAV p k true None
  else increment_loop p k (Z.to_nat (Qceiling (Qnat k * total_weight p + 1)) - k) k.

(** [completion] argument of [compute_equal_shares] that survives the check at
    abcrules.py 3102-3111 *)
Inductive completion_arg := NoCompletion | PhragmenCompletion | AvCompletion | IncrementCompletion.

(** abcrules.py 3125-3140 and 3241 *)
Definition equal_shares_rule (p : profile) (k : nat) (resolute : bool) (maxn : option nat) (c : completion_arg)
  : result (list (list nat)) :=
  do cs <- match c with
           | IncrementCompletion => equal_shares_increment p k
           | NoCompletion => equal_shares p k resolute maxn fill_none (mes_start p k)
           | PhragmenCompletion => equal_shares p k resolute maxn (fill_phragmen p k resolute) (mes_start p k)
           | AvCompletion => equal_shares p k resolute maxn (fill_av p k) (mes_start p k)
           end;
  sorted_committees cs.
