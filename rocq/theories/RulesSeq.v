(** * Model of the Phragmén-type rules and the other sequential rules of abcrules.py

    Exact arithmetic ("standard-fractions", "gmpy2-fractions"); the
    "float-fractions" variants compare with [misc.isclose] and are modelled in RulesFloat.v.
    Per-voter numbers ([load], [budget]) are lists indexed by voter. *)
From Coq Require Import String.
From Coq Require Import List Arith Bool ZArith QArith.
From Verif Require Import Prelude Misc Preferences Scores Search Rule RulesThiele.
Import ListNotations.
Open Scope nat_scope.

(** [for v, voter in enumerate(profile)] *)
Definition enum_voters (p : profile) : list (nat * voter) := combine (seq 0 (length (voters p))) (voters p).

(** The body of the while loops (abcrules.py 2903-2958, 4008-4058, 4172-4218):
    extend the popped committee by every selected candidate. *)
Definition seq_expand (k : nat) (select : list nat -> list Q -> result (list nat))
           (next : list nat -> list Q -> nat -> list Q) (s : list nat * list Q)
  : result (list (child (list nat * list Q))) :=
  let '(committee, a) := s in
  do sel <- select committee a;
  Ok (map (fun c => let nc := committee ++ [c] in
                    if length nc =? k then Leaf (isort nc) else Partial (nc, next committee a c)) sel).

(** The resolute loops (abcrules.py 2827-2866): the first tied candidate; the
    committee is kept sorted. *)
Fixpoint seq_loop (select : list nat -> list Q -> result (list nat))
         (next : list nat -> list Q -> nat -> list Q) (rounds : nat) (committee : list nat) (a : list Q)
  : result (list nat) :=
  match rounds with
  | 0 => Ok committee
  | S r =>
      do sel <- select committee a;
      match sel with
      | [] => Err IndexError
      | c :: _ => seq_loop select next r (isort (committee ++ [c])) (next committee a c)
      end
  end.

(** ** Sequential Phragmén *)

(** abcrules.py 2817-2819 (2889-2891): sum(voter.weight for voter in profile if cand in voter.approved) *)
Definition approvers_weight (p : profile) (c : nat) : Q :=
  fold_left (fun s v => s + weight v)%Q (filter (fun v => mem c (approved v)) (voters p)) 0%Q.
(** abcrules.py 2836-2840 (2909-2913) *)
Definition approvers_load (p : profile) (load : list Q) (c : nat) : Q :=
  fold_left (fun s iv => s + weight (snd iv) * nthQ load (fst iv))%Q
            (filter (fun iv => mem c (approved (snd iv))) (enum_voters p)) 0%Q.
(** abcrules.py 2841-2850 (2914-2923) *)
Definition new_maxload (p : profile) (k : nat) (committee : list nat) (load : list Q) (c : nat) : Q :=
  if mem c committee then Qnat (k + 2)
  else if Qltb 0 (approvers_weight p c)
       then ((approvers_load p load c + 1) / approvers_weight p c)%Q
       else Qnat (k + 1).
(** abcrules.py 2851-2857 (2926-2932): candidates with minimal new load *)
Definition phragmen_select (p : profile) (k : nat) (committee : list nat) (load : list Q)
  : result (list nat) :=
  let nm := map (new_maxload p k committee load) (candidates p) in
  do opt <- py_min nm;
  Ok (filter (fun c => Qle_bool (nthQ nm c) opt) (candidates p)).
(** abcrules.py 2860-2862 (2933-2938) *)
Definition phragmen_next (p : profile) (k : nat) (committee : list nat) (load : list Q) (c : nat) : list Q :=
  map (fun iv => if mem c (approved (snd iv)) then new_maxload p k committee load c
                 else nthQ load (fst iv)) (enum_voters p).

(** abcrules.py 2797-2869, [_seqphragmen_resolute] (lines 2851-2857 test [==] instead of [<=]) *)
Definition seqphragmen_resolute (p : profile) (k : nat) (start_load : list Q) (partial_committee : list nat)
  : result (list (list nat)) :=
  do c <- seq_loop (phragmen_select p k) (phragmen_next p k) (k - length partial_committee)
                   partial_committee start_load;
  Ok [c].

(** abcrules.py 2872-2960, [_seqphragmen_irresolute] *)
Definition seqphragmen_irresolute (p : profile) (k : nat) (maxn : option nat)
           (start_load : list Q) (partial_committee : list nat) : result (list (list nat)) :=
  do win <- dfs (seq_expand k (phragmen_select p k) (phragmen_next p k)) maxn
                (tree_size (num_cand p) k) [(partial_committee, start_load)] [];
  sorted_committees win.

(** abcrules.py 2822-2824, 2893-2895: no start load *)
Definition zero_load (p : profile) : list Q := repeat 0%Q (length (voters p)).

(** abcrules.py 2725-2743 and 2794: dispatch and final sort in [compute_seqphragmen] *)
Definition seqphragmen (p : profile) (k : nat) (resolute : bool) (maxn : option nat)
  : result (list (list nat)) :=
  do cs <- (if resolute then seqphragmen_resolute p k (zero_load p) []
            else seqphragmen_irresolute p k maxn (zero_load p) []);
  sorted_committees cs.

(** ** Phragmén-Eneström *)

(** abcrules.py 4013-4021: support of [c]; voters without budget are skipped *)
Definition pe_support (p : profile) (budget : list Q) (c : nat) : Q :=
  fold_left (fun s iv => if Qle_bool (nthQ budget (fst iv)) 0 then s
                         else if mem c (approved (snd iv)) then s + nthQ budget (fst iv) else s)%Q
            (enum_voters p) 0%Q.
Definition available (p : profile) (committee : list nat) : list nat :=
  filter (fun c => negb (mem c committee)) (candidates p).
(** candidates of [cands] with the largest value of [f] *)
Definition max_entries (f : nat -> Q) (cands : list nat) : result (list nat) :=
  do mx <- py_max (map f cands);
  Ok (filter (fun c => Qeq_bool (f c) mx) cands).
(** abcrules.py 4010-4029 *)
Definition pe_select (p : profile) (committee : list nat) (budget : list Q) : result (list nat) :=
  do tied <- max_entries (pe_support p budget) (available p committee);
  match tied with [] => Err RuntimeError | _ => Ok tied end.
(** abcrules.py 4033-4041; for a tied candidate [max_support] is its support *)
Definition pe_next (p : profile) (price : Q) (committee : list nat) (budget : list Q) (c : nat) : list Q :=
  let max_support := pe_support p budget c in
  let multiplier := if Qltb price max_support then ((max_support - price) / max_support)%Q else 0%Q in
  map (fun iv => if mem c (approved (snd iv)) then (nthQ budget (fst iv) * multiplier)%Q
                 else nthQ budget (fst iv)) (enum_voters p).
(** abcrules.py 3987-4062, [_phragmen_enestroem_algorithm] *)
Definition phragmen_enestroem (p : profile) (k : nat) (resolute : bool) (maxn : option nat)
  : result (list (list nat)) :=
  let maxn := if resolute then Some 1 else maxn in
  let price := (total_weight p / Qnat k)%Q in
  do win <- dfs (seq_expand k (pe_select p) (pe_next p price)) maxn (tree_size (num_cand p) k)
                [([], map weight (voters p))] [];
  sorted_committees win.

(** ** Consensus rule *)

(** abcrules.py 4174-4175: every voter receives its weight *)
Definition cr_earn (p : profile) (budget : list Q) : list Q :=
  map (fun iv => (nthQ budget (fst iv) + weight (snd iv))%Q) (enum_voters p).
(** abcrules.py 4178-4186: [supporters[cand]] *)
Definition cr_supporters (p : profile) (budget : list Q) (c : nat) : list (nat * voter) :=
  filter (fun iv => negb (Qle_bool (nthQ budget (fst iv)) 0) && mem c (approved (snd iv))) (enum_voters p).
Definition cr_support (p : profile) (budget : list Q) (c : nat) : Q :=
  fold_left (fun s iv => s + nthQ budget (fst iv))%Q (cr_supporters p budget c) 0%Q.
(** abcrules.py 4174-4195 *)
Definition cr_select (p : profile) (committee : list nat) (budget : list Q) : result (list nat) :=
  do tied <- max_entries (cr_support p (cr_earn p budget)) (available p committee);
  match tied with [] => Err RuntimeError | _ => Ok tied end.
(** abcrules.py 4199-4203 *)
Definition cr_next (p : profile) (committee : list nat) (budget : list Q) (c : nat) : list Q :=
  let b := cr_earn p budget in
  let sup := cr_supporters p b c in
  let share := (total_weight p / fold_left (fun s iv => s + weight (snd iv)) sup 0)%Q in
  map (fun iv => if mem (fst iv) (map fst sup)
                 then (nthQ b (fst iv) - weight (snd iv) * share)%Q
                 else nthQ b (fst iv)) (enum_voters p).
(** abcrules.py 4149-4221, [_consensus_rule_algorithm] *)
Definition consensus_rule (p : profile) (k : nat) (resolute : bool) (maxn : option nat)
  : result (list (list nat)) :=
  let maxn := if resolute then Some 1 else maxn in
  do win <- dfs (seq_expand k (cr_select p) (cr_next p)) maxn (tree_size (num_cand p) k)
                [([], repeat 0%Q (length (voters p)))] [];
  sorted_committees win.
