(** * Model of the Thiele methods, separable rules and other optimisation-based
      rules of abcrules.py *)
From Coq Require Import String.
From Coq Require Import List Arith Bool ZArith QArith.
From Verif Require Import Prelude Misc Preferences Scores Search Rule.
Import ListNotations.
Open Scope nat_scope.

(** [committees[0]] of a list: IndexError when empty. *)
Definition head_only (cs : list (list nat)) : result (list (list nat)) :=
  match cs with [] => Err IndexError | c :: _ => Ok [c] end.

(** [committees[:max_num_of_committees]] *)
Definition cut (maxn : option nat) (cs : list (list nat)) : list (list nat) :=
  match maxn with None => cs | Some n => firstn n cs end.

(** abcrules.py 733-762, [_thiele_methods_bruteforce] *)
Definition thiele_bruteforce (f : nat -> Q) (p : profile) (k : nat) (resolute : bool)
           (maxn : option nat) : result (list (list nat)) :=
  let opt := fst (scan (fun s best => Qltb best s) Qeq_bool (thiele_score f p)
                       (negb resolute) (-1)%Q (combinations (candidates p) k)) in
  do cs <- sorted_committees opt;
  if resolute then head_only (cut maxn cs) else Ok (cut maxn cs).

(** The tied candidates of abcrules.py 1287-1291: indices of maximal entries. *)
Definition argmax_all (l : list Q) : result (list nat) :=
  do mx <- py_max l;
  Ok (filter (fun c => Qeq_bool (nthQ l c) mx) (seq 0 (length l))).

(** abcrules.py 1283-1297: the loop of [_seq_thiele_resolute]. *)
Fixpoint seq_thiele_loop (f : nat -> Q) (p : profile) (rounds : nat) (committee : list nat)
  : result (list nat) :=
  match rounds with
  | 0 => Ok committee
  | S r =>
      do tied <- argmax_all (marginal_thiele_scores_add f p committee);
      match tied with
      | [] => Err IndexError
      | next :: _ => seq_thiele_loop f p r (committee ++ [next])
      end
  end.

(** abcrules.py 1273-1299, [_seq_thiele_resolute] *)
Definition seq_thiele_resolute (f : nat -> Q) (p : profile) (k : nat) : result (list (list nat)) :=
  do c <- seq_thiele_loop f p k []; sorted_committees [c].

(** abcrules.py 1318-1338: one iteration of the while loop of
    [_seq_thiele_irresolute]; a state is the tuple [committee]. *)
Definition seq_thiele_expand (f : nat -> Q) (p : profile) (k : nat) (committee : list nat)
  : result (list (child (list nat))) :=
  let marg := marginal_thiele_scores_add f p committee in
  do mx <- py_max marg;
  let sel := filter (fun c => Qle_bool mx (nthQ marg c)) (candidates p) in
  Ok (map (fun c => let nc := committee ++ [c] in
                    if length nc =? k then Leaf (isort nc) else Partial nc) sel).

(** abcrules.py 1302-1342, [_seq_thiele_irresolute] *)
Definition seq_thiele_irresolute (f : nat -> Q) (p : profile) (k : nat) (maxn : option nat)
  : result (list (list nat)) :=
  do win <- dfs (seq_thiele_expand f p k) maxn (tree_size (num_cand p) k) [[]] [];
  sorted_committees win.

(** abcrules.py 1233-1241: dispatch in [compute_seq_thiele_method]. *)
Definition seq_thiele (f : nat -> Q) (p : profile) (k : nat) (resolute : bool) (maxn : option nat)
  : result (list (list nat)) :=
  if resolute then seq_thiele_resolute f p k else seq_thiele_irresolute f p k maxn.

(** abcrules.py 788-813: body of the while loop of
    [_thiele_methods_branchandbound].  [insert(0, ...)] in a for loop pushes the
    candidates in order, so the largest one ends up first. *)
Definition bb_children (m k : nat) (part : list nat) : list (list nat) :=
  let first := match rev part with [] => 0 | c :: _ => S c end in
  let missing := k - length part in
  map (fun c => part ++ [c]) (rev (seq first (m - missing + 1 - first))).

(** [sum(sorted(l)[-n:])] for n >= 1 *)
Definition sum_largest (n : nat) (l : list Q) : Q :=
  let s := sort_by Qle_bool l in Qsum (skipn (length s - n) s).

(** abcrules.py 807-811 *)
Definition bb_upper_bound (f : nat -> Q) (p : profile) (k : nat) (part : list nat) : Q :=
  let first := match rev part with [] => 0 | c :: _ => S c end in
  (sum_largest (k - length part) (skipn first (marginal_thiele_scores_add f p part))
   + thiele_score f p part)%Q.

(** abcrules.py 786-813: the while loop. *)
Fixpoint bb_loop (f : nat -> Q) (p : profile) (k : nat) (fuel : nat) (part_coms : list (list nat))
         (best_coms : list (list nat)) (best_score : Q) : result (list (list nat)) :=
  match part_coms with
  | [] => Ok best_coms
  | part :: rest =>
      match fuel with
      | 0 => Err OutOfFuel
      | S fuel' =>
          if length part =? k then
            let score := thiele_score f p part in
            if Qeq_bool score best_score then bb_loop f p k fuel' rest (best_coms ++ [part]) best_score
            else if Qltb best_score score then bb_loop f p k fuel' rest [part] score
            else bb_loop f p k fuel' rest best_coms best_score
          else if Qle_bool best_score (bb_upper_bound f p k part)
               then bb_loop f p k fuel' (bb_children (num_cand p) k part ++ rest) best_coms best_score
               else bb_loop f p k fuel' rest best_coms best_score
      end
  end.

(** abcrules.py 765-816, [_thiele_methods_branchandbound] *)
Definition thiele_branchandbound (f : nat -> Q) (p : profile) (k : nat) (resolute : bool)
           (maxn : option nat) : result (list (list nat)) :=
  do init <- seq_thiele_resolute f p k;
  match init with
  | [] => Err IndexError
  | init_com :: _ =>
      do best <- bb_loop f p k (tree_size (num_cand p + 1) (k + 1)) [[]] [] (thiele_score f p init_com);
      do cs <- sorted_committees best;
      if resolute then head_only (cut maxn cs) else Ok (cut maxn cs)
  end.

(** abcrules.py 1673-1684: the loop of [_revseq_thiele_resolute]: remove the
    last tied candidate. *)
Fixpoint revseq_loop (f : nat -> Q) (p : profile) (rounds : nat) (committee : list nat)
  : result (list nat) :=
  match rounds with
  | 0 => Ok committee
  | S r =>
      let marg := marginal_thiele_scores_remove f p committee in
      do mn <- py_min marg;
      match rev (filter (fun c => Qeq_bool (nthQ marg c) mn) (candidates p)) with
      | [] => Err IndexError
      | next :: _ =>
          if mem next committee
          then revseq_loop f p r (filter (fun c => negb (c =? next)) committee)
          else Err KeyError (* set.remove *)
      end
  end.

(** abcrules.py 1662-1689, [_revseq_thiele_resolute] *)
Definition revseq_resolute (f : nat -> Q) (p : profile) (k : nat) : result (list (list nat)) :=
  do c <- revseq_loop f p (num_cand p - k) (candidates p); sorted_committees [c].

(** abcrules.py 1705-1718: one round of [_revseq_thiele_irresolute].  The keys
    of [comm_scores] are tuples obtained by iterating over a Python set;
    [ord] is that iteration order (CPython's depends on the set's history). The
    scores stored with the keys are never read and not modelled. *)
Fixpoint revseq_round (ord : list nat -> list nat) (f : nat -> Q) (p : profile)
         (comms : list (list nat)) (next : list (list nat)) : result (list (list nat)) :=
  match comms with
  | [] => Ok next
  | committee :: rest =>
      let marg := marginal_thiele_scores_remove f p committee in
      do mn <- py_min marg;
      let rem := filter (fun c => Qeq_bool (nthQ marg c) mn) (candidates p) in
      let next' := fold_left
                     (fun acc cand => set_add (ord (filter (fun c => negb (c =? cand)) committee)) acc)
                     rem next in
      revseq_round ord f p rest next'
  end.

Fixpoint revseq_rounds (ord : list nat -> list nat) (f : nat -> Q) (p : profile) (n : nat)
         (comms : list (list nat)) : result (list (list nat)) :=
  match n with
  | 0 => Ok comms
  | S n' => do next <- revseq_round ord f p comms []; revseq_rounds ord f p n' next
  end.

(** abcrules.py 1692-1724, [_revseq_thiele_irresolute] *)
Definition revseq_irresolute (ord : list nat -> list nat) (f : nat -> Q) (p : profile) (k : nat)
           (maxn : option nat) : result (list (list nat)) :=
  do comms <- revseq_rounds ord f p (num_cand p - k) [candidates p];
  do cs <- sorted_committees comms;
  Ok (cut maxn cs).

(** ** Separable rules *)

Inductive separable := SepAV | SepSAV.

(** abcrules.py 1917-1926: contribution of one voter.  SAV divides exactly here;
    for [int] weights Python uses float division instead (see SavFloat.v). *)
Definition sep_value (r : separable) (v : voter) : Q :=
  match r with
  | SepAV => weight v
  | SepSAV => weight v / Qnat (length (approved v))
  end%Q.

Definition sep_scores (r : separable) (p : profile) : list Q :=
  fold_left (fun a v => fold_left (fun a c => upd (fun x => x + sep_value r v)%Q c a)
                                  (approved v) a)
            (voters p) (repeat 0%Q (num_cand p)).

(** [sorted(score)[-k]] for a positive [k] (abcrules.py 1927) *)
Definition kth_largest (score : list Q) (k : nat) : option Q :=
  if length score <? k then None else nth_error (sort_by Qle_bool score) (length score - k).

(** abcrules.py 1928-1962: everything after the scores are known. *)
Definition separable_from_scores (score : list Q) (m k : nat) (resolute : bool) (maxn : option nat)
  : result (list (list nat)) :=
  match kth_largest score k with
  | None => Err IndexError
  | Some cutoff =>
      let certain := filter (fun c => Qltb cutoff (nthQ score c)) (seq 0 m) in
      let possible := filter (fun c => Qeq_bool (nthQ score c) cutoff) (seq 0 m) in
      let missing := k - length certain in
      let '(certain, possible, missing) :=
        if length possible =? missing then (isort (certain ++ possible), [], 0)
        else (certain, possible, missing) in
      if resolute then sorted_committees [certain ++ firstn missing possible]
      else sorted_committees
             (cut maxn (map (fun s => certain ++ s) (combinations possible missing)))
  end.

(** abcrules.py 1908-1964, [_separable_rule_algorithm] *)
Definition separable_rule (r : separable) (p : profile) (k : nat) (resolute : bool)
           (maxn : option nat) : result (list (list nat)) :=
  separable_from_scores (sep_scores r p) (num_cand p) k resolute maxn.

(** ** lex-CC, minimax AV, lex-minimax AV *)

(** abcrules.py 1126-1138: the element-wise comparison loop with [break]/[else]. *)
Inductive lexcmp := LexLess | LexGreater | LexEqual.
Fixpoint lex_compare (opt new : list Q) : lexcmp :=
  match opt, new with
  | o :: os, n :: ns => if Qltb n o then LexLess
                        else if Qltb o n then LexGreater else lex_compare os ns
  | _, _ => LexEqual
  end.

(** abcrules.py 1126-1129 *)
Definition lexcc_vector (p : profile) (k : nat) (W : list nat) : list Q :=
  map (fun ell => thiele_score (marginal (AtLeast (Z.of_nat ell))) p W) (seq 1 k).

(** abcrules.py 1122-1146, [_lexcc_bruteforce] *)
Definition lexcc_bruteforce (p : profile) (k : nat) (resolute : bool) (maxn : option nat)
  : result (list (list nat)) :=
  let opt := fst (scan (fun s best => match lex_compare best s with LexGreater => true | _ => false end)
                       (fun s best => match lex_compare best s with LexEqual => true | _ => false end)
                       (lexcc_vector p k) true (repeat 0%Q k) (combinations (candidates p) k)) in
  do cs <- sorted_committees opt;
  if resolute then rmap (cut maxn) (head_only cs) else Ok (cut maxn cs).

(** abcrules.py 2209-2227, [_minimaxav_bruteforce] *)
Definition minimaxav_bruteforce (p : profile) (k : nat) (resolute : bool) (maxn : option nat)
  : result (list (list nat)) :=
  let opt := fst (scan Nat.ltb Nat.eqb (minimaxav_score p) true (num_cand p + 1)
                       (combinations (candidates p) k)) in
  do cs <- sorted_committees opt;
  if resolute then rmap (cut maxn) (head_only cs) else Ok (cut maxn cs).

(** abcrules.py 2346-2348: Hamming distances, largest first. *)
Definition distances (p : profile) (W : list nat) : list nat :=
  rev (isort (map (fun v => hamming (approved v) W) (voters p))).

(** abcrules.py 2349-2357 *)
Fixpoint lex_compare_dist (opt new : list nat) : lexcmp :=
  match opt, new with
  | o :: os, n :: ns => if o <? n then LexLess
                        else if n <? o then LexGreater else lex_compare_dist os ns
  | _, _ => LexEqual
  end.

(** abcrules.py 2341-2364, [_lexminimaxav_bruteforce]; [compute_lexminimaxav]
    (2230-2338) rejects profiles without unit weights. *)
Definition lexminimaxav_bruteforce (p : profile) (k : nat) (resolute : bool) (maxn : option nat)
  : result (list (list nat)) :=
  let opt := fst (scan (fun s best => match lex_compare_dist best s with LexGreater => true | _ => false end)
                       (fun s best => match lex_compare_dist best s with LexEqual => true | _ => false end)
                       (distances p) true (repeat (num_cand p + 1) (length (voters p)))
                       (combinations (candidates p) k)) in
  do cs <- sorted_committees opt;
  if resolute then rmap (cut maxn) (head_only cs) else Ok (cut maxn cs).

(** ** Trivial rule: abcrules.py 4280-4289 and 4305 in [compute_trivial_rule] *)
Definition trivial_rule (p : profile) (k : nat) (resolute : bool) (maxn : option nat)
  : result (list (list nat)) :=
  let committees := if resolute then [seq 0 k]
                    else cut maxn (combinations (candidates p) k) in
  do cs <- rmapM candidate_set committees;
  sorted_committees cs.
