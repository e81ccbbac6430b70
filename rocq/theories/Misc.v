(** * Model of abcvoting/misc.py *)
From Coq Require Import List Arith Bool ZArith QArith Lia Permutation Sorted.
From Coq Require Import Ascii String DecimalString DecimalNat Decimal.
From Verif Require Import Prelude.
Import ListNotations.
Open Scope nat_scope.

(** A hashable Python object offered as a candidate: an integer, or anything
    else ([isinstance(cand, (int, np.integer))] is False).  Simplification: of
    non-integers only their identity (a tag) is kept. *)
Inductive pyobj := PyInt (z : Z) | PyOther (tag : nat).

Definition pyobj_eqb (a b : pyobj) : bool :=
  match a, b with
  | PyInt x, PyInt y => Z.eqb x y
  | PyOther x, PyOther y => Nat.eqb x y
  | _, _ => false
  end.

Fixpoint py_nodupb (l : list pyobj) : bool :=
  match l with
  | [] => true
  | x :: r => negb (existsb (pyobj_eqb x) r) && py_nodupb r
  end.

Definition is_int (o : pyobj) : bool := match o with PyInt _ => true | _ => false end.
Definition int_val (o : pyobj) : Z := match o with PyInt z => z | PyOther _ => 0%Z end.

(** misc.py 41-65, [CandidateSet.__init__]: the four checks in source order
    (duplicates, type, sign, upper bound).  The set object is the list of its
    elements in the order given. *)
Definition candidate_set_new (candidates : list pyobj) (num_cand : option Z)
  : result (list nat) :=
  if negb (py_nodupb candidates) then Err ValueError
  else if negb (forallb is_int candidates) then Err TypeError
  else if negb (forallb (fun c => Z.leb 0 (int_val c)) candidates) then Err ValueError
  else if match num_cand with
          | None => false
          | Some m => existsb (fun c => Z.leb m (int_val c)) candidates
          end then Err ValueError
  else Ok (map (fun c => Z.to_nat (int_val c)) candidates).

(** misc.py 41-65, [CandidateSet.__init__] once more, for iterables of candidates produced by the
    library itself (hence non-negative integers): only the duplicate check can
    fail.  The resulting set is represented by its ascending list. *)
Definition candidate_set (l : list nat) : result (list nat) :=
  if nodupb l then Ok (isort l) else Err ValueError.

(** Python's [str(n)] of a non-negative integer: decimal digits. *)
Definition str_nat (n : nat) : string := NilEmpty.string_of_uint (Nat.to_uint n).

(** Python's [<=] on [str]: lexicographic by code point. *)
Fixpoint str_leb (a b : string) : bool :=
  match a, b with
  | EmptyString, _ => true
  | String _ _, EmptyString => false
  | String x r, String y s =>
      if Nat.ltb (nat_of_ascii x) (nat_of_ascii y) then true
      else if Nat.ltb (nat_of_ascii y) (nat_of_ascii x) then false
      else str_leb r s
  end.

Definition sort_str : list string -> list string := sort_by str_leb.

Open Scope string_scope.

(** misc.py 103-130, [str_set_of_candidates] ([cand_names=None]).  *)
Definition str_set_of_candidates (candset : list nat) : string :=
  "{" ++ String.concat ", " (sort_str (map str_nat candset)) ++ "}".

(** misc.py 103-130, [str_set_of_candidates] with a list of names;
    [cand_names[cand]] raises IndexError when out of range. *)
Definition str_set_with_names (candset : list nat) (cand_names : list string) : result string :=
  do named <- rmapM (fun c => match nth_error cand_names c with
                              | Some s => Ok s | None => Err IndexError end) candset;
  Ok ("{" ++ String.concat ", " (sort_str named) ++ "}").

(** the newline character *)
Definition nl : string := String (ascii_of_nat 10) EmptyString.

(** misc.py 133-163, [str_sets_of_candidates] *)
Definition str_sets_of_candidates (sets : list (list nat)) : string :=
  " " ++ String.concat (nl ++ " ") (map str_set_of_candidates sets) ++ nl.

(** misc.py 166-214, [str_committees_with_header] *)
Definition str_committees_with_header (committees : list (list nat)) (winning : bool) : string :=
  match committees with
  | [] => if winning then "No winning committees" else "No committees"
  | [_] => "1 " ++ (if winning then "winning committee" else "committee") ++ ":" ++ nl
             ++ str_sets_of_candidates committees
  | _ => str_nat (List.length committees) ++ " "
             ++ (if winning then "winning committee" else "committee") ++ "s:" ++ nl
             ++ str_sets_of_candidates committees
  end.

Close Scope string_scope.

(** the sort key of misc.py 100: [key=str] compares printed committees *)
Definition committee_leb (a b : list nat) : bool :=
  str_leb (str_set_of_candidates a) (str_set_of_candidates b).

(** misc.py 86-100, [sorted_committees] *)
Definition sorted_committees (committees : list (list nat)) : result (list (list nat)) :=
  do cs <- rmapM candidate_set committees; Ok (sort_by committee_leb cs).

(** misc.py 217-235, [hamming] *)
Definition hamming (set1 set2 : list nat) : nat :=
  List.length (filter (fun x => negb (mem x set2)) set1 ++
               filter (fun x => negb (mem x set1)) set2).

(** misc.py 258-280, [powerset] *)
Definition powerset {A} (s : list A) (max_size : option nat) : list (list A) :=
  flat_map (combinations s)
    (seq 0 (S (match max_size with None => List.length s | Some m => m end))).

(** misc.py 283-316, [compare_list_of_committees]; the arguments are lists of
    Python sets ([committee in list] uses set equality).  The type check
    (misc.py 311-313) is not modelled: arguments are sets by construction. *)
Definition compare_list_of_committees (cs1 cs2 : list (list nat)) : bool :=
  forallb (fun c => existsb (set_eqb c) cs1) cs2 &&
  forallb (fun c => existsb (set_eqb c) cs2) cs1.

(** misc.py 319-360, [verify_expected_committees_equals_actual_committees] *)
Definition verify_expected (actual expected : list (list nat)) (resolute : bool) : result unit :=
  if resolute then
    match actual with
    | [c] => if existsb (set_eqb c) expected then Ok tt else Err ValueError
    | _ => Err RuntimeError
    end
  else if compare_list_of_committees actual expected then Ok tt else Err ValueError.

(** Python [math.factorial]: ValueError on negative numbers. *)
Definition factorial (n : Z) : result Z :=
  if Z.ltb n 0 then Err ValueError else Ok (Z.of_nat (fact (Z.to_nat n))).

(** misc.py 406-423, [binom] *)
Definition binom (n k : Z) : Z :=
  match (do a <- factorial n; do b <- factorial k; do c <- factorial (n - k);
         Ok (a / b / c)%Z) with
  | Ok r => r
  | Err _ => 0%Z
  end.
