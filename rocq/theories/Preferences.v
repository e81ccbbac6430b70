(** * Model of abcvoting/preferences.py (and of misc.dominate) *)
From Coq Require Import List Arith Bool ZArith QArith Lia Permutation String.
From Verif Require Import Prelude Misc.
Import ListNotations.
Open Scope nat_scope.

(** preferences.py 326-372, [Voter]: approval set, weight, and whether
    the weight's Python type is [int] (as opposed to [Fraction]/[float]). *)
Record voter := mkVoter { approved : list nat; weight : Q; weight_is_int : bool }.

(** preferences.py 18-323, [Profile]; [candidates] is always
    [list(range(num_cand))] and therefore represented by its length. *)
Record profile := mkProfile { num_cand : nat; cand_names : list string; voters : list voter }.

Definition candidates (p : profile) : list nat := seq 0 (num_cand p).

(** preferences.py 348-354, [Voter.__init__] *)
Definition voter_new (l : list pyobj) (w : Q) (wint : bool) (nc : option Z) : result voter :=
  do a <- candidate_set_new l nc;
  if Qle_bool w 0 then Err ValueError else Ok (mkVoter a w wint).

(** preferences.py 52-67, [Profile.__init__]; [cand_names=[]] is falsy and
    therefore treated like [None]. *)
Definition profile_new (nc : Z) (names : option (list string)) : result profile :=
  if Z.leb nc 0 then Err ValueError
  else
    let n := Z.to_nat nc in
    let default := map str_nat (seq 0 n) in
    match names with
    | None | Some [] => Ok (mkProfile n default [])
    | Some l => if List.length l <? n then Err ValueError
                else Ok (mkProfile n (firstn n l) [])
    end.

(** What [add_voter] and item assignment accept: a [Voter] or an iterable. *)
Inductive voter_arg :=
| ArgVoter (v : voter)
| ArgSet (l : list pyobj).

(** preferences.py 90-99, [Profile._unique_voter] *)
Definition unique_voter (p : profile) (a : voter_arg) : result voter :=
  match a with
  | ArgVoter v => voter_new (map (fun c => PyInt (Z.of_nat c)) (approved v)) (weight v)
                            (weight_is_int v) (Some (Z.of_nat (num_cand p)))
  | ArgSet l => voter_new l 1 true (Some (Z.of_nat (num_cand p)))
  end.

Definition with_voters (p : profile) (vs : list voter) : profile :=
  mkProfile (num_cand p) (cand_names p) vs.

(** A method call that may raise: the outcome and the object afterwards. *)
Definition outcome : Type := result unit * profile.

(** preferences.py 101-116, [Profile.add_voter] *)
Definition add_voter (p : profile) (a : voter_arg) : outcome :=
  match unique_voter p a with
  | Ok v => (Ok tt, with_voters p (voters p ++ [v]))
  | Err e => (Err e, p)
  end.

(** preferences.py 118-135, [Profile.add_voters]: stops at the first
    exception, keeping the voters added so far. *)
Fixpoint add_voters (p : profile) (l : list voter_arg) : outcome :=
  match l with
  | [] => (Ok tt, p)
  | a :: r => match add_voter p a with
              | (Ok _, p') => add_voters p' r
              | (Err e, p') => (Err e, p')
              end
  end.

(** preferences.py 137-146, [Profile.total_weight] *)
Definition total_weight (p : profile) : Q :=
  fold_left (fun s v => s + weight v)%Q (voters p) 0%Q.

(** preferences.py 148-156, [Profile.has_unit_weights] *)
Definition has_unit_weights (p : profile) : bool :=
  forallb (fun v => Qeq_bool (weight v) 1) (voters p).

(** preferences.py 74-85, [Profile.approved_candidates] *)
Definition approved_candidates (p : profile) : list nat :=
  dedup (flat_map approved (voters p)).

(** preferences.py 186-194: [range(voter.weight)] is a TypeError unless the
    weight is an int, and is as long as the weight. *)
Fixpoint unit_copies (vs : list voter) : result (list voter) :=
  match vs with
  | [] => Ok []
  | v :: r =>
      if weight_is_int v then
        do rest <- unit_copies r;
        Ok (repeat (mkVoter (approved v) 1 true) (Z.to_nat (Qnum (Qred (weight v)))) ++ rest)
      else Err TypeError
  end.

(** preferences.py 158-195, [Profile.convert_to_unit_weights] *)
Definition convert_to_unit_weights (p : profile) : outcome :=
  match unit_copies (voters p) with
  | Ok vs => (Ok tt, with_voters p vs)
  | Err e => (Err e, p)
  end.

Definition list_eq_dec_nat : forall a b : list nat, {a = b} + {a <> b} := list_eq_dec Nat.eq_dec.

(** preferences.py 197-226, [Profile.convert_to_weighted].  The iteration
    order of the Python set [approval_sets] is the parameter [ord]. *)
Definition convert_to_weighted (ord : list (list nat) -> list (list nat)) (p : profile) : profile :=
  let key v := isort (approved v) in
  let approval_sets := ord (nodup list_eq_dec_nat (map key (voters p))) in
  let with_key a := filter (fun v => if list_eq_dec_nat (key v) a then true else false) (voters p) in
  with_voters p
    (map (fun a => mkVoter a (fold_left (fun s v => s + weight v)%Q (with_key a) 0%Q)
                           (forallb weight_is_int (with_key a)))
         approval_sets).

Fixpoint replace_nth {A} (i : nat) (x : A) (l : list A) : list A :=
  match i, l with
  | _, [] => []
  | 0, _ :: r => x :: r
  | S i', y :: r => y :: replace_nth i' x r
  end.

(** preferences.py 234-244, [Profile.__setitem__] (non-negative index; Python
    evaluates the right-hand side first, so a bad voter wins over a bad index). *)
Definition set_voter (p : profile) (i : nat) (a : voter_arg) : outcome :=
  match unique_voter p a with
  | Err e => (Err e, p)
  | Ok v => if i <? List.length (voters p)
            then (Ok tt, with_voters p (replace_nth i v (voters p)))
            else (Err IndexError, p)
  end.

(** preferences.py 261-273, [Profile.copy]: note that [cand_names] is not
    passed on. *)
Definition profile_copy (p : profile) : result profile :=
  do q <- profile_new (Z.of_nat (num_cand p)) None;
  match add_voters q (map ArgVoter (voters p)) with
  | (Ok _, q') => Ok q'
  | (Err e, _) => Err e
  end.

(** preferences.py 278-292, [Profile.is_party_list] *)
Definition is_party_list (p : profile) : bool :=
  forallb (fun v1 => forallb (fun v2 =>
     let n := List.length (inter (approved v1) (approved v2)) in
     (n =? 0) || (n =? List.length (approved v1))) (voters p)) (voters p).

(** misc.py 363-403, [dominate].  [CandidateSet(committee)] raises on duplicates. *)
Definition dominate (p : profile) (committee1 committee2 : list nat) : result bool :=
  do c1 <- candidate_set committee1;
  do c2 <- candidate_set committee2;
  if existsb (fun v => List.length (inter (approved v) c1) <? List.length (inter (approved v) c2))
             (voters p) then Ok false
  else if existsb (fun v => List.length (inter (approved v) c2) <? List.length (inter (approved v) c1))
             (voters p) then Ok true
  else Ok false.

(** ** Profile histories: every way client code can change a profile *)
Inductive op :=
| OpAdd (a : voter_arg)
| OpAddMany (l : list voter_arg)
| OpSet (i : nat) (a : voter_arg)
| OpUnit
| OpWeighted (ord : list (list nat) -> list (list nat)).

(** One call; the exception, if any, is caught by the client and the object
    lives on. *)
Definition run_op (p : profile) (o : op) : profile :=
  match o with
  | OpAdd a => snd (add_voter p a)
  | OpAddMany l => snd (add_voters p l)
  | OpSet i a => snd (set_voter p i a)
  | OpUnit => snd (convert_to_unit_weights p)
  | OpWeighted ord => convert_to_weighted ord p
  end.
