(** * Model of [Profile.str_compact] *)
From Coq Require Import String Ascii.
From Coq Require Import List Arith Bool ZArith QArith.
From Verif Require Import Prelude Misc Preferences FileIO.
Import ListNotations.
Local Open Scope string_scope.
Open Scope nat_scope.
Local Open Scope list_scope.

(** preferences.py 302-307: the dictionary [compact]; the keys are the tuples of approved
    candidates (so two equal sets that are enumerated differently have different keys), a value
    is a number with the flag whether it is a Python int. *)
Fixpoint compact_add (d : list (list nat * (Q * bool))) (v : voter) : list (list nat * (Q * bool)) :=
  match d with
  | [] => [(approved v, (weight v, weight_is_int v))]
  | (a, (w, i)) :: r =>
      if list_eq_dec Nat.eq_dec (approved v) a then (a, ((w + weight v)%Q, i && weight_is_int v)) :: r
      else (a, (w, i)) :: compact_add r v
  end.
Definition compact (p : profile) : list (list nat * (Q * bool)) := fold_left compact_add (voters p) [].

(** preferences.py 294-323, [Profile.str_compact] *)
Definition str_compact (str_weight : Q -> bool -> string) (p : profile) : result string :=
  let unit := has_unit_weights p in
  do lines <- rmapM (fun e : list nat * (Q * bool) =>
      do s <- str_set_with_names (fst e) (cand_names p);
      Ok (" " ++ str_weight (fst (snd e)) (snd (snd e)) ++ " x " ++ s ++ "," ++ nl)%string) (compact p);
  let out := ((if unit then "" else "weighted ") ++ "profile with " ++ str_nat (length (voters p)) ++
             " voters and " ++ str_nat (num_cand p) ++ " candidates:" ++ nl ++ String.concat "" lines)%string in
  Ok (substring 0 (String.length out - 2) out ++
      (if unit then "" else nl ++ "total weight: " ++ str_weight (total_weight p) (forallb weight_is_int (voters p))) ++ nl)%string.
