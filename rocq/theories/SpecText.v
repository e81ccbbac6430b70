(** * The text of a profile *)
From Coq Require Import String Ascii.
From Coq Require Import List Arith Bool ZArith QArith.
From Verif Require Import Prelude Misc Preferences Spec FileIO.
Import ListNotations.
Local Open Scope string_scope.
Open Scope nat_scope.
Local Open Scope list_scope.

(** [a] does not occur in [s] *)
Definition without (a : ascii) (s : string) : Prop := ~ In a (list_ascii_of_string s).

(** Names of candidates that can be told apart in a printed set: distinct, not empty, neither a
    comma nor a line break in them. *)
Definition separable_names (names : list string) : Prop :=
  NoDup names /\ Forall (fun s => s <> "" /\ without ","%char s /\ without "010"%char s) names.

(** [str] on numbers: no blank, no line break, and different numbers look different. *)
Definition faithful_numbers (str_weight : Q -> bool -> string) : Prop :=
  (forall q i, without " "%char (str_weight q i) /\ without "010"%char (str_weight q i)) /\
  forall q i q' i', str_weight q i = str_weight q' i' -> (q == q')%Q.

(** The same ballots in the same order: equal approval sets, equal weights. *)
Definition same_ballots (p q : profile) : Prop :=
  Forall2 (fun v u => set_same (approved v) (approved u) /\ (weight v == weight u)%Q) (voters p) (voters q).

(** The text of a set of named candidates: the names in alphabetical order. *)
Definition set_text (names : list string) (A : list nat) (s : string) : Prop :=
  exists l, Permutation.Permutation l (map (fun c => nth c names "") A) /\
    Sorted.StronglySorted (fun x y => str_leb x y = true) l /\
    s = ("{" ++ String.concat ", " l ++ "}")%string.

(** Voters with the same ballot put together: every ballot once, with the sum of the weights. *)
Definition grouped (vs : list voter) (groups : list (list nat * Q)) : Prop :=
  NoDup (map fst groups) /\
  (forall A, In A (map fst groups) <-> exists v, In v vs /\ approved v = A) /\
  forall A w, In (A, w) groups ->
    (w == Qsum (map weight (filter (fun v => if list_eq_dec Nat.eq_dec (approved v) A then true else false) vs)))%Q.
