(** * What the explanations of the checks mean

    A violation is a piece of evidence that a committee fails an axiom; the sentences below are what a user reads. *)
From Coq Require Import String.
From Coq Require Import List Arith Bool ZArith QArith.
From Verif Require Import Prelude Misc Preferences Spec SpecAxioms SpecPrice Output CheckReport.
Import ListNotations.
Local Open Scope string_scope.
Open Scope nat_scope.
Local Open Scope list_scope.

(** ** Evidence *)
(** [S] deserves [l] seats and agrees on (at least) [l] candidates [T], but nobody in [S] has [l] representatives *)
Definition EJR_violation (p : profile) (q : Q) (W S : list nat) (l : nat) (T : list nat) : Prop :=
  is_group p S /\ 1 <= l /\ deserves p q S l /\ cand_set p T /\ l <= length T /\ all_approve p S T /\
  forall i, In i S -> approves_in p i W < l.
(** ... but fewer than [l] members of the committee are approved by somebody in [S] *)
Definition PJR_violation (p : profile) (q : Q) (W S : list nat) (l : nat) (T : list nat) : Prop :=
  is_group p S /\ 1 <= l /\ deserves p q S l /\ cand_set p T /\ l <= length T /\ all_approve p S T /\
  length (covered p S W) < l.
Definition EJR_plus_violation (p : profile) (q : Q) (W S : list nat) (l c : nat) : Prop :=
  is_group p S /\ 1 <= l /\ deserves p q S l /\ c < num_cand p /\ ~ In c W /\ all_approve p S [c] /\
  forall i, In i S -> approves_in p i W < l.
Definition FJR_violation (p : profile) (q : Q) (W S : list nat) (beta : nat) (T : list nat) : Prop :=
  is_group p S /\ cand_set p T /\ 1 <= beta /\ deserves p q S (length T) /\
  forall i, In i S -> approves_in p i W <= beta - 1 /\ beta <= approves_in p i T.
Definition core_violation (p : profile) (q : Q) (W S T : list nat) : Prop :=
  is_group p S /\ cand_set p T /\ deserves p q S (length T) /\
  forall i, In i S -> approves_in p i W < approves_in p i T.
Definition dominates (p : profile) (W' W : list nat) : Prop :=
  is_committee p (length W) W' /\ (forall v, In v (voters p) -> util v W <= util v W') /\
  exists v, In v (voters p) /\ util v W < util v W'.

(** ** Sentences *)
(** The report of a check: the verdict, and in case of failure a true explanation. *)
Definition explained (r : report) (axiom : Prop) (yes no : string) (explanation : string -> Prop) (ind : string) : Prop :=
  (axiom /\ r = (Ok true, [mkMessage INFO yes true ""])) \/
  (~ axiom /\ exists t, explanation t /\ r = (Ok false, [mkMessage INFO no true ""; mkMessage DETAILS t true ind])).

Definition verdict (pr : printing) (W : list nat) (phrase : string) (quota : option Q) : string :=
  match quota with
  | None => "Committee " ++ str_set_of_candidates W ++ " " ++ phrase ++ "."
  | Some q => "Committee " ++ str_set_of_candidates W ++ " " ++ phrase ++ " (for quota = " ++ str_quota pr q ++ ")."
  end%string.
(** the share of the group among all voters, in percent *)
Definition share_of (pr : printing) (p : profile) (S : list nat) (t : string) : Prop :=
  exists x, (x == 100 * gweight p S / wsum (voters p))%Q /\
    ((unit_weights p /\ t = one_digit pr x ++ "% of all voters")%string \/
     (~ unit_weights p /\ t = one_digit pr x ++ "% of all voters (by weight)")%string).

Definition JR_sentence (pr : printing) (p : profile) (S : list nat) (c : nat) (t : string) : Prop :=
  exists share name, share_of pr p S share /\ nth_error (cand_names p) c = Some name /\
  t = ("(The 1-cohesive group of voters " ++ str_set_of_candidates S ++ " (" ++ share ++ ") jointly approve candidate " ++ name ++
       ", but none of them approve a candidate in the committee.)")%string.
Definition EJR_sentence (pr : printing) (p : profile) (S : list nat) (l : nat) (T : list nat) (t : string) : Prop :=
  exists share, share_of pr p S share /\
  t = ("(The " ++ str_nat l ++ "-cohesive group of voters " ++ str_set_of_candidates S ++ " (" ++ share ++
       ") jointly approve the candidates " ++ str_set_of_candidates T ++ ", but none of them approves " ++ str_nat l ++
       " candidates in the committee.)")%string.
Definition PJR_sentence (pr : printing) (p : profile) (S : list nat) (l : nat) (T : list nat) (t : string) : Prop :=
  exists share, share_of pr p S share /\
  t = ("(The " ++ str_nat l ++ "-cohesive group of voters " ++ str_set_of_candidates S ++ " (" ++ share ++
       ") jointly approve the candidates " ++ str_set_of_candidates T ++ ", but they approve fewer than " ++ str_nat l ++
       " candidates in the committee.)")%string.
Definition EJR_plus_sentence (pr : printing) (p : profile) (S : list nat) (l c : nat) (t : string) : Prop :=
  exists share name, share_of pr p S share /\ nth_error (cand_names p) c = Some name /\
  t = ("(The group of voters " ++ str_set_of_candidates S ++ " (" ++ share ++ ") deserves " ++ str_nat l ++
       " candidates, and jointly approve candidate " ++ name ++
       " which is not part of the committee, but no member approves at least " ++ str_nat l ++ " members of the committee.)")%string.
(** a natural number, printed as an integer or as a float *)
Definition numeral (pr : printing) (n : nat) (t : string) : Prop :=
  t = str_nat n \/ exists x, (x == Qnat n)%Q /\ t = str_float pr x.
Definition FJR_sentence (pr : printing) (p : profile) (S : list nat) (beta : nat) (T : list nat) (t : string) : Prop :=
  exists share b b1, share_of pr p S share /\ numeral pr beta b /\ numeral pr (beta - 1) b1 /\
  t = ("(The weakly cohesive group of voters " ++ str_set_of_candidates S ++ "(" ++ share ++ ")each approve at least " ++ b ++
       " of the " ++ str_nat (length T) ++ " candidates " ++ str_set_of_candidates T ++ ",but all approve at most " ++ b1 ++
       " candidates in the committee.)")%string.
Definition core_sentence (pr : printing) (p : profile) (S T : list nat) (t : string) : Prop :=
  exists share, share_of pr p S share /\
  t = ("(The group of voters " ++ str_set_of_candidates S ++ " (" ++ share ++ ") can block the outcome by proposing " ++
       str_set_of_candidates T ++ ", in which each group member approves strictly more candidates.)")%string.

(** [f"{x:.1f}"] works for the numbers that occur *)
Definition formattable (pr : printing) (p : profile) : Prop :=
  (forall v, In v (voters p) -> weight_is_int v = true) \/ fraction_format pr = true.
(** every candidate has a name *)
Definition all_named (p : profile) : Prop := length (cand_names p) = num_cand p.

(** ** Payments *)
(** [s] written in a column of width [n]: right-aligned *)
Definition in_column (n : nat) (s t : string) : Prop :=
  exists k, t = (String.concat "" (repeat " " k) ++ s)%string /\ String.length t = Nat.max n (String.length s).
(** a line of the table: the voter, and one entry per candidate *)
Definition table_line (first : string) (entries : list string) : string :=
  (first ++ " | " ++ String.concat " | " entries)%string.

(** [B] and [pay] show that [W] is (stable) priceable *)
Definition prices (p : profile) (W : list nat) (stable : bool) (B : Q) (pay : nat -> nat -> Q) : Prop :=
  price_system p W B pay /\
  forall c, c < num_cand p -> ~ In c W ->
    (Qsum (map (if stable then could_offer p W B pay else left_over p W B pay) (who_approve p c)) <= 1)%Q.
(** the payments, one line per voter, one column (of width [w c]) per candidate, below a line with the candidates *)
Definition shows_payments (pr : printing) (p : profile) (pay : nat -> nat -> Q) (ms : list message) : Prop :=
  exists head rows (w : nat -> nat) first es, ms = head :: rows /\
    head = mkMessage DETAILS (table_line first es) true "" /\ in_column (String.length (str_nat (length (voters p)))) "" first /\
    Forall2 (fun c e => in_column (w c) (str_nat c) e) (seq 0 (num_cand p)) es /\
    Forall2 (fun i m => exists first es, m = mkMessage DETAILS (table_line first es) true "" /\
      in_column (String.length (str_nat (length (voters p)))) (str_nat i) first /\
      Forall2 (fun c e => in_column (w c) (str_float pr (pay i c)) e) (seq 0 (num_cand p)) es)
      (seq 0 (length (voters p))) rows.
