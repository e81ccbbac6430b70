(** * Concrete data used by the examples beside the theorems *)
From Coq Require Import String.
From Coq Require Import List Arith Bool ZArith QArith Lia Lqa.
From Verif Require Import Prelude Misc Preferences Spec Rule Compute SpecCompute.
Import ListNotations.
Open Scope nat_scope.
Local Open Scope string_scope.

(** no optional package installed; a parser for the few numerals used in examples *)
Definition ex_env : env :=
  mkEnv (mkInstalled false false false)
        (fun s => if String.eqb s "2" then Some 2%Q else if String.eqb s "1/2" then Some (1#2)%Q
                  else if String.eqb s "-1/2" then Some (-1#2)%Q else None)
        (fun s => if String.eqb s "2" then Some 2%Z else None)
        isort (fun _ => [])
        (fun _ _ _ _ _ _ => Err NotImplementedError).

Definition mkv (a : list nat) (w : Q) : voter := mkVoter a w (Pos.eqb (Qden w) 1).
Definition mkp (m : nat) (vs : list voter) : profile := mkProfile m (map str_nat (seq 0 m)) vs.

(** four candidates, overlapping approval sets, unequal and fractional weights *)
Definition ex_profile : profile :=
  mkp 4 [mkv [0;1] 2; mkv [1;2] 1; mkv [2;3] 1; mkv [3] (1#2)].

Ltac wf_tac :=
  match goal with
  | |- wf _ => unfold wf; cbn; split; [lia|]; repeat constructor; cbn; try lia; try intuition lia
  end.

Lemma ex_wf : wf ex_profile.
Proof. wf_tac. Qed.

Lemma ex_valid : forall resolute, valid_call ex_profile 2 resolute None.
Proof. intros. split; [apply ex_wf|]. cbn. split; [discriminate|]. split; [lia|auto]. Qed.

Lemma ex_valid_max : valid_call ex_profile 2 false (Some (PyInt 3)).
Proof. split; [apply ex_wf|]. cbn. split; [discriminate|]. split; [lia|]. split; [lia|auto]. Qed.

(** five unit-weight voters, five candidates *)
Definition ex_unit : profile :=
  mkp 5 [mkv [0;1] 1; mkv [0;1;2] 1; mkv [2] 1; mkv [3;4] 1; mkv [] 1].
Lemma ex_unit_wf : wf ex_unit.
Proof. wf_tac. Qed.
Lemma ex_unit_unit : unit_weights ex_unit.
Proof. repeat constructor. Qed.
Lemma ex_unit_valid : forall resolute, valid_call ex_unit 3 resolute None.
Proof. intros. split; [apply ex_unit_wf|]. cbn. split; [discriminate|]. split; [lia|auto]. Qed.
