(** * Claims C79, C80: the default algorithm "float-fractions"

    Numbers: Floats.v; the algorithms: RulesFloat.v; specification: SpecFloat.v.  [A] is the machine's arithmetic, [float_ok A] says that
    it rounds like IEEE 754 binary64; [binary64] is a concrete instance.  [args alg ...] with [alg = "fastest"] is the default call. *)
From Coq Require Import String.
From Coq Require Import List Arith Bool ZArith QArith Lia Lqa Permutation.
From Verif Require Import Prelude Misc MiscProofs Preferences Scores Spec SpecRules Rule Compute ComputeProofs SpecCompute SpecSeq ComputeSeq ComputeSeqProofs RulesSeq RulesMonroe
  RulesMore SpecMore MonroeExample ExampleData PrefProofs Milp RulesSolver SolverCompute ComputeAll SpecAll AllProofs Claims_All Claims_Seq
  Floats RulesFloat SpecFloat FloatPhragmen FloatBinary FloatIncrement FloatCompute FloatExact.
Import ListNotations.
Local Open Scope string_scope.
Open Scope nat_scope.
Local Open Scope list_scope.

(** ** C79: the default algorithm terminates with valid committees *)
Theorem C79_default_valid : forall A rnd nx sv e p k id alg Q resolute maxn, In alg ["float-fractions"; "fastest"] ->
  default_rule A p k id Q -> valid_call p k resolute maxn ->
  exists l, compute rnd nx (with_solvers nx sv (with_floats A e)) id p (Z.of_nat k) None (args alg resolute maxn) = Ok l /\
    l <> [] /\ NoDup l /\ forall W, In W l -> Q W.
Proof.
  intros A rnd nx sv e p k id alg Q resolute maxn Halg Hd Hc. pose proof Hc as (Hw & _ & Hk & _).
  destruct (default_determined A rnd nx sv e p k alg id Q Halg Hd Hw Hk) as (P & HP & HD).
  exact (determined_valid P Q p k _ resolute maxn HD HP Hc).
Qed.
Print Assumptions C79_default_valid.

Theorem C79_default_restricts : forall A rnd nx sv e p k id alg Q n, In alg ["float-fractions"; "fastest"] ->
  default_rule A p k id Q -> valid_call p k false (Some (PyInt n)) ->
  let call resolute maxn := compute rnd nx (with_solvers nx sv (with_floats A e)) id p (Z.of_nat k) None (args alg resolute maxn) in
  exists all some one, call false None = Ok all /\ call true None = Ok [one] /\ call false (Some (PyInt n)) = Ok some /\
    In one all /\ incl some all /\ length some = Nat.min (Z.to_nat n) (length all).
Proof.
  intros A rnd nx sv e p k id alg Q n Halg Hd Hc. pose proof Hc as (Hw & _ & Hk & _).
  destruct (default_determined A rnd nx sv e p k alg id Q Halg Hd Hw Hk) as (P & _ & HD).
  exact (determined_restricts P p k _ n HD Hc).
Qed.
Print Assumptions C79_default_restricts.

(** the increment completion: a committee, or RuntimeError, whatever the arithmetic *)
Theorem C79_increment : forall A rnd nx sv e p k alg, In alg ["float-fractions"; "fastest"] -> valid_call p k true None ->
  let r := compute rnd nx (with_solvers nx sv (with_floats A e)) "equal-shares-with-increment-completion" p (Z.of_nat k) None (args alg true None) in
  (exists W, r = Ok [W] /\ is_committee p k W) \/ r = Err RuntimeError.
Proof. exact increment_any. Qed.
Print Assumptions C79_increment.
(** and always a committee for up to 50 seats and weights of at least 1, despite rounding *)
Theorem C79_increment_success : forall A rnd nx sv e p k alg, In alg ["float-fractions"; "fastest"] -> valid_call p k true None ->
  float_ok A -> (forall v, In v (voters p) -> (1 <= weight v)%Q) -> (Z.of_nat k <= 50)%Z ->
  exists W, compute rnd nx (with_solvers nx sv (with_floats A e)) "equal-shares-with-increment-completion" p (Z.of_nat k) None (args alg true None) = Ok [W] /\
    is_committee p k W.
Proof. exact increment_success. Qed.
Print Assumptions C79_increment_success.

(** binary64 (53 bits, round half to even, sums from left to right) is such an arithmetic *)
Theorem C79_binary64 : float_ok binary64.
Proof. exact binary64_ok. Qed.
Print Assumptions C79_binary64.

Definition float_call (p : profile) (k : nat) (id alg : string) (resolute : bool) (maxn : option pyobj) : result (list (list nat)) :=
  compute id_random ref_nx (with_solvers ref_nx (ref_solvers p) (with_floats binary64 ex_env)) id p (Z.of_nat k) None (args alg resolute maxn).
Lemma ex_unit_small : small_election ex_unit 3.
Proof. split; [exact ex_unit_heavy|]. vm_compute. discriminate. Qed.
Example C79_example : (forall resolute, valid_call ex_unit 3 resolute None) /\ valid_call ex_unit 3 false (Some (PyInt 2)) /\ small_election ex_unit 3 /\
  default_rule binary64 ex_unit 3 "seqphragmen" (is_committee ex_unit 3) /\ default_rule binary64 ex_unit 3 "rule-x" (is_committee ex_unit 3) /\
  default_rule binary64 ex_unit 3 "eph" (is_committee ex_unit 3) /\
  float_call ex_unit 3 "seqphragmen" "fastest" true None = Ok [[0; 2; 3]] /\
  float_call ex_unit 3 "equal-shares" "fastest" true None = Ok [[0; 2; 3]] /\
  float_call ex_unit 3 "equal-shares-without-completion" "float-fractions" false None = Ok [[0]; [1]; [2]] /\
  float_call ex_unit 3 "phragmen-enestroem" "fastest" false (Some (PyInt 2)) = Ok [[0; 2; 3]; [0; 2; 4]] /\
  float_call ex_unit 3 "equal-shares-with-increment-completion" "fastest" true None = Ok [[0; 1; 2]].
Proof.
  split; [apply ex_unit_valid|]. split. { split; [wf_tac|]. cbn. split; [discriminate|]. split; [lia|split; [lia|auto]]. }
  split; [apply ex_unit_small|]. split; [apply d_seqphragmen; [apply binary64_ok|apply ex_unit_small]|].
  split; [apply d_mes_phragmen; [apply binary64_ok|apply ex_unit_small|left; reflexivity]|]. split; [apply d_eph; cbn; lia|].
  repeat split; vm_compute; reflexivity.
Qed.

(** ** C80: how far the default sequential Phragmén can be from the exact one *)
Section C80.
  Variables (A : arith) (rnd : random) (nx : networkx) (sv : solvers) (e : env) (p : profile) (k : nat) (alg : string).
  Hypothesis (HA : float_ok A) (Halg : In alg ["float-fractions"; "fastest"]) (Hsmall : small_election p k).
  Let call alg resolute maxn := compute rnd nx (with_solvers nx sv (with_floats A e)) "seqphragmen" p (Z.of_nat k) None (args alg resolute maxn).

  Lemma float_call_eq : forall resolute maxn, valid_call p k resolute maxn -> call alg resolute maxn = f_seqphragmen A p k resolute (limit maxn).
  Proof using Halg.
    intros resolute maxn Hc. unfold call. rewrite (compute_floats A rnd nx sv e p k alg resolute maxn Halg Hc "seqphragmen" "seqphragmen"); [reflexivity|cbn; tauto].
  Qed.
  Lemma exact_call_eq : forall resolute maxn, valid_call p k resolute maxn -> call "standard-fractions" resolute maxn = seqphragmen p k resolute (limit maxn).
  Proof using.
    intros resolute maxn Hc. unfold call.
    rewrite (compute_plain rnd nx sv (with_floats A e) "seqphragmen" (mkRule "seqphragmen" FRACTION_ALGORITHMS SEQ_RESOLUTE)) by reflexivity.
    change (compute_seqphragmen (with_solvers nx sv (with_floats A e)) p (Z.of_nat k) "standard-fractions" resolute maxn = seqphragmen p k resolute (limit maxn)).
    unfold compute_seqphragmen.
    erewrite (run_fractions _ "seqphragmen" _ p k "standard-fractions" resolute maxn (fun k maxn => seqphragmen p k resolute maxn)); [reflexivity|auto|left; reflexivity|reflexivity|reflexivity|destruct resolute; reflexivity].
  Qed.
End C80.

(** all exact winners are found, and everything found is a winner up to a margin of 2 * 10^-12 *)
Theorem C80_accuracy : forall A rnd nx sv e p k alg, float_ok A -> In alg ["float-fractions"; "fastest"] -> small_election p k -> valid_call p k false None ->
  exists l, compute rnd nx (with_solvers nx sv (with_floats A e)) "seqphragmen" p (Z.of_nat k) None (args alg false None) = Ok l /\
    (forall W, phragmen_winner p k W -> In W l) /\ (forall W, In W l -> close_phragmen_winner p (2 # 1000000000000) k W).
Proof.
  intros A rnd nx sv e p k alg HA Halg [H1 H2] Hc. pose proof (float_call_eq A rnd nx sv e p k alg Halg false None Hc) as E.
  destruct Hc as (Hw & _ & Hk & _). destruct (f_seqphragmen_answers A HA p k Hw Hk H1 H2 false None I) as (l & El & _ & _ & Hin & Hall).
  exists l. split; [transitivity (f_seqphragmen A p k false None); [exact E|exact El]|]. split.
  - intros W HW. apply Hall. apply (f_winner_exact A HA p k Hw Hk H1 H2); auto.
  - intros W HW. apply (f_winner_close A HA p k Hw Hk H1 H2); auto.
Qed.
Print Assumptions C80_accuracy.
Theorem C80_resolute : forall A rnd nx sv e p k alg, float_ok A -> In alg ["float-fractions"; "fastest"] -> small_election p k -> valid_call p k true None ->
  exists W, compute rnd nx (with_solvers nx sv (with_floats A e)) "seqphragmen" p (Z.of_nat k) None (args alg true None) = Ok [W] /\
    is_committee p k W /\ close_phragmen_winner p (2 # 1000000000000) k W.
Proof.
  intros A rnd nx sv e p k alg HA Halg [H1 H2] Hc. pose proof (float_call_eq A rnd nx sv e p k alg Halg true None Hc) as E.
  destruct Hc as (Hw & _ & Hk & _). destruct (f_seqphragmen_answers A HA p k Hw Hk H1 H2 true None I) as (l & El & _ & _ & Hin & Hl).
  destruct l as [|W [|]]; try discriminate. exists W. split; [transitivity (f_seqphragmen A p k true None); [exact E|exact El]|].
  assert (HW := Hin W (or_introl eq_refl)).
  split; [apply (f_winner_committee A HA p k Hw Hk H1 H2); auto|apply (f_winner_close A HA p k Hw Hk H1 H2); auto].
Qed.
Print Assumptions C80_resolute.
(** without near ties the result is the exact one, for all arguments *)
Theorem C80_no_near_ties : forall A rnd nx sv e p k alg resolute maxn, float_ok A -> In alg ["float-fractions"; "fastest"] -> small_election p k ->
  valid_call p k resolute maxn -> no_near_ties p k ->
  let call alg := compute rnd nx (with_solvers nx sv (with_floats A e)) "seqphragmen" p (Z.of_nat k) None (args alg resolute maxn) in
  call alg = call "standard-fractions".
Proof.
  intros A rnd nx sv e p k alg resolute maxn HA Halg [H1 H2] Hc Hn. cbv zeta.
  transitivity (f_seqphragmen A p k resolute (limit maxn)); [apply (float_call_eq A rnd nx sv e p k alg Halg); auto|].
  transitivity (seqphragmen p k resolute (limit maxn)); [|symmetry; apply (exact_call_eq A rnd nx sv e p k); auto].
  destruct Hc as (Hw & _ & Hk & _). apply f_seqphragmen_exact; auto.
Qed.
Print Assumptions C80_no_near_ties.
(** in particular for integer weights of at most [N] in total if [N ^ (k + 1) * (k + 1) < 5 * 10^11] *)
Theorem C80_integer_weights : forall A rnd nx sv e p k N alg resolute maxn, float_ok A -> In alg ["float-fractions"; "fastest"] -> small_election p k ->
  valid_call p k resolute maxn -> integer_weights p -> (wsum (voters p) <= Qnat N)%Q ->
  (Z.of_nat N ^ (Z.of_nat k + 1) * (Z.of_nat k + 1) < 500000000000)%Z ->
  let call alg := compute rnd nx (with_solvers nx sv (with_floats A e)) "seqphragmen" p (Z.of_nat k) None (args alg resolute maxn) in
  call alg = call "standard-fractions".
Proof.
  intros A rnd nx sv e p k N alg resolute maxn HA Halg Hs Hc Hi HN Hb. pose proof Hc as (Hw & Hv & _).
  exact (C80_no_near_ties A rnd nx sv e p k alg resolute maxn HA Halg Hs Hc (integer_no_near_ties p N Hw Hi HN Hv k Hb)).
Qed.
Print Assumptions C80_integer_weights.

(** In a large electorate the default elects the candidate with fewer supporters: 10^6 against 10^6 + 1. *)
Definition large_electorate : profile := mkp 2 [mkv [0] (1000000 # 1); mkv [1] (1000001 # 1)].
Theorem C80_large_electorate_refuted : ~ (forall A rnd nx sv e p k, float_ok A -> small_election p k -> integer_weights p -> valid_call p k true None ->
  let call alg := compute rnd nx (with_solvers nx sv (with_floats A e)) "seqphragmen" p (Z.of_nat k) None (args alg true None) in
  call "fastest" = call "standard-fractions").
Proof.
  intros H.
  assert (Hs : small_election large_electorate 1).
  { split; [|vm_compute; discriminate]. cbn. intros v [<-|[<-|[]]]; cbn; lra. }
  assert (Hi : integer_weights large_electorate).
  { intros v [<-|[<-|[]]]; [exists (Z.to_nat 1000000)|exists (Z.to_nat 1000001)]; (split; [lia|unfold Qnat; rewrite Z2Nat.id by lia; reflexivity]). }
  assert (Hc : valid_call large_electorate 1 true None) by (split; [wf_tac|]; cbn; split; [discriminate|]; split; [lia|auto]).
  pose proof (H binary64 id_random ref_nx (ref_solvers large_electorate) ex_env large_electorate 1 binary64_ok Hs Hi Hc) as HC.
  vm_compute in HC. discriminate.
Qed.
Print Assumptions C80_large_electorate_refuted.

Lemma ex_unit_integer : integer_weights ex_unit.
Proof. intros v Hv. exists 1. split; auto. revert v Hv. cbn. intros v H. repeat (destruct H as [<-|H]; [reflexivity|]). destruct H. Qed.
Example C80_example : float_ok binary64 /\ small_election ex_unit 3 /\ valid_call ex_unit 3 false None /\ integer_weights ex_unit /\
  (wsum (voters ex_unit) <= Qnat 8)%Q /\ (8 ^ (3 + 1) * (3 + 1) < 500000000000)%Z /\ no_near_ties ex_unit 3 /\
  float_call ex_unit 3 "seqphragmen" "fastest" false None = Ok [[0; 2; 3]; [0; 2; 4]; [1; 2; 3]; [1; 2; 4]] /\
  float_call large_electorate 1 "seqphragmen" "fastest" true None = Ok [[0]] /\
  float_call large_electorate 1 "seqphragmen" "standard-fractions" true None = Ok [[1]].
Proof.
  assert (HN : (wsum (voters ex_unit) <= Qnat 8)%Q) by (vm_compute; discriminate).
  split; [apply binary64_ok|]. split; [apply ex_unit_small|]. split; [apply ex_unit_valid|]. split; [apply ex_unit_integer|]. split; [exact HN|]. split; [reflexivity|].
  split; [|repeat split; vm_compute; reflexivity].
  apply (integer_no_near_ties ex_unit 8 ex_unit_wf ex_unit_integer HN); [cbn; discriminate|reflexivity].
Qed.
