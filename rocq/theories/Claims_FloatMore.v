(** * Claim C82: the default algorithm of E Pluribus Hugo and of the rules with budgets is the exact one if there are no near ties

    Specification of near ties: SpecFloatMore.v.  As in Claims_Float.v, [A] is the machine's arithmetic. *)
From Coq Require Import String.
From Coq Require Import List Arith Bool ZArith QArith Lia Lqa Permutation.
From Verif Require Import Prelude Misc MiscProofs Preferences Scores Spec SpecRules Rule Compute ComputeProofs SpecCompute SpecSeq ComputeSeq ComputeSeqProofs RulesSeq RulesMonroe
  RulesMore SpecMore MonroeExample ExampleData PrefProofs Milp RulesSolver SolverCompute ComputeAll SpecAll AllProofs Claims_All Claims_Seq
  Floats RulesFloat SpecFloat FloatPhragmen FloatBinary FloatIncrement FloatCompute FloatExact SpecFloatMore FloatEph FloatConsensus FloatEnestroem Claims_Float.
Import ListNotations.
Local Open Scope string_scope.
Open Scope nat_scope.
Local Open Scope list_scope.

Section Calls.
  Variables (A : arith) (rnd : random) (nx : networkx) (sv : solvers) (e : env) (p : profile) (k : nat) (resolute : bool) (maxn : option pyobj).
  Hypothesis Hc : valid_call p k resolute maxn.
  Let call id alg := compute rnd nx (with_solvers nx sv (with_floats A e)) id p (Z.of_nat k) None (args alg resolute maxn).

  Lemma eph_exact_call : call "eph" "standard-fractions" = (do cs <- eph_algorithm p k resolute (limit maxn); sorted_committees cs).
  Proof using Hc.
    unfold call. rewrite (compute_plain rnd nx sv (with_floats A e) "eph" (mkRule "eph" FRACTION_ALGORITHMS [false; true])) by reflexivity.
    change (compute_eph (with_solvers nx sv (with_floats A e)) p (Z.of_nat k) "standard-fractions" resolute maxn = (do cs <- eph_algorithm p k resolute (limit maxn); sorted_committees cs)).
    unfold compute_eph.
    erewrite (run_fractions _ "eph" _ p k "standard-fractions" resolute maxn (fun k maxn => do cs <- eph_algorithm p k resolute maxn; sorted_committees cs));
      [reflexivity|auto|left; reflexivity|reflexivity|reflexivity|destruct resolute; reflexivity].
  Qed.
  Lemma consensus_exact_call : call "consensus-rule" "standard-fractions" = consensus_rule p k resolute (limit maxn).
  Proof using Hc.
    unfold call. rewrite (compute_plain rnd nx sv (with_floats A e) "consensus-rule" (mkRule "consensus-rule" FRACTION_ALGORITHMS SEQ_RESOLUTE)) by reflexivity.
    change (compute_consensus_rule (with_solvers nx sv (with_floats A e)) p (Z.of_nat k) "standard-fractions" resolute maxn = consensus_rule p k resolute (limit maxn)).
    unfold compute_consensus_rule.
    erewrite (run_fractions _ "consensus-rule" _ p k "standard-fractions" resolute maxn (fun k maxn => consensus_rule p k resolute maxn));
      [reflexivity|auto|left; reflexivity|reflexivity|reflexivity|destruct resolute; reflexivity].
  Qed.
  Lemma enestroem_exact_call : call "phragmen-enestroem" "standard-fractions" = phragmen_enestroem p k resolute (limit maxn).
  Proof using Hc.
    unfold call. rewrite (compute_plain rnd nx sv (with_floats A e) "phragmen-enestroem" (mkRule "phragmen-enestroem" FRACTION_ALGORITHMS SEQ_RESOLUTE)) by reflexivity.
    change (compute_phragmen_enestroem (with_solvers nx sv (with_floats A e)) p (Z.of_nat k) "standard-fractions" resolute maxn = phragmen_enestroem p k resolute (limit maxn)).
    unfold compute_phragmen_enestroem.
    erewrite (run_fractions _ "phragmen-enestroem" _ p k "standard-fractions" resolute maxn (fun k maxn => phragmen_enestroem p k resolute maxn));
      [reflexivity|auto|left; reflexivity|reflexivity|reflexivity|destruct resolute; reflexivity].
  Qed.
End Calls.

(** ** E Pluribus Hugo *)
Theorem C82_eph : forall A rnd nx sv e p k alg resolute maxn, float_ok A -> In alg ["float-fractions"; "fastest"] ->
  (Z.of_nat (length (voters p)) <= 2100)%Z -> 2 <= num_cand p -> valid_call p k resolute maxn -> eph_no_near_ties p k ->
  let call alg := compute rnd nx (with_solvers nx sv (with_floats A e)) "eph" p (Z.of_nat k) None (args alg resolute maxn) in
  call alg = call "standard-fractions".
Proof.
  intros A rnd nx sv e p k alg resolute maxn HA Halg Hs H2 Hc Hn. cbv zeta.
  transitivity (f_eph A p k resolute (limit maxn)); [apply (compute_floats A rnd nx sv e p k alg resolute maxn Halg Hc "eph" "eph"); cbn; tauto|].
  transitivity (do cs <- eph_algorithm p k resolute (limit maxn); sorted_committees cs); [|symmetry; apply (eph_exact_call A rnd nx sv e p k resolute maxn Hc)]. pose proof Hc as (Hw & _ & Hk & _).
  apply (f_eph_exact A HA p k Hw Hs Hn); auto. lia.
Qed.
Print Assumptions C82_eph.
(** in particular for integer weights of at most [N] in total if [(N + 1) * L < 5 * 10^11], [L] being a common multiple of 1, ..., number of candidates *)
Theorem C82_eph_integer_weights : forall A rnd nx sv e p k N (L : positive) alg resolute maxn, float_ok A -> In alg ["float-fractions"; "fastest"] ->
  (Z.of_nat (length (voters p)) <= 2100)%Z -> 2 <= num_cand p -> valid_call p k resolute maxn ->
  integer_weights p -> (wsum (voters p) <= Qnat N)%Q -> (forall i, 1 <= i <= num_cand p -> Nat.divide i (Pos.to_nat L)) ->
  ((Z.of_nat N + 1) * Zpos L < 500000000000)%Z ->
  let call alg := compute rnd nx (with_solvers nx sv (with_floats A e)) "eph" p (Z.of_nat k) None (args alg resolute maxn) in
  call alg = call "standard-fractions".
Proof.
  intros A rnd nx sv e p k N L alg resolute maxn HA Halg Hs H2 Hc Hi HN HL Hb. pose proof Hc as (Hw & _).
  exact (C82_eph A rnd nx sv e p k alg resolute maxn HA Halg Hs H2 Hc (eph_integer_clear p k N L Hw Hi HN HL Hb)).
Qed.
Print Assumptions C82_eph_integer_weights.

Example C82_eph_example : float_ok binary64 /\ (Z.of_nat (length (voters ex_unit)) <= 2100)%Z /\ 2 <= num_cand ex_unit /\ valid_call ex_unit 3 false None /\
  integer_weights ex_unit /\ (wsum (voters ex_unit) <= Qnat 8)%Q /\ (forall i, 1 <= i <= num_cand ex_unit -> Nat.divide i (Pos.to_nat 60)) /\
  ((Z.of_nat 8 + 1) * 60 < 500000000000)%Z /\ eph_no_near_ties ex_unit 3 /\
  float_call ex_unit 3 "eph" "fastest" false None = Ok [[0; 1; 2]].
Proof.
  assert (HN : (wsum (voters ex_unit) <= Qnat 8)%Q) by (vm_compute; discriminate).
  assert (HL : forall i, 1 <= i <= num_cand ex_unit -> Nat.divide i (Pos.to_nat 60)).
  { intros i Hi. change (num_cand ex_unit) with 5 in Hi. assert (i = 1 \/ i = 2 \/ i = 3 \/ i = 4 \/ i = 5) as H by lia.
    destruct H as [-> | [-> | [-> | [-> | -> ]]]]; [exists 60|exists 30|exists 20|exists 15|exists 12]; reflexivity. }
  split; [apply binary64_ok|]. split; [vm_compute; discriminate|]. split; [cbn; lia|]. split; [apply ex_unit_valid|]. split; [apply ex_unit_integer|]. split; [exact HN|].
  split; [exact HL|]. split; [reflexivity|]. split; [apply (eph_integer_clear ex_unit 3 8 60 ex_unit_wf ex_unit_integer HN HL); reflexivity|]. vm_compute. reflexivity.
Qed.

(** ** The consensus rule *)
Theorem C82_consensus : forall A rnd nx sv e p k alg resolute maxn, float_ok A -> In alg ["float-fractions"; "fastest"] ->
  small_budgets p k -> valid_call p k resolute maxn -> consensus_no_near_ties p k ->
  let call alg := compute rnd nx (with_solvers nx sv (with_floats A e)) "consensus-rule" p (Z.of_nat k) None (args alg resolute maxn) in
  call alg = call "standard-fractions".
Proof.
  intros A rnd nx sv e p k alg resolute maxn HA Halg Hs Hc Hn. cbv zeta.
  transitivity (f_consensus_rule A p k resolute (limit maxn)); [apply (compute_floats A rnd nx sv e p k alg resolute maxn Halg Hc "consensus-rule" "consensus-rule"); cbn; tauto|].
  transitivity (consensus_rule p k resolute (limit maxn)); [|symmetry; apply (consensus_exact_call A rnd nx sv e p k resolute maxn Hc)]. pose proof Hc as (Hw & _ & Hk & _).
  apply (f_consensus_exact A HA p k Hw Hs Hk Hn).
Qed.
Print Assumptions C82_consensus.
(** in particular for integer weights of at most [N] in total if [N ^ k * 2 * k < 5 * 10^11] *)
Theorem C82_consensus_integer_weights : forall A rnd nx sv e p k N alg resolute maxn, float_ok A -> In alg ["float-fractions"; "fastest"] ->
  small_budgets p k -> valid_call p k resolute maxn -> integer_weights p -> (wsum (voters p) <= Qnat N)%Q ->
  (Z.of_nat N ^ Z.of_nat k * (2 * Z.of_nat k) < 500000000000)%Z ->
  let call alg := compute rnd nx (with_solvers nx sv (with_floats A e)) "consensus-rule" p (Z.of_nat k) None (args alg resolute maxn) in
  call alg = call "standard-fractions".
Proof.
  intros A rnd nx sv e p k N alg resolute maxn HA Halg Hs Hc Hi HN Hb. pose proof Hc as (Hw & Hv & Hk & _).
  exact (C82_consensus A rnd nx sv e p k alg resolute maxn HA Halg Hs Hc (consensus_integer_clear p N Hw Hi HN Hv k Hb)).
Qed.
Print Assumptions C82_consensus_integer_weights.

Example C82_consensus_example : float_ok binary64 /\ small_budgets ex_unit 3 /\ valid_call ex_unit 3 false None /\
  integer_weights ex_unit /\ (wsum (voters ex_unit) <= Qnat 8)%Q /\ consensus_no_near_ties ex_unit 3 /\
  float_call ex_unit 3 "consensus-rule" "fastest" false None = Ok [[0; 2; 3]; [0; 2; 4]; [1; 2; 3]; [1; 2; 4]].
Proof.
  assert (HN : (wsum (voters ex_unit) <= Qnat 8)%Q) by (vm_compute; discriminate). assert (Hv : voters ex_unit <> []) by discriminate.
  split; [apply binary64_ok|]. split; [split; vm_compute; discriminate|]. split; [apply ex_unit_valid|]. split; [apply ex_unit_integer|]. split; [exact HN|].
  split; [apply (consensus_integer_clear ex_unit 8 ex_unit_wf ex_unit_integer HN Hv); reflexivity|]. vm_compute. reflexivity.
Qed.

(** ** Phragmén's method as described by Eneström *)
Theorem C82_enestroem : forall A rnd nx sv e p k alg resolute maxn, float_ok A -> In alg ["float-fractions"; "fastest"] ->
  small_purses p k -> valid_call p k resolute maxn -> enestroem_no_near_ties p k ->
  let call alg := compute rnd nx (with_solvers nx sv (with_floats A e)) "phragmen-enestroem" p (Z.of_nat k) None (args alg resolute maxn) in
  call alg = call "standard-fractions".
Proof.
  intros A rnd nx sv e p k alg resolute maxn HA Halg Hs Hc Hn. cbv zeta.
  transitivity (f_phragmen_enestroem A p k resolute (limit maxn)); [apply (compute_floats A rnd nx sv e p k alg resolute maxn Halg Hc "phragmen-enestroem" "phragmen-enestroem"); cbn; tauto|].
  transitivity (phragmen_enestroem p k resolute (limit maxn)); [|symmetry; apply (enestroem_exact_call A rnd nx sv e p k resolute maxn Hc)]. pose proof Hc as (Hw & _ & Hk & _).
  apply (f_enestroem_exact A HA p k Hw (proj1 Hk) Hs Hk Hn).
Qed.
Print Assumptions C82_enestroem.
(** in particular for integer weights of at most [N] in total if [(k * N) ^ (2 ^ (k - 1) - 1) * (N + 1) < 5 * 10^11] *)
Theorem C82_enestroem_integer_weights : forall A rnd nx sv e p k N alg resolute maxn, float_ok A -> In alg ["float-fractions"; "fastest"] ->
  small_purses p k -> valid_call p k resolute maxn -> integer_weights p -> (wsum (voters p) <= Qnat N)%Q ->
  ((Z.of_nat k * Z.of_nat N) ^ (2 ^ (Z.of_nat k - 1) - 1) * (Z.of_nat N + 1) < 500000000000)%Z ->
  let call alg := compute rnd nx (with_solvers nx sv (with_floats A e)) "phragmen-enestroem" p (Z.of_nat k) None (args alg resolute maxn) in
  call alg = call "standard-fractions".
Proof.
  intros A rnd nx sv e p k N alg resolute maxn HA Halg Hs Hc Hi HN Hb. pose proof Hc as (Hw & Hv & Hk & _).
  exact (C82_enestroem A rnd nx sv e p k alg resolute maxn HA Halg Hs Hc (enestroem_integer_clear p N k Hw Hi HN Hv (proj1 Hk) Hb)).
Qed.
Print Assumptions C82_enestroem_integer_weights.

Example C82_enestroem_example : float_ok binary64 /\ small_purses ex_unit 3 /\ valid_call ex_unit 3 false None /\
  integer_weights ex_unit /\ (wsum (voters ex_unit) <= Qnat 8)%Q /\ enestroem_no_near_ties ex_unit 3 /\
  float_call ex_unit 3 "phragmen-enestroem" "fastest" false None = Ok [[0; 2; 3]; [0; 2; 4]; [1; 2; 3]; [1; 2; 4]].
Proof.
  assert (HN : (wsum (voters ex_unit) <= Qnat 8)%Q) by (vm_compute; discriminate). assert (Hv : voters ex_unit <> []) by discriminate.
  split; [apply binary64_ok|]. split; [split; vm_compute; discriminate|]. split; [apply ex_unit_valid|]. split; [apply ex_unit_integer|]. split; [exact HN|].
  split; [apply (enestroem_integer_clear ex_unit 8 3 ex_unit_wf ex_unit_integer HN Hv); [lia|reflexivity]|]. vm_compute. reflexivity.
Qed.
