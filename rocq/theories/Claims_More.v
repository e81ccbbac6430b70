(** * Claims C19, C20: Random Serial Dictator and E Pluribus Hugo *)
From Coq Require Import String.
From Coq Require Import List Arith Bool ZArith QArith Lia Lqa Permutation Sorted.
From Verif Require Import Prelude Misc Preferences Scores Search Rule RulesThiele Spec SpecRules Compute SpecCompute
  ComputeSeq RulesMore SpecMore RsdProofs EphProofs ExampleData.
Import ListNotations.
Local Open Scope string_scope.
Open Scope nat_scope.
Local Open Scope list_scope.

(** ** C19 *)

(** whatever the random module returns, the result is the outcome for some order of dictators *)
Theorem C19_rsd : forall rnd e p k, random_ok rnd -> valid_call p k true None -> unit_weights p ->
  exists W, compute_rsd rnd e p (Z.of_nat k) "standard" true None = Ok [W] /\ rsd_outcome p k W.
Proof. exact compute_rsd_correct. Qed.
Print Assumptions C19_rsd.

(** and every such outcome can happen *)
Theorem C19_every_outcome : forall e p k W, valid_call p k true None -> unit_weights p -> rsd_outcome p k W ->
  exists rnd, random_ok rnd /\ compute_rsd rnd e p (Z.of_nat k) "standard" true None = Ok [W].
Proof. exact rsd_every_outcome. Qed.
Print Assumptions C19_every_outcome.

Theorem C19_first_dictator : forall p k v order W, NoDup (approved v) -> length (approved v) <= k ->
  serial_outcome p k (v :: order) W -> incl (approved v) W.
Proof. exact rsd_first_dictator. Qed.
Print Assumptions C19_first_dictator.

Theorem C19_greedy_dictator : forall p k v order W, NoDup (approved v) -> k <= length (approved v) ->
  serial_outcome p k (v :: order) W -> W = firstn k (isort (approved v)).
Proof. exact rsd_dictator_full. Qed.
Print Assumptions C19_greedy_dictator.

Definition ex_random : random := mkRandom (fun l => rev l) (fun l n => firstn n l).
Example C19_example : random_ok ex_random /\ valid_call ex_unit 3 true None /\ unit_weights ex_unit /\
  compute_rsd ex_random ex_env ex_unit 3 "standard" true None = Ok [[2;3;4]].
Proof.
  split.
  { split; [intros l; symmetry; apply Permutation_rev|]. intros l n H. cbn. split; [rewrite firstn_length; lia|].
    exists (skipn n l). rewrite firstn_skipn. auto. }
  split; [apply ex_unit_valid|]. split; [apply ex_unit_unit|]. vm_compute. reflexivity.
Qed.

(** ** C20 *)
Theorem C20_eph : forall e p k alg resolute maxn, exact_arithmetic e alg -> valid_call p k resolute maxn -> 2 <= num_cand p ->
  answers (eph_winner p k) resolute (limit maxn) (compute_eph e p (Z.of_nat k) alg resolute maxn) /\
  (resolute = true -> exists W l, compute_eph e p (Z.of_nat k) alg true maxn = Ok [W] /\
                                  compute_eph e p (Z.of_nat k) alg false maxn = Ok (W :: l)).
Proof. exact compute_eph_correct. Qed.
Print Assumptions C20_eph.

(** With a single candidate there is no second smallest score. *)
Theorem C20_single_candidate_refuted : forall e p alg resolute maxn, exact_arithmetic e alg -> valid_call p 1 resolute maxn -> num_cand p = 1 ->
  compute_eph e p 1 alg resolute maxn = Err IndexError.
Proof. exact compute_eph_single. Qed.
Print Assumptions C20_single_candidate_refuted.

Example C20_example : exact_arithmetic ex_env "standard-fractions" /\ valid_call ex_unit 3 false None /\ 2 <= num_cand ex_unit /\
  compute_eph ex_env ex_unit 3 "standard-fractions" false None = Ok [[0; 1; 2]] /\
  compute_eph ex_env ex_unit 4 "standard-fractions" false None = Ok [[0; 1; 2; 3]; [0; 1; 2; 4]] /\
  valid_call (mkp 1 [mkv [0] 1]) 1 true None.
Proof.
  split; [left; reflexivity|]. split; [apply ex_unit_valid|]. split; [cbn; lia|]. split; [vm_compute; reflexivity|]. split; [vm_compute; reflexivity|].
  split; [wf_tac|]. cbn. split; [discriminate|]. split; [lia|auto].
Qed.
