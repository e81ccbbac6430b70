(** * Claim C83: for integer weights the default algorithm of the Method of Equal Shares is the exact one

    Specification of the sizes: SpecFloatMore.v.  As in Claims_Float.v, [A] is the machine's arithmetic. *)
From Coq Require Import String.
From Coq Require Import List Arith Bool ZArith QArith Lia Lqa Permutation.
From Verif Require Import Prelude Misc MiscProofs Preferences Scores Spec SpecRules Rule Compute ComputeProofs SpecCompute SpecSeq ComputeSeq ComputeSeqProofs RulesSeq RulesMes RulesMonroe
  RulesMore SpecMore MonroeExample ExampleData PrefProofs Milp RulesSolver SolverCompute ComputeAll SpecAll AllProofs Claims_All Claims_Seq
  Floats RulesFloat SpecFloat FloatPhragmen FloatBinary FloatIncrement FloatCompute FloatExact SpecFloatMore FloatMesExact FloatLoads Claims_Float.
Import ListNotations.
Local Open Scope string_scope.
Open Scope nat_scope.
Local Open Scope list_scope.

Section Calls.
  Variables (A : arith) (rnd : random) (nx : networkx) (sv : solvers) (e : env) (p : profile) (k : nat) (resolute : bool) (maxn : option pyobj).
  Hypothesis Hc : valid_call p k resolute maxn.
  Let e' := with_solvers nx sv (with_floats A e).
  Lemma mes_exact_call : forall id s c, In (id, s, c)
      [("rule-x", Some "seqphragmen", PhragmenCompletion); ("equal-shares", Some "seqphragmen", PhragmenCompletion);
       ("equal-shares-with-seqphragmen-completion", Some "seqphragmen", PhragmenCompletion); ("equal-shares-with-av-completion", Some "av", AvCompletion);
       ("rule-x-without-phragmen-phase", None, NoCompletion); ("equal-shares-without-phragmen-phase", None, NoCompletion); ("equal-shares-without-completion", None, NoCompletion);
       ("equal-shares-with-increment-completion", Some "increment", IncrementCompletion)] -> (c = IncrementCompletion -> resolute = true) ->
    compute rnd nx e' id p (Z.of_nat k) None (args "standard-fractions" resolute maxn) = equal_shares_rule p k resolute (limit maxn) c.
  Proof using Hc.
    intros id s c Hin Hr. unfold compute.
    repeat (destruct Hin as [Hin|Hin]; [injection Hin as <- <- <-|]); [..|destruct Hin].
    all: match goal with |- (do r <- lookup_rule ?e ?id; _) = equal_shares_rule _ _ _ _ ?c =>
           let Hl := fresh in assert (Hl : exists r, lookup_rule e id = Ok r) by (eexists; reflexivity); destruct Hl as (r & ->); cbn [rbind];
           transitivity (compute_fct rnd nx e id p (Z.of_nat k) (args "standard-fractions" resolute maxn));
           [destruct (compute_fct rnd nx e id p (Z.of_nat k) (args "standard-fractions" resolute maxn)); reflexivity|] end.
    all: match goal with |- _ = equal_shares_rule _ _ _ _ ?c =>
      let s := match c with PhragmenCompletion => constr:(Some "seqphragmen") | AvCompletion => constr:(Some "av") | NoCompletion => constr:(@None string) | IncrementCompletion => constr:(Some "increment") end in
      apply (compute_equal_shares_exact e' p k "standard-fractions" resolute maxn s c); [left; reflexivity|auto|eexists; reflexivity|auto] end.
  Qed.
End Calls.

(** ** No completion *)
Theorem C83_no_completion : forall A rnd nx sv e p k N id alg resolute maxn, float_ok A -> In alg ["float-fractions"; "fastest"] ->
  In id ["equal-shares-without-completion"; "equal-shares-without-phragmen-phase"; "rule-x-without-phragmen-phase"] ->
  valid_call p k resolute maxn -> integer_weights p -> (wsum (voters p) <= Qnat N)%Q -> small_shares p k k -> clear_shares k k N ->
  let call alg := compute rnd nx (with_solvers nx sv (with_floats A e)) id p (Z.of_nat k) None (args alg resolute maxn) in
  call alg = call "standard-fractions".
Proof.
  intros A rnd nx sv e p k N id alg resolute maxn HA Halg Hid Hc Hi HN Hs Hb. cbv zeta. pose proof Hc as (Hw & Hv & Hk & _).
  transitivity (f_equal_shares_rule A p k resolute (limit maxn) NoCompletion);
    [apply (compute_floats A rnd nx sv e p k alg resolute maxn Halg Hc id "equal-shares-without-completion"); destruct Hid as [<-|[<-|[<-|[]]]]; cbn; tauto|].
  rewrite (f_mes_none_exact A HA p k N Hw Hi HN Hv (proj1 Hk) Hs Hb). symmetry.
  apply (mes_exact_call A rnd nx sv e p k resolute maxn Hc id None); [destruct Hid as [<-|[<-|[<-|[]]]]; cbn; tauto|discriminate].
Qed.
Print Assumptions C83_no_completion.

(** ** Completion by approval voting *)
Theorem C83_av_completion : forall A rnd nx sv e p k N alg resolute maxn, float_ok A -> In alg ["float-fractions"; "fastest"] ->
  valid_call p k resolute maxn -> integer_weights p -> (wsum (voters p) <= Qnat N)%Q -> small_shares p k k -> clear_shares k k N ->
  let call alg := compute rnd nx (with_solvers nx sv (with_floats A e)) "equal-shares-with-av-completion" p (Z.of_nat k) None (args alg resolute maxn) in
  call alg = call "standard-fractions".
Proof.
  intros A rnd nx sv e p k N alg resolute maxn HA Halg Hc Hi HN Hs Hb. cbv zeta. pose proof Hc as (Hw & Hv & Hk & _).
  transitivity (f_equal_shares_rule A p k resolute (limit maxn) AvCompletion);
    [apply (compute_floats A rnd nx sv e p k alg resolute maxn Halg Hc _ "equal-shares-with-av-completion"); cbn; tauto|].
  rewrite (f_mes_av_exact A HA p k N Hw Hi HN Hv (proj1 Hk) Hs Hb). symmetry.
  apply (mes_exact_call A rnd nx sv e p k resolute maxn Hc _ (Some "av")); [cbn; tauto|discriminate].
Qed.
Print Assumptions C83_av_completion.

(** ** Completion by sequential Phragmén, the default of the library *)
Theorem C83_phragmen_completion : forall A rnd nx sv e p k N id alg resolute maxn, float_ok A -> In alg ["float-fractions"; "fastest"] ->
  In id ["equal-shares"; "equal-shares-with-seqphragmen-completion"; "rule-x"] ->
  valid_call p k resolute maxn -> integer_weights p -> (wsum (voters p) <= Qnat N)%Q -> small_shares p (2 * k + 2) k -> clear_shares k (2 * k) N ->
  let call alg := compute rnd nx (with_solvers nx sv (with_floats A e)) id p (Z.of_nat k) None (args alg resolute maxn) in
  call alg = call "standard-fractions".
Proof.
  intros A rnd nx sv e p k N id alg resolute maxn HA Halg Hid Hc Hi HN Hs Hb. cbv zeta. pose proof Hc as (Hw & Hv & Hk & _).
  transitivity (f_equal_shares_rule A p k resolute (limit maxn) PhragmenCompletion);
    [apply (compute_floats A rnd nx sv e p k alg resolute maxn Halg Hc id "equal-shares"); destruct Hid as [<-|[<-|[<-|[]]]]; cbn; tauto|].
  rewrite (f_mes_phragmen_exact A HA p k N Hw Hi HN Hv Hk Hs Hb). symmetry.
  apply (mes_exact_call A rnd nx sv e p k resolute maxn Hc id (Some "seqphragmen")); [destruct Hid as [<-|[<-|[<-|[]]]]; cbn; tauto|discriminate].
Qed.
Print Assumptions C83_phragmen_completion.

(** ** Completion by increasing the budgets *)
Theorem C83_increment_completion : forall A rnd nx sv e p k N alg, float_ok A -> In alg ["float-fractions"; "fastest"] ->
  valid_call p k true None -> integer_weights p -> (wsum (voters p) <= Qnat N)%Q -> small_shares p k (k * N) -> clear_shares k (k * N) N ->
  let call alg := compute rnd nx (with_solvers nx sv (with_floats A e)) "equal-shares-with-increment-completion" p (Z.of_nat k) None (args alg true None) in
  call alg = call "standard-fractions".
Proof.
  intros A rnd nx sv e p k N alg HA Halg Hc Hi HN Hs Hb. cbv zeta. pose proof Hc as (Hw & Hv & Hk & _).
  rewrite (compute_increment A rnd nx sv e p k alg Halg Hc).
  transitivity (f_equal_shares_rule A p k true None IncrementCompletion); [reflexivity|].
  rewrite (f_mes_increment_exact A HA p k N Hw Hi HN Hv (proj1 Hk) Hs Hb). symmetry.
  apply (mes_exact_call A rnd nx sv e p k true None Hc _ (Some "increment")); [cbn; tauto|auto].
Qed.
Print Assumptions C83_increment_completion.

Example C83_example : float_ok binary64 /\ valid_call ex_unit 3 false None /\ valid_call ex_unit 3 true None /\ integer_weights ex_unit /\ (wsum (voters ex_unit) <= Qnat 8)%Q /\
  small_shares ex_unit 3 3 /\ clear_shares 3 3 8 /\ small_shares ex_unit (2 * 3 + 2) 3 /\ clear_shares 3 (2 * 3) 8 /\ small_shares ex_unit 3 (3 * 8) /\ clear_shares 3 (3 * 8) 8 /\
  float_call ex_unit 3 "equal-shares-without-completion" "fastest" false None = Ok [[0]; [1]; [2]] /\
  float_call ex_unit 3 "equal-shares-with-av-completion" "fastest" false None = Ok [[0; 1; 2]] /\
  float_call ex_unit 3 "equal-shares" "fastest" false None = Ok [[0; 2; 3]; [0; 2; 4]; [1; 2; 3]; [1; 2; 4]] /\
  float_call ex_unit 3 "equal-shares-with-increment-completion" "fastest" true None = Ok [[0; 1; 2]].
Proof.
  split; [apply binary64_ok|]. split; [apply ex_unit_valid|]. split; [apply ex_unit_valid|]. split; [apply ex_unit_integer|].
  repeat (split; [solve [vm_compute; reflexivity|vm_compute; discriminate]|]). vm_compute. reflexivity.
Qed.
