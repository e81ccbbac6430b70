(** * Claims C61 (neutrality), C29 (anonymity, every rule) and C62 (homogeneity)

    [renamed], [scaled] and [scale_dependent] are defined in SpecIso.v; [listed],
    [listed_short] and [libraries_ok] in SpecAll.v. *)
From Coq Require Import String.
From Coq Require Import List Arith Bool ZArith QArith Lia Lqa Permutation.
From Verif Require Import Prelude Misc MiscProofs Preferences Scores Spec SpecRules Rule Compute SpecCompute SpecSeq SpecLoads SolverLex SolverPhragmen
  MonroeExample ExampleData Milp RulesMonroe RulesSolver SolverCompute ComputeAll SpecAll AllProofs SpecIso Iso IsoSeq IsoAll Claims_All.
Import ListNotations.
Local Open Scope string_scope.
Open Scope nat_scope.
Local Open Scope list_scope.

(** ** C61: the rules do not look at the names of the candidates (nor at the order of the voters) *)
Theorem C61_neutral_and_anonymous : forall rnd nx sv rnd' nx' sv' e p q s k id alg,
  libraries_ok p rnd nx sv e -> libraries_ok q rnd' nx' sv' e -> renamed 1 s p q ->
  listed e p k id alg \/ listed_short e id alg -> (id = "sav" -> fraction_weights p) -> valid_call p k false None ->
  exists l l', compute rnd nx (with_solvers nx sv e) id p (Z.of_nat k) None (args alg false None) = Ok l /\
    compute rnd' nx' (with_solvers nx' sv' e) id q (Z.of_nat k) None (args alg false None) = Ok l' /\
    Permutation (map (rename s) l) l'.
Proof.
  intros rnd nx sv rnd' nx' sv' e p q s k id alg H1 H2 H3 H4 H5 H6.
  destruct (renamed_results _ _ _ _ _ _ _ _ _ _ _ _ _ H1 H2 H3 H4 H5 H6) as (l & l' & E & E' & HP & _).
  exists l, l'. split; [exact E|]. split; [exact E'|exact HP].
Qed.
Print Assumptions C61_neutral_and_anonymous.

(** every candidate gets the next number, the last one gets 0; other order of the voters and of the approval sets *)
Definition ex_shift (c : nat) : nat := match c with 4 => 0 | _ => S c end.
Definition ex_shifted : profile := mkp 5 [mkv [3] 1; mkv [0;4] 1; mkv [] 1; mkv [1;2] 1; mkv [3;2;1] 1].
Lemma ex_shifted_renamed : renamed 1 ex_shift ex_unit ex_shifted.
Proof.
  split; [reflexivity|]. split.
  - split.
    + intros c Hc. cbn in *. do 5 (destruct c as [|c]; [cbn; lia|]). lia.
    + intros c d Hc Hd E. cbn in *. do 5 (destruct c as [|c]; [do 5 (destruct d as [|d]; [cbn in E; congruence|]); lia|]). lia.
  - exists [mkv [1;2] 1; mkv [3;2;1] 1; mkv [3] 1; mkv [0;4] 1; mkv [] 1]. split; [apply (Permutation_app_comm [mkv [1;2] 1; mkv [3;2;1] 1])|].
    assert (R : forall a b, Permutation (map ex_shift a) b -> renamed_voter 1 ex_shift (mkv a 1) (mkv b 1)) by (intros a b H; split; [exact H|split; reflexivity]).
    constructor; [apply R; apply Permutation_refl|]. constructor; [apply R; apply (Permutation_rev [1;2;3])|]. constructor; [apply R; apply Permutation_refl|].
    constructor; [apply R; apply perm_swap|]. constructor; [apply R; apply Permutation_refl|constructor].
Qed.
Example C61_example :
  let call p id alg := compute id_random ref_nx (with_solvers ref_nx (ref_solvers p) ex_env) id p 3 None (args alg false None) in
  libraries_ok ex_unit id_random ref_nx (ref_solvers ex_unit) ex_env /\ libraries_ok ex_shifted id_random ref_nx (ref_solvers ex_shifted) ex_env /\
  renamed 1 ex_shift ex_unit ex_shifted /\ valid_call ex_unit 3 false None /\
  listed ex_env ex_unit 3 "seqgeom2" "standard" /\ listed ex_env ex_unit 3 "monroe" "brute-force" /\
  listed_short ex_env "equal-shares-without-completion" "standard-fractions" /\
  call ex_unit "seqgeom2" "standard" = Ok [[0; 2; 3]; [0; 2; 4]; [1; 2; 3]; [1; 2; 4]] /\
  call ex_shifted "seqgeom2" "standard" = Ok [[0; 1; 3]; [0; 2; 3]; [1; 3; 4]; [2; 3; 4]] /\
  call ex_unit "equal-shares-without-completion" "standard-fractions" = Ok [[0]; [1]; [2]] /\
  call ex_shifted "equal-shares-without-completion" "standard-fractions" = Ok [[1]; [2]; [3]].
Proof.
  cbv zeta. split; [apply example_libraries|]. split; [apply example_libraries|]. split; [apply ex_shifted_renamed|]. split; [apply ex_unit_valid|].
  split; [apply (l_seq ex_env ex_unit 3 "geom2" (geom_w 2)); apply (den_geom ex_env "2" 2%Q); [reflexivity|lra]|].
  split; [apply l_monroe; [apply ex_unit_unit|cbn; tauto]|].
  split; [constructor; [left; reflexivity|right; right; left; reflexivity]|].
  repeat split; vm_compute; reflexivity.
Qed.

(** ** C29, every rule: the order of the voters and the iteration order of the approval sets do not matter *)
Theorem C29_anonymity_every_rule : forall rnd nx sv rnd' nx' sv' e p q k id alg,
  libraries_ok p rnd nx sv e -> libraries_ok q rnd' nx' sv' e -> reordered p q ->
  listed e p k id alg \/ listed_short e id alg -> (id = "sav" -> fraction_weights p) -> valid_call p k false None ->
  exists l, compute rnd nx (with_solvers nx sv e) id p (Z.of_nat k) None (args alg false None) = Ok l /\
    compute rnd' nx' (with_solvers nx' sv' e) id q (Z.of_nat k) None (args alg false None) = Ok l.
Proof. exact reordered_results. Qed.
Print Assumptions C29_anonymity_every_rule.
Example C29_every_rule_example :
  let q := mkp 5 [mkv [3;4] 1; mkv [] 1; mkv [1;0] 1; mkv [2;1;0] 1; mkv [2] 1] in
  reordered ex_unit q /\ valid_call ex_unit 3 false None /\
  listed ex_env ex_unit 3 "minimaxphragmen" "mip-cbc" /\ listed ex_env ex_unit 3 "leximaxphragmen" "gurobi" /\
  listed ex_env ex_unit 3 "lexminimaxav" "gurobi" /\ listed ex_env ex_unit 3 "maximin-support" "gurobi".
Proof.
  cbv zeta. split.
  { split; [reflexivity|]. exists [mkv [3;4] 1; mkv [] 1; mkv [0;1] 1; mkv [0;1;2] 1; mkv [2] 1]. split; [apply (Permutation_app_comm [mkv [0;1] 1; mkv [0;1;2] 1; mkv [2] 1])|].
    assert (R : forall a b, Permutation a b -> relisted (mkv a 1) (mkv b 1)) by (intros a b H; split; [exact H|split; reflexivity]).
    constructor; [apply R; apply Permutation_refl|]. constructor; [apply R; apply Permutation_refl|]. constructor; [apply R; apply perm_swap|].
    constructor; [apply R; apply (Permutation_rev [0;1;2])|]. constructor; [apply R; apply Permutation_refl|constructor]. }
  split; [apply ex_unit_valid|].
  assert (O : weights_at_least_one ex_unit) by (repeat constructor; cbn; lra).
  assert (A : 3 <= length (approved_candidates ex_unit)) by (cbn; lia).
  split; [apply l_minimaxphragmen; auto; cbn; tauto|]. split; [apply l_leximaxphragmen; auto|].
  split; [apply l_lexminimaxav; [apply ex_unit_unit|cbn; tauto]|apply l_maximin; cbn; tauto].
Qed.

(** ** C62: the unit of the weights does not matter *)
Theorem C62_homogeneous : forall rnd nx sv rnd' nx' sv' e p q x k id alg,
  libraries_ok p rnd nx sv e -> libraries_ok q rnd' nx' sv' e -> (0 < x)%Q -> scaled x p q ->
  listed e p k id alg \/ listed_short e id alg -> ~ In id scale_dependent -> (id = "sav" -> fraction_weights p) ->
  (granular p <-> granular q) -> (enough_support p k <-> enough_support q k) -> valid_call p k false None ->
  exists l, compute rnd nx (with_solvers nx sv e) id p (Z.of_nat k) None (args alg false None) = Ok l /\
    compute rnd' nx' (with_solvers nx' sv' e) id q (Z.of_nat k) None (args alg false None) = Ok l.
Proof. exact scaled_results. Qed.
Print Assumptions C62_homogeneous.

Example C62_example :
  let q := mkp 5 [mkv [0;1] 3; mkv [0;1;2] 3; mkv [2] 3; mkv [3;4] 3; mkv [] 3] in
  let call p id alg := compute id_random ref_nx (with_solvers ref_nx (ref_solvers p) ex_env) id p 3 None (args alg false None) in
  scaled 3 ex_unit q /\ ~ In "equal-shares" scale_dependent /\ listed ex_env ex_unit 3 "equal-shares" "standard-fractions" /\
  granular ex_unit /\ granular q /\ enough_support ex_unit 3 /\ enough_support q 3 /\
  call ex_unit "equal-shares" "standard-fractions" = Ok [[0; 2; 3]; [0; 2; 4]; [1; 2; 3]; [1; 2; 4]] /\
  call q "equal-shares" "standard-fractions" = call ex_unit "equal-shares" "standard-fractions".
Proof.
  cbv zeta.
  assert (ES : forall p, num_cand p = 5 -> (forall c, c < 5 -> (1 <= support p c)%Q) -> enough_support p 3).
  { intros p E H c Hc. right. rewrite E in Hc. specialize (H c Hc). change (Qnat 3) with 3%Q. change (Qnat (3 + 1)) with 4%Q. lra. }
  assert (E1 : enough_support ex_unit 3) by (apply ES; [reflexivity|]; intros c Hc; do 5 (destruct c as [|c]; [vm_compute; discriminate|]); lia).
  split; [split; [reflexivity|repeat constructor]|]. split; [cbn; intuition discriminate|].
  split; [apply l_mes_phragmen; [left; reflexivity|exact E1|cbn; tauto]|].
  split; [exists 1%Q; split; [unfold ACCURACY; reflexivity|]; intros v Hv; exists 1; cbn in Hv; intuition (subst; reflexivity)|].
  split; [exists 1%Q; split; [unfold ACCURACY; reflexivity|]; intros v Hv; exists 3; cbn in Hv; intuition (subst; reflexivity)|].
  split; [exact E1|].
  split; [apply ES; [reflexivity|]; intros c Hc; do 5 (destruct c as [|c]; [vm_compute; discriminate|]); lia|].
  split; vm_compute; reflexivity.
Qed.

(** With the tolerance of the maximin support rule the unit does matter: with small weights candidates
    are tied that are not tied with large ones.  (Candidate 1 has twice the support of candidate 0.) *)
Theorem C62_maximin_support_refuted : exists p q x, (0 < x)%Q /\ scaled x p q /\ valid_call p 1 false None /\ valid_call q 1 false None /\
  forall rnd nx sv e, libraries_ok p rnd nx sv e -> libraries_ok q rnd nx sv e ->
  exists l l', compute rnd nx (with_solvers nx sv e) "maximin-support" p 1 None (args "gurobi" false None) = Ok l /\
    compute rnd nx (with_solvers nx sv e) "maximin-support" q 1 None (args "gurobi" false None) = Ok l' /\ ~ In [0] l /\ In [0] l'.
Proof.
  set (x := (1 # 100000000)%Q).
  set (p := mkp 2 [mkVoter [0] 1 false; mkVoter [1] 2 false]). set (q := mkp 2 [mkVoter [0] x false; mkVoter [1] (2 * x) false]).
  exists p, q, x. split; [reflexivity|]. split; [split; [reflexivity|repeat constructor; reflexivity]|].
  assert (Vp : valid_call p 1 false None) by (split; [unfold p; wf_tac|]; cbn; split; [discriminate|split; [lia|auto]]).
  assert (Vq : valid_call q 1 false None) by (split; [unfold q; wf_tac|]; cbn; split; [discriminate|split; [lia|auto]]).
  split; [exact Vp|]. split; [exact Vq|]. intros rnd nx sv e Lp Lq.
  pose proof Vp as (Wp & Np & Kp & _). pose proof Vq as (Wq & Nq & Kq & _).
  assert (HA : In "gurobi" ["gurobi"; "mip-gurobi"; "mip-cbc"]) by (left; reflexivity).
  destruct (listed_by_determined rnd nx sv e p 1 _ _ _ Lp (b_maximin e p 1 "gurobi" HA) Wp Np Kp false None Vp) as (l & El & _ & _ & H1 & H2).
  destruct (listed_by_determined rnd nx sv e q 1 _ _ _ Lq (b_maximin e q 1 "gurobi" HA) Wq Nq Kq false None Vq) as (l' & El' & _ & _ & H1' & H2').
  exists l, l'. split; [exact El|]. split; [exact El'|].
  assert (MS : forall o c, wf o -> (exists f, support_distribution o [c] f) -> maximin_support o [c] (support o c)).
  { intros o c Wo (f & Hf). split.
    - exists f. split; [exact Hf|]. intros d [<-|[]]. rewrite (received_single o c f Wo Hf). apply Qle_refl.
    - intros g b Hg Hb. specialize (Hb c (or_introl eq_refl)). rewrite (received_single o c g Wo Hg) in Hb. exact Hb. }
  assert (MU : forall o c b, wf o -> maximin_support o [c] b -> (b <= support o c)%Q).
  { intros o c b Wo [(f & Hf & Hb) _]. specialize (Hb c (or_introl eq_refl)). rewrite (received_single o c f Wo Hf) in Hb. exact Hb. }
  assert (SD : forall o c, wf o -> support_distribution o [c] (fun i _ => weight (the_voter o i))).
  { intros o c Wo. split.
    - intros i d. unfold the_voter. destruct (le_lt_dec (length (voters o)) i) as [Hi|Hi]; [rewrite nth_overflow by auto; cbn; lra|].
      destruct Wo as [_ HF]. rewrite Forall_forall in HF. destruct (HF _ (nth_In (voters o) (mkVoter [] 1 true) Hi)) as (_ & _ & Hp). lra.
    - intros i v Hv Hne. apply In_positions in Hv. destruct Hv as [Hi ->].
      assert (Hv : wf_voter (num_cand o) (the_voter o i)) by (destruct Wo as [_ HF]; rewrite Forall_forall in HF; apply HF, nth_In; auto). destruct Hv as (N & _ & _).
      assert (E : inter (approved (the_voter o i)) [c] = [c]); [|rewrite E; cbn; ring].
      apply single_inter; auto. }
  split.
  - intros Hin. apply H1 in Hin. destruct Hin as (L & b & Hr & HL & E).
    destruct L as [|d [|]]; try discriminate. cbn in E. injection E as <-. inversion Hr; subst.
    destruct H4 as (_ & b0 & Hb & Hmax). match goal with H : runs_from _ _ _ _ _ [] _ |- _ => clear H end.
    specialize (Hmax 1 (support p 1)). assert (F1 : fresh p [] 1) by (split; [cbn; lia|intros []]).
    specialize (Hmax F1 (MS p 1 Wp (ex_intro _ _ (SD p 1 Wp)))). pose proof (MU p 0 b0 Wp Hb) as HU.
    assert (S0 : (support p 0 == 1)%Q) by reflexivity. assert (S1 : (support p 1 == 2)%Q) by reflexivity. rewrite S0 in HU. rewrite S1 in Hmax. unfold CMP_ACCURACY in Hmax. lra.
  - apply H2'. exists [0], (fun _ => 0%Q). split; [|split; reflexivity].
    apply run_step with (x := fun _ => 0%Q); [apply run_start; intros i Hi; reflexivity| |intros i Hi; reflexivity].
    split; [split; [cbn; lia|intros []]|]. exists (support q 0). split; [apply MS; eauto|].
    intros d b [Hd _] Hb. pose proof (MU q d b Wq Hb) as HU.
    assert (HS : (support q d <= 2 * x)%Q) by (cbn in Hd; destruct d as [|[|]]; [vm_compute; discriminate|vm_compute; discriminate|lia]).
    assert (S0 : (support q 0 == x)%Q) by reflexivity. rewrite S0. unfold CMP_ACCURACY, x in *. lra.
Qed.
Print Assumptions C62_maximin_support_refuted.
