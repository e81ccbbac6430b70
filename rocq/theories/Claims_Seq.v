(** * Claims C13-C17: sequential Phragmén, Equal Shares, Phragmén-Eneström, consensus rule

    Specifications: SpecSeq.v.  The theorems are about the exact algorithms
    ("standard-fractions", and "gmpy2-fractions" if installed). *)
From Coq Require Import String.
From Coq Require Import List Arith Bool ZArith QArith Lia Lqa Permutation Sorted.
From Verif Require Import Prelude Misc Preferences Scores Search Rule RulesThiele Spec SpecRules Compute SpecCompute
  SpecSeq RulesMes MesFinal ComputeSeq ComputeSeqProofs ExampleData.
Import ListNotations.
Local Open Scope string_scope.
Open Scope nat_scope.

(** ** C13 *)
Theorem C13_seqphragmen : forall e p k alg resolute maxn, exact_arithmetic e alg ->
  valid_call p k resolute maxn -> enough_support p k ->
  answers (phragmen_winner p k) resolute (limit maxn) (compute_seqphragmen e p (Z.of_nat k) alg resolute maxn) /\
  (resolute = true -> exists W, compute_seqphragmen e p (Z.of_nat k) alg true maxn = Ok [W] /\ phragmen_lex_winner p k W).
Proof. exact compute_seqphragmen_correct. Qed.
Print Assumptions C13_seqphragmen.

(** weights of at least 1 are enough *)
Theorem C13_integer_weights : forall p k, wf p -> 1 <= k -> (forall v, In v (voters p) -> (1 <= weight v)%Q) ->
  enough_support p k.
Proof. intros p k Hw Hk H. apply heavy_enough; auto. Qed.
Print Assumptions C13_integer_weights.

Theorem C13_valid_committees : forall p k W, phragmen_winner p k W -> is_committee p k W.
Proof. intros p k W. eapply run_step_facts. intros V x c [H _]. exact H. Qed.
Print Assumptions C13_valid_committees.

Lemma ex_unit_heavy : forall v, In v (voters ex_unit) -> (1 <= weight v)%Q.
Proof. cbn. intros v H. repeat (destruct H as [<-|H]; [cbn; lra|]). destruct H. Qed.

Example C13_example : exact_arithmetic ex_env "standard-fractions" /\ valid_call ex_unit 3 false None /\
  enough_support ex_unit 3 /\
  compute_seqphragmen ex_env ex_unit 3 "standard-fractions" false None = Ok [[0; 2; 3]; [0; 2; 4]; [1; 2; 3]; [1; 2; 4]] /\
  compute_seqphragmen ex_env ex_unit 3 "standard-fractions" true None = Ok [[0; 2; 3]].
Proof.
  split; [left; reflexivity|]. split; [apply ex_unit_valid|]. split; [apply C13_integer_weights; [apply ex_unit_wf|lia|apply ex_unit_heavy]|].
  split; vm_compute; reflexivity.
Qed.

(** With small weights the sentinel values in the code are no longer larger than
    every load: the only approved candidate loses against unapproved ones. *)
Theorem C13_small_weights_refuted : exists e p k, exact_arithmetic e "standard-fractions" /\ valid_call p k false None /\
  compute_seqphragmen e p (Z.of_nat k) "standard-fractions" false None = Ok [[1]; [2]] /\
  ~ answers (phragmen_winner p k) false None (compute_seqphragmen e p (Z.of_nat k) "standard-fractions" false None).
Proof.
  exists ex_env, (mkp 3 [mkv [0] (1#10); mkv [] 1]), 1. split; [left; reflexivity|]. split.
  { split; [wf_tac|]. cbn. split; [discriminate|]. split; [lia|auto]. }
  match goal with |- ?x = _ /\ _ => assert (E : x = Ok [[1]; [2]]) by (vm_compute; reflexivity) end.
  rewrite E. split; auto. intros (l & H & _ & _ & HP & _). inversion H; subst l.
  destruct (HP [1] ltac:(left; auto)) as (L & x & Hr & Hl & EW).
  destruct L as [|c [|]]; try discriminate. cbn in EW. inversion EW; subst c.
  inversion Hr as [|W x0 c x1 Hr' Hc Hu]; subst. destruct Hc as [_ Hc]. cbn in Hc.
  specialize (Hc 0 ltac:(split; [cbn; lia|intros []])). discriminate.
Qed.
Print Assumptions C13_small_weights_refuted.

(** and a candidate can be chosen twice, which raises ValueError *)
Theorem C13_small_weights_crash_refuted : exists e p k, exact_arithmetic e "standard-fractions" /\ valid_call p k true None /\
  compute_seqphragmen e p (Z.of_nat k) "standard-fractions" true None = Err ValueError.
Proof.
  exists ex_env, (mkp 3 [mkv [0] (1#10)]), 3. split; [left; reflexivity|]. split.
  { split; [wf_tac|]. cbn. split; [discriminate|]. split; [lia|auto]. }
  vm_compute. reflexivity.
Qed.
Print Assumptions C13_small_weights_crash_refuted.

(** ** C14 *)
Theorem C14_equal_shares : forall e p k alg resolute maxn, exact_arithmetic e alg -> valid_call p k resolute maxn ->
  answers (mes_winner p k (equal_share p k) no_completion) resolute (limit maxn)
          (compute_equal_shares e p (Z.of_nat k) alg resolute maxn None) /\
  (resolute = true -> exists W, compute_equal_shares e p (Z.of_nat k) alg true maxn None = Ok [W] /\
     mes_lex_winner p k (equal_share p k) no_completion W).
Proof.
  intros e p k alg resolute maxn Ha Hc.
  apply (compute_mes_correct e p k alg resolute maxn None NoCompletion); auto; [eexists; reflexivity|discriminate|exact I].
Qed.
Print Assumptions C14_equal_shares.

(** Every returned committee comes with a price system: each member's supporters
    pay exactly 1 in total, nobody pays for a candidate it does not approve or more
    than its share of [k], and if the committee is too small then the supporters
    of every other candidate have less than 1 left. *)
Theorem C14_price_system : forall e p k alg resolute maxn l W, exact_arithmetic e alg -> valid_call p k resolute maxn ->
  compute_equal_shares e p (Z.of_nat k) alg resolute maxn None = Ok l -> In W l ->
  exists pay : nat -> nat -> Q,
    (forall i c, i < length (voters p) -> (0 <= pay i c)%Q) /\
    (forall i c, likes p i c = false -> (pay i c == 0)%Q) /\
    (forall c, In c W -> (sum (voter_ids p) (fun i => pay i c) == 1)%Q) /\
    (forall i, i < length (voters p) -> (sum W (pay i) <= w p i * Qnat k / wsum (voters p))%Q) /\
    (length W = k \/ length W < k /\ forall c, c < num_cand p -> ~ In c W ->
       (sum (fans p c) (fun i => w p i * Qnat k / wsum (voters p) - sum W (pay i)) < 1)%Q).
Proof.
  intros e p k alg resolute maxn l W Ha Hc E Hin.
  destruct (C14_equal_shares e p k alg resolute maxn Ha Hc) as [(l' & E' & _ & _ & HP & _) _].
  assert (l' = l) by congruence. subst l'. specialize (HP W Hin). destruct Hc as (Hw & _).
  destruct (mes_winner_priced p k (equal_share p k) W Hw (fun i Hi => equal_share_nonneg p k i Hw Hi) HP)
    as (pay & (P1 & P2 & P3 & P4) & Hend).
  exists pay. split; auto. split; auto. split; auto. split; [exact P4|].
  destruct Hend as [|[Hl Hend]]; auto. right. split; auto. intros c Hcm Hcn. exact (Hend c (conj Hcm Hcn)).
Qed.
Print Assumptions C14_price_system.

Example C14_example : valid_call ex_unit 3 false None /\
  compute_equal_shares ex_env ex_unit 3 "standard-fractions" false None None = Ok [[0]; [1]; [2]].
Proof. split; [apply ex_unit_valid|vm_compute; reflexivity]. Qed.

(** ** C15 *)
Theorem C15_seqphragmen_completion : forall e p k alg resolute maxn, exact_arithmetic e alg -> valid_call p k resolute maxn ->
  enough_support p k ->
  answers (mes_winner p k (equal_share p k) (phragmen_completion p k)) resolute (limit maxn)
          (compute_equal_shares e p (Z.of_nat k) alg resolute maxn (Some "seqphragmen")) /\
  (resolute = true -> exists W, compute_equal_shares e p (Z.of_nat k) alg true maxn (Some "seqphragmen") = Ok [W] /\
     mes_lex_winner p k (equal_share p k) (phragmen_lex_completion p k) W).
Proof.
  intros e p k alg resolute maxn Ha Hc Hs.
  apply (compute_mes_correct e p k alg resolute maxn (Some "seqphragmen") PhragmenCompletion); auto; [eexists; reflexivity|discriminate].
Qed.
Print Assumptions C15_seqphragmen_completion.

Theorem C15_av_completion : forall e p k alg resolute maxn, exact_arithmetic e alg -> valid_call p k resolute maxn ->
  answers (mes_winner p k (equal_share p k) (av_completion p k)) resolute (limit maxn)
          (compute_equal_shares e p (Z.of_nat k) alg resolute maxn (Some "av")) /\
  (resolute = true -> exists W, compute_equal_shares e p (Z.of_nat k) alg true maxn (Some "av") = Ok [W] /\
     mes_lex_winner p k (equal_share p k) (av_completion p k) W).
Proof.
  intros e p k alg resolute maxn Ha Hc.
  apply (compute_mes_correct e p k alg resolute maxn (Some "av") AvCompletion); auto; [eexists; reflexivity|discriminate|exact I].
Qed.
Print Assumptions C15_av_completion.

(** Completed committees have [k] members, among them those elected by Equal Shares proper. *)
Theorem C15_full_committees : forall p k fill W, fill = phragmen_completion p k \/ fill = av_completion p k ->
  mes_winner p k (equal_share p k) fill W ->
  is_committee p k W /\ exists L b, mes_ends p k (equal_share p k) L b /\ incl L W.
Proof.
  intros p k fill W Hf HW.
  assert (HF : exists c, (c = PhragmenCompletion \/ c = AvCompletion) /\ fill = the_completion p k false c).
  { destruct Hf; [exists PhragmenCompletion|exists AvCompletion]; auto. }
  destruct HF as (c & Hc & ->). split; [eapply mes_winner_full; eauto|].
  destruct HW as (L & b & He & H1 & H2). exists L, b. split; auto.
  destruct (proj2 He) as [Hl|[Hl _]].
  - rewrite (H1 Hl). intros x Hx. rewrite isort_In. auto.
  - specialize (H2 Hl). destruct Hc; subst c; simpl in H2.
    + destruct H2 as (L' & x & Hr' & _ & ->).
      destruct (SeqProofs.runs_extend p (phragmen_choice p) (phragmen_update p) _ _ _ _ Hr') as (M & ->).
      intros y Hy. rewrite isort_In. apply in_or_app. auto.
    + apply H2.
Qed.
Print Assumptions C15_full_committees.

Theorem C15_increment_completion : forall e p k alg, exact_arithmetic e alg -> valid_call p k true None -> unit_support p ->
  exists W, compute_equal_shares e p (Z.of_nat k) alg true None (Some "increment") = Ok [W] /\ mes_increment_winner p k W.
Proof. exact compute_mes_increment_correct. Qed.
Print Assumptions C15_increment_completion.

(** weights of at least 1 are enough *)
Theorem C15_integer_weights : forall p, wf p -> (forall v, In v (voters p) -> (1 <= weight v)%Q) -> unit_support p.
Proof. intros p Hw H. apply (heavy_enough p 1); auto. Qed.
Print Assumptions C15_integer_weights.

Theorem C15_increment_small_weights_refuted : exists e p k, exact_arithmetic e "standard-fractions" /\ valid_call p k true None /\
  compute_equal_shares e p (Z.of_nat k) "standard-fractions" true None (Some "increment") = Err RuntimeError.
Proof.
  exists ex_env, (mkp 2 [mkv [0;1] (1#2)]), 2. split; [left; reflexivity|]. split.
  { split; [wf_tac|]. cbn. split; [discriminate|]. split; [lia|auto]. }
  vm_compute. reflexivity.
Qed.
Print Assumptions C15_increment_small_weights_refuted.

Example C15_example : valid_call ex_unit 3 false None /\ enough_support ex_unit 3 /\ unit_support ex_unit /\
  compute_equal_shares ex_env ex_unit 3 "standard-fractions" false None (Some "seqphragmen") = Ok [[0; 2; 3]; [0; 2; 4]; [1; 2; 3]; [1; 2; 4]] /\
  compute_equal_shares ex_env ex_unit 3 "standard-fractions" false None (Some "av") = Ok [[0; 1; 2]] /\
  compute_equal_shares ex_env ex_unit 3 "standard-fractions" true None (Some "increment") = Ok [[0; 1; 2]].
Proof.
  split; [apply ex_unit_valid|]. split; [apply C13_integer_weights; [apply ex_unit_wf|lia|apply ex_unit_heavy]|].
  split; [apply C15_integer_weights; [apply ex_unit_wf|apply ex_unit_heavy]|].
  repeat split; vm_compute; reflexivity.
Qed.

(** [compute_rule_x] is Equal Shares with or without Phragmén completion *)
Theorem C15_rule_x : forall e p k alg resolute maxn skip,
  compute_rule_x e p k alg resolute maxn skip =
  compute_equal_shares e p k alg resolute maxn (if skip then None else Some "seqphragmen").
Proof. reflexivity. Qed.
Print Assumptions C15_rule_x.

Theorem C15_unknown_completion : forall e p k alg resolute maxn s,
  ~ In s [""; "seqphragmen"; "av"; "increment"]%list ->
  compute_equal_shares e p k alg resolute maxn (Some s) = Err ValueError.
Proof.
  intros e p k alg resolute maxn s H. unfold compute_equal_shares, completion_rule.
  destruct (String.eqb_spec s ""); [exfalso; apply H; subst; cbn; tauto|].
  destruct (String.eqb_spec s "seqphragmen"); [exfalso; apply H; subst; cbn; tauto|].
  destruct (String.eqb_spec s "av"); [exfalso; apply H; subst; cbn; tauto|].
  destruct (String.eqb_spec s "increment"); [exfalso; apply H; subst; cbn; tauto|]. reflexivity.
Qed.
Print Assumptions C15_unknown_completion.

(** ** C16 *)
Theorem C16_enestroem : forall e p k alg resolute maxn, exact_arithmetic e alg -> valid_call p k resolute maxn ->
  answers (enestroem_winner p k) resolute (limit maxn) (compute_phragmen_enestroem e p (Z.of_nat k) alg resolute maxn) /\
  (resolute = true -> exists W, compute_phragmen_enestroem e p (Z.of_nat k) alg true maxn = Ok [W] /\ enestroem_lex_winner p k W).
Proof. exact compute_enestroem_correct. Qed.
Print Assumptions C16_enestroem.

Theorem C16_valid_committees : forall p k W, enestroem_winner p k W -> is_committee p k W.
Proof. intros p k W. eapply run_step_facts. intros V x c [H _]. exact H. Qed.
Print Assumptions C16_valid_committees.

Example C16_example : valid_call ex_profile 2 false None /\
  compute_phragmen_enestroem ex_env ex_profile 2 "standard-fractions" false None = Ok [[1; 3]].
Proof. split; [apply ex_valid|vm_compute; reflexivity]. Qed.

(** ** C17 *)
Theorem C17_consensus : forall e p k alg resolute maxn, exact_arithmetic e alg -> valid_call p k resolute maxn ->
  answers (consensus_winner p k) resolute (limit maxn) (compute_consensus_rule e p (Z.of_nat k) alg resolute maxn) /\
  (resolute = true -> exists W, compute_consensus_rule e p (Z.of_nat k) alg true maxn = Ok [W] /\ consensus_lex_winner p k W).
Proof. exact compute_consensus_correct. Qed.
Print Assumptions C17_consensus.

Theorem C17_valid_committees : forall p k W, consensus_winner p k W -> is_committee p k W.
Proof. intros p k W. eapply run_step_facts. intros V x c [H _]. exact H. Qed.
Print Assumptions C17_valid_committees.

(** a round gives out the total weight and, if anybody backs the winner, takes it back *)
Theorem C17_budget_conserved : forall p W b c b', wf p -> consensus_update p W b c b' -> backers p b c <> [] ->
  (sum (voter_ids p) b' == sum (voter_ids p) b)%Q.
Proof. exact consensus_conserves. Qed.
Print Assumptions C17_budget_conserved.

Example C17_example : valid_call ex_profile 2 false None /\ backers ex_profile (fun _ => 0%Q) 1 <> [] /\
  compute_consensus_rule ex_env ex_profile 2 "standard-fractions" false None = Ok [[1; 3]].
Proof. split; [apply ex_valid|]. split; [discriminate|vm_compute; reflexivity]. Qed.
