(** * Claims C45, C46, C47, C58, C59: files, output, analyses

    [T] is the type of file contents.  [preflib_contract] and [yaml_contract]
    (SpecFile.v) say what is assumed of preflibtools and ruamel.yaml. *)
From Coq Require Import String Ascii.
From Coq Require Import List Arith Bool ZArith QArith Lia Lqa Permutation.
From Verif Require Import Prelude Misc MiscProofs Preferences Scores Rule Spec SpecRules Compute SpecCompute PrefProofs
  EquivProofs FileIO SpecFile FileProofs YamlProofs Checks SpecAxioms ChecksProofs Guarantees Milp RefSolver CheckSolver
  CheckSolverProofs SpecPrice PriceProofs Output SpecOutput OutputProofs ExampleData.
Import ListNotations.
Local Open Scope string_scope.
Open Scope nat_scope.
Local Open Scope list_scope.

(** ** C45 *)
Theorem C45_roundtrip : forall (T : Type) (write : instance (Q * bool) -> T) parse from_ordinal e p,
  preflib_contract write parse -> wf p ->
  length (cand_names p) = num_cand p -> Forall plain_name (cand_names p) ->
  Forall (fun v => weight_is_int v = true /\ exists z, (weight v == inject_Z z)%Q) (voters p) ->
  exists i, write_profile_to_preflib_cat_file p = Ok i /\
  forall use_weights, exists q,
    read_preflib_file from_ordinal (parse (write i)) None None use_weights = Ok q /\
    wf q /\ num_cand q = num_cand p /\ cand_names q = cand_names p /\
    (forall A, (weight_of q A == weight_of p A)%Q) /\
    (use_weights = false -> Forall (fun v => weight v = 1%Q) (voters q)) /\
    same_results e p q.
Proof.
  intros T write parse fo e p Hc Hw Hl Hpn Hi.
  destruct (preflib_roundtrip T write parse fo p Hc Hw Hl Hpn Hi) as (i & Ei & H). exists i. split; auto.
  intros uw. destruct (H uw) as (q & Er & Hq & Hn & Hs & _ & Hu). exists q. split; auto. split; auto.
  split; [symmetry; apply Hs|]. split; auto. split; [intros A; apply weight_of_same; auto|]. split; auto.
  apply same_election_results; auto.
Qed.
Print Assumptions C45_roundtrip.

(** The contract can be met. *)
Definition ref_write (i : instance (Q * bool)) : result parsed :=
  Ok (Categorical (mkInst (alternatives_name i) (num_alternatives i)
        (rev (map (fun b => (fst b, Qnum (Qred (fst (snd b))))) (multiplicity i))))).
Lemma ref_preflib : preflib_contract ref_write (fun x => x).
Proof.
  intros i _ _ _ _ _ Hm. eexists. split; [reflexivity|]. cbn. split; auto. split; auto.
  exists (map (fun b => (fst b, Qnum (Qred (fst (snd b))))) (multiplicity i)). split.
  - apply Permutation_sym, Permutation_rev.
  - induction Hm as [|[b [w f]] l (_ & z & _ & Hz) _ IH]; constructor; auto. cbn in *. split; auto.
    rewrite (Qred_int _ _ Hz). cbn. symmetry. auto.
Qed.
Definition ex_cat : profile :=
  mkProfile 3 ["Ann"; "Bob"; "Cy"] [mkVoter [2;0] 2 true; mkVoter [0;2] 1 true; mkVoter [1] 1 true; mkVoter [2;0] 3 true].
Ltac plain_tac := repeat split; try discriminate; repeat constructor; unfold printable; vm_compute; lia.
Example C45_example : preflib_contract ref_write (fun x => x) /\ wf ex_cat /\ length (cand_names ex_cat) = num_cand ex_cat /\
  Forall plain_name (cand_names ex_cat) /\
  Forall (fun v => weight_is_int v = true /\ exists z, (weight v == inject_Z z)%Q) (voters ex_cat) /\
  exists i q, write_profile_to_preflib_cat_file ex_cat = Ok i /\ length (multiplicity i) = 3 /\
    read_preflib_file (fun i _ => i) (ref_write i) None None true = Ok q /\
    map (fun v => (approved v, weight v)) (voters q) = [([1], 1%Q); ([0;2], 1%Q); ([2;0], 5%Q)].
Proof.
  split; [apply ref_preflib|]. split; [wf_tac|]. split; [reflexivity|].
  split; [repeat (constructor; [plain_tac|]); constructor|].
  split.
  - repeat (constructor; [split; [reflexivity|]|]); [exists 2%Z|exists 1%Z|exists 1%Z|exists 3%Z|constructor]; reflexivity.
  - eexists _, _. split; [vm_compute; reflexivity|]. split; [reflexivity|]. split; vm_compute; reflexivity.
Qed.

(** A fractional weight is written as multiplicity 1: the election changes. *)
Theorem C45_fractional_refuted : exists p, wf p /\ length (cand_names p) = num_cand p /\ Forall plain_name (cand_names p) /\
  forall (T : Type) (write : instance (Q * bool) -> T) parse from_ordinal, preflib_contract write parse ->
  exists i q, write_profile_to_preflib_cat_file p = Ok i /\
    read_preflib_file from_ordinal (parse (write i)) None None true = Ok q /\
    ~ (weight_of q [0]%nat == weight_of p [0]%nat)%Q.
Proof.
  exists (mkProfile 1 ["x"] [mkVoter [0] (3#2) false]). split; [wf_tac|]. split; auto.
  split; [repeat (constructor; [plain_tac|]); constructor|].
  intros T write parse fo Hc.
  destruct (preflib_roundtrip T write parse fo (mkProfile 1 ["x"] [mkVoter [0] 1 true]) Hc) as (i & Ei & H).
  - wf_tac. - reflexivity. - repeat (constructor; [plain_tac|]); constructor.
  - constructor; auto. split; auto. exists 1%Z. reflexivity.
  - destruct (H true) as (q & Er & _ & _ & Hs & _). exists i, q.
    split; [rewrite <- Ei; reflexivity|]. split; auto. rewrite (weight_of_same _ _ [0] Hs). vm_compute. discriminate.
Qed.
Print Assumptions C45_fractional_refuted.

(** ** C58: reading Preflib files *)

(** Top ranks: candidate number i of the profile is the i-th alternative, and a ballot approves the alternatives in
    its first [t] ranks (default 1); count many voters, or one voter of weight count. *)
Theorem C58_top_ranks : forall from_ordinal i top_ranks use_weights, wf_instance i ->
  (forall t, top_ranks = Some t -> (0 < t)%Z) ->
  exists q, read_preflib_file from_ordinal (Ok (Categorical i)) top_ranks None use_weights = Ok q /\
    num_cand q = num_alternatives i /\ cand_names q = map snd (alternatives_name i) /\
    ballots_to_voters
      (fun b A => numbered (alternatives_name i) (top (match top_ranks with Some t => Z.to_nat t | None => 1 end) b) A)
      use_weights (multiplicity i) (voters q).
Proof.
  intros fo i tr uw Hi Ht. apply read_preflib_ok; auto.
  - intros -> _ b A. reflexivity.
  - intros t ->. split; auto. split; auto. intros b A. reflexivity.
  - discriminate.
Qed.
Print Assumptions C58_top_ranks.

Theorem C58_setsize : forall from_ordinal i n use_weights, wf_instance i -> (0 < n)%Z ->
  exists q, read_preflib_file from_ordinal (Ok (Categorical i)) None (Some n) use_weights = Ok q /\
    num_cand q = num_alternatives i /\ cand_names q = map snd (alternatives_name i) /\
    ballots_to_voters (fun b A => exists S, size_selected (alternatives_name i) (Z.to_nat n) b S /\
                                            numbered (alternatives_name i) S A)
      use_weights (multiplicity i) (voters q).
Proof.
  intros fo i n uw Hi Hn. apply read_preflib_ok; auto; try discriminate.
  intros n' E. inversion E; subst n'. split; auto. split; auto. intros b A. reflexivity.
Qed.
Print Assumptions C58_setsize.

(** Rankings are first turned into categories by preflibtools. *)
Theorem C58_ordinal : forall from_ordinal i top_ranks setsize use_weights,
  (truthy top_ranks || truthy setsize = true \/ (top_ranks = None /\ setsize = None)) ->
  read_preflib_file from_ordinal (Ok (Ordinal i)) top_ranks setsize use_weights =
  read_preflib_file from_ordinal (Ok (Categorical (from_ordinal i (if truthy setsize then setsize else None))))
                    top_ranks setsize use_weights.
Proof.
  intros fo i tr ss uw H. unfold read_preflib_file.
  destruct tr as [t|], ss as [n|]; cbn [truthy] in *.
  - destruct (negb (t =? 0)%Z), (negb (n =? 0)%Z); cbn in *; auto; destruct H as [H|[]]; discriminate.
  - destruct (negb (t =? 0)%Z); cbn in *; auto; destruct H as [H|[]]; discriminate.
  - destruct (negb (n =? 0)%Z); cbn in *; auto; destruct H as [H|[]]; discriminate.
  - auto.
Qed.
Print Assumptions C58_ordinal.

(** Rejected: both parameters, negative values, unparsable or unsuitable files. *)
Theorem C58_rejected : forall from_ordinal file top_ranks setsize use_weights,
  (truthy top_ranks = true -> truthy setsize = true ->
     read_preflib_file from_ordinal file top_ranks setsize use_weights = Err ValueError) /\
  (forall t, top_ranks = Some t -> (t < 0)%Z ->
     read_preflib_file from_ordinal file top_ranks setsize use_weights = Err ValueError) /\
  (forall n, setsize = Some n -> (n < 0)%Z ->
     read_preflib_file from_ordinal file top_ranks setsize use_weights = Err ValueError) /\
  read_preflib_file from_ordinal (Ok OtherInstance) None None use_weights = Err ValueError /\
  (forall err, read_preflib_file from_ordinal (Err err) None None use_weights = Err MalformattedFile).
Proof.
  intros fo file tr ss uw. split; [|split; [|split; [|split]]].
  - intros A B. unfold read_preflib_file. destruct tr; [|discriminate]. rewrite A, B. auto.
  - intros t -> H. unfold read_preflib_file. cbn [truthy]. destruct (Z.eqb_spec t 0); [lia|]. cbn.
    destruct (Z.leb_spec t 0); [|lia]. destruct ss as [z|]; cbn [truthy]; auto; destruct (negb (z =? 0)%Z); auto.
  - intros n -> H. unfold read_preflib_file. cbn [truthy]. destruct (Z.eqb_spec n 0); [lia|]. cbn.
    destruct (Z.leb_spec n 0); [|lia].
    destruct tr as [t|]; cbn; auto. destruct (t =? 0)%Z; cbn; auto.
  - reflexivity.
  - reflexivity.
Qed.
Print Assumptions C58_rejected.

Ltac nodup_tac := repeat (apply NoDup_cons; [cbn; intuition lia|]); apply NoDup_nil.
Ltac wf_inst_tac := split; [cbn; lia|split; [reflexivity|split; [cbn; nodup_tac|
  cbn; repeat (apply Forall_cons; [cbn; split; [nodup_tac|split; [unfold incl; cbn; intuition lia|lia]]|]); apply Forall_nil]]].

(** top_ranks=0 is not rejected, although "Parameter top_ranks must be > 0": every voter gets an empty approval set. *)
Theorem C58_zero_refuted : exists i, wf_instance i /\ forall from_ordinal, exists q,
  read_preflib_file from_ordinal (Ok (Categorical i)) (Some 0%Z) None false = Ok q /\
  voters q <> [] /\ Forall (fun v => approved v = []) (voters q).
Proof.
  exists (mkInst [(1, "a"); (2, "b")] 2 [([[1]; [2]], 2%Z)]). split.
  - wf_inst_tac.
  - intros fo. eexists. split; [vm_compute; reflexivity|]. split; [discriminate|]. repeat constructor.
Qed.
Print Assumptions C58_zero_refuted.

Definition ex_inst : instance Z :=
  mkInst [(3, "c"); (1, "a"); (2, "b")] 3 [([[1]; [2;3]], 2%Z); ([[2]; []; [1]], 1%Z); ([[]], 1%Z)].
Example C58_example : wf_instance ex_inst /\
  (exists q, read_preflib_file (fun i _ => i) (Ok (Categorical ex_inst)) (Some 2%Z) None false = Ok q /\
     map approved (voters q) = [[1;2;0]; [1;2;0]; [2]; []]) /\
  (exists q, read_preflib_file (fun i _ => i) (Ok (Categorical ex_inst)) None (Some 2%Z) true = Ok q /\
     map (fun v => (approved v, weight v)) (voters q) = [([1;2;0], 2%Q); ([2;1], 1%Q); ([], 1%Q)]).
Proof.
  split.
  - wf_inst_tac.
  - split; eexists; split; vm_compute; reflexivity.
Qed.

(** ** C46 *)
Theorem C46_roundtrip : forall (T : Type) (dump : yval -> result T) load str_weight e p k insts description file,
  yaml_contract dump load -> wf p ->
  Forall (fun v => weight_is_int v = true -> exists z, (weight v == inject_Z z)%Q) (voters p) ->
  (forall l, insts = Some l -> Forall wf_compute_instance l) ->
  write_abcvoting_instance_to_yaml_file str_weight dump p k insts description = Ok file ->
  exists q insts', read_abcvoting_yaml_file load file = Ok (q, k, insts') /\
    wf q /\ num_cand q = num_cand p /\ same_voters p q /\
    Forall2 (restored q k) (match insts with Some l => l | None => [] end) insts' /\
    same_results e p q.
Proof.
  intros T dump load sw e p k insts desc file [Hc _] Hw Hfl Hi H.
  unfold write_abcvoting_instance_to_yaml_file in H.
  destruct (yaml_data sw p k insts desc) as [y|] eqn:E; [|discriminate]. cbn [rbind] in H.
  destruct (yaml_roundtrip_data sw p k insts desc y Hw Hfl Hi E) as (Py & insts' & Er & F).
  exists (data_profile p), insts'. unfold read_abcvoting_yaml_file. rewrite (Hc y file Py H). cbn [rbind].
  destruct (data_profile_same p Hw) as [Hq Hs].
  split; auto. split; auto. split; auto. split; auto. split; auto.
  apply same_election_results; auto. split; auto. intros g _. unfold lin. clear -Hs. unfold same_voters in Hs.
  induction Hs as [|v u vs us [A B] F IH]; cbn; [reflexivity|]. rewrite IH, A, B. reflexivity.
Qed.
Print Assumptions C46_roundtrip.

(** Writing succeeds for integer weights and instances that agree with the profile and the committee size. *)
Theorem C46_write_succeeds : forall (T : Type) (dump : yval -> result T) load str_weight p k insts description,
  yaml_contract dump load -> wf p -> length (cand_names p) = num_cand p ->
  Forall (fun v => weight_is_int v = true /\ exists z, (weight v == inject_Z z)%Q) (voters p) ->
  (forall l, insts = Some l -> Forall (fun c => wf_compute_instance c /\ consistent p k c /\ int_instance c) l) ->
  exists file, write_abcvoting_instance_to_yaml_file str_weight dump p k insts description = Ok file.
Proof.
  intros T dump load sw p k insts desc [_ Hc] Hw Hl Hint Hi. unfold write_abcvoting_instance_to_yaml_file.
  destruct (yaml_data_total sw p k insts desc Hw Hl) as [y E].
  { intros l El. eapply Forall_impl; [|exact (Hi l El)]. intros a (A1 & A2 & A3); auto. }
  rewrite E. cbn [rbind]. apply Hc.
  - eapply yaml_roundtrip_data; eauto.
    + eapply Forall_impl; [|exact Hint]. cbn. tauto.
    + intros l El. eapply Forall_impl; [|exact (Hi l El)]. intros a (A1 & A2 & A3); auto.
  - eapply yaml_data_int; [| |exact E].
    + eapply Forall_impl; [|exact Hint]. cbn. tauto.
    + intros l El. eapply Forall_impl; [|exact (Hi l El)]. intros a (A1 & A2 & A3); auto.
Qed.
Print Assumptions C46_write_succeeds.

(** Every file that is read without an exception gives a valid profile; the file has a profile and no unknown key, as
    many weights as voters, and every compute instance carries a rule id and this profile. *)
Theorem C46_read_valid : forall y p k insts, read_abcvoting_yaml_data y = Ok (p, k, insts) ->
  wf p /\ exists data, y = YDict data /\ get "profile" data <> None /\
    (forall key v, In (key, v) data -> In key ABC_YAML_VALID_KEYS) /\
    (forall w, get "voter_weights" data = Some w -> exists ws, w = YList ws /\ length ws = length (voters p)) /\
    Forall (fun c => get "profile" c = Some (PProfile p) /\ get "rule_id" c <> None) insts.
Proof. exact read_yaml_wf. Qed.
Print Assumptions C46_read_valid.

(** What has been read can be written again, if the file has a committee size ... *)
Theorem C46_rewrite : forall str_weight y p z insts description, plain y ->
  read_abcvoting_yaml_data y = Ok (p, Some z, insts) ->
  exists y', yaml_data str_weight p (Some z) (Some insts) description = Ok y'.
Proof. exact rewrite_ok. Qed.
Print Assumptions C46_rewrite.

Definition ex_file : yval :=
  YDict [("profile", YList [YList [y_int 0]; YList [y_int 1; y_int 0]]);
         ("compute", YList [YDict [("rule_id", YStr "av"); ("result", YList [YList [y_int 0]])]])].
(** ... but not without one: the instances read have committeesize None, and writing calls int(None). *)
Theorem C46_rewrite_refuted : exists y p insts, plain y /\ read_abcvoting_yaml_data y = Ok (p, None, insts) /\
  forall str_weight description, yaml_data str_weight p None (Some insts) description = Err TypeError.
Proof.
  exists ex_file. eexists _, _. split.
  - unfold ex_file. apply plain_dict. split; [repeat constructor; cbn; intuition discriminate|].
    constructor; [|constructor; [|constructor]]; cbn [snd].
    + exact (plain_sets [[0]; [1;0]]).
    + apply plain_list. constructor; [|constructor]. apply plain_dict. split; [repeat constructor; cbn; intuition discriminate|].
      constructor; [exact I|]. constructor; [exact (plain_sets [[0]])|constructor].
  - split; [vm_compute; reflexivity|]. intros sw desc. destruct desc; vm_compute; reflexivity.
Qed.
Print Assumptions C46_rewrite_refuted.

(** Candidate names are lost. *)
Theorem C46_names_refuted : exists p, wf p /\ length (cand_names p) = num_cand p /\
  forall (T : Type) (dump : yval -> result T) load str_weight, yaml_contract dump load ->
  exists file q insts, write_abcvoting_instance_to_yaml_file str_weight dump p None None None = Ok file /\
    read_abcvoting_yaml_file load file = Ok (q, None, insts) /\ cand_names q <> cand_names p.
Proof.
  set (p := mkProfile 1 ["x"] [mkVoter [0] 1 true]). exists p. assert (Hw : wf p) by wf_tac. split; auto. split; auto.
  intros T dump load sw Hc.
  assert (Hi : Forall (fun v => weight_is_int v = true /\ exists z, (weight v == inject_Z z)%Q) (voters p)).
  { constructor; auto. split; auto. exists 1%Z. reflexivity. }
  destruct (C46_write_succeeds T dump load sw p None None None Hc Hw eq_refl Hi) as [file E]; [discriminate|].
  unfold write_abcvoting_instance_to_yaml_file in E.
  destruct (yaml_data sw p None None None) as [y|] eqn:Ey; [|discriminate]. cbn [rbind] in E.
  destruct (yaml_roundtrip_data sw p None None None y Hw) as (Py & insts' & Er & F); auto.
  { eapply Forall_impl; [|exact Hi]. cbn. tauto. } { discriminate. }
  exists file, (data_profile p), insts'. unfold write_abcvoting_instance_to_yaml_file, read_abcvoting_yaml_file.
  rewrite Ey. cbn [rbind]. split; auto. destruct Hc as [Hc _]. rewrite (Hc _ _ Py E). cbn [rbind]. split; auto. discriminate.
Qed.
Print Assumptions C46_names_refuted.

Definition ex_ci : compute_instance :=
  [("rule_id", PData (YStr "pav")); ("result", PCommittees [[1;0]]); ("committeesize", PData (YNum (inject_Z 2) true));
   ("resolute", PData (YBool true))].
Example C46_example : yaml_contract (fun y => Ok y) (fun y => Ok y) /\ wf ex_cat /\ wf_compute_instance ex_ci /\
  consistent ex_cat (Some 2%Z) ex_ci /\ int_instance ex_ci /\
  exists q c, (do f <- write_abcvoting_instance_to_yaml_file (fun _ _ => "") (fun y => Ok y) ex_cat (Some 2%Z) (Some [ex_ci]) (Some "text");
        read_abcvoting_yaml_file (fun y => Ok y) f) = Ok (q, Some 2%Z, [c]) /\
     get "resolute" c = Some (PData (YBool true)) /\ get "result" c = Some (PCommittees [[1;0]]) /\
     map (fun v => (approved v, weight v)) (voters q) = [([2;0], 2%Q); ([0;2], 1%Q); ([1], 1%Q); ([2;0], 3%Q)].
Proof.
  split. { split; [intros y f _ E; inversion E; auto|eauto]. }
  split; [wf_tac|]. split; [|split; [|split]].
  - split; [repeat constructor; cbn; intuition discriminate|].
    repeat constructor; cbn; auto; intuition lia.
  - split; [discriminate|]. repeat (constructor; [cbn; repeat split; intros; try discriminate; eauto|]); [|constructor].
    congruence.
  - repeat constructor.
  - eexists _, _. split; [vm_compute; reflexivity|]. repeat split.
Qed.

(** ** C47 *)

(** On the terminal appear exactly the messages whose level is at least the verbosity in force. *)
Theorem C47_printed : forall fill h o, printed (snd (run fill o h)) = shown fill (verbosity o) h /\
  verbosity (fst (run fill o h)) = in_force (verbosity o) h.
Proof. intros fill h o. split; [apply run_printed|apply run_state]. Qed.
Print Assumptions C47_printed.

(** A higher threshold shows a subsequence of what a lower one shows. *)
Theorem C47_monotone : forall fill ms o1 o2, (verbosity o2 <= verbosity o1)%Z ->
  sublist (printed (snd (run fill o1 (map Print ms)))) (printed (snd (run fill o2 (map Print ms)))).
Proof. intros fill ms o1 o2 H. rewrite !run_printed. apply shown_sublist. auto. Qed.
Print Assumptions C47_monotone.

(** The seven levels are ordered; by default warnings and worse are shown. *)
Theorem C47_levels : (DEBUG2 < DEBUG)%Z /\ (DEBUG < DETAILS)%Z /\ (DETAILS < INFO)%Z /\ (INFO < WARNING)%Z /\ (WARNING < ERROR)%Z /\
  (ERROR < CRITICAL)%Z /\
  forall fill logger m, In (level m) [CRITICAL; ERROR; WARNING; INFO; DETAILS; DEBUG; DEBUG2] ->
    (printed (snd (run fill (mkOutput DEFAULT logger) [Print m])) <> [] <-> In (level m) [WARNING; ERROR; CRITICAL]).
Proof.
  repeat (split; [unfold DEBUG2, DEBUG, DETAILS, INFO, WARNING, ERROR, CRITICAL; lia|]).
  intros fill lg m H. rewrite run_printed. cbn [shown verbosity]. rewrite app_nil_r.
  unfold DEFAULT, CRITICAL, ERROR, WARNING, INFO, DETAILS, DEBUG, DEBUG2 in *. cbn [In] in *.
  destruct (Z_le_dec 30 (level m)) as [L|L]; split; intros A; try congruence; try lia.
Qed.
Print Assumptions C47_levels.

(** A logger receives every message, whatever the verbosity, at the level of the logging module. *)
Theorem C47_logged : forall fill h o,
  (has_logger o = false -> logged (snd (run fill o h)) = []) /\
  (has_logger o = true ->
   map fst (logged (snd (run fill o h))) = map log_level (messages h) /\
   Forall2 (fun m e => snd e = text m \/ (wrap m = true /\ snd e = wrapped fill (indent m) (text m)))
           (messages h) (logged (snd (run fill o h)))).
Proof. intros fill h o. split; [apply run_no_logger|apply run_logged]. Qed.
Print Assumptions C47_logged.

(** But the text that is logged does depend on the verbosity: it is wrapped only if it is also printed. *)
Theorem C47_log_text_refuted : forall fill indent msg, wrapped fill indent msg <> msg ->
  exists m o1 o2, has_logger o1 = true /\ has_logger o2 = true /\
    logged (snd (run fill o1 [Print m])) <> logged (snd (run fill o2 [Print m])).
Proof.
  intros fill ind msg H. exists (mkMessage INFO msg true ind), (mkOutput INFO true), (mkOutput WARNING true).
  split; auto. split; auto. cbn. intros E. inversion E. auto.
Qed.
Print Assumptions C47_log_text_refuted.

Example C47_example : exists h,
  printed (snd (run (fun i s => (i ++ s)%string) (mkOutput DEFAULT false) h)) = ["b"; "  c"] /\ length (messages h) = 4.
Proof.
  exists [Print (mkMessage INFO "a" true ""); Print (mkMessage ERROR "b" true ""); SetVerbosity INFO;
          Print (mkMessage INFO "c" true "  "); Print (mkMessage DETAILS "d" true "")].
  split; vm_compute; reflexivity.
Qed.

(** ** C59 *)
Theorem C59_check : forall s p W quota alg, wf p -> voters p <> [] -> cand_set p W -> W <> [] ->
  (0 < the_quota p W quota)%Q -> exact_solver p s -> uses_gurobi alg ->
  forall name, In name PROPERTY_NAMES -> (quota <> None -> uses_quota name) ->
  (quota <> None -> name = "ejr+" -> forall i, i < length (voters p) ->
     (Qnat (approves_in p i W) * the_quota p W quota <= wsum (voters p))%Q) ->
  exists b, check s name p W quota alg = Ok b /\ (b = true <-> satisfies p (the_quota p W quota) name W).
Proof. exact check_exact. Qed.
Print Assumptions C59_check.

Theorem C59_check_rejects : forall s name p W quota alg,
  (~ In name PROPERTY_NAMES -> check s name p W quota alg = Err ValueError) /\
  (In name PROPERTY_NAMES -> ~ uses_quota name -> quota <> None -> check s name p W quota alg = Err ValueError).
Proof.
  intros s name p W quota alg. split; [apply check_names|]. intros A B C. destruct quota; [|congruence].
  apply check_quota_rejected; auto.
Qed.
Print Assumptions C59_check_rejects.

(** full_analysis reports each of the nine properties correctly, prints one line per property if the verbosity admits
    INFO messages, and leaves the verbosity as it was. *)
Theorem C59_full_analysis : forall fill s o p W, wf p -> voters p <> [] -> cand_set p W -> W <> [] -> exact_solver p s ->
  exists results, fst (full_analysis s o p W) = Ok results /\
    map fst results = PROPERTY_NAMES /\
    Forall (fun e => snd e = true <-> satisfies p (default_quota p (length W)) (fst e) W) results /\
    fst (run fill o (snd (full_analysis s o p W))) = o /\
    printed (snd (run fill o (snd (full_analysis s o p W)))) =
      if Z_le_dec (verbosity o) INFO
      then map (fun e => wrapped fill "" (text (analysis_line e))) results else [].
Proof.
  intros fill s o p W Hw Hv HW Hne Hs. destruct (full_analysis_ok fill s o p W Hw Hv HW Hne Hs) as (r & E & H).
  exists r. split; [rewrite E; auto|exact H].
Qed.
Print Assumptions C59_full_analysis.

(** If a check raises, the verbosity is not restored (here: an invalid committee, verbosity INFO). *)
Theorem C59_exception_refuted : forall fill s, exists o p W, wf p /\
  (exists err, fst (full_analysis s o p W) = Err err) /\ fst (run fill o (snd (full_analysis s o p W))) <> o.
Proof.
  intros fill s. exists (mkOutput INFO false), (mkp 2 [mkv [0] 1]), [0;0]. split; [wf_tac|].
  assert (E : full_analysis s (mkOutput INFO false) (mkp 2 [mkv [0] 1]) [0;0] = (Err ValueError, [SetVerbosity WARNING])) by reflexivity.
  rewrite E. split; [eexists; reflexivity|]. discriminate.
Qed.
Print Assumptions C59_exception_refuted.

Example C59_example : exists p W, wf p /\ voters p <> [] /\ cand_set p W /\ W <> [] /\
  exact_solver p (ref_solver (election_size p)) /\
  check (ref_solver (election_size p)) "ejr" p W None "fastest" = Ok true /\
  check (ref_solver (election_size p)) "jr" p W None "fastest" = Ok true /\
  check (ref_solver (election_size p)) "pareto" p W None "fastest" = Ok false.
Proof.
  exists (mkp 2 [mkv [0] 2; mkv [0;1] 1]), [1]. split; [wf_tac|]. split; [discriminate|].
  split; [|split; [discriminate|split]].
  - split; [repeat constructor; cbn; intuition|]. repeat constructor.
  - intros m Hg HB. apply ref_solver_correct; auto.
  - repeat split; vm_compute; reflexivity.
Qed.
