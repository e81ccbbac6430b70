(** * Claims C72, C73: the text of a profile, the meaning of a YAML file *)
From Coq Require Import String Ascii.
From Coq Require Import List Arith Bool ZArith QArith Lia Lqa.
From Verif Require Import Prelude Misc MiscProofs Preferences Spec FileIO SpecFile YamlProofs SpecText StrProfile Compact CompactProofs YamlMeaning ExampleData.
Import ListNotations.
Local Open Scope string_scope.
Open Scope nat_scope.
Local Open Scope list_scope.

(** ** C72 *)
(** What [str(profile)] is: a header and one numbered line per voter, separated by commas; the weight is
    given unless all weights are 1. *)
Theorem C72_text : forall str_weight p s, str_profile str_weight p = Ok s ->
  exists sets, Forall2 (fun v t => set_text (cand_names p) (approved v) t) (voters p) sets /\
  let unit := forallb (fun v => Qeq_bool (weight v) 1) (voters p) in
  let line i v t := (" voter " ++ pad4 (str_nat i ++ ":") ++ " " ++
                     (if unit then "" else str_weight (weight v) (weight_is_int v) ++ " * ") ++ t)%string in
  s = ((if unit then "" else "weighted ") ++ "profile with " ++ str_nat (length (voters p)) ++
       " voters and " ++ str_nat (num_cand p) ++ " candidates" ++
       match voters p with
       | [] => ""
       | _ => ":" ++ nl ++ String.concat ("," ++ nl)
                (map (fun ivt => line (fst ivt) (fst (snd ivt)) (snd (snd ivt)))
                     (combine (seq 0 (length (voters p))) (combine (voters p) sets)))
       end)%string.
Proof.
  intros sw p s H. destruct (str_profile_text sw p s H) as (sets & F & E). exists sets. split.
  - clear -F. induction F; constructor; auto. apply str_set_text. assumption.
  - cbv zeta. rewrite E. unfold header, has_unit_weights. rewrite !string_app_assoc. reflexivity.
Qed.
Print Assumptions C72_text.

(** Profiles with the same candidate names and the same text are the same: same number of
    candidates, same ballots in the same order, equal weights. *)
Theorem C72_identifies : forall str_weight p q s, faithful_numbers str_weight -> separable_names (cand_names p) ->
  cand_names p = cand_names q -> str_profile str_weight p = Ok s -> str_profile str_weight q = Ok s ->
  num_cand p = num_cand q /\ same_ballots p q.
Proof. exact str_profile_identifies. Qed.
Print Assumptions C72_identifies.

(** The names a profile has by default can be told apart. *)
Theorem C72_default_names : forall n, separable_names (map str_nat (seq 0 n)).
Proof.
  intros n. split.
  - apply FinFun.Injective_map_NoDup; [intros a b; apply str_nat_inj|apply seq_NoDup].
  - apply Forall_forall. intros s Hs. apply in_map_iff in Hs as (i & <- & _). split; [apply str_nat_nonempty|].
    split; apply str_nat_without; reflexivity.
Qed.
Print Assumptions C72_default_names.

(** [write_abcvoting_instance_to_yaml_file] therefore refuses a compute instance made for another profile
    with the same names ... *)
Theorem C72_file_guard : forall str_weight p q k c y, faithful_numbers str_weight -> separable_names (cand_names p) ->
  cand_names q = cand_names p -> get "profile" c = Some (PProfile q) ->
  write_compute_instance str_weight p k c = Ok y -> num_cand q = num_cand p /\ same_ballots q p.
Proof.
  intros sw p q k c y Hs Hn En Eq H. unfold write_compute_instance in H. rewrite Eq in H.
  destruct (get "rule_id" c) as [[r| |]|]; try discriminate.
  match type of H with rbind ?X _ = _ => destruct X; [|discriminate] end. cbn [rbind] in H.
  destruct (str_profile sw q) as [sq|] eqn:Esq; [|discriminate]. cbn [rbind] in H.
  destruct (str_profile sw p) as [sp|] eqn:Esp; [|discriminate]. cbn [rbind] in H.
  destruct (String.eqb_spec sq sp) as [->|]; [|discriminate].
  eapply str_profile_identifies; eauto. rewrite En. auto.
Qed.
Print Assumptions C72_file_guard.

(** ... but not one for a profile with other names: here the names are exchanged. *)
Theorem C72_file_guard_refuted : exists p q c, wf p /\ wf q /\ separable_names (cand_names p) /\ separable_names (cand_names q) /\
  get "profile" c = Some (PProfile q) /\ ~ same_ballots q p /\
  forall str_weight, exists y, write_compute_instance str_weight p None c = Ok y.
Proof.
  exists (mkProfile 2 ["a"; "b"] [mkVoter [0] 1 true]), (mkProfile 2 ["b"; "a"] [mkVoter [1] 1 true]),
    [("rule_id", PData (YStr "av")); ("profile", PProfile (mkProfile 2 ["b"; "a"] [mkVoter [1] 1 true]))].
  assert (N : forall x y : string, x <> y -> NoDup [x; y]).
  { intros x y H. constructor; [intros [E|[]]; congruence|]. constructor; [intros []|constructor]. }
  assert (S : forall x, x = "a" \/ x = "b" -> x <> "" /\ without ","%char x /\ without "010"%char x).
  { intros x [->| ->]; (split; [discriminate|]); split; intros [H|[]]; discriminate. }
  split; [wf_tac|]. split; [wf_tac|]. split; [split; [apply N; discriminate|repeat constructor; apply S; auto]|].
  split; [split; [apply N; discriminate|repeat constructor; apply S; auto]|]. split; [reflexivity|]. split.
  - intros H. inversion H as [|? ? ? ? [H1 _] _]; subst. cbn in H1. destruct (H1 1) as [H2 _]. destruct H2 as [H2|[]]; [left; auto|discriminate].
  - intros sw. eexists. vm_compute. reflexivity.
Qed.
Print Assumptions C72_file_guard_refuted.

(** [str_compact]: voters with the same ballot are put together, with the sum of their weights. *)
Theorem C72_compact : forall str_weight p s, str_compact str_weight p = Ok s ->
  exists groups lines, grouped (voters p) groups /\
    Forall2 (fun g line => exists t is_int, set_text (cand_names p) (fst g) t /\
      line = (" " ++ str_weight (snd g) is_int ++ " x " ++ t)%string) groups lines /\
    exists total is_int, (total == wsum (voters p))%Q /\
    let unit := forallb (fun v => Qeq_bool (weight v) 1) (voters p) in
    s = ((if unit then "" else "weighted ") ++ "profile with " ++ str_nat (length (voters p)) ++
         " voters and " ++ str_nat (num_cand p) ++ " candidates" ++
         match voters p with [] => "" | _ => ":" ++ nl ++ String.concat ("," ++ nl) lines end ++
         (if unit then "" else nl ++ "total weight: " ++ str_weight total is_int) ++ nl)%string.
Proof.
  intros sw p s H. destruct (str_compact_text sw p s H) as (groups & lines & G & F & total & i & Et & E).
  exists groups, lines. split; [exact G|]. split; [exact F|]. exists total, i. split; [exact Et|]. cbv zeta.
  rewrite E. unfold header, has_unit_weights. rewrite !string_app_assoc. reflexivity.
Qed.
Print Assumptions C72_compact.

Definition ex_numbers (q : Q) (_ : bool) : string :=
  let r := Qred q in ((if Z.ltb (Qnum r) 0 then "-" else "") ++ str_nat (Z.to_nat (Z.abs (Qnum r))) ++ "/" ++ str_nat (Pos.to_nat (Qden r)))%string.
Definition ex_text : profile :=
  mkProfile 3 ["x"; "zz"; "y"] [mkVoter [1; 0] 1 true; mkVoter [2] (1#2) false; mkVoter [1; 0] 2 true].
Definition break : string := String "010"%char "".
Example C72_example : faithful_numbers ex_numbers /\ separable_names (cand_names ex_text) /\ wf ex_text /\
  str_profile ex_numbers ex_text = Ok ("weighted profile with 3 voters and 3 candidates:" ++ break ++
    " voter 0:   1/1 * {x, zz}," ++ break ++ " voter 1:   1/2 * {y}," ++ break ++ " voter 2:   2/1 * {x, zz}")%string /\
  str_compact ex_numbers ex_text = Ok ("weighted profile with 3 voters and 3 candidates:" ++ break ++
    " 3/1 x {x, zz}," ++ break ++ " 1/2 x {y}" ++ break ++ "total weight: 7/2" ++ break)%string.
Proof.
  split; [|split; [|split; [wf_tac|split; vm_compute; reflexivity]]].
  - split.
    + intros q i. unfold ex_numbers. split; (apply without_app; [destruct (Z.ltb _ _); [apply without_cons; split; [discriminate|apply without_nil]|apply without_nil]|]);
        (apply without_app; [apply str_nat_without; reflexivity|]); apply without_app;
        try (apply str_nat_without; reflexivity); apply without_cons; split; try discriminate; apply without_nil.
    + intros q i q' i' E. unfold ex_numbers in E.
      assert (M : forall z z', ((if Z.ltb z 0 then "-" else "") ++ str_nat (Z.to_nat (Z.abs z)))%string = ((if Z.ltb z' 0 then "-" else "") ++ str_nat (Z.to_nat (Z.abs z')))%string -> z = z').
      { assert (D : forall n r, str_nat n <> String "-"%char r).
        { intros n r X. pose proof (str_nat_digits n) as Y. rewrite X in Y. discriminate. }
        intros z z'. destruct (Z.ltb_spec z 0), (Z.ltb_spec z' 0); cbn [append]; intros X.
        - injection X as X. apply str_nat_inj in X. lia.
        - symmetry in X. destruct (D _ _ X).
        - destruct (D _ _ X).
        - apply str_nat_inj in X. lia. }
      assert (W : forall z, without "/"%char ((if Z.ltb z 0 then "-" else "") ++ str_nat (Z.to_nat (Z.abs z)))%string).
      { intros z. apply without_app; [|apply str_nat_without; reflexivity].
        destruct (Z.ltb z 0); [apply without_cons; split; [discriminate|]|]; apply without_nil. }
      assert (E' : forall a b c d : string, (a ++ b ++ c ++ d)%string = ((a ++ b) ++ c ++ d)%string) by (intros; rewrite !string_app_assoc; reflexivity).
      rewrite (E' _ _ "/" (str_nat (Pos.to_nat (Qden (Qred q))))), (E' _ _ "/" (str_nat (Pos.to_nat (Qden (Qred q'))))) in E.
      destruct (split_at "/"%char _ _ _ _ (W _) (W _) (or_intror (ex_intro _ _ eq_refl)) (or_intror (ex_intro _ _ eq_refl)) E) as [E1 E2].
      apply M in E1. injection E2 as E2. apply str_nat_inj in E2. apply Pos2Nat.inj in E2.
      rewrite <- (Qred_correct q), <- (Qred_correct q'). unfold Qeq. rewrite E1, E2. reflexivity.
  - split; [repeat constructor; cbn; intuition discriminate|].
    repeat constructor; try discriminate; intros H; cbn in H; intuition discriminate.
Qed.

(** ** C73 *)
(** Reading a file gives what the file says. *)
Theorem C73_read : forall y p k insts, plain y -> read_abcvoting_yaml_data y = Ok (p, k, insts) ->
  exists data entries, y = YDict data /\ file_means data p k /\ file_entries data entries /\ Forall2 (file_instance p k) entries insts.
Proof. exact read_yaml_meaning. Qed.
Print Assumptions C73_read.

(** Every file that says something is read. *)
Theorem C73_accepts : forall data entries p k, plain (YDict data) -> file_means data p k -> file_entries data entries ->
  Forall (fun y => exists c, file_instance p k y c) entries ->
  exists insts, read_abcvoting_yaml_data (YDict data) = Ok (p, k, insts).
Proof. exact read_yaml_accepts. Qed.
Print Assumptions C73_accepts.

(** No file says two things. *)
Theorem C73_unambiguous : forall data p k q k', plain (YDict data) -> file_means data p k -> file_means data q k' -> p = q /\ k = k'.
Proof.
  intros data p k q k' P (W & F & _ & S) (W' & F' & _ & S').
  assert (E : yaml_profile data = Ok p) by (apply yaml_profile_iff; auto).
  assert (E' : yaml_profile data = Ok q) by (apply yaml_profile_iff; auto).
  split; [congruence|]. destruct (get "committeesize" data) as [n|]; [|congruence].
  destruct S as (z & -> & Hz), S' as (z' & -> & Hz'). apply py_int_iff in Hz, Hz'. congruence.
Qed.
Print Assumptions C73_unambiguous.

Definition ex_data : list (string * yval) :=
  [("profile", YList [YList [y_int 4; y_int 0]; YList [YBool true]]); ("voter_weights", YList [YNum 2 true; YNum (1#2) false]);
   ("committeesize", YNum (7#2) false); ("compute", YList [YDict [("rule_id", YStr "av"); ("result", YList [YList [y_int 0]])]])].
Definition ex_read : profile := mkProfile 5 ["0"; "1"; "2"; "3"; "4"] [mkVoter [4; 0] 2 true; mkVoter [1] (1#2) false].
Ltac plain_tac := lazymatch goal with
  | |- plain (YDict _) => apply plain_dict; split; [repeat constructor; cbn; intuition discriminate
      |repeat (apply Forall_cons; [cbn [snd]; plain_tac|]); apply Forall_nil]
  | |- plain (YList _) => apply plain_list; repeat (apply Forall_cons; [plain_tac|]); apply Forall_nil
  | |- plain (YNum _ _) => split; [reflexivity|intros; try discriminate; reflexivity]
  | |- plain (y_int _) => apply plain_y_int
  | |- _ => exact I
  end.
Example C73_example : plain (YDict ex_data) /\ file_means ex_data ex_read (Some 3%Z) /\
  (exists c, read_abcvoting_yaml_data (YDict ex_data) = Ok (ex_read, Some 3%Z, [c]) /\ get "result" c = Some (PCommittees [[0]])) /\
  read_abcvoting_yaml_data (YDict [("profile", YList [YList []])]) = Err ValueError.
Proof.
  assert (P : plain (YDict ex_data)).
  { unfold ex_data. plain_tac. }
  assert (R : exists c, read_abcvoting_yaml_data (YDict ex_data) = Ok (ex_read, Some 3%Z, [c]) /\ get "result" c = Some (PCommittees [[0]])).
  { eexists. split; vm_compute; reflexivity. }
  split; [exact P|]. split; [|split; [exact R|vm_compute; reflexivity]].
  destruct R as (c & R & _). destruct (read_yaml_meaning _ _ _ _ P R) as (data & entries & E & M & _). inversion E; subst. exact M.
Qed.
