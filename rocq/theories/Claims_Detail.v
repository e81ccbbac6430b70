(** * C81, and further theorems on C55 and C60: texts, keywords and names in detail *)
From Coq Require Import String.
From Coq Require Import List Arith Bool ZArith QArith Ascii Lia.
From Verif Require Import Prelude Misc MiscProofs Preferences Spec Rule Compute ComputeSeq ComputeProofs RulesMonroe MonroeExample RulesMore ComputeAll ExampleData Claims_All
  Output Generate TextLines.
Import ListNotations.
Local Open Scope string_scope.
Open Scope nat_scope.
Local Open Scope list_scope.

(** ** C81: texts, line by line ([unlines]: the lines joined by line breaks; [one_line]: contains no line break) *)
(** The list of committees: a header with the number of committees, and one indented line for each. *)
Theorem C81_committee_list : forall (committees : list (list nat)) (winning : bool),
  let word := if winning then "winning committee" else "committee" in
  let lines := match List.length committees with
               | 0 => [("No " ++ word ++ "s")%string]
               | n => (str_nat n ++ " " ++ word ++ (if Nat.eqb n 1 then "" else "s") ++ ":")%string ::
                      map (fun W => (" " ++ str_set_of_candidates W)%string) committees ++ [""]
               end in
  str_committees_with_header committees winning = unlines lines /\ Forall one_line lines.
Proof. intros committees winning. split; [apply committee_list_text|apply (committee_list_one_line committees winning)]. Qed.
Print Assumptions C81_committee_list.
(** Nothing is lost: different lists of committees have different texts. *)
Theorem C81_committee_list_faithful : forall a b winning, Forall (@NoDup nat) a -> Forall (@NoDup nat) b ->
  str_committees_with_header a winning = str_committees_with_header b winning -> Forall2 set_same a b.
Proof. exact committee_list_inj. Qed.
Print Assumptions C81_committee_list_faithful.

(** Long messages are wrapped line by line: line breaks of the message are kept. *)
Theorem C81_wrapping : forall fill o m lines, lines <> [] -> Forall one_line lines -> text m = unlines lines -> wrap m = true -> (verbosity o <= level m)%Z ->
  fst (print_message fill o m) = Some (unlines (map (fill (indent m)) lines)).
Proof.
  intros fill o m lines Hne Hf Ht Hw Hv. unfold print_message. apply Z.leb_le in Hv. rewrite Hv, Hw. cbn [andb fst].
  unfold wrapped. rewrite Ht, split_unlines; auto.
Qed.
Print Assumptions C81_wrapping.
Theorem C81_every_text_has_lines : forall s, exists lines, lines <> [] /\ Forall one_line lines /\ s = unlines lines.
Proof. exact lines_exist. Qed.
Print Assumptions C81_every_text_has_lines.

(** The line that [full_analysis] prints for a property (see C59): its description, filled with blanks up to 50 characters, and the verdict. *)
Theorem C81_analysis_line : forall name d b, In (name, d)
    [("pareto", "Pareto optimality"); ("jr", "Justified representation (JR)"); ("pjr", "Proportional justified representation (PJR)");
     ("ejr", "Extended justified representation (EJR)"); ("ejr+", "EJR+"); ("fjr", "Full justified representation (FJR)");
     ("priceability", "Priceability"); ("stable-priceability", "Stable Priceability"); ("core", "The core")] ->
  exists s, text (analysis_line (name, b)) = (s ++ " : " ++ (if b then "True" else "False"))%string /\ String.length s = 50 /\
    exists n, s = (d ++ String.concat "" (repeat " " n))%string.
Proof.
  intros name d b H. cbn in H.
  repeat (destruct H as [E|H]; [injection E as <- <-; eexists; split; [destruct b; reflexivity|split; [reflexivity|eexists; reflexivity]]|]).
  contradiction.
Qed.
Print Assumptions C81_analysis_line.

Example C81_example : str_committees_with_header [[0; 2]; [1; 10]] true = unlines ["2 winning committees:"; " {0, 2}"; " {1, 10}"; ""] /\
  str_committees_with_header [[7]] false = unlines ["1 committee:"; " {7}"; ""] /\
  fst (print_message (fun i s => (i ++ s)%string) (mkOutput INFO false) (mkMessage INFO (unlines ["a"; ""; "b"]) true "> ")) = Some (unlines ["> a"; "> "; "> b"]).
Proof. repeat split; reflexivity. Qed.

(** ** C55: the keyword [completion] *)
(** It overrides the completion in the name of the rule; *)
Theorem C55_completion : forall rnd nx e id id' c p k expected alg res mx, In id equal_shares_ids ->
  In (c, id') [(None, "equal-shares-without-completion"); (Some "", "equal-shares-without-completion"); (Some "seqphragmen", "equal-shares");
               (Some "av", "equal-shares-with-av-completion"); (Some "increment", "equal-shares-with-increment-completion")] ->
  compute rnd nx e id p k expected (mkKwargs alg res mx (Some c) None false) = compute rnd nx e id' p k expected (mkKwargs alg res mx None None false).
Proof.
  intros rnd nx e id id' c p k expected alg res mx Hid Hc.
  assert (G : forall i, In i equal_shares_ids -> exists r, lookup_rule e i = Ok r /\ hd false (resolute_values r) = true).
  { intros i Hi. cbn in Hi. repeat (destruct Hi as [<-|Hi]; [eexists; split; [reflexivity|reflexivity]|]). contradiction. }
  assert (Hid' : In id' equal_shares_ids).
  { cbn in Hc. repeat (destruct Hc as [E|Hc]; [injection E as <- <-; cbn; tauto|]). contradiction. }
  destruct (G id Hid) as (r & E1 & H1). destruct (G id' Hid') as (r' & E2 & H2). unfold compute. rewrite E1, E2. cbn [rbind]. rewrite H1, H2.
  assert (compute_fct rnd nx e id p k (mkKwargs alg res mx (Some c) None false) = compute_fct rnd nx e id' p k (mkKwargs alg res mx None None false)) as ->; [|reflexivity].
  assert (K : compute_fct rnd nx e id p k (mkKwargs alg res mx (Some c) None false) =
              compute_equal_shares e p k (or_default alg "fastest") (or_default res true) (or_default mx None) c).
  { clear -Hid. cbn in Hid. repeat (destruct Hid as [<-|Hid]; [reflexivity|]). contradiction. }
  rewrite K. clear -Hc. cbn in Hc. repeat (destruct Hc as [E|Hc]; [injection E as <- <-; reflexivity|]). contradiction.
Qed.
Print Assumptions C55_completion.
(** any other value is a ValueError. *)
Theorem C55_unknown_completion : forall rnd nx e id c p k expected alg res mx, In id equal_shares_ids ->
  ~ In c [""; "seqphragmen"; "av"; "increment"] ->
  compute rnd nx e id p k expected (mkKwargs alg res mx (Some (Some c)) None false) = Err ValueError.
Proof.
  intros rnd nx e id c p k expected alg res mx Hid Hc. unfold compute.
  assert (exists r, lookup_rule e id = Ok r) as (r & ->).
  { cbn in Hid. repeat (destruct Hid as [<-|Hid]; [eexists; reflexivity|]). contradiction. }
  cbn [rbind].
  assert (K : compute_fct rnd nx e id p k (mkKwargs alg res mx (Some (Some c)) None false) =
              compute_equal_shares e p k (or_default alg "fastest") (or_default res true) (or_default mx None) (Some c)).
  { clear -Hid. cbn in Hid. repeat (destruct Hid as [<-|Hid]; [reflexivity|]). contradiction. }
  rewrite K. unfold compute_equal_shares, completion_rule. 
  assert (N : forall x, In x [""; "seqphragmen"; "av"; "increment"] -> String.eqb c x = false) by (intros x Hx; apply String.eqb_neq; intros ->; auto).
  rewrite ?(N ""), ?(N "seqphragmen"), ?(N "av"), ?(N "increment") by (cbn; tauto). reflexivity.
Qed.
Print Assumptions C55_unknown_completion.

(** ** C55: identifiers that name no rule: UnknownRuleIDError, unless a number in the identifier of a score function is malformed *)
Theorem C55_unknown_id : forall e id x, lookup_rule e id = Err x ->
  x = UnknownRuleIDError \/
  (x = ValueError /\ exists s, (id = "seq" ++ s \/ id = "revseq" ++ s)%string /\ (prefix "geom" s = true \/ prefix "atleast" s = true)).
Proof.
  intros e id x H. unfold lookup_rule, rule_of_id in H. destruct (listed_rule id) eqn:El; [discriminate|].
  destruct (prefix "seq" id || prefix "revseq" id) eqn:Ep; [|injection H as <-; auto].
  set (s := if prefix "seq" id then drop 3 id else drop 6 id) in *.
  assert (Hs : (id = "seq" ++ s \/ id = "revseq" ++ s)%string).
  { assert (P : forall a b, prefix a b = true -> b = (a ++ drop (String.length a) b)%string).
    { induction a as [|h a IH]; intros b Hb; [reflexivity|]. destruct b as [|h' b]; [discriminate|]. cbn in Hb.
      destruct (ascii_dec h h') as [->|]; [|discriminate]. cbn. f_equal. apply IH. exact Hb. }
    destruct (prefix "seq" id) eqn:E1; [left; exact (P "seq" id E1)|right; exact (P "revseq" id Ep)]. }
  unfold get_marginal_scorefct in H.
  destruct (String.eqb s "pav"); [destruct (listed_rule s); inversion H; auto|].
  destruct (String.eqb s "slav"); [destruct (listed_rule s); inversion H; auto|].
  destruct (String.eqb s "cc"); [destruct (listed_rule s); inversion H; auto|].
  destruct (String.eqb s "av"); [destruct (listed_rule s); inversion H; auto|].
  destruct (prefix "geom" s) eqn:E1.
  { destruct (fraction_of_string _ _); [destruct (listed_rule s); inversion H; auto|]. inversion H; subst x. right. split; auto. exists s. auto. }
  destruct (prefix "atleast" s) eqn:E2.
  { destruct (Compute.int_of_string _ _); [destruct (listed_rule s); inversion H; auto|]. inversion H; subst x. right. split; auto. exists s. auto. }
  inversion H; auto.
Qed.
Print Assumptions C55_unknown_id.
Example C55_detail_example :
  let call id kw := compute id_random ref_nx ex_env id ex_unit 3 None kw in
  call "equal-shares" (mkKwargs (Some "standard-fractions") None None (Some None) None false) = Ok [[0]] /\
  call "equal-shares" (mkKwargs (Some "standard-fractions") None None (Some (Some "AV")) None false) = Err ValueError /\
  call "seqphragms" no_kwargs = Err UnknownRuleIDError /\ call "seqgeom" no_kwargs = Err ValueError.
Proof. cbv zeta. repeat split; vm_compute; reflexivity. Qed.

(** ** C60: the dimension in the name of a point distribution: "<n>d_..." *)
Theorem C60_dimension : forall (F : Type) n t c (sg w : F) x, dist_new (str_nat n ++ "d_" ++ t)%string c sg w = Ok x ->
  dimension x = n /\ List.length (center x) = n.
Proof. exact dist_new_dimension. Qed.
Print Assumptions C60_dimension.
Example C60_dimension_example : exists x, dist_new "12d_cube" (inl tt) tt tt = Ok x /\ dimension x = 12.
Proof. eexists. split; reflexivity. Qed.
