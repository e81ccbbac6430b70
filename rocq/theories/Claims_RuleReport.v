(** * Claims C76 - C78: what the rules print

    [rule_report] (RuleReport.v) is the list of messages that a [compute_*] function sends to the output object.  [is_report] (SpecRuleReport.v)
    is the form of a report: name of the rule, mode, algorithm, an account, the winning committees, a further account; [tells]
    (SpecRuleTells.v) is what the account of each rule says, in terms of the specifications of the rules.  [num] is Python's [str] for numbers. *)
From Coq Require Import String.
From Coq Require Import List Arith Bool ZArith QArith Lia Lqa Permutation.
From Verif Require Import Prelude Misc Preferences Spec SpecRules SpecCompute SpecSeq SpecMonroe MesProofs Compute ComputeAll RulesMonroe RulesMore RulesSolver SolverCompute SpecAll AllProofs
  SpecText Output SpecOutput OutputProofs SpecReport CheckReport RuleReport SpecRuleReport SpecRuleTells RuleReportAll RuleReportOut ExampleData MonroeExample Claims_All.
Import ListNotations.
Local Open Scope string_scope.
Open Scope nat_scope.
Local Open Scope list_scope.

(** which calls: all rules and algorithms of [listed] and [listed_short]; for [listed_resolute], resolute=True *)
Definition covered_call (e : env) (p : profile) (k : nat) (id alg : string) (resolute : bool) (maxn : option pyobj) : Prop :=
  listed e p k id alg \/ listed_short e id alg \/ (listed_resolute e p id alg /\ resolute = true /\ maxn = None).

(** ** C77: the call succeeds, its report has the given form and everything the account says is true *)
Theorem C77_account : forall num rnd nx sv e p k id alg resolute maxn, libraries_ok p rnd nx sv e -> covered_call e p k id alg resolute maxn ->
  all_named p -> valid_call p k resolute maxn ->
  exists cs ms name title shown style before after,
    compute rnd nx (with_solvers nx sv e) id p (Z.of_nat k) None (args alg resolute maxn) = Ok cs /\
    rule_report num nx sv (with_solvers nx sv e) id alg p k resolute (limit maxn) cs = Ok ms /\
    rule_name id name /\ In (alg, title) ALGORITHM_TITLES /\ Permutation shown cs /\ (id <> "trivial" -> shown = cs) /\
    tells num e p k id resolute cs style before after /\
    is_report name (characters name) title style resolute p shown before after ms.
Proof.
  intros num rnd nx sv e p k id alg resolute maxn Hlib Hc Hn Hv.
  assert (H : exists cs, compute rnd nx (with_solvers nx sv e) id p (Z.of_nat k) None (args alg resolute maxn) = Ok cs /\ reports num nx sv e p k id alg resolute maxn cs).
  { destruct Hc as [Hl|[Hl|(Hl & -> & ->)]]; [| |apply listed_resolute_report; auto];
      (destruct (listed_listed_by nx e p k id alg (proj1 Hv) (proj1 (proj2 Hv))) as (P & HP); [auto|]; eapply listed_report; eauto). }
  destruct H as (cs & E & ms & name & title & shown & style & before & after & H1 & H2 & H3 & H4 & H5 & H6 & H7).
  exists cs, ms, name, title, shown, style, before, after. auto 10.
Qed.
Print Assumptions C77_account.

(** ** C76: what appears on the terminal.  At the default verbosity (and above INFO in general) nothing; at INFO the name of the rule, the mode
    and the winning committees by name, and nothing else; all else has level DETAILS. *)
Theorem C76_terminal : forall fill num rnd nx sv e p k id alg resolute maxn o, libraries_ok p rnd nx sv e -> covered_call e p k id alg resolute maxn ->
  all_named p -> valid_call p k resolute maxn ->
  exists cs ms, compute rnd nx (with_solvers nx sv e) id p (Z.of_nat k) None (args alg resolute maxn) = Ok cs /\
    rule_report num nx sv (with_solvers nx sv e) id alg p k resolute (limit maxn) cs = Ok ms /\
    let terminal := printed (snd (run fill o (map Print ms))) in
    ((INFO < verbosity o)%Z -> terminal = []) /\
    ((DETAILS < verbosity o <= INFO)%Z -> exists name style shown t, rule_name id name /\ (exists before after, tells num e p k id resolute cs style before after) /\
       Permutation shown cs /\ (id <> "trivial" -> shown = cs) /\ winners_sentence p shown t /\
       terminal = boxed (characters name) name :: headlines fill style resolute ++ [wrapped fill "" t]) /\
    ((verbosity o <= DETAILS)%Z -> length terminal = length ms).
Proof.
  intros fill num rnd nx sv e p k id alg resolute maxn o Hlib Hc Hn Hv.
  destruct (C77_account num rnd nx sv e p k id alg resolute maxn Hlib Hc Hn Hv) as (cs & ms & name & title & shown & style & before & after & E1 & E2 & H1 & H2 & H3 & H4 & H5 & H6).
  exists cs, ms. split; auto. split; auto. cbv zeta. rewrite run_printed.
  destruct (tells_details num e p k id resolute cs style before after H5) as [D1 D2].
  destruct (report_shown fill name (characters name) title style resolute p shown before after ms (verbosity o) D1 D2 H6) as [S1 S2].
  split; auto. split.
  - intros Hr. destruct (S2 Hr) as (t & Ht & Es). exists name, style, shown, t. repeat (split; eauto).
  - intros Hr. destruct H6 as (b & a & t & Hb & Ha & _ & ->). specialize (D1 b Hb). specialize (D2 a Ha).
    assert (A : forall l, Forall (fun m => level m = INFO \/ level m = DETAILS) l -> length (SpecOutput.shown fill (verbosity o) (map Print l)) = length l).
    { induction l as [|m l IH]; intros H; [reflexivity|]. inversion H as [|m' l' Hm Hl]; subst. cbn [map SpecOutput.shown length].
      destruct (Z_le_dec (verbosity o) (level m)) as [L|L]; [|exfalso; unfold INFO, DETAILS in *; destruct Hm as [E|E]; rewrite E in L; lia].
      cbn [app length]. f_equal. auto. }
    apply A. constructor; [left; reflexivity|]. apply Forall_app. split; [unfold mode_lines; destruct style, resolute; repeat constructor; left; reflexivity|].
    constructor; [right; reflexivity|]. apply Forall_app. split; [eapply Forall_impl; [|exact D1]; intros m H; auto|].
    constructor; [left; reflexivity|]. eapply Forall_impl; [|exact D2]. intros m H. auto.
Qed.
Print Assumptions C76_terminal.

(** Python's [str] of an int or a Fraction *)
Definition fraction_text (x : Q) : string :=
  let y := Qred x in if Pos.eqb (Qden y) 1 then str_Z (Qnum y) else (str_Z (Qnum y) ++ "/" ++ str_nat (Pos.to_nat (Qden y)))%string.

(** the messages of a call with the reference libraries *)
Definition example_report (p : profile) (k : nat) (id alg : string) (resolute : bool) : result (list message) :=
  do cs <- compute id_random ref_nx (with_solvers ref_nx (ref_solvers p) ex_env) id p (Z.of_nat k) None (args alg resolute None);
  rule_report fraction_text ref_nx (ref_solvers p) (with_solvers ref_nx (ref_solvers p) ex_env) id alg p k resolute None cs.
Definition texts (r : result (list message)) : list string := match r with Ok ms => map text ms | Err _ => [] end.

Example C77_example :
  libraries_ok ex_unit id_random ref_nx (ref_solvers ex_unit) ex_env /\ covered_call ex_env ex_unit 3 "seqpav" "standard" true None /\
  all_named ex_unit /\ valid_call ex_unit 3 true None /\
  texts (example_report ex_unit 3 "seqpav" "standard" true) =
  [boxed 49 "Sequential Proportional Approval Voting (seq-PAV)"; "Algorithm: Standard algorithm" ++ nl;
   "starting with the empty committee (score = 0)" ++ nl;
   "adding candidate number 1: 0"; "score increases by 2 to a total of 2"; "tie broken in favor of 0," ++ nl; "candidates {0, 1, 2} are tied";
   "(all would increase the score by the same amount 2)"; "";
   "adding candidate number 2: 2"; "score increases by 3/2 to a total of 7/2"; "";
   "adding candidate number 3: 3"; "score increases by 1 to a total of 9/2"; "tie broken in favor of 3," ++ nl; "candidates {3, 4} are tied";
   "(all would increase the score by the same amount 1)"; "";
   "1 winning committee:" ++ nl ++ " {0, 2, 3}" ++ nl; "PAV-score of winning committee(s):"; "{0, 2, 3}: 9/2"; nl]%string.
Proof.
  split; [apply example_libraries|]. split; [left; apply (l_seq ex_env ex_unit 3 "pav" pav_w); constructor|].
  split; [reflexivity|]. split; [apply ex_unit_valid|]. lazy. reflexivity.
Qed.

(** the terminal at INFO, with a [fill] that leaves the text as it is *)
Example C76_example :
  covered_call ex_env ex_unit 3 "pav" "brute-force" false None /\ all_named ex_unit /\
  (do ms <- example_report ex_unit 3 "pav" "brute-force" false;
   Ok (printed (snd (run (fun _ s => s) (mkOutput WARNING false) (map Print ms))),
       printed (snd (run (fun _ s => s) (mkOutput INFO false) (map Print ms))))) =
  Ok ([], [boxed 34 "Proportional Approval Voting (PAV)";
           "4 winning committees:" ++ nl ++ " {0, 2, 3}" ++ nl ++ " {0, 2, 4}" ++ nl ++ " {1, 2, 3}" ++ nl ++ " {1, 2, 4}" ++ nl])%string.
Proof.
  split; [left; apply (l_thiele ex_env ex_unit 3 "pav" pav_w); constructor|]. split; [reflexivity|]. lazy. reflexivity.
Qed.

(** ** C78: do the sentences mean what a reader takes them to mean?

    Sequential Phragmén, "maximum load increased to x": if somebody approves the candidate, x is the largest load of a voter; no voter's
    load ever decreases, and the weighted loads add up to the number of candidates elected. *)
Theorem C78_phragmen_loads : forall p W x c x', wf p -> runs_from p (phragmen_choice p) (phragmen_update p) [] (fun _ => 0%Q) W x ->
  phragmen_choice p W x c -> fans p c <> [] -> phragmen_update p W x c x' -> forall k,
  let announced := announced_load p k x c in
  (forall i, i < length (voters p) -> (x' i <= announced)%Q) /\ (exists i, i < length (voters p) /\ (x' i == announced)%Q) /\
  (forall i, i < length (voters p) -> (x i <= x' i)%Q) /\
  (sum (voter_ids p) (fun i => w p i * x' i) == Qnat (S (length W)))%Q.
Proof.
  intros p W x c x' Hw Hr Hc Hf Hu k. cbv zeta. unfold announced_load.
  destruct (fans p c) as [|i r] eqn:E; [congruence|]. cbn [length Nat.ltb Nat.leb].
  apply announced_is_maximum; auto. congruence.
Qed.
Print Assumptions C78_phragmen_loads.

(** 0 has been elected (loads 1/2, 1/2, 0), then 1 with load 3/4 for its two supporters *)
Definition overlap : profile := mkp 3 [mkv [0] 1; mkv [0; 1] 1; mkv [1; 2] 1].
Example C78_loads_example :
  let x := fun i : nat => match i with 0 | 1 => (1 # 2)%Q | _ => 0%Q end in
  let x' := fun i : nat => match i with 0 => (1 # 2)%Q | _ => (3 # 4)%Q end in
  wf overlap /\ runs_from overlap (phragmen_choice overlap) (phragmen_update overlap) [] (fun _ => 0%Q) [0] x /\
  phragmen_choice overlap [0] x 1 /\ fans overlap 1 <> [] /\ phragmen_update overlap [0] x 1 x' /\ (announced_load overlap 2 x 1 == 3 # 4)%Q.
Proof.
  assert (L : forall i, i < length (voters overlap) -> i = 0 \/ i = 1 \/ i = 2) by (cbn; lia).
  assert (F : forall W d, fresh overlap W d -> d = 0 \/ d = 1 \/ d = 2) by (intros W d [H _]; cbn in H; lia).
  cbv zeta. split; [wf_tac|]. split; [|split; [|split; [discriminate|split; [|vm_compute; reflexivity]]]].
  - eapply run_step with (x := fun _ => 0%Q); [apply run_start; intros i _; reflexivity| |].
    + split; [split; [cbn; lia|intros []]|]. cbn [Nat.ltb Nat.leb length fans filter]. intros d Hd _.
      destruct (F _ _ Hd) as [->|[->| ->]]; vm_compute; discriminate.
    + intros i Hi. destruct (L i Hi) as [->|[->| ->]]; vm_compute; reflexivity.
  - split; [split; [cbn; lia|intros [E|[]]; discriminate]|]. intros d Hd _.
    destruct (F _ _ Hd) as [->|[->| ->]]; [destruct Hd as [_ []]; left; auto| |]; vm_compute; discriminate.
  - intros i Hi. destruct (L i Hi) as [->|[->| ->]]; vm_compute; reflexivity.
Qed.

(** If nobody approves it, the announced maximum is wrong: here every load is 1 and "3" is announced. *)
Definition lonely : profile := mkp 2 [mkv [0] 1].
Theorem C78_phragmen_unapproved_refuted :
  texts (example_report lonely 2 "seqphragmen" "standard-fractions" true) =
  [boxed 41 "Phragmén's Sequential Rule (seq-Phragmén)"; "Algorithm: Standard algorithm (using standard Python fractions)" ++ nl;
   "adding candidate number 1: 0"; "maximum load increased to 1"; " load distribution:"; "(1)"; "";
   "adding candidate number 2: 1"; "maximum load increased to 3"; " load distribution:"; "(1)"; "";
   "1 winning committee:" ++ nl ++ " {0, 1}" ++ nl; "corresponding load distribution:"; "{0, 1}: (1)" ++ nl]%string /\
  valid_call lonely 2 true None /\
  (forall x, runs_from lonely (phragmen_choice lonely) (phragmen_update lonely) [] (fun _ => 0%Q) [1; 0] x -> (x 0%nat == 1)%Q).
Proof.
  split; [lazy; reflexivity|]. split; [split; [wf_tac|cbn; split; [discriminate|split; [lia|auto]]]|].
  intros x H. inversion H as [|W y c z H1 _ U1]; subst. inversion H1 as [|W y' c' z' H0 _ U0]; subst.
  inversion H0 as [y0 A0|]; subst. assert (L : 0 < length (voters lonely)) by (cbn; lia).
  pose proof (U1 0 L) as E1. pose proof (U0 0 L) as E0. pose proof (A0 0 L) as E.
  cbv beta in E1, E0, E. change (likes lonely 0 1) with false in E1. change (likes lonely 0 0) with true in E0. cbv iota in E1, E0.
  rewrite E1, E0. unfold new_load. change (fans lonely 0) with [0]. cbn [sum map]. cbn. rewrite E. reflexivity.
Qed.
Print Assumptions C78_phragmen_unapproved_refuted.

(** Reverse sequential rules mention a tie only if at least three candidates are tied: here 0 and 1 may be removed, and no tie is reported. *)
Definition rivals : profile := mkp 2 [mkv [0] 1; mkv [1] 1].
Theorem C78_revseq_tie_refuted :
  texts (example_report rivals 1 "revseqpav" "standard" true) =
  [boxed 60 "Reverse Sequential Proportional Approval Voting (revseq-PAV)"; "Algorithm: Standard algorithm" ++ nl;
   "full committee (2 candidates) has a total score of 2" ++ nl; "removing candidate number 1: 1"; "score decreases by 1 to a total of 1"; "";
   "1 winning committee:" ++ nl ++ " {0}" ++ nl; "PAV-score of winning committee: 1" ++ nl]%string /\
  valid_call rivals 1 true None /\ best_removal pav_w rivals [0; 1] 0 /\ best_removal pav_w rivals [0; 1] 1.
Proof.
  split; [lazy; reflexivity|]. split; [split; [wf_tac|cbn; split; [discriminate|split; [lia|auto]]]|].
  split; (split; [cbn; auto|]); intros d [<-|[<-|[]]]; vm_compute; discriminate.
Qed.
Print Assumptions C78_revseq_tie_refuted.

(** They call every score "PAV-score". *)
Definition friends : profile := mkp 2 [mkv [0; 1] 1].
Theorem C78_revseq_label_refuted :
  In ("PAV-score of winning committee: 1" ++ nl)%string (texts (example_report friends 2 "revseqcc" "standard" true)) /\
  (do cs <- compute id_random ref_nx (with_solvers ref_nx (ref_solvers friends) ex_env) "revseqcc" friends 2 None (args "standard" true None); Ok cs) = Ok [[0; 1]] /\
  valid_call friends 2 true None /\ (Thiele cc_w friends [0; 1]%nat == 1)%Q /\ (Thiele pav_w friends [0; 1]%nat == 3 # 2)%Q.
Proof.
  split; [lazy; tauto|]. split; [vm_compute; reflexivity|]. split; [split; [wf_tac|cbn; split; [discriminate|split; [lia|auto]]]|].
  split; vm_compute; reflexivity.
Qed.
Print Assumptions C78_revseq_label_refuted.

(** Method of Equal Shares, second phase: "starting loads (= budget spent)" are minus the budgets that are left. *)
Definition three_parties : profile := mkp 3 [mkv [0] 1; mkv [0] 1; mkv [1] 1; mkv [2] 1].
Theorem C78_budget_spent_refuted :
  exists earlier later, texts (example_report three_parties 2 "equal-shares" "standard-fractions" true) =
    earlier ++ ["with maxmimum cost per voter q = 1/2"; " remaining budget:"; "(0, 0, 1/2, 1/2)"; "";
                "Phase 2 (seq-Phragmén):" ++ nl; "starting loads (= budget spent):"; "(0, 0, -1/2, -1/2)" ++ nl]%string ++ later /\
  valid_call three_parties 2 true None /\
  (forall b, runs_from three_parties (mes_choice three_parties) (mes_update three_parties) [] (equal_share three_parties 2) [0] b ->
     let spent i := (equal_share three_parties 2 i - b i)%Q in
     (spent 0%nat == 1 # 2)%Q /\ (spent 1%nat == 1 # 2)%Q /\ (spent 2%nat == 0)%Q /\ (spent 3%nat == 0)%Q).
Proof.
  eexists [_; _; _; _; _; _], _. split; [lazy; reflexivity|]. split; [split; [wf_tac|cbn; split; [discriminate|split; [lia|auto]]]|].
  intros b H. inversion H as [|W y c z H0 Hc U]; subst. inversion H0 as [y0 A0|]; subst.
  destruct U as (rho & [Hp _] & Ag). cbv zeta.
  assert (L : forall i, i < 4 -> i < length (voters three_parties)) by (cbn; lia).
  assert (S : forall i, i < 4 -> (equal_share three_parties 2 i == 1 # 2)%Q).
  { intros i Hi. do 4 (destruct i as [|i]; [vm_compute; reflexivity|]). lia. }
  assert (B : forall i, i < 4 -> (y i == 1 # 2)%Q) by (intros i Hi; rewrite (A0 i (L i Hi)); auto).
  change (Qmin (y 0%nat) (rho * w three_parties 0) + (Qmin (y 1%nat) (rho * w three_parties 1) + 0) == 1)%Q in Hp.
  pose proof (Ag 0 (L 0 ltac:(lia))) as G0. pose proof (Ag 1 (L 1 ltac:(lia))) as G1.
  pose proof (Ag 2 (L 2 ltac:(lia))) as G2. pose proof (Ag 3 (L 3 ltac:(lia))) as G3. cbv beta in G0, G1, G2, G3.
  change (likes three_parties 0 0) with true in G0. change (likes three_parties 1 0) with true in G1.
  change (likes three_parties 2 0) with false in G2. change (likes three_parties 3 0) with false in G3. cbv iota in G0, G1, G2, G3.
  pose proof (B 0 ltac:(lia)) as B0. pose proof (B 1 ltac:(lia)) as B1. pose proof (B 2 ltac:(lia)) as B2. pose proof (B 3 ltac:(lia)) as B3.
  pose proof (MesProofs.Qmin_le_l (y 0%nat) (rho * w three_parties 0)). pose proof (MesProofs.Qmin_le_l (y 1%nat) (rho * w three_parties 1)).
  pose proof (S 0 ltac:(lia)). pose proof (S 1 ltac:(lia)). pose proof (S 2 ltac:(lia)). pose proof (S 3 ltac:(lia)). repeat split; lra.
Qed.
Print Assumptions C78_budget_spent_refuted.

(** Lexicographic minimax AV: the distances for several committees are run together. *)
Theorem C78_lexminimax_distances_refuted :
  texts (example_report rivals 1 "lexminimaxav" "brute-force" false) =
  [boxed 47 "Lexicographic Minimax Approval Voting (lex-MAV)"; "Algorithm: brute-force" ++ nl;
   "2 winning committees:" ++ nl ++ " {0}" ++ nl ++ " {1}" ++ nl; "Minimum maximal distance: 2";
   "Corresponding distances to voters:" ++ nl ++ "[0, 2][2, 0]" ++ nl]%string.
Proof. lazy. reflexivity. Qed.
Print Assumptions C78_lexminimax_distances_refuted.
