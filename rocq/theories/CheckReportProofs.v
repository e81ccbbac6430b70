(** * The reports of the checks *)
From Coq Require Import String.
From Coq Require Import List Arith Bool ZArith QArith Qround Lia Lqa.
From Verif Require Import Prelude Misc MiscProofs Preferences PrefProofs Spec SpecRules Checks SpecAxioms ChecksProofs Milp MilpProofs SolverProofs CheckSolver CheckSolverProofs
  SpecPrice PriceProofs Output OutputProofs SpecOutput CheckReport SpecReport.
Import ListNotations.
Local Open Scope string_scope.
Open Scope nat_scope.
Local Open Scope list_scope.

(** ** Searches *)
Lemma first_some_some : forall A B (f : A -> option B) l b, first_some f l = Some b -> exists a, In a l /\ f a = Some b.
Proof.
  intros A B f l. induction l as [|a r IH]; intros b H; [discriminate|]. cbn in H. destruct (f a) eqn:E.
  - injection H as ->. exists a. split; [left; auto|auto].
  - destruct (IH _ H) as (a' & H1 & H2). exists a'. split; [right|]; auto.
Qed.
Lemma forallb_first_some : forall A B (g : A -> bool) (f : A -> option B) l,
  (forall a, In a l -> g a = match f a with None => true | Some _ => false end) ->
  forallb g l = match first_some f l with None => true | Some _ => false end.
Proof.
  intros A B g f l. induction l as [|a r IH]; intros H; [reflexivity|]. cbn. rewrite (H a (or_introl eq_refl)), IH by (intros; apply H; right; auto).
  destruct (f a); auto.
Qed.
Lemma existsb_first_some : forall A B (g : A -> bool) (f : A -> option B) l,
  (forall a, In a l -> g a = match f a with None => false | Some _ => true end) ->
  existsb g l = match first_some f l with None => false | Some _ => true end.
Proof.
  intros A B g f l. induction l as [|a r IH]; intros H; [reflexivity|]. cbn. rewrite (H a (or_introl eq_refl)), IH by (intros; apply H; right; auto).
  destruct (f a); auto.
Qed.

(** the verdict of a search *)
Definition passed {A} (r : result (option A)) : result bool := do o <- r; Ok (match o with None => true | Some _ => false end).

Lemma JR_passed : forall p W q, check_JR_core p W q = match JR_search p W q with None => true | Some _ => false end.
Proof. intros. unfold check_JR_core, JR_search. apply forallb_first_some. intros c _. cbv beta zeta. destruct (Qle_bool _ _); reflexivity. Qed.
Lemma EJR_passed : forall p W q, check_EJR_core p W q = passed (EJR_search p W q).
Proof.
  intros. unfold check_EJR_core, EJR_search. destruct (upper_bound p q) as [ub|e]; [|reflexivity]. cbn. f_equal.
  apply forallb_first_some. intros ell _. unfold EJR_ell, EJR_ell_search. destruct (Qltb _ _); [reflexivity|].
  apply forallb_first_some. intros g _. destruct (Nat.leb_spec ell (length (joint_approvals p g))); destruct (Nat.ltb_spec (length (joint_approvals p g)) ell); auto; lia.
Qed.
Lemma PJR_passed : forall p W q, check_PJR_core p W q = passed (PJR_search p W q).
Proof.
  intros. unfold check_PJR_core, PJR_search. destruct (upper_bound p q) as [ub|e]; [|reflexivity]. cbn. f_equal.
  apply forallb_first_some. intros ell _. unfold PJR_ell, PJR_ell_search. destruct (Qltb _ _); [reflexivity|].
  apply forallb_first_some. intros g _. destruct (Nat.leb_spec ell (length (joint_approvals p g))); destruct (Nat.ltb_spec (length (joint_approvals p g)) ell); try lia; auto.
  cbn [andb orb]. match goal with |- negb ?b = _ => destruct b; reflexivity end.
Qed.
Lemma EJR_plus_passed : forall p W q ub cs, EJR_plus_loop p W q ub cs = passed (EJR_plus_search p W q ub cs).
Proof.
  intros p W q ub cs. induction cs as [|c r IH]; [reflexivity|]. cbn [EJR_plus_loop EJR_plus_search]. destruct (mem c W); auto.
  destruct (existsb _ _); [reflexivity|].
  match goal with |- context [first_some ?f ?l] => rewrite (existsb_first_some _ _ _ f l) by (intros ell _; cbv beta zeta; destruct (Qle_bool _ _); reflexivity); destruct (first_some f l) as [w|] end.
  - reflexivity.
  - exact IH.
Qed.
Lemma FJR_passed : forall p W q, check_FJR_core p W q = passed (FJR_search p W q).
Proof.
  intros. unfold check_FJR_core, FJR_search. destruct (upper_bound p q) as [ub|e]; [|reflexivity]. cbn [rbind passed]. f_equal.
  apply forallb_first_some. intros T _. apply forallb_first_some. intros beta _. cbv beta zeta. destruct (Qle_bool _ _); reflexivity.
Qed.
Lemma core_passed : forall p W q, check_core_core p W q = passed (core_search p W q).
Proof.
  intros. unfold check_core_core, core_search. destruct (upper_bound p q) as [ub|e]; [|reflexivity]. cbn [rbind passed]. f_equal.
  apply forallb_first_some. intros T _. cbv beta zeta. destruct (Nat.eqb _ 0); [reflexivity|]. cbn. destruct (Qle_bool _ _); reflexivity.
Qed.
Lemma pareto_passed : forall p W os, no_dominating p W os = passed (pareto_search p W os).
Proof.
  intros p W os. induction os as [|o r IH]; [reflexivity|]. cbn. destruct (dominate p o W) as [[|]|e]; cbn; auto.
Qed.
Lemma witness_passed : forall A gb m (read : assignment -> A), holds_if_infeasible gb m = passed (witness_of gb m read).
Proof. intros. unfold holds_if_infeasible, witness_of. destruct (gb m); reflexivity. Qed.
Lemma EJR_solve_passed : forall gb p W q, EJR_gurobi gb p W q = passed (EJR_solve gb p W q).
Proof. intros. unfold EJR_gurobi, EJR_solve. destruct (upper_bound p q); [|reflexivity]. cbn [rbind]. apply witness_passed. Qed.
Lemma PJR_solve_passed : forall gb p W q, PJR_gurobi gb p W q = passed (PJR_solve gb p W q).
Proof. intros. unfold PJR_gurobi, PJR_solve. destruct (upper_bound p q); [|reflexivity]. cbn [rbind]. apply witness_passed. Qed.
Lemma FJR_solve_passed : forall gb p W q, FJR_gurobi gb p W q = passed (FJR_solve gb p W q).
Proof. intros. unfold FJR_gurobi, FJR_solve. destruct (upper_bound p q); [|reflexivity]. cbn [rbind]. apply witness_passed. Qed.
Lemma core_solve_passed : forall gb p W q, core_gurobi gb p W q = passed (core_solve gb p W q).
Proof. intros. apply witness_passed. Qed.
Lemma pick_passed : forall A alg (b g : result (option A)), dispatch alg (passed b) (passed g) = passed (pick alg b g).
Proof. intros. unfold dispatch, pick. cbv beta zeta. destruct (String.eqb _ "brute-force"); auto. destruct (String.eqb _ "gurobi"); auto. Qed.

(** ** The verdict is that of the check *)
Lemma conclude_verdict : forall A verdict (explain : A -> result string) ind r,
  (forall a, r = Ok (Some a) -> exists s, explain a = Ok s) -> fst (conclude verdict explain ind r) = passed r.
Proof.
  intros A verdict explain ind [[a|]|e] H; try reflexivity. cbn. destruct (H a eq_refl) as (s & ->). reflexivity.
Qed.
Lemma conclude_levels : forall A verdict (explain : A -> result string) ind r m, In m (snd (conclude verdict explain ind r)) -> level m = INFO \/ level m = DETAILS.
Proof.
  intros A verdict explain ind [[a|]|e] m; cbn; [destruct (explain a)|..]; cbn; intuition subst; cbn; auto.
Qed.
Lemma conclude_explained : forall A verdict (explain : A -> result string) ind r (axiom : Prop) yes no (why : string -> Prop) b,
  passed r = Ok b -> (b = true <-> axiom) -> verdict true = yes -> verdict false = no ->
  (forall a, r = Ok (Some a) -> exists s, explain a = Ok s /\ why s) ->
  explained (conclude verdict explain ind r) axiom yes no why ind.
Proof.
  intros A verdict explain ind r axiom yes no why b Hp Hb <- <- He. destruct r as [[a|]|e]; cbn in Hp; try discriminate; injection Hp as <-.
  - right. split; [intros X; apply Hb in X; discriminate|]. destruct (He a eq_refl) as (s & E & Hs). exists s. split; auto. cbn. rewrite E. reflexivity.
  - left. split; [apply Hb; auto|]. reflexivity.
Qed.

(** ** Formatting *)
Lemma has_unit_iff : forall p, has_unit_weights p = true <-> unit_weights p.
Proof.
  intros p. unfold has_unit_weights, unit_weights. rewrite forallb_forall, Forall_forall. split; intros H v Hv; apply Qeq_bool_iff; auto.
Qed.
Lemma share_ok : forall pr p S, formattable pr p -> (0 < wsum (voters p))%Q -> exists t, share_text pr p S = Ok t /\ share_of pr p S t.
Proof.
  intros pr p S Hf Ht. unfold share_text. assert (E : Qeq_bool (total_weight p) 0 = false).
  { destruct (Qeq_bool (total_weight p) 0) eqn:E; auto. apply Qeq_bool_iff in E. rewrite total_weight_wsum in E. lra. }
  rewrite E. replace (forallb weight_is_int (voters p) || fraction_format pr) with true.
  - eexists. split; [reflexivity|]. exists (group_weight p S / total_weight p * 100)%Q. split.
    + rewrite group_weight_eq, total_weight_wsum. field. lra.
    + pose proof (has_unit_iff p) as U. destruct (has_unit_weights p); [left|right]; (split; [|reflexivity]); [apply U; auto|]. intros X. apply U in X. discriminate.
  - symmetry. apply orb_true_iff. destruct Hf as [H|H]; auto. left. apply forallb_forall. auto.
Qed.
Lemma deserves_total : forall p q S l, wf p -> (0 < q)%Q -> is_group p S -> 1 <= l -> deserves p q S l -> (0 < wsum (voters p))%Q.
Proof.
  intros p q S l Hw Hq Hg Hl Hd. apply total_pos; auto. destruct Hg as (Hne & _ & Hb). destruct S as [|i S]; [congruence|]. inversion Hb; subst.
  intros X. rewrite X in *. cbn in *. lia.
Qed.
Lemma group_total : forall p S, wf p -> is_group p S -> (0 < wsum (voters p))%Q.
Proof.
  intros p S Hw Hg. apply total_pos; auto. destruct Hg as (Hne & _ & Hb). destruct S as [|i S]; [congruence|]. inversion Hb; subst.
  intros X. rewrite X in *. cbn in *. lia.
Qed.
Lemma name_ok : forall p c, all_named p -> c < num_cand p -> exists s, name_of p c = Ok s /\ nth_error (cand_names p) c = Some s.
Proof.
  intros p c Hn Hc. unfold name_of. destruct (nth_error (cand_names p) c) eqn:E; eauto. apply nth_error_None in E. unfold all_named in Hn. lia.
Qed.
Lemma str_Z_nat : forall n, str_Z (Z.of_nat n) = str_nat n.
Proof. intros. unfold str_Z. destruct (Z.ltb_spec (Z.of_nat n) 0); [lia|]. rewrite Nat2Z.id. reflexivity. Qed.
Lemma verdict_eq : forall pr W yes no quota (b : bool), quota_verdict pr W yes no quota b = verdict pr W (if b then yes else no) quota.
Proof. intros. unfold quota_verdict, verdict. destruct quota; reflexivity. Qed.
Lemma app_assoc_eq : forall a b c : string, ((a ++ b) ++ c = a ++ (b ++ c))%string.
Proof. exact string_app_assoc. Qed.

(** ** Evidence found by the brute-force searches *)
Lemma filter_group : forall p f x, wf p -> (0 < x)%Q -> (x <= group_weight p (filter f (indices p)))%Q -> is_group p (filter f (indices p)).
Proof.
  intros p f x Hw Hx H. destruct (filter_indices p f) as [A B]. split; [|split; auto]. intros E. rewrite E in H. cbn in H. lra.
Qed.
Lemma Qnat1 : forall n q, 1 <= n -> (0 < q)%Q -> (0 < Qnat n * q)%Q.
Proof. intros n q Hn Hq. apply Qmult_lt_0_compat; auto. apply Qnat_pos. lia. Qed.

Lemma JR_found : forall p W q S c, wf p -> (0 < q)%Q -> JR_search p W q = Some (S, c) -> JR_violation p q W S c.
Proof.
  intros p W q S c Hw Hq H. apply first_some_some in H as (d & Hd & H). cbv beta zeta in H. destruct (Qle_bool _ _) eqn:E; [|discriminate]. injection H as <- <-.
  apply Qle_bool_iff in E. apply in_seq in Hd. split; [eapply filter_group; eauto|]. split.
  { unfold deserves. rewrite <- group_weight_eq. change (Qnat 1) with 1%Q. lra. }
  split; [lia|]. split.
  - intros i e Hi [<-|[]]. apply filter_In in Hi as [_ Hi]. apply andb_true_iff in Hi as [Hi _]. apply mem_In. auto.
  - intros i Hi. apply filter_In in Hi as [_ Hi]. apply andb_true_iff in Hi as [_ Hi]. apply approves_nil_iff. auto.
Qed.
Lemma EJR_plus_found : forall p W q ub cs S c l, wf p -> (0 < q)%Q -> Forall (fun c => c < num_cand p) cs ->
  EJR_plus_search p W q ub cs = Ok (Some (S, c, l)) -> EJR_plus_violation p q W S l c.
Proof.
  intros p W q ub cs S c l Hw Hq. induction cs as [|d r IH]; intros Hc H; [discriminate|]. inversion Hc as [|d' r' Hd Hr]; subst. cbn [EJR_plus_search] in H.
  destruct (mem d W) eqn:Ed; [auto|]. destruct (existsb _ _); [discriminate|].
  match type of H with context [first_some ?f ?l] => destruct (first_some f l) as [w|] eqn:F end; [|auto].
  injection H as ->. apply first_some_some in F as (ell & _ & F). cbv beta zeta in F. destruct (Qle_bool _ _) eqn:E; [|discriminate]. injection F as <- <- <-.
  apply Qle_bool_iff in E. rewrite filter_filter in *. split; [eapply filter_group; [auto|apply (Qnat1 (Datatypes.S ell) q); [lia|auto]|exact E]|].
  split; [lia|]. split; [unfold deserves; rewrite <- group_weight_eq; exact E|]. split; auto. split; [intros X; apply mem_In in X; congruence|]. split.
  - intros i e Hi [<-|[]]. apply filter_In in Hi as [_ Hi]. apply andb_true_iff in Hi as [Hi _]. apply mem_In. auto.
  - intros i Hi. apply filter_In in Hi as [_ Hi]. apply andb_true_iff in Hi as [_ Hi]. apply Nat.leb_le in Hi. change (approves_in p i W <= ell) in Hi. lia.
Qed.
Lemma FJR_found : forall p W q S n T, wf p -> (0 < q)%Q -> FJR_search p W q = Ok (Some (S, n, T)) ->
  exists beta, n = PyI beta /\ FJR_violation p q W S beta T.
Proof.
  intros p W q S n T Hw Hq H. unfold FJR_search in H. destruct (upper_bound p q) as [ub|]; [|discriminate]. cbn [rbind] in H. injection H as H.
  apply first_some_some in H as (T' & HT & H). apply first_some_some in H as (beta & Hb & H). cbv beta zeta in H. destruct (Qle_bool _ _) eqn:E; [|discriminate]. injection H as <- <- <-.
  apply Qle_bool_iff in E. apply in_seq in Hb. exists beta. split; auto. apply subsets_In in HT as [HT _].
  assert (1 <= length T') by lia.
  split; [eapply filter_group; [auto|apply (Qnat1 (length T') q); auto|exact E]|]. split; [apply sub_cand_set; auto|]. split; [lia|].
  split; [unfold deserves; rewrite <- group_weight_eq; exact E|]. intros i Hi. apply filter_In in Hi as [_ Hi]. apply andb_true_iff in Hi as [H1 H2].
  apply Nat.leb_le in H1, H2. split; [exact H2|exact H1].
Qed.
Lemma core_found : forall p W q S T, wf p -> (0 < q)%Q -> core_search p W q = Ok (Some (S, T)) -> core_violation p q W S T.
Proof.
  intros p W q S T Hw Hq H. unfold core_search in H. destruct (upper_bound p q) as [ub|]; [|discriminate]. cbn [rbind] in H. injection H as H.
  apply first_some_some in H as (T' & HT & H). cbv beta zeta in H. destruct (Nat.eqb _ 0) eqn:E0; [discriminate|]. destruct (Qle_bool _ _) eqn:E; [|discriminate]. injection H as <- <-.
  apply Qle_bool_iff in E. apply Nat.eqb_neq in E0. apply subsets_In in HT as [HT _].
  match goal with |- core_violation _ _ _ (filter ?f _) _ => destruct (filter_indices p f) as [A B] end.
  split; [split; [|split; auto]; intros X; rewrite X in E0; apply E0; reflexivity|]. split; [apply sub_cand_set; auto|].
  split; [unfold deserves; rewrite <- group_weight_eq; exact E|]. intros i Hi. apply filter_In in Hi as [_ Hi]. apply Nat.ltb_lt in Hi. exact Hi.
Qed.
Lemma EJR_found : forall p W q S n T, wf p -> unit_weights p -> (0 < q)%Q -> EJR_search p W q = Ok (Some (S, n, T)) ->
  exists l, n = Z.of_nat l /\ (forall i, In i S <-> i < length (voters p) /\ approves_in p i W < l) /\ NoDup S /\
  exists S', incl S' S /\ EJR_violation p q W S' l T.
Proof.
  intros p W q S n T Hw Hu Hq H. unfold EJR_search in H. destruct (upper_bound p q) as [ub|]; [|discriminate]. cbn [rbind] in H. injection H as H.
  apply first_some_some in H as (l & Hl & H). apply in_seq in Hl. unfold EJR_ell_search in H. destruct (Qltb _ _); [discriminate|].
  apply first_some_some in H as (g & Hg & H). cbv beta zeta in H. destruct (Nat.leb_spec l (length (joint_approvals p g))) as [E|]; [|discriminate]. injection H as <- <- <-.
  exists l. split; auto. split; [intros i; unfold short_of; rewrite filter_In, in_indices, Nat.ltb_lt; reflexivity|]. split; [apply filter_indices|].
  assert (Hc : 1 <= Z.to_nat (Qceiling (Qnat l * q))) by (pose proof (ceil_pos _ (Qnat1 l q ltac:(lia) Hq)); lia).
  destruct (combos_jointly _ _ _ _ _ Hc Hg) as [Hne Hb]. pose proof (combinations_length _ _ _ _ Hg) as Hlen. apply combinations_sublist in Hg as [Hs _].
  assert (Hi : incl g (short_of p W l)) by (intros i Hi; eapply sublist_incl; eauto).
  assert (Hgr : is_group p g) by (split; auto; split; auto; eapply sublist_NoDup; [exact Hs|apply filter_indices]).
  exists g. split; auto. split; auto. split; [lia|]. split; [apply unit_deserves; auto; lia|].
  split; [split; [apply joint_NoDup; auto|]|].
  { apply Forall_forall. intros c Hc'. destruct g as [|i g]; [congruence|]. rewrite joint_In in Hc' by discriminate. inversion Hb; subst.
    destruct (ballot_wf p i Hw H1) as [_ F]. rewrite Forall_forall in F. apply F, Hc'. left; auto. }
  split; auto. split.
  - intros i c H1 H2. rewrite joint_In in H2 by auto. auto.
  - intros i H1. apply Hi in H1. apply filter_In in H1 as [_ H1]. apply Nat.ltb_lt in H1. exact H1.
Qed.
Lemma PJR_found : forall p W q S n T, wf p -> unit_weights p -> NoDup W -> (0 < q)%Q -> PJR_search p W q = Ok (Some (S, n, T)) ->
  exists l, n = Z.of_nat l /\ (forall i, In i S <-> i < length (voters p) /\ approves_in p i W < l) /\ NoDup S /\
  exists S', incl S' S /\ PJR_violation p q W S' l T.
Proof.
  intros p W q S n T Hw Hu HW Hq H. unfold PJR_search in H. destruct (upper_bound p q) as [ub|]; [|discriminate]. cbn [rbind] in H. injection H as H.
  apply first_some_some in H as (l & Hl & H). apply in_seq in Hl. unfold PJR_ell_search in H. destruct (Qltb _ _); [discriminate|].
  apply first_some_some in H as (g & Hg & H). cbv beta zeta in H. destruct (Nat.leb_spec l (length (joint_approvals p g))) as [E|]; [|discriminate].
  cbn [andb] in H. destruct (_ <? l) eqn:E'; [|discriminate]. apply Nat.ltb_lt in E'. injection H as <- <- <-.
  exists l. split; auto. split; [intros i; unfold short_of; rewrite filter_In, in_indices, Nat.ltb_lt; reflexivity|]. split; [apply filter_indices|].
  assert (Hc : 1 <= Z.to_nat (Qceiling (Qnat l * q))) by (pose proof (ceil_pos _ (Qnat1 l q ltac:(lia) Hq)); lia).
  destruct (combos_jointly _ _ _ _ _ Hc Hg) as [Hne Hb]. pose proof (combinations_length _ _ _ _ Hg) as Hlen. apply combinations_sublist in Hg as [Hs _].
  assert (Hi : incl g (short_of p W l)) by (intros i Hi; eapply sublist_incl; eauto).
  assert (Hgr : is_group p g) by (split; auto; split; auto; eapply sublist_NoDup; [exact Hs|apply filter_indices]).
  exists g. split; auto. split; auto. split; [lia|]. split; [apply unit_deserves; auto; lia|].
  split; [split; [apply joint_NoDup; auto|]|].
  { apply Forall_forall. intros c Hc'. destruct g as [|i g]; [congruence|]. rewrite joint_In in Hc' by discriminate. inversion Hb; subst.
    destruct (ballot_wf p i Hw H1) as [_ F]. rewrite Forall_forall in F. apply F, Hc'. left; auto. }
  split; auto. split.
  - intros i c H1 H2. rewrite joint_In in H2 by auto. auto.
  - rewrite <- covered_union by auto. exact E'.
Qed.

(** ** Evidence read off a solution *)
Lemma group_at_least_of : forall p x, group_bits p x -> group_at_least p x = group_of p x.
Proof.
  intros p x H. apply filter_ext_in. intros i Hi. apply eq_true_iff_eq. rewrite !Qle_bool_iff. destruct (H i Hi) as [E|E]; rewrite E; split; intros; lra.
Qed.
Lemma cut_at_least_of : forall p x, cut_bits p x -> cut_at_least p x = cut_of p x.
Proof.
  intros p x H. apply filter_ext_in. intros i Hi. apply eq_true_iff_eq. rewrite !Qle_bool_iff. destruct (H i Hi) as [E|E]; rewrite E; split; intros; lra.
Qed.
Lemma group_above_of : forall p x, group_bits p x -> group_above p x = group_of p x.
Proof.
  intros p x H. apply filter_ext_in. intros i Hi. apply eq_true_iff_eq. rewrite Qltb_lt, Qle_bool_iff. destruct (H i Hi) as [E|E]; rewrite E; split; intros; lra.
Qed.
Lemma cut_above_of : forall p x, cut_bits p x -> cut_above p x = cut_of p x.
Proof.
  intros p x H. apply filter_ext_in. intros i Hi. apply eq_true_iff_eq. rewrite Qltb_lt, Qle_bool_iff. destruct (H i Hi) as [E|E]; rewrite E; split; intros; lra.
Qed.
Lemma py_round_nat : forall x n, (x == Qnat n)%Q -> py_round x = Z.of_nat n.
Proof.
  intros x n E. unfold py_round. assert (F : Qfloor x = Z.of_nat n) by (rewrite E; unfold Qnat; apply Qfloor_Z). rewrite F.
  replace (Qltb (x - inject_Z (Z.of_nat n)) (1 # 2)) with true; auto. symmetry. apply Qltb_lt. rewrite E. unfold Qnat. lra.
Qed.
Lemma ell_cut : forall p q ub x l, Forall (in_domain x) (ell_decls p) -> Forall (holds x) (ell_cons p q ub) -> (x Ell == Qnat l)%Q ->
  l <= length (cut_of p x) /\ all_approve p (group_of p x) (cut_of p x).
Proof.
  intros p q ub x l HD HC El. unfold ell_decls in HD. inversion HD as [|d ds HE HD' Ed]; subst. apply Forall_app in HD' as [HG HT].
  rewrite bits_decl in HG, HT. unfold ell_cons in HC. apply Forall_app in HC as [HC HX].
  inversion HC as [|c1 cs H1 HC1 Ec]; subst. inversion HC1 as [|c2 cs H2 HC2 Ec]; subst. inversion HC2 as [|c3 cs H3 HC3 Ec]; subst. inversion HC3 as [|c4 cs H4 _ Ec]; subst.
  cbn [holds] in H4. rewrite ev_chosen_count, ev_var, El in H4 by exact HT. apply Qnat_le' in H4. split; auto.
  intros i c Hi' Hc. apply (group_of_In p x i HG) in Hi' as [Hi1 Hi2]. apply (cut_of_In p x c HT) in Hc as [Hc1 Hc2].
  destruct (mem c (ballot p i)) eqn:M; [apply mem_In; auto|]. exfalso. rewrite Forall_forall in HX.
  specialize (HX (CLe (lvar (InCut c)) (lsub (lconst 1) (lvar (InGroup i))))). cbn [holds] in HX. rewrite ev_var, ev_sub, ev_const, ev_var in HX.
  assert (x (InCut c) <= 1 - x (InGroup i))%Q; [|lra]. apply HX. apply in_flat_map. exists i. split; [apply in_indices; auto|]. apply in_flat_map. exists c. split; [apply in_seq; lia|].
  unfold ballot in M. unfold voter_at. rewrite M. left; auto.
Qed.
Lemma witness_feasible : forall A s m (read : assignment -> A) a, correct_on s m -> witness_of s m read = Ok (Some a) -> exists x, a = read x /\ optimal m x.
Proof. intros A s m read a Hc H. unfold witness_of, correct_on in *. destruct (s m) as [x| |]; try discriminate. injection H as <-. eauto. Qed.

Lemma EJR_read : forall s p W q S n T, wf p -> (0 < q)%Q -> exact_solver p s -> EJR_solve s p W q = Ok (Some (S, n, T)) ->
  exists l, n = Z.of_nat l /\ EJR_violation p q W S l T.
Proof.
  intros s p W q S n T Hw Hq Hs H. unfold EJR_solve in H. destruct (upper_bound p q) as [ub|]; [|discriminate]. cbn [rbind] in H.
  apply witness_feasible in H as (x & E & [HD HC] & _); [|apply EJR_correct; auto]. cbn [decls EJR_program Milp.cons] in HD, HC. apply Forall_app in HC as [HC HI].
  destruct (ell_sound p q ub x Hw Hq HD HC) as (l & (HG & HT & Hl & El & (C1 & C2 & C3 & _)) & _). destruct (ell_cut p q ub x l HD HC El) as [Hlen Hall].
  unfold read_ell in E. rewrite group_at_least_of, cut_at_least_of, (py_round_nat _ _ El) in E by auto. injection E as -> -> ->. exists l. split; auto.
  split; auto. split; auto. split; auto. split; [apply cut_set|]. split; auto. split; auto.
  intros i Hi. apply (group_of_In p x i HG) in Hi as [Hi1 Hi2]. rewrite Forall_map, Forall_forall in HI.
  specialize (HI i (proj2 (in_indices p i) Hi1) Hi2). cbn [holds] in HI. rewrite ev_const, ev_var, El in HI. apply Qnat_le' in HI.
  change (utility (voter_at p i) W) with (approves_in p i W) in HI. lia.
Qed.
Lemma PJR_read : forall s p W q S n T, wf p -> cand_set p W -> (0 < q)%Q -> exact_solver p s -> PJR_solve s p W q = Ok (Some (S, n, T)) ->
  exists l, n = Z.of_nat l /\ PJR_violation p q W S l T.
Proof.
  intros s p W q S n T Hw [HWn HWr] Hq Hs H. rewrite Forall_forall in HWr. unfold PJR_solve in H. destruct (upper_bound p q) as [ub|]; [|discriminate]. cbn [rbind] in H.
  apply witness_feasible in H as (x & E & [HD HC] & _); [|apply PJR_correct; auto]. cbn [decls PJR_program Milp.cons] in HD, HC.
  apply Forall_app in HD as [HD HU]. apply Forall_app in HC as [HC HI]. apply Forall_app in HI as [HI HJ].
  destruct (ell_sound p q ub x Hw Hq HD HC) as (l & (HG & HT & Hl & El & (C1 & C2 & C3 & _)) & _). destruct (ell_cut p q ub x l HD HC El) as [Hlen Hall].
  unfold read_ell in E. rewrite group_at_least_of, cut_at_least_of, (py_round_nat _ _ El) in E by auto. injection E as -> -> ->. exists l. split; auto.
  split; auto. split; auto. split; auto. split; [apply cut_set|]. split; auto. split; auto.
  rewrite bits_decl in HU. inversion HJ as [|c cs HJ' _ E]; subst. cbn [holds] in HJ'. rewrite ev_add, ev_const, ev_vsum, ev_var, map_map, El in HJ'.
  rewrite (binary_count (fun c => x (in_union c))) in HJ' by (intros c Hc; apply HU; apply in_seq; specialize (HWr c Hc); lia). rewrite <- Qnat_S' in HJ'. apply Qnat_le' in HJ'.
  assert (length (covered p (group_of p x) W) <= length (filter (fun y => Qle_bool 1 (x (in_union y))) W)); [|lia].
  apply NoDup_incl_length; [apply NoDup_filter; auto|]. intros c Hc. apply filter_In in Hc as [Hc Hc']. apply filter_In. split; auto. apply existsb_exists in Hc' as (i & Hi & M).
  apply (group_of_In p x i HG) in Hi as [Hi1 Hi2]. apply mem_In in M. rewrite Forall_forall in HI. specialize (HI (CGe (lvar (in_union c)) (lvar (InGroup i)))). cbn [holds] in HI. rewrite !ev_var in HI.
  apply Qle_bool_iff. rewrite <- Hi2. apply HI. apply in_flat_map. exists i. split; [apply in_indices; auto|]. apply in_map_iff. exists c. auto.
Qed.
Lemma FJR_read : forall s p W q S n T, wf p -> (0 < q)%Q -> exact_solver p s -> FJR_solve s p W q = Ok (Some (S, n, T)) ->
  exists beta x, n = PyF x /\ (x == Qnat beta)%Q /\ FJR_violation p q W S beta T.
Proof.
  intros s p W q S n T Hw Hq Hs H. unfold FJR_solve in H. destruct (upper_bound p q) as [ub|]; [|discriminate]. cbn [rbind] in H.
  apply witness_feasible in H as (x & E & Hx & _); [|apply FJR_correct; auto].
  destruct (FJR_facts p W q ub x Hw Hq Hx) as (beta & HG & HT & Hb & Eb & _ & Hgr & Hd & Hu). rewrite group_above_of, cut_above_of in E by auto. injection E as -> -> ->.
  exists beta, (x Ell). split; auto. split; auto. split; auto. split; [apply cut_set|]. split; auto. split; auto. intros i Hi. specialize (Hu i Hi). lia.
Qed.
Lemma core_read : forall s p W q S T, wf p -> (0 < q)%Q -> exact_solver p s -> core_solve s p W q = Ok (Some (S, T)) -> core_violation p q W S T.
Proof.
  intros s p W q S T Hw Hq Hs H. apply witness_feasible in H as (x & E & [HD HC] & _); [|apply core_correct; auto].
  cbn [decls Milp.cons core_program] in HD, HC. apply Forall_app in HD as [HG HT]. rewrite bits_decl in HG, HT. apply Forall_app in HC as [HC HX].
  rewrite group_at_least_of, cut_at_least_of in E by auto. injection E as -> ->.
  inversion HC as [|c2 cs H2 HC2 Ec]; subst. inversion HC2 as [|c3 cs H3 _ Ec]; subst. cbn [holds] in H2, H3.
  rewrite ev_scale, ev_chosen_count, ev_chosen_weight in H2 by first [exact HT|exact HG]. rewrite sum_group, ev_const in H3 by exact HG.
  split; [apply group_of_group; intros E; rewrite E in H3; apply (Qnat_le' 1 0) in H3; lia|]. split; [apply cut_set|]. split; [unfold deserves; lra|].
  intros i Hi. apply (group_of_In p x i HG) in Hi as [Hi1 Hi2]. rewrite Forall_map, Forall_forall in HX. specialize (HX i (proj2 (in_indices p i) Hi1) Hi2). cbn [holds] in HX.
  rewrite ev_const, ev_approved_chosen in HX by first [exact HT|auto]. apply Qnat_le' in HX. change (utility (voter_at p i) W) with (approves_in p i W) in HX. lia.
Qed.
Lemma pareto_read : forall s p W o, wf p -> exact_solver p s -> witness_of s (pareto_program p W) (committee_at_least p) = Ok (Some o) -> dominates p o W.
Proof.
  intros s p W o Hw Hs H. apply witness_feasible in H as (x & E & Hx & _); [|apply pareto_correct; auto].
  assert (Em : committee_at_least p x = members p x).
  { apply filter_ext_in. intros c Hc. destruct Hx as [HD _]. apply pareto_decls in HD as (_ & HB & _). apply eq_true_iff_eq. rewrite !Qle_bool_iff. destruct (HB c Hc) as [F|F]; rewrite F; split; intros; lra. }
  rewrite Em in E. subst o. destruct (pareto_facts p W x Hw Hx) as (A & B & (i & C & D)). split; auto. split.
  - intros v Hv. apply index_voter in Hv as (j & Hj & <-). apply (B j Hj).
  - exists (voter_at p i). split; [apply index_voter; eauto|exact D].
Qed.
Lemma pareto_found : forall p W os o, NoDup W -> (forall o, In o os -> is_committee p (length W) o) -> pareto_search p W os = Ok (Some o) -> dominates p o W.
Proof.
  intros p W os o HW. induction os as [|a r IH]; intros Hos H; [discriminate|]. cbn [pareto_search] in H.
  destruct (dominate p a W) as [d|] eqn:D; [|discriminate]. cbn [rbind] in H. destruct d.
  - injection H as <-. assert (Ha := Hos a (or_introl eq_refl)). split; auto.
    destruct (dominate_spec p a W) as (b & E & Hb); [apply ascending_NoDup; apply Ha|auto|]. rewrite D in E. injection E as <-. apply Hb. reflexivity.
  - apply IH; auto. intros o' Ho. apply Hos. right. auto.
Qed.

(** ** Reports *)
Lemma setup_ok : forall p W quota, cand_set p W -> (quota = None -> W <> []) -> (0 < the_quota p W quota)%Q ->
  exists q, (do q <- quota_of p W quota; do w <- checked_committee p W; Ok (q, w)) = Ok (q, W) /\ (q == the_quota p W quota)%Q /\ (0 < q)%Q.
Proof.
  intros p W quota HW Hn Hq. destruct (quota_of_ok p W quota Hn) as (q & -> & E). cbn [rbind]. rewrite checked_ok by auto. cbn [rbind].
  exists q. split; auto. split; auto. rewrite E. auto.
Qed.
Ltac weaken E := unfold deserves in *; rewrite <- E in *; intuition.

Theorem report_JR_explained : forall pr p W quota, wf p -> all_named p -> formattable pr p -> cand_set p W -> (quota = None -> W <> []) -> (0 < the_quota p W quota)%Q ->
  explained (report_JR pr p W quota) (JR p (the_quota p W quota) W) (verdict pr W "satisfies JR" quota) (verdict pr W "does not satisfy JR" quota)
    (fun t => exists S c, JR_violation p (the_quota p W quota) W S c /\ JR_sentence pr p S c t) "".
Proof.
  intros pr p W quota Hw Hnm Hf HW Hn Hq. unfold report_JR. destruct (setup_ok p W quota HW Hn Hq) as (q & -> & E & Hq').
  apply conclude_explained with (b := check_JR_core p W q); [cbn; rewrite JR_passed; reflexivity| |apply verdict_eq|apply verdict_eq|].
  - rewrite check_JR_core_exact by auto. split; apply JR_quota; auto. symmetry; auto.
  - intros (S, c) H. injection H as H. apply JR_found in H; auto. assert (V := H). destruct H as (Hg & Hd & Hc & _).
    unfold JR_explain. destruct (share_ok pr p S Hf (group_total p S Hw Hg)) as (t & -> & Ht). cbn [rbind]. destruct (name_ok p c Hnm Hc) as (s & -> & Hs). cbn [rbind].
    eexists. split; [reflexivity|]. exists S, c. split; [destruct V as (V1 & V2 & V3); split; auto; split; auto; unfold deserves in *; rewrite <- E; exact V2|]. exists t, s. split; auto.
Qed.
Theorem report_EJR_plus_explained : forall pr p W quota, wf p -> all_named p -> formattable pr p -> cand_set p W -> (quota = None -> W <> []) -> (0 < the_quota p W quota)%Q ->
  (forall i, i < length (voters p) -> (Qnat (approves_in p i W) * the_quota p W quota <= wsum (voters p))%Q) ->
  explained (report_EJR_plus pr p W quota) (EJR_plus p (the_quota p W quota) W) (verdict pr W "satisfies EJR+" quota) (verdict pr W "does not satisfy EJR+" quota)
    (fun t => exists S l c, EJR_plus_violation p (the_quota p W quota) W S l c /\ EJR_plus_sentence pr p S l c t) "".
Proof.
  intros pr p W quota Hw Hnm Hf HW Hn Hq Hbig. unfold report_EJR_plus. destruct (setup_ok p W quota HW Hn Hq) as (q & -> & E & Hq').
  destruct (check_EJR_plus_core_exact p W q Hw Hq') as (b & Eb & Hb); [intros i Hi; rewrite E; auto|].
  apply conclude_explained with (b := b); [| |apply verdict_eq|apply verdict_eq|].
  - rewrite <- Eb. unfold check_EJR_plus_core. destruct (upper_bound p q); [|reflexivity]. cbn [rbind]. symmetry. apply EJR_plus_passed.
  - rewrite Hb. split; apply EJR_plus_quota; auto. symmetry; auto.
  - intros ((S, c), l) H. destruct (upper_bound p q) as [ub|]; [|discriminate]. cbn [rbind] in H. apply EJR_plus_found in H; auto; [|apply Forall_forall; intros d Hd; apply in_seq in Hd; lia].
    assert (V := H). destruct H as (Hg & Hl & Hd & Hc & _).
    unfold EJR_plus_explain. destruct (share_ok pr p S Hf (group_total p S Hw Hg)) as (t & -> & Ht). cbn [rbind]. destruct (name_ok p c Hnm Hc) as (s & -> & Hs). cbn [rbind].
    eexists. split; [reflexivity|]. exists S, l, c. split; [destruct V as (V1 & V2 & V3 & V4); split; auto; split; auto; split; auto; unfold deserves in *; rewrite <- E; exact V3|]. exists t, s. split; auto.
Qed.

(** a check with a choice of algorithm *)
Lemma report_quota_explained : forall A pr yes no ind (explain : profile -> A -> result string) brute gurobi p W quota alg (check : list nat -> Q -> result bool) (axiom : Q -> Prop) (why : string -> Prop),
  cand_set p W -> (quota = None -> W <> []) -> (0 < the_quota p W quota)%Q ->
  (forall q, check W q = passed (pick alg (brute p W q) (gurobi p W q))) ->
  (forall q, (0 < q)%Q -> exists b, check W q = Ok b /\ (b = true <-> axiom q)) ->
  (forall q q', (q == q')%Q -> axiom q -> axiom q') ->
  (forall q a, (q == the_quota p W quota)%Q -> (0 < q)%Q -> pick alg (brute p W q) (gurobi p W q) = Ok (Some a) -> exists s, explain p a = Ok s /\ why s) ->
  explained (report_with_quota pr yes no ind explain brute gurobi p W quota alg) (axiom (the_quota p W quota)) (verdict pr W yes quota) (verdict pr W no quota) why ind.
Proof.
  intros A pr yes no ind explain brute gurobi p W quota alg check axiom why HW Hn Hq Hc Hex Hax Hwhy. unfold report_with_quota.
  destruct (setup_ok p W quota HW Hn Hq) as (q & -> & E & Hq'). destruct (Hex q Hq') as (b & Eb & Hb).
  apply conclude_explained with (b := b); [rewrite <- Hc; exact Eb| |apply verdict_eq|apply verdict_eq|].
  - rewrite Hb. split; apply Hax; auto. symmetry; auto.
  - intros a Ha. apply (Hwhy q a); auto.
Qed.
Lemma pick_gurobi : forall A alg (b g : result A), uses_gurobi alg -> pick alg b g = g.
Proof. intros A alg b g [-> | ->]; reflexivity. Qed.
Lemma EJR_explain_ok : forall pr p S l T, formattable pr p -> wf p -> is_group p S -> exists s, EJR_explain pr p (S, Z.of_nat l, T) = Ok s /\ EJR_sentence pr p S l T s.
Proof.
  intros pr p S l T Hf Hw Hg. unfold EJR_explain. destruct (share_ok pr p S Hf (group_total p S Hw Hg)) as (t & -> & Ht). cbn [rbind]. rewrite str_Z_nat.
  eexists. split; [reflexivity|]. exists t. split; auto.
Qed.
Lemma PJR_explain_ok : forall pr p S l T, formattable pr p -> wf p -> is_group p S -> exists s, PJR_explain pr p (S, Z.of_nat l, T) = Ok s /\ PJR_sentence pr p S l T s.
Proof.
  intros pr p S l T Hf Hw Hg. unfold PJR_explain. destruct (share_ok pr p S Hf (group_total p S Hw Hg)) as (t & -> & Ht). cbn [rbind]. rewrite str_Z_nat.
  eexists. split; [reflexivity|]. exists t. split; auto.
Qed.
Lemma core_explain_ok : forall pr p S T, formattable pr p -> wf p -> is_group p S -> exists s, core_explain pr p (S, T) = Ok s /\ core_sentence pr p S T s.
Proof.
  intros pr p S T Hf Hw Hg. unfold core_explain. destruct (share_ok pr p S Hf (group_total p S Hw Hg)) as (t & -> & Ht). cbn [rbind].
  eexists. split; [reflexivity|]. exists t. split; auto.
Qed.
Lemma FJR_explain_ok : forall pr p S beta n T, formattable pr p -> wf p -> is_group p S -> 1 <= beta -> (n = PyI beta \/ exists x, n = PyF x /\ (x == Qnat beta)%Q) ->
  exists s, FJR_explain pr p (S, n, T) = Ok s /\ FJR_sentence pr p S beta T s.
Proof.
  intros pr p S beta n T Hf Hw Hg Hb Hn. unfold FJR_explain. destruct (share_ok pr p S Hf (group_total p S Hw Hg)) as (t & -> & Ht). cbn [rbind].
  eexists. split; [reflexivity|]. exists t, (str_number pr n), (str_number pr (minus_one n)). split; auto. destruct Hn as [-> | (x & -> & Ex)].
  - split; [left; reflexivity|]. split; [left; reflexivity|]. reflexivity.
  - split; [right; exists x; auto|]. split; [|reflexivity]. right. exists (x - 1)%Q. split; auto. rewrite Ex. destruct beta as [|beta]; [lia|]. rewrite Qnat_S'. cbn [Nat.sub]. rewrite Nat.sub_0_r. ring.
Qed.

Theorem report_EJR_explained : forall pr s p W quota alg, wf p -> formattable pr p -> cand_set p W -> (quota = None -> W <> []) -> (0 < the_quota p W quota)%Q ->
  exact_solver p s -> uses_gurobi alg ->
  explained (report_EJR pr s p W quota alg) (EJR p (the_quota p W quota) W) (verdict pr W "satisfies EJR" quota) (verdict pr W "does not satisfy EJR" quota)
    (fun t => exists S l T, EJR_violation p (the_quota p W quota) W S l T /\ EJR_sentence pr p S l T t) " ".
Proof.
  intros pr s p W quota alg Hw Hf HW Hn Hq Hs Ha. apply (report_quota_explained _ pr _ _ _ _ _ _ p W quota alg (fun W q => EJR_gurobi s p W q) (fun q => EJR p q W)); auto.
  - intros q. rewrite pick_gurobi by auto. apply EJR_solve_passed.
  - intros q Hq'. apply EJR_gurobi_exact; auto.
  - intros q q' E. apply EJR_quota; auto.
  - intros q ((S, n), T) E Hq' H. rewrite pick_gurobi in H by auto. apply EJR_read in H as (l & -> & V); auto.
    destruct (EJR_explain_ok pr p S l T Hf Hw (proj1 V)) as (t & Et & Ht). exists t. split; auto. exists S, l, T. split; auto.
    destruct V as (V1 & V2 & V3 & V4). split; auto. split; auto. split; auto. eapply deserves_quota; eauto.
Qed.
Theorem report_PJR_explained : forall pr s p W quota alg, wf p -> formattable pr p -> cand_set p W -> (quota = None -> W <> []) -> (0 < the_quota p W quota)%Q ->
  exact_solver p s -> uses_gurobi alg ->
  explained (report_PJR pr s p W quota alg) (PJR p (the_quota p W quota) W) (verdict pr W "satisfies PJR" quota) (verdict pr W "does not satisfy PJR" quota)
    (fun t => exists S l T, PJR_violation p (the_quota p W quota) W S l T /\ PJR_sentence pr p S l T t) "".
Proof.
  intros pr s p W quota alg Hw Hf HW Hn Hq Hs Ha. apply (report_quota_explained _ pr _ _ _ _ _ _ p W quota alg (fun W q => PJR_gurobi s p W q) (fun q => PJR p q W)); auto.
  - intros q. rewrite pick_gurobi by auto. apply PJR_solve_passed.
  - intros q Hq'. apply PJR_gurobi_exact; auto.
  - intros q q' E. apply PJR_quota; auto.
  - intros q ((S, n), T) E Hq' H. rewrite pick_gurobi in H by auto. apply PJR_read in H as (l & -> & V); auto.
    destruct (PJR_explain_ok pr p S l T Hf Hw (proj1 V)) as (t & Et & Ht). exists t. split; auto. exists S, l, T. split; auto.
    destruct V as (V1 & V2 & V3 & V4). split; auto. split; auto. split; auto. eapply deserves_quota; eauto.
Qed.
(** With the brute-force algorithm the evidence is a part of the group that is printed. *)
Theorem report_EJR_brute : forall pr s p W quota, wf p -> unit_weights p -> formattable pr p -> cand_set p W -> (quota = None -> W <> []) -> (0 < the_quota p W quota)%Q ->
  explained (report_EJR pr s p W quota "brute-force") (EJR p (the_quota p W quota) W) (verdict pr W "satisfies EJR" quota) (verdict pr W "does not satisfy EJR" quota)
    (fun t => exists S S' l T, incl S' S /\ EJR_violation p (the_quota p W quota) W S' l T /\
      (forall i, In i S <-> i < length (voters p) /\ approves_in p i W < l) /\ EJR_sentence pr p S l T t) " ".
Proof.
  intros pr s p W quota Hw Hu Hf HW Hn Hq. apply (report_quota_explained _ pr _ _ _ _ _ _ p W quota "brute-force" (fun W q => check_EJR_core p W q) (fun q => EJR p q W)); auto.
  - intros q. apply EJR_passed.
  - intros q Hq'. apply check_EJR_core_exact; auto.
  - intros q q' E. apply EJR_quota; auto.
  - intros q ((S, n), T) E Hq' H. change (EJR_search p W q = Ok (Some (S, n, T))) in H. apply EJR_found in H as (l & -> & HS & HN & S' & Hi & V); auto.
    assert (Hg : is_group p S). { destruct V as ((Hne & _) & _). split; [intros ->; destruct S' as [|i r]; [congruence|destruct (Hi i (or_introl eq_refl))]|]. split; auto. apply Forall_forall. intros i Hi'. apply HS in Hi'. tauto. }
    destruct (EJR_explain_ok pr p S l T Hf Hw Hg) as (t & Et & Ht). exists t. split; auto. exists S, S', l, T. split; auto. split; auto.
    destruct V as (V1 & V2 & V3 & V4). split; auto. split; auto. split; auto. eapply deserves_quota; eauto.
Qed.
Theorem report_PJR_brute : forall pr s p W quota, wf p -> unit_weights p -> formattable pr p -> cand_set p W -> (quota = None -> W <> []) -> (0 < the_quota p W quota)%Q ->
  explained (report_PJR pr s p W quota "brute-force") (PJR p (the_quota p W quota) W) (verdict pr W "satisfies PJR" quota) (verdict pr W "does not satisfy PJR" quota)
    (fun t => exists S S' l T, incl S' S /\ PJR_violation p (the_quota p W quota) W S' l T /\
      (forall i, In i S <-> i < length (voters p) /\ approves_in p i W < l) /\ PJR_sentence pr p S l T t) "".
Proof.
  intros pr s p W quota Hw Hu Hf HW Hn Hq. apply (report_quota_explained _ pr _ _ _ _ _ _ p W quota "brute-force" (fun W q => check_PJR_core p W q) (fun q => PJR p q W)); auto.
  - intros q. apply PJR_passed.
  - intros q Hq'. apply check_PJR_core_exact; auto. apply HW.
  - intros q q' E. apply PJR_quota; auto.
  - intros q ((S, n), T) E Hq' H. change (PJR_search p W q = Ok (Some (S, n, T))) in H. apply PJR_found in H as (l & -> & HS & HN & S' & Hi & V); auto; [|apply HW].
    assert (Hg : is_group p S). { destruct V as ((Hne & _) & _). split; [intros ->; destruct S' as [|i r]; [congruence|destruct (Hi i (or_introl eq_refl))]|]. split; auto. apply Forall_forall. intros i Hi'. apply HS in Hi'. tauto. }
    destruct (PJR_explain_ok pr p S l T Hf Hw Hg) as (t & Et & Ht). exists t. split; auto. exists S, S', l, T. split; auto. split; auto.
    destruct V as (V1 & V2 & V3 & V4). split; auto. split; auto. split; auto. eapply deserves_quota; eauto.
Qed.
(** both algorithms *)
Definition with_solver (p : profile) (s : solver) (alg : string) : Prop := alg = "brute-force" \/ uses_gurobi alg /\ exact_solver p s.
Theorem report_FJR_explained : forall pr s p W quota alg, wf p -> formattable pr p -> cand_set p W -> (quota = None -> W <> []) -> (0 < the_quota p W quota)%Q ->
  with_solver p s alg ->
  explained (report_FJR pr s p W quota alg) (FJR p (the_quota p W quota) W) (verdict pr W "satisfies FJR" quota) (verdict pr W "does not satisfy FJR" quota)
    (fun t => exists S beta T, FJR_violation p (the_quota p W quota) W S beta T /\ FJR_sentence pr p S beta T t) " ".
Proof.
  intros pr s p W quota alg Hw Hf HW Hn Hq Ha. apply (report_quota_explained _ pr _ _ _ _ _ _ p W quota alg (fun W q => dispatch alg (check_FJR_core p W q) (FJR_gurobi s p W q)) (fun q => FJR p q W)); auto.
  - intros q. rewrite FJR_passed, FJR_solve_passed. apply pick_passed.
  - intros q Hq'. destruct Ha as [-> | [Ha Hs]]; [apply check_FJR_core_exact; auto|rewrite dispatch_gurobi by auto; apply FJR_gurobi_exact; auto].
  - intros q q' E. apply FJR_quota; auto.
  - intros q ((S, n), T) E Hq' H. assert (V : exists beta, (n = PyI beta \/ exists x, n = PyF x /\ (x == Qnat beta)%Q) /\ FJR_violation p q W S beta T).
    { destruct Ha as [-> | [Ha Hs]].
      - change (FJR_search p W q = Ok (Some (S, n, T))) in H. apply FJR_found in H as (beta & -> & V); auto. exists beta. auto.
      - rewrite pick_gurobi in H by auto. apply FJR_read in H as (beta & x & -> & Ex & V); auto. exists beta. split; eauto. }
    destruct V as (beta & Hb & V). destruct (FJR_explain_ok pr p S beta n T Hf Hw (proj1 V)) as (t & Et & Ht); auto; [apply V|]. exists t. split; auto. exists S, beta, T. split; auto.
    destruct V as (V1 & V2 & V3 & V4 & V5). split; auto. split; auto. split; auto. split; auto. eapply deserves_quota; eauto.
Qed.
Theorem report_core_explained : forall pr s p W quota alg, wf p -> formattable pr p -> cand_set p W -> (quota = None -> W <> []) -> (0 < the_quota p W quota)%Q ->
  with_solver p s alg ->
  explained (report_core pr s p W quota alg) (in_core p (the_quota p W quota) W) (verdict pr W "is in the core" quota) (verdict pr W "is not in the core" quota)
    (fun t => exists S T, core_violation p (the_quota p W quota) W S T /\ core_sentence pr p S T t) "".
Proof.
  intros pr s p W quota alg Hw Hf HW Hn Hq Ha. apply (report_quota_explained _ pr _ _ _ _ _ _ p W quota alg (fun W q => dispatch alg (check_core_core p W q) (core_gurobi s p W q)) (fun q => in_core p q W)); auto.
  - intros q. rewrite core_passed, core_solve_passed. apply pick_passed.
  - intros q Hq'. destruct Ha as [-> | [Ha Hs]]; [apply check_core_core_exact; auto|rewrite dispatch_gurobi by auto; apply core_gurobi_exact; auto].
  - intros q q' E. apply core_quota; auto.
  - intros q (S, T) E Hq' H. assert (V : core_violation p q W S T).
    { destruct Ha as [-> | [Ha Hs]]; [apply core_found; auto|]. rewrite pick_gurobi in H by auto. eapply core_read; eauto. }
    destruct (core_explain_ok pr p S T Hf Hw (proj1 V)) as (t & Et & Ht); auto. exists t. split; auto. exists S, T. split; auto.
    destruct V as (V1 & V2 & V3 & V4). split; auto. split; auto. split; auto. eapply deserves_quota; eauto.
Qed.
Theorem report_pareto_explained : forall s p W alg, wf p -> cand_set p W -> with_solver p s alg ->
  explained (report_pareto s p W alg) (pareto_optimal p W) ("Committee " ++ str_set_of_candidates W ++ " is Pareto optimal.")%string
    ("Committee " ++ str_set_of_candidates W ++ " is not Pareto optimal.")%string
    (fun t => exists W', dominates p W' W /\ t = ("(It is dominated by the committee " ++ str_set_of_candidates W' ++ ".)")%string) "".
Proof.
  intros s p W alg Hw HW Ha. unfold report_pareto. rewrite checked_ok by auto.
  assert (Hb : exists b, dispatch alg (check_pareto_core p W) (pareto_gurobi s p W) = Ok b /\ (b = true <-> pareto_optimal p W)).
  { destruct Ha as [-> | [Ha Hs]]; [apply (check_pareto_exact p W); apply HW|rewrite dispatch_gurobi by auto; apply pareto_gurobi_exact; auto; apply HW]. }
  destruct Hb as (b & Eb & Hb). apply conclude_explained with (b := b); [| exact Hb|reflexivity|reflexivity|].
  - rewrite <- pick_passed, <- witness_passed, <- pareto_passed. exact Eb.
  - intros o Ho. eexists. split; [reflexivity|]. exists o. split; auto. destruct Ha as [-> | [Ha Hs]].
    + eapply pareto_found; [apply HW| |exact Ho]. intros o' Ho'. apply combinations_seq in Ho'. exact Ho'.
    + rewrite pick_gurobi in Ho by auto. eapply pareto_read; eauto.
Qed.
