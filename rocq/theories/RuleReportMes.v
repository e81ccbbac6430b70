(** * Proofs about the reports of the rules: the Method of Equal Shares *)
From Coq Require Import String.
From Coq Require Import List Arith Bool ZArith QArith Lia Lqa Permutation Sorted.
From Verif Require Import Prelude Misc MiscProofs Preferences Scores ScoresProofs Search Spec SpecRules SpecSeq SpecMonroe SpecLoads SpecText SpecReport
  SpecRuleReport Common SeqProofs PhragmenProofs EnestroemProofs MesProofs MesLoop MesFinal Rule RulesThiele Compute RulesSeq RulesMes Output CheckReport
  CheckReportProofs StrProfile ComputeProofs RuleReport RuleReportProofs RuleReportSeq RuleReportLoads.
Import ListNotations.
Local Open Scope string_scope.
Open Scope nat_scope.
Local Open Scope list_scope.

Section Mes.
  Variables (num : Q -> string) (p : profile) (k : nat).
  Hypothesis Hw : wf p.
  Hypothesis Hne : voters p <> [].
  Hypothesis Hn : all_named p.
  Lemma mes_next_length : forall C a c, length a = length (voters p) -> length (mes_next p C a c) = length (voters p).
  Proof using. intros C a c H. unfold mes_next. destruct (min_q p a c) as [[q|]|]; auto. apply enum_length. Qed.
  Lemma mes_story_ok : forall r C a, MGood p C a -> length C + r <= k -> length a = length (voters p) ->
    exists rounds C' a' ms, mes_rounds p k r C a = Ok (rounds, (C', a')) /\ mes_story num p (length C) rounds = Ok ms /\
      told (mes_choice p) (mes_update p) (mes_round num p) (rev C) (nthQ a) (rev C') (nthQ a') ms /\
      (length C' = length C + r \/ length C' < length C + r /\ mes_stuck p C' (nthQ a')) /\ MGood p C' a' /\ length a' = length (voters p).
  Proof using Hw Hne Hn.
    induction r as [|r IH]; intros C a HG Hl Ha.
    - exists [], C, a, []. cbn. split; auto. split; auto. split; [constructor|]. split; auto.
    - cbn [mes_rounds]. destruct (mes_sel_ok p Hw C a HG) as (tied & Es & Hasc & Hin & Hstuck).
      destruct (min_q_dict_spec p Hw a (available p C)) as (d & Ed & Hd & _). rewrite Ed. cbn [rbind].
      pose proof Es as Es'. unfold mes_select in Es'. rewrite Ed in Es'. cbn [rbind] in Es'.
      destruct d as [|e d0].
      { inversion Es'; subst tied. exists [], C, a, []. cbn. split; auto. split; auto. split; [constructor|]. split; auto. right. split; [lia|]. apply Hstuck. auto. }
      remember (e :: d0) as d eqn:Ede.
      assert (Hnn : map snd d <> []) by (rewrite Ede; discriminate).
      destruct (py_min_In _ Hnn) as (cost & Ec & Hcin & Hcmin). rewrite Ec in Es' |- *. cbn [rbind] in Es' |- *. rewrite Es. cbn [rbind].
      assert (Htied : forall c, In c tied -> exists q, price_of p (nthQ a) c q /\ (cost == q)%Q).
      { intros c Hc. inversion Es' as [Et]. rewrite <- Et in Hc.
        apply (Permutation_in c (Permutation_sym (isort_perm _))) in Hc. apply in_map_iff in Hc as ([c' q] & Ecc & Hf). cbn in Ecc. subst c'.
        apply filter_In in Hf as [Hf1 Hf2]. cbn in Hf2. apply Qeq_bool_iff in Hf2. exists q. split; [apply Hd; auto|symmetry; auto]. }
      assert (Hex : tied <> []).
      { intros E0. apply in_map_iff in Hcin as (cq & Ecq & Hcq).
        assert (Hi : In (fst cq) (isort (map fst (filter (fun x : nat * Q => Qeq_bool (snd x) cost) d)))).
        { apply (Permutation_in (fst cq) (isort_perm _)). apply in_map. apply filter_In. split; auto. rewrite Ecq. apply Qeq_bool_iff. reflexivity. }
        rewrite E0 in Es'. injection Es' as Et. rewrite Et in Hi. destruct Hi. }
      assert (Hrange : Forall (fun c => c < num_cand p) tied) by (apply Forall_forall; intros x Hx; apply Hin in Hx; apply Hx).
      destruct tied as [|c tied']; [congruence|]. clear Hex.
      destruct (tie_ok p (c :: tied') (fun t => [details ("tie broken in favor of " ++ cand_name p c ++ ",")%string " ";
                         details ("candidates " ++ t ++ " are tied")%string " ";
                         details ("(all would impose a maximum cost of " ++ num cost ++ ").")%string " "]) Hn Hrange) as (tie & Etie & Htie).
      assert (Hc : mes_choice p C (nthQ a) c) by (apply Hin; left; auto).
      destruct (mes_next_ok p Hw C a c HG Hc) as [Hu HG'].
      destruct (IH (C ++ [c]) (mes_next p C a c) HG') as (rounds & C' & a' & ms & E1 & E2 & E3 & E4 & E5 & E6).
      { rewrite app_length. cbn. lia. }
      { apply mes_next_length. auto. }
      rewrite E1. cbn [rbind fst snd]. eexists _, C', a', _. split; [reflexivity|].
      cbn [mes_story]. rewrite name_ok' by (auto; apply Hc). cbn [rbind]. rewrite Etie. cbn [rbind].
      rewrite app_length in E2, E4. cbn [length] in E2, E4. replace (length C + 1) with (S (length C)) in E2, E4 by lia. rewrite E2. cbn [rbind]. split; [reflexivity|].
      split; [|split; [replace (length C + S r) with (S (length C) + r) by lia; exact E4|auto]].
      rewrite app_snoc_rev in E3.
      pose proof (told_round (mes_choice p) (mes_update p) (mes_round num p) (rev C) (nthQ a) c (nthQ (mes_next p C a c)) (c :: tied') (rev C') (nthQ a')
        (adding p (rev C) c :: line " " ("with maxmimum cost per voter q = " ++ num cost)%string :: line "" " remaining budget:" :: line "  " (tuple_text num (mes_next p C a c)) :: tie) ms) as G.
      unfold adding in G. rewrite rev_length in G. apply G; clear G; [| | | | |exact E3].
      + split; auto. intros x. rewrite Hin. split; intros Hx; eapply mes_choice_ext; try exact Hx; try apply agree_refl; auto.
        * apply rev_same.
        * intros y. symmetry. apply rev_same.
      + left. auto.
      + intros x Hx. eapply ascending_head_le; eauto.
      + exact Hu.
      + destruct (Htied c (or_introl eq_refl)) as (q & Hq & Eq). exists q, (num cost), (tuple_text num (mes_next p C a c)), tie.
        split; auto. split; [apply shows_eq; auto|]. split; [apply tuple_ok; auto; [apply mes_next_length; auto|apply agree_refl]|]. split; auto.
        unfold adding. rewrite rev_length. reflexivity.
  Qed.
End Mes.
Lemma mes_round_ext : forall num p W x y c x' T ms, agree p x y -> mes_round num p W x c x' T ms -> mes_round num p W y c x' T ms.
Proof. intros num p W x y c x' T ms Ha (rho & price & bs & tie & H1 & H2). exists rho, price, bs, tie. split; auto. eapply price_of_ext; eauto. Qed.
Lemma mes_update_start : forall p W x y c x', agree p x y -> mes_update p W x c x' -> mes_update p W y c x'.
Proof.
  intros p W x y c x' Ha (rho & H1 & H2). exists rho. split; [eapply price_of_ext; eauto|]. intros i Hi. rewrite (H2 i Hi).
  destruct (likes p i c); [|apply Ha; auto]. assert (E : (x i == y i)%Q) by (apply Ha; auto).
  rewrite (Qmin_comp (x i) (rho * w p i) (y i) (rho * w p i) E ltac:(reflexivity)). rewrite E. reflexivity.
Qed.
Lemma mes_choice_start : forall p W x y c, agree p x y -> mes_choice p W x c -> mes_choice p W y c.
Proof. intros p W x y c Ha H. eapply mes_choice_ext; eauto. intros z. tauto. Qed.
Lemma mes_start_length : forall p k, length (mes_start p k) = length (voters p).
Proof. intros. apply map_length. Qed.

(** what the second phase says, by completion *)
Definition after_first (num : Q -> string) (c : completion_arg) (p : profile) (k : nat) (cs : list (list nat)) : list nat -> (nat -> Q) -> list message -> Prop :=
  match c with
  | PhragmenCompletion => second_phase num p k cs
  | AvCompletion => av_second_phase p k cs
  | _ => no_second_phase p k cs
  end.
Theorem mes_details_ok : forall num p k maxn c, wf p -> voters p <> [] -> all_named p -> 1 <= k <= num_cand p -> valid_max maxn -> c <> IncrementCompletion -> completion_needs p k c ->
  exists cs ms, equal_shares_rule p k true maxn c = Ok cs /\ mes_details num p k c = Ok ms /\ mes_told num p k (after_first num c p k cs) ms.
Proof.
  intros num p k maxn c Hw Hne Hn Hk Hm Hc Hneeds.
  destruct (equal_shares_rule_correct p k true maxn c Hw Hk Hm Hc Hneeds) as (W & EW & L0 & b0 & HL0 & HW1 & HW2).
  assert (HG0 : MGood p [] (mes_start p k)).
  { split; [constructor|]. split; [constructor|]. intros i Hi. rewrite (mes_start_agree p k i Hi). apply equal_share_nonneg; auto. }
  destruct (mes_story_ok num p k Hw Hne Hn k [] (mes_start p k) HG0 ltac:(cbn; auto) (mes_start_length p k)) as (rounds & C & a & ms & E1 & E2 & E3 & E4 & E5 & E6).
  cbn [length plus] in E4.
  destruct (told_start p _ _ _ (mes_choice_start p) (mes_update_start p) (fun W x y c x' T ms => mes_round_ext num p W x y c x' T ms) _ _ _ _ _ E3 _ (mes_start_agree p k)) as (b & Hb & E3').
  assert (Hends : mes_lex_ends p k (equal_share p k) (rev C) b).
  { split; [apply (told_lex p _ _ _ _ _ _ _ _ E3'); constructor; apply agree_refl|].
    rewrite rev_length. destruct E4 as [E4|[E4 Hst]]; auto. right. split; auto. eapply mes_stuck_ext; [apply rev_same|exact Hb|exact Hst]. }
  destruct (mes_lex_ends_unique _ _ _ _ _ _ _ HL0 Hends) as [-> Hb0]. rewrite rev_length in HW1, HW2.
  exists [W]. unfold mes_details. rewrite E1. cbn [rbind]. cbn [length] in E2. rewrite E2. cbn [rbind].
  assert (G : exists ms2, match c with
      | PhragmenCompletion =>
          if length C <? k then
            let start_load := map (fun iv => (- nthQ a (fst iv) / weight (snd iv))%Q) (enum_voters p) in
            do rounds2 <- phragmen_rounds p k (k - length C) C start_load;
            do story2 <- phragmen_story num p mes_tie_line (length C) rounds2;
            Ok (details ("Phase 2 (seq-Phragmén):" ++ nl)%string "" :: details "starting loads (= budget spent):" "" ::
                details (tuple_text num start_load ++ nl)%string "  " :: story2)
          else Ok []
      | _ => Ok []
      end = Ok ms2 /\ after_first num c p k [W] (rev C) b ms2).
  { destruct c; cbn [after_first].
    - exists []. split; auto. split; auto. f_equal. destruct E4 as [E4|[E4 _]]; [apply HW1; auto|apply HW2; auto].
    - cbn [completion_needs] in Hneeds. destruct (Nat.ltb_spec (length C) k) as [Hlt|Hge].
      + cbv zeta. set (loads := map (fun iv => (- nthQ a (fst iv) / weight (snd iv))%Q) (enum_voters p)).
        assert (Hll : length (loads) = length (voters p)) by apply enum_length.
        destruct (phragmen_story_ok num p k Hw Hne Hn (proj2 Hk) Hneeds mes_tie_line (k - length C) C (rev C) (loads) (loads_good p k Hw C a E5) (Permutation_rev C) ltac:(lia) Hll)
          as (rounds2 & L & ms2 & F1 & F2 & F3 & F4 & F5).
        rewrite F1. cbn [rbind]. rewrite F2. cbn [rbind]. eexists. split; [reflexivity|].
        assert (Hag : agree p (nthQ (loads)) (fun i => - b i / w p i)%Q).
        { eapply agree_trans; [apply (loads_agree p)|]. apply start_load_ext. exact Hb. }
        destruct (told_start p _ _ _ (phragmen_choice_start p) (phragmen_update_start p) (fun W x y c x' T ms => phragmen_round_ext num mes_tie_line p k W x y c x' T ms) _ _ _ _ _ F3 _ Hag) as (y & Hy & F3').
        right. rewrite rev_length. split; auto. exists (tuple_text num (loads)), L, y, ms2. split; [apply tuple_ok; auto|]. split; [lia|]. split; [|split; auto].
        f_equal. specialize (HW2 Hlt). cbn [the_completion] in HW2.
        apply (phragmen_lex_unique p (rev C) (fun i => - b i / w p i)%Q k).
        * apply (phragmen_lex_completion_ext p k (rev C) b0 b W Hb0 HW2).
        * exists L, y. split; [|split; [lia|auto]]. apply (told_lex p _ _ _ _ _ _ _ _ F3'). constructor. apply agree_refl.
      + exists []. split; auto. left. destruct E4 as [E4|[E4 _]]; [|lia]. rewrite rev_length. split; auto. split; auto. f_equal. apply HW1. auto.
    - exists []. split; auto. split; auto. exists W. split; auto. rewrite rev_length. split; auto.
    - congruence. }
  destruct G as (ms2 & EG & HG). cbv zeta in EG |- *. rewrite EG. cbn [rbind]. eexists. split; [exact EW|]. split; [reflexivity|].
  exists (tuple_text num (mes_start p k)), (rev C), b, ms, ms2. split; [apply tuple_ok; auto; [apply mes_start_length|apply mes_start_agree]|].
  split; [exact E3'|]. split; [apply Hends|]. split; [exact HG|reflexivity].
Qed.

(** ** Increment completion *)
Lemma increment_size_ok : forall p k r n cs, wf p -> 1 <= k <= num_cand p -> increment_loop p k r n = Ok cs ->
  exists m L b, increment_size p k r n = Ok m /\ n <= m /\ mes_lex_ends p k (equal_share p m) L b /\ length L = k /\ cs = [isort L] /\
    forall n' L' b', n <= n' < m -> mes_lex_ends p k (equal_share p n') L' b' -> length L' < k.
Proof.
  intros p k r n cs Hw Hk. revert n. induction r as [|r IH]; intros n E; cbn [increment_loop increment_size] in *; [discriminate|].
  destruct (increment_step p k Hw Hk n) as (L & b & EL & HL). rewrite EL in E |- *. cbn [rbind filter] in *. rewrite isort_length in *.
  destruct (Nat.eqb_spec (length L) k) as [Hl|Hl].
  - inversion E; subst. exists n, L, b. repeat (split; auto). intros. lia.
  - destruct (IH (S n) E) as (m & L1 & b1 & A & B & C & D & F & G). exists m, L1, b1. split; auto. split; [lia|]. split; auto. split; auto. split; auto.
    intros n' L' b' Hn' HL'. destruct (Nat.eq_dec n' n) as [->|].
    + destruct (mes_lex_ends_unique _ _ _ _ _ _ _ HL HL') as [<- _]. apply (lex_ends_le p k Hk) in HL. lia.
    + eapply G; [|exact HL']. lia.
Qed.
Theorem increment_details_ok : forall p k maxn resolute, wf p -> voters p <> [] -> 1 <= k <= num_cand p -> unit_support p ->
  exists cs ms, equal_shares_rule p k resolute maxn IncrementCompletion = Ok cs /\ increment_details p k = Ok ms /\ increment_told p k cs ms.
Proof.
  intros p k maxn resolute Hw Hne Hk Hu.
  destruct (increment_correct p k Hw Hne Hk Hu) as (W & EW & HW).
  exists [W]. assert (ER : equal_shares_rule p k resolute maxn IncrementCompletion = Ok [W]).
  { unfold equal_shares_rule. rewrite EW. cbn [rbind]. apply sorted_committees_asc. constructor; auto. eapply mes_increment_ascending; eauto. }
  unfold increment_details, equal_shares_increment in *. rewrite (Permutation_length (approved_supported p Hw)) in *.
  destruct (Nat.ltb_spec (length (supported p)) k) as [Hlt|Hge].
  - eexists. split; [exact ER|]. split; [reflexivity|]. left. split; auto. split; auto. exists W. split; auto. apply HW. auto.
  - destruct (increment_size_ok p k _ _ _ Hw Hk EW) as (m & L & b & A & B & C & D & F & G). rewrite A. cbn [rbind].
    eexists. split; [exact ER|]. split; [reflexivity|]. right. split; auto. exists m, L, b. repeat (split; auto).
Qed.
