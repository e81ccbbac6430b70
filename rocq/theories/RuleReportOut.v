(** * What appears on the terminal; the loads announced by sequential Phragmén *)
From Coq Require Import String Ascii.
From Coq Require Import List Arith Bool ZArith QArith Lia Lqa Permutation.
From Verif Require Import Prelude Misc Preferences Spec SpecRules Common Compute SpecCompute SpecSeq SpecMonroe SpecLoads
  SpecText Output SpecOutput OutputProofs SpecReport SpecRuleReport SpecRuleTells RuleReportLoads PhragmenProofs MesProofs Proportional.
Import ListNotations.
Local Open Scope string_scope.
Open Scope nat_scope.
Local Open Scope list_scope.

(** ** Levels *)
Lemma details_app : forall a b, only_details a -> only_details b -> only_details (a ++ b).
Proof. intros a b Ha Hb. apply Forall_app. auto. Qed.
Lemma details_line : forall i s, level (line i s) = DETAILS.
Proof. reflexivity. Qed.
Lemma tie_details : forall p T S tie, (forall t, only_details (S t)) -> tie_told p T S tie -> only_details tie.
Proof. intros p T S tie HS [[_ ->]|(_ & t & _ & ->)]; [constructor|apply HS]. Qed.
Lemma told_details : forall choice update (round : list nat -> (nat -> Q) -> nat -> (nat -> Q) -> list nat -> list message -> Prop) W x L y ms, (forall W x c x' T ms, round W x c x' T ms -> only_details ms) ->
  told choice update round W x L y ms -> only_details ms.
Proof.
  intros choice update round W x L y ms HR H. induction H; [constructor|]. apply details_app; [eauto|]. constructor; [reflexivity|auto].
Qed.
Ltac lines := repeat first [apply details_app | apply Forall_cons; [reflexivity|] | apply Forall_nil].
Lemma nothing_details : forall ms, nothing ms -> only_details ms.
Proof. intros ms ->. constructor. Qed.

Section Levels.
  Variable num : Q -> string.
  Lemma thiele_round_details : forall f p W x c x' T ms, thiele_round num f p W x c x' T ms -> only_details ms.
  Proof using. intros f p W x c x' T ms (g & t & tie & _ & _ & Ht & ->). lines. eapply tie_details; [|exact Ht]. intros s. lines. Qed.
  Lemma phragmen_round_details : forall tl p k W x c x' T ms, phragmen_round num tl p k W x c x' T ms -> only_details ms.
  Proof using. intros tl p k W x c x' T ms (g & t & tie & _ & _ & Ht & ->). lines. eapply tie_details; [|exact Ht]. intros s. lines. Qed.
  Lemma mes_round_details : forall p W x c x' T ms, mes_round num p W x c x' T ms -> only_details ms.
  Proof using. intros p W x c x' T ms (rho & g & t & tie & _ & _ & _ & Ht & ->). lines. eapply tie_details; [|exact Ht]. intros s. lines. Qed.
  Lemma maximin_round_details : forall eps p W x c x' T ms, maximin_round num eps p W x c x' T ms -> only_details ms.
  Proof using. intros eps p W x c x' T ms (s & v & tie & _ & _ & _ & _ & Ht & ->). lines. eapply tie_details; [|exact Ht]. intros s'. lines. Qed.
  Lemma removed_details : forall f p W L ms, removed_told num f p W L ms -> only_details ms.
  Proof using.
    intros f p W L ms H. induction H as [|W c T L loss total tie rest _ _ _ Ht _ IH]; [constructor|]. lines; auto.
    eapply tie_details; [|exact Ht]. intros s. lines.
  Qed.
  Lemma forall2_details : forall (A : Type) (R : A -> message -> Prop) l ms, (forall a m, R a m -> level m = DETAILS) -> Forall2 R l ms -> only_details ms.
  Proof using. intros A R l ms HR H. induction H; constructor; auto. eapply HR; eauto. Qed.
  Lemma mes_details_only : forall p k (second : list nat -> (nat -> Q) -> list message -> Prop) ms, (forall L b m, second L b m -> only_details m) -> mes_told num p k second ms -> only_details ms.
  Proof using.
    intros p k second ms Hs (bud & L & b & m1 & m2 & _ & H1 & _ & H2 & ->). lines.
    - eapply told_details; [apply mes_round_details|exact H1].
    - eapply Hs; eauto.
  Qed.
  Theorem tells_details : forall e p k id r cs st B A, tells num e p k id r cs st B A ->
    (forall b, B b -> only_details b) /\ (forall a, A a -> only_details a).
  Proof using.
    intros e p k id r cs st B A H.
    assert (Hsep : forall sc b, separable_account num p k sc b -> only_details b).
    { intros sc b (ts & cut & t & al & so & m & _ & _ & _ & _ & _ & _ & _ & _ & ->). constructor; [reflexivity|]. apply details_app; [destruct al|destruct so]; lines. }
    assert (Hscores : forall f l a, scores_told num f l p cs a -> only_details a).
    { intros f l a (ls & HF & ->). constructor; [reflexivity|]. apply details_app; [|lines]. eapply forall2_details; [|exact HF]. intros W m (t & s & _ & _ & ->). reflexivity. }
    assert (Hrev : forall f r a, revseq_scores_told num f p r cs a -> only_details a) by (intros f r' a (ts & _ & ->); lines).
    destruct H; split; try apply nothing_details; auto; try (intros b H'; eapply Hsep; exact H'; fail).
    - intros b (x & t & _ & _ & ->). lines.
    - intros b (x & t & _ & _ & _ & ->). constructor; [reflexivity|]. apply Forall_map, Forall_forall. intros; reflexivity.
    - intros b (z & L & y & rest & _ & _ & _ & Ht & ->). lines. eapply told_details; [apply thiele_round_details|exact Ht].
    - intros a. apply Hscores.
    - intros a. apply Hscores.
    - intros b (z & L & rest & _ & _ & _ & Ht & ->). lines. eapply removed_details; exact Ht.
    - intros a. apply Hrev.
    - intros a. apply Hrev.
    - intros b Ht. eapply told_details; [apply phragmen_round_details|exact Ht].
    - intros a (t & s & _ & _ & ->). lines.
    - intros a (cs' & ls & _ & HF & ->). constructor; [reflexivity|]. eapply forall2_details; [|exact HF]. intros W m (L & x & t & s & _ & _ & _ & _ & _ & ->). reflexivity.
    - intros b (L & y & rest & _ & _ & Ht & ->). lines. eapply told_details; [apply maximin_round_details|exact Ht].
    - intros b (s & _ & ->). lines.
    - intros b (D & ts & s & opt & _ & _ & _ & _ & ->). apply details_app; [lines|]. apply details_app; [|lines]. destruct (s <? opt); lines.
    - intros a (m & (d & _ & ->) & ->). lines.
    - intros a (m & (d & _ & ->) & ->). lines.
    - intros b. apply mes_details_only. intros L c m [(_ & _ & ->)|(_ & lo & L' & y & rest & _ & _ & _ & Ht & ->)]; lines. eapply told_details; [apply phragmen_round_details|exact Ht].
    - intros b. apply mes_details_only. intros L c m [-> _]. lines.
    - intros b. apply mes_details_only. intros L c m [_ ->]. lines.
    - intros b [(_ & _ & ->)|(_ & n & L & c & _ & _ & _ & _ & _ & ->)]; lines.
  Qed.
End Levels.

(** ** The terminal *)
Lemma shown_low : forall fill v ms h, (DETAILS < v)%Z -> only_details ms -> shown fill v (map Print ms ++ h) = shown fill v h.
Proof.
  intros fill v ms h Hv. induction ms as [|m ms IH]; intros H; [reflexivity|]. inversion H as [|m' ms' Hm Hms]; subst. cbn [map app shown].
  destruct (Z_le_dec v (level m)) as [L|L]; [rewrite Hm in L; lia|]. cbn. auto.
Qed.
Lemma shown_none : forall fill v ms, (INFO < v)%Z -> Forall (fun m => level m = INFO \/ level m = DETAILS) ms -> shown fill v (map Print ms) = [].
Proof.
  intros fill v ms Hv. induction ms as [|m ms IH]; intros H; [reflexivity|]. inversion H as [|m' ms' Hm Hms]; subst. cbn [map shown].
  destruct (Z_le_dec v (level m)) as [L|L]; [unfold INFO, DETAILS in *; destruct Hm as [E|E]; rewrite E in L; lia|]. cbn. auto.
Qed.
Definition headlines (fill : string -> string -> string) (s : style) (resolute : bool) : list string :=
  map (fun m => wrapped fill "" (text m)) (mode_lines s resolute).

Theorem report_shown : forall fill name width title st resolute p cs (B A : list message -> Prop) ms v,
  (forall b, B b -> only_details b) -> (forall a, A a -> only_details a) ->
  is_report name width title st resolute p cs B A ms ->
  ((INFO < v)%Z -> shown fill v (map Print ms) = []) /\
  ((DETAILS < v <= INFO)%Z -> exists t, winners_sentence p cs t /\
     shown fill v (map Print ms) = boxed width name :: headlines fill st resolute ++ [wrapped fill "" t]).
Proof.
  intros fill name width title st resolute p cs B A ms v HB HA (b & a & t & Hb & Ha & Ht & ->).
  assert (Hm : Forall (fun m => level m = INFO /\ wrap m = true /\ indent m = "") (mode_lines st resolute)).
  { unfold mode_lines. destruct st, resolute; repeat constructor. }
  split; intros Hv.
  - apply shown_none; auto. constructor; [left; reflexivity|]. apply Forall_app. split; [eapply Forall_impl; [|exact Hm]; intros m [H _]; auto|].
    constructor; [right; reflexivity|]. apply Forall_app. split; [eapply Forall_impl; [|exact (HB b Hb)]; intros m H; auto|].
    constructor; [left; reflexivity|]. eapply Forall_impl; [|exact (HA a Ha)]. intros m H. auto.
  - exists t. split; auto. cbn [map shown level wrap indent text].
    destruct (Z_le_dec v INFO) as [L|L]; [|lia]. cbn [app]. f_equal. rewrite map_app. cbn [map]. rewrite map_app. cbn [map].
    unfold headlines. induction Hm as [|m l (H1 & H2 & H3) Hl IH].
    + cbn [map app shown level]. destruct (Z_le_dec v (level (line "" ("Algorithm: " ++ title ++ nl)%string))) as [L'|L']; [cbn in L'; lia|]. cbn [app].
      rewrite shown_low by (auto; lia). cbn [shown]. destruct (Z_le_dec v (level (headline t))) as [L2|L2]; [|cbn in L2; lia]. cbn [app headline wrap indent text].
      f_equal. rewrite <- (app_nil_r (map Print a)). rewrite shown_low by (auto; lia). reflexivity.
    + cbn [map app shown]. rewrite H1, H2, H3. destruct (Z_le_dec v INFO) as [L'|L']; [|lia]. cbn [app]. f_equal. exact IH.
Qed.

(** ** The announced loads *)
Theorem announced_is_maximum : forall p W x c x', wf p -> runs_from p (phragmen_choice p) (phragmen_update p) [] (fun _ => 0%Q) W x ->
  phragmen_choice p W x c -> fans p c <> [] -> phragmen_update p W x c x' ->
  (forall i, i < length (voters p) -> (x' i <= new_load p x c)%Q) /\ (exists i, i < length (voters p) /\ (x' i == new_load p x c)%Q) /\
  (forall i, i < length (voters p) -> (x i <= x' i)%Q) /\
  (sum (voter_ids p) (fun i => w p i * x' i) == Qnat (S (length W)))%Q.
Proof.
  intros p W x c x' Hw Hr Hc Hf Hu. pose proof Hc as [[Hcm Hcn] _].
  destruct (phragmen_invariant p Hw c Hcm Hf W x Hr Hcn) as ((M & HM1 & HM2) & _ & Htot & _).
  assert (HM : (M <= new_load p x c)%Q) by (apply HM2; auto; split; auto).
  split; [|split; [|split]].
  - intros i Hi. rewrite (Hu i Hi). cbv beta. destruct (likes p i c); [lra|]. specialize (HM1 i Hi). lra.
  - destruct (fans p c) as [|i r] eqn:E; [congruence|]. assert (Hi : In i (fans p c)) by (rewrite E; left; auto). apply in_fans in Hi as [Hi Hl].
    exists i. split; auto. rewrite (Hu i Hi). cbv beta. rewrite Hl. reflexivity.
  - intros i Hi. rewrite (Hu i Hi). cbv beta. specialize (HM1 i Hi). destruct (likes p i c); lra.
  - assert (Hsplit : (sum (voter_ids p) (fun i => w p i * x' i) == sum (voter_ids p) (fun i => w p i * x i) + sum (voter_ids p) (fun i => w p i * (x' i - x i)))%Q).
    { rewrite <- sum_plus. apply sum_ext. intros. ring. }
    rewrite Hsplit, Htot, Qnat_S.
    assert (E : (sum (voter_ids p) (fun i => w p i * (x' i - x i)) == 1)%Q); [|rewrite E; ring].
    rewrite (sum_split (fun i => likes p i c) (voter_ids p)).
    assert (Z : (sum (filter (fun i => negb (likes p i c)) (voter_ids p)) (fun i => w p i * (x' i - x i)) == 0)%Q).
    { rewrite (sum_ext _ _ (fun _ => 0%Q)); [apply sum_const0|]. intros i Hi. apply filter_In in Hi as [Hi Hl]. apply in_voter_ids in Hi.
      apply negb_true_iff in Hl. rewrite (Hu i Hi). cbv beta. rewrite Hl. ring. }
    rewrite Z, Qplus_0_r. change (filter (fun i => likes p i c) (voter_ids p)) with (fans p c).
    rewrite (sum_ext _ _ (fun i => new_load p x c * w p i - w p i * x i)%Q).
    + rewrite sum_minus, sum_scal. rewrite new_load_eq by auto. ring.
    + intros i Hi. apply in_fans in Hi as [Hi Hl]. rewrite (Hu i Hi). cbv beta. rewrite Hl. ring.
Qed.
