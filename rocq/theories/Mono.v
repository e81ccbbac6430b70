(** * Committee monotonicity (C63): what happens if one more seat is filled *)
From Coq Require Import String.
From Coq Require Import List Arith Bool ZArith QArith Lia Lqa Permutation Sorted.
From Verif Require Import Prelude Misc Common MiscProofs Preferences Scores ScoresProofs Spec SpecRules Compute SpecCompute SpecSeq
  Milp RulesSolver SpecLoads SolverMaximin SolverCompute PhragmenProofs EnestroemProofs AvPhase MesFinal ComputeProofs ComputeAll SpecAll AllProofs SpecIso.
Import ListNotations.
Local Open Scope string_scope.
Open Scope nat_scope.
Local Open Scope list_scope.

Lemma argmax_exists : forall (s : nat -> Q) l, l <> [] -> exists c, In c l /\ forall e, In e l -> (s e <= s c)%Q.
Proof.
  intros s l Hne. destruct (argmin_exists (fun c => - s c)%Q l Hne) as (c & Hc & H). exists c. split; auto. intros d Hd. specialize (H d Hd). lra.
Qed.
(** the candidates outside [W] *)
Definition others (p : profile) (W : list nat) : list nat := filter (fun c => negb (mem c W)) (seq 0 (num_cand p)).
Lemma others_fresh : forall p W c, In c (others p W) <-> fresh p W c.
Proof. intros p W c. unfold others, fresh. rewrite filter_In, in_seq, negb_true_iff, mem_false. intuition lia. Qed.
Lemma others_exist : forall p W, length W < num_cand p -> others p W <> [].
Proof.
  intros p W Hl E. assert (Hincl : incl (seq 0 (num_cand p)) W).
  { intros c Hc. destruct (in_dec Nat.eq_dec c W) as [|Hn]; auto. assert (Hin : In c (others p W)) by (apply others_fresh; split; auto; apply in_seq in Hc; lia). rewrite E in Hin. destruct Hin. }
  apply NoDup_incl_length in Hincl; [|apply seq_NoDup]. rewrite seq_length in Hincl. lia.
Qed.
Lemma incl_isort_cons : forall c L, incl (isort L) (isort (c :: L)).
Proof. intros c L d Hd. rewrite isort_In in *. right. auto. Qed.

(** [mono p k A B]: every committee of [A] (size [k]) is contained in one of [B] (size [k+1]), and every one of [B] contains one of [A] *)
Definition grows (A B : list nat -> Prop) : Prop :=
  (forall W, A W -> exists W', B W' /\ incl W W') /\ (forall W', B W' -> exists W, A W /\ incl W W').

(** ** rules of Phragmén type *)
Section Runs.
  Variable p : profile.
  Variable choice : list nat -> (nat -> Q) -> nat -> Prop.
  Variable update : list nat -> (nat -> Q) -> nat -> (nat -> Q) -> Prop.
  Hypothesis choice_fresh : forall W x c, choice W x c -> fresh p W c.
  Hypothesis progress : forall W x, NoDup W -> Forall (fun c => c < num_cand p) W -> length W < num_cand p -> exists c, choice W x c.
  Hypothesis update_some : forall W x c, exists x', update W x c x'.
  Lemma runs_ok : forall x0 L x, runs_from p choice update [] x0 L x -> NoDup L /\ Forall (fun c => c < num_cand p) L.
  Proof using choice_fresh.
    intros x0 L x H. induction H as [x Hx|W x c x' H [IH1 IH2] Hc Hu]; [split; constructor|].
    apply choice_fresh in Hc. destruct Hc. split; constructor; auto.
  Qed.
  Lemma run_grows : forall x0 k, k < num_cand p -> grows (run_winner p choice update [] x0 k) (run_winner p choice update [] x0 (S k)).
  Proof using choice_fresh progress update_some.
    intros x0 k Hk. split.
    - intros W (L & x & Hr & Hl & ->). destruct (runs_ok _ _ _ Hr) as [N R]. destruct (progress L x N R) as (c & Hc); [lia|].
      destruct (update_some L x c) as (x' & Hu). exists (isort (c :: L)). split; [|apply incl_isort_cons].
      exists (c :: L), x'. split; [econstructor; eauto|]. split; [cbn; lia|reflexivity].
    - intros W' (L & x & Hr & Hl & ->). destruct Hr as [x Hx|L x c x' Hr Hc Hu]; [discriminate|].
      exists (isort L). split; [|apply incl_isort_cons]. exists L, x. split; auto.
  Qed.
  Hypothesis choice_ext : forall W x y c, agree p x y -> choice W x c -> choice W y c.
  Hypothesis update_fun : forall W x y c x' y', agree p x y -> choice W x c ->
    update W x c x' -> update W y c y' -> agree p x' y'.
  Lemma lex_run_grows : forall x0 k W W', lex_run_winner p choice update [] x0 k W -> lex_run_winner p choice update [] x0 (S k) W' -> incl W W'.
  Proof using choice_ext update_fun.
    intros x0 k W W' HW (L & x & Hr & Hl & ->). destruct Hr as [x Hx|L x c x' Hr Hc Hmin Hu]; [discriminate|].
    assert (E : W = isort L). { apply (lex_run_winner_unique p choice update choice_ext update_fun [] x0 k); auto. exists L, x. split; auto. }
    subst W. apply incl_isort_cons.
  Qed.
End Runs.

Lemma phragmen_grows : forall p k, k < num_cand p -> grows (phragmen_winner p k) (phragmen_winner p (S k)).
Proof.
  intros p k Hk. apply run_grows; auto.
  - intros W x c [H _]. auto.
  - intros W x N R Hl. pose proof (others_exist p W Hl) as Ho.
    destruct (filter (fun c => 0 <? length (fans p c)) (others p W)) as [|a l] eqn:Ef.
    + destruct (others p W) as [|c l] eqn:Eo; [congruence|].
      assert (Hall : forall d, fresh p W d -> fans p d = []).
      { intros d Hd. apply others_fresh in Hd. destruct (fans p d) eqn:E; auto. exfalso.
        assert (Hin : In d (filter (fun c => 0 <? length (fans p c)) (others p W))) by (apply filter_In; split; [auto|rewrite E; reflexivity]).
        rewrite Eo in Hin. rewrite Ef in Hin. destruct Hin. }
      assert (Hc : fresh p W c) by (apply others_fresh; rewrite Eo; left; auto).
      exists c. split; auto. rewrite (Hall c Hc). cbn. auto.
    + destruct (argmin_exists (new_load p x) (a :: l)) as (c & Hc & Hmin); [discriminate|]. rewrite <- Ef in Hc, Hmin. apply filter_In in Hc as [Hc Hn].
      apply others_fresh in Hc. exists c. split; auto. rewrite Hn. intros d Hd Hf. apply Hmin. apply filter_In. split; [apply others_fresh; auto|].
      destruct (fans p d); [congruence|reflexivity].
  - intros W x c. eexists. intros i Hi. reflexivity.
Qed.
Lemma consensus_grows : forall p k, k < num_cand p -> grows (consensus_winner p k) (consensus_winner p (S k)).
Proof.
  intros p k Hk. apply run_grows; auto.
  - intros W x c [H _]. auto.
  - intros W x N R Hl. destruct (argmax_exists (fun d => sum (backers p x d) (earned p x)) (others p W) (others_exist p W Hl)) as (c & Hc & Hmax).
    apply others_fresh in Hc. exists c. split; auto. intros d Hd. apply Hmax, others_fresh. auto.
  - intros W x c. eexists. intros i Hi. reflexivity.
Qed.
Lemma maximin_support_exists : forall p W, wf p -> NoDup W -> Forall (fun c => c < num_cand p) W -> W <> [] -> exists b, maximin_support p W b.
Proof.
  intros p W Hw N R Hne. destruct (ref_solvers_exact p) as (H & _).
  destruct (maximin_solved p W Hw R Hne (gurobi (ref_solvers p)) (maximin_solves _ p H W N Hne R)) as (x & _ & Hx). eauto.
Qed.
Lemma argmax_rel : forall (R : nat -> Q -> Prop) l, l <> [] -> (forall d, In d l -> exists b, R d b) ->
  (forall d b b', R d b -> R d b' -> (b == b')%Q) -> exists c b, In c l /\ R c b /\ forall d b', In d l -> R d b' -> (b' <= b)%Q.
Proof.
  intros R l Hne Hex Hu. induction l as [|a l IH]; [congruence|]. destruct (Hex a (or_introl eq_refl)) as (ba & Ha).
  destruct l as [|a' l]; [exists a, ba; split; [left; auto|split; [exact Ha|]]; intros d b' Hin Hd; destruct Hin as [E|[]]; subst d; rewrite (Hu _ _ _ Hd Ha); apply Qle_refl|].
  destruct IH as (c & b & Hc & Hb & Hmax); [discriminate|intros; apply Hex; right; auto|]. destruct (Qlt_le_dec b ba) as [Hlt|Hle].
  - exists a, ba. split; [left; auto|]. split; auto. intros d b' [<-|Hd] Hd'; [rewrite (Hu _ _ _ Hd' Ha); apply Qle_refl|]. specialize (Hmax d b' Hd Hd'). lra.
  - exists c, b. split; [right; auto|]. split; auto. intros d b' [<-|Hd] Hd'; [rewrite (Hu _ _ _ Hd' Ha); auto|]. apply (Hmax d); auto.
Qed.
Lemma maximin_grows : forall eps p k, (0 <= eps)%Q -> wf p -> k < num_cand p -> grows (maximin_winner eps p k) (maximin_winner eps p (S k)).
Proof.
  intros eps p k He Hw Hk. apply run_grows; auto.
  - intros W x c [H _]. auto.
  - intros W x N R Hl. destruct (argmax_rel (fun d => maximin_support p (d :: W)) (others p W)) as (c & b & Hc & Hb & Hmax).
    + apply others_exist. auto.
    + intros d Hd. apply others_fresh in Hd. destruct Hd. apply maximin_support_exists; [auto|constructor; auto|constructor; auto|discriminate].
    + intros d b b'. apply maximin_support_unique.
    + apply others_fresh in Hc. exists c. split; auto. exists b. split; auto. intros d b' Hd Hb'. apply others_fresh in Hd. specialize (Hmax d b' Hd Hb'). lra.
  - intros W x c. exists x. intros i Hi. reflexivity.
Qed.

(** ** Thiele methods *)
Lemma greedy_ok : forall f p L, greedy_run f p L -> NoDup L /\ Forall (fun c => c < num_cand p) L.
Proof. intros f p L H. induction H as [|W c H [N R] (Hc & Hn & _)]; split; constructor; auto. Qed.
Lemma best_addition_exists : forall f p W, length W < num_cand p -> exists c, best_addition f p W c.
Proof.
  intros f p W Hl. destruct (argmax_exists (fun d => Thiele f p (d :: W)) (others p W) (others_exist p W Hl)) as (c & Hc & Hmax).
  apply others_fresh in Hc. destruct Hc as [Hc Hn]. exists c. split; auto. split; auto. intros d Hd Hnd. apply Hmax, others_fresh. split; auto.
Qed.
Lemma seq_grows : forall f p k, k < num_cand p -> grows (seq_thiele_winner f p k) (seq_thiele_winner f p (S k)).
Proof.
  intros f p k Hk. split.
  - intros W (L & HL & Hl & ->). destruct (best_addition_exists f p L) as (c & Hc); [lia|]. exists (isort (c :: L)). split; [|apply incl_isort_cons].
    exists (c :: L). split; [constructor; auto|]. split; [cbn; lia|reflexivity].
  - intros W' (L & HL & Hl & ->). destruct HL as [|L c HL Hc]; [discriminate|]. exists (isort L). split; [|apply incl_isort_cons]. exists L. split; auto.
Qed.
Lemma greedy_lex_unique : forall f p L, greedy_run_lex f p L -> forall L', greedy_run_lex f p L' -> length L = length L' -> L = L'.
Proof.
  intros f p L H. induction H as [|W c H IH Hc Hmin]; intros L' H' E; destruct H' as [|W' c' H' Hc' Hmin']; try discriminate; auto.
  assert (EW : W = W') by (apply IH; auto). subst W'. f_equal. apply Nat.le_antisymm; auto.
Qed.
Lemma seq_lex_grows : forall f p L L', greedy_run_lex f p L -> greedy_run_lex f p L' -> length L' = S (length L) -> incl (isort L) (isort L').
Proof.
  intros f p L L' H H' E. destruct H' as [|W c H' Hc Hmin]; [discriminate|]. cbn in E. rewrite (greedy_lex_unique f p L H W) by (auto; lia). apply incl_isort_cons.
Qed.

Lemma without_incl : forall c W, incl (without c W) W.
Proof. intros c W d Hd. unfold without in Hd. apply filter_In in Hd. tauto. Qed.
Lemma removal_nodup : forall f p W, removal_run f p W -> NoDup W.
Proof. intros f p W H. induction H; [apply seq_NoDup|]. unfold without. apply NoDup_filter. auto. Qed.
Lemma without_length : forall c W, NoDup W -> In c W -> S (length (without c W)) = length W.
Proof.
  intros c W N. induction N as [|a W Hn N IH]; intros Hc; [destruct Hc|]. cbn [without filter]. destruct (Nat.eqb_spec a c) as [->|Hne].
  - cbn [negb]. f_equal. clear - Hn. induction W as [|d W IH]; auto. cbn [filter]. destruct (Nat.eqb_spec d c) as [->|_]; [exfalso; apply Hn; left; auto|].
    cbn. f_equal. apply IH. intros H. apply Hn. right. auto.
  - cbn [negb length]. f_equal. apply IH. destruct Hc; [congruence|auto].
Qed.
Lemma best_removal_exists : forall f p W, W <> [] -> exists c, best_removal f p W c.
Proof. intros f p W Hne. destruct (argmax_exists (fun d => Thiele f p (without d W)) W Hne) as (c & Hc & H). exists c. split; auto. Qed.
Lemma revseq_grows : forall f p k, k < num_cand p -> grows (revseq_winner f p k) (revseq_winner f p (S k)).
Proof.
  intros f p k Hk. split.
  - intros W [HW Hl]. destruct HW as [|W c HW Hc]; [rewrite seq_length in Hl; lia|]. exists W. split; [|apply without_incl]. split; auto.
    rewrite <- (without_length c W); [lia|eapply removal_nodup; eauto|apply Hc].
  - intros W [HW Hl]. destruct (best_removal_exists f p W) as (c & Hc); [intros ->; discriminate|]. exists (without c W). split; [|apply without_incl].
    split; [constructor; auto|]. pose proof (without_length c W (removal_nodup _ _ _ HW) (proj1 Hc)). lia.
Qed.
Lemma removal_last_ok : forall f p W, removal_run_last f p W -> removal_run f p W.
Proof. intros f p W H. induction H; constructor; auto. Qed.
Lemma removal_last_range : forall f p W, removal_run_last f p W -> length W <= num_cand p.
Proof.
  intros f p W H. induction H as [|W c H IH Hc Hl]; [rewrite seq_length; auto|]. unfold without. eapply Nat.le_trans; [|exact IH]. clear. induction W as [|a W IHW]; cbn; [auto|]. destruct (negb (a =? c)); cbn; lia.
Qed.
Lemma revseq_last_grows : forall f p W' , removal_run_last f p W' -> forall W, removal_run_last f p W -> length W' = S (length W) -> incl W W'.
Proof.
  assert (HU : forall f p A, removal_run_last f p A -> forall B, removal_run_last f p B -> length A = length B -> A = B).
  { intros f p A H. induction H as [|A a H IH Ha Hla]; intros B H' E; destruct H' as [|B b H' Hb Hlb]; auto.
    - exfalso. rewrite seq_length in E. pose proof (without_length b B (removal_nodup _ _ _ (removal_last_ok _ _ _ H')) (proj1 Hb)). pose proof (removal_last_range _ _ _ H'). lia.
    - exfalso. rewrite seq_length in E. pose proof (without_length a A (removal_nodup _ _ _ (removal_last_ok _ _ _ H)) (proj1 Ha)). pose proof (removal_last_range _ _ _ H). lia.
    - pose proof (without_length a A (removal_nodup _ _ _ (removal_last_ok _ _ _ H)) (proj1 Ha)). pose proof (without_length b B (removal_nodup _ _ _ (removal_last_ok _ _ _ H')) (proj1 Hb)).
      assert (A = B) by (apply IH; auto; lia). subst B. f_equal. apply Nat.le_antisymm; auto. }
  intros f p W' H' W H E. destruct H as [|W c H Hc Hl].
  - exfalso. rewrite seq_length in E. pose proof (removal_last_range _ _ _ H'). lia.
  - pose proof (without_length c W (removal_nodup _ _ _ (removal_last_ok _ _ _ H)) (proj1 Hc)). rewrite (HU f p W' H' W H) by lia. apply without_incl.
Qed.

(** ** Separable rules and the trivial rule *)
Lemma top_set_grows : forall p s k, 1 <= k < num_cand p -> grows (maximises (fun W => Qsum (map s W)) p k) (maximises (fun W => Qsum (map s W)) p (S k)).
Proof.
  intros p s k Hk. split.
  - intros W HW. apply top_set_maximises in HW. destruct HW as [HW Htop]. pose proof HW as (A & L & R).
    destruct (argmax_exists s (others p W)) as (c & Hc & Hmax); [apply others_exist; lia|]. apply others_fresh in Hc. destruct Hc as [Hc Hn].
    exists (isort (c :: W)). split; [|intros d Hd; apply isort_In; right; auto]. apply top_set_maximises. split.
    + apply isort_committee; [constructor; auto; apply ascending_NoDup; auto|cbn; lia|constructor; auto].
    + intros x d Hx Hd Hnd. rewrite isort_In in Hx, Hnd. assert (Hd' : fresh p W d) by (split; auto; intros H; apply Hnd; right; auto).
      destruct Hx as [<-|Hx]; [apply Hmax, others_fresh; auto|]. apply Htop; auto. apply Hd'.
  - intros W HW. apply top_set_maximises in HW. destruct (argmin_exists s W) as (c & Hc & Hmin).
    { destruct HW as [(_ & L & _) _]. intros ->. discriminate. }
    destruct (top_set_remove p s k W c HW Hc Hmin) as (T & HT & Hin). exists T. split; [apply top_set_maximises; auto|]. intros d Hd. apply Hin in Hd. tauto.
Qed.
Lemma trivial_grows : forall p k, k < num_cand p -> grows (is_committee p k) (is_committee p (S k)).
Proof.
  intros p k Hk. split.
  - intros W HW. pose proof HW as (A & L & R). destruct (others p W) as [|c l] eqn:Eo; [exfalso; apply (others_exist p W); auto; lia|].
    assert (Hc : fresh p W c) by (apply others_fresh; rewrite Eo; left; auto). destruct Hc as [Hc Hn].
    exists (isort (c :: W)). split; [|intros d Hd; apply isort_In; right; auto]. apply isort_committee; [constructor; auto; apply ascending_NoDup; auto|cbn; lia|constructor; auto].
  - intros W (A & L & R). destruct W as [|c W]; [discriminate|]. exists W. split; [|intros d Hd; right; auto].
    split; [inversion A; auto|]. split; [cbn in L; lia|]. inversion R; auto.
Qed.
