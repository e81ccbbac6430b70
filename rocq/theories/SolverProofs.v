(** * The programs encode the rules: generic part, Thiele methods, CC, minimax AV *)
From Coq Require Import String.
From Coq Require Import List Arith Bool ZArith QArith Lia Lqa Permutation.
From Verif Require Import Prelude Misc MiscProofs Preferences Scores Spec SpecRules Common ScoresProofs ThieleProofs OptProofs
  Milp MilpProofs RulesSolver.
Import ListNotations.
Open Scope nat_scope.

Lemma filter_length_le : forall (A : Type) (b : A -> bool) (l : list A), length (filter b l) <= length l.
Proof. intros A b l. induction l as [|a l IH]; auto. cbn [filter]. destruct (b a); cbn [length]; lia. Qed.

(** ** Programs with the constraint on the committee size *)
Lemma binary_of_decls : forall p m x, incl (in_committee_vars p) (decls m) -> feasible m x -> binary_committee p x.
Proof.
  intros p m x Hi [Hd _] c Hc. rewrite Forall_forall in Hd.
  destruct (Hd (mkDecl (InCommittee c) Binary None None)) as [H _].
  - apply Hi. unfold in_committee_vars. apply in_map_iff. exists c. split; auto. apply in_seq. lia.
  - exact H.
Qed.
Lemma size_of_con : forall p k x, binary_committee p x -> holds x (size_con p k) -> is_committee p k (members p x).
Proof.
  intros p k x Hb H. cbn [holds size_con] in H. rewrite ev_const, ev_vsum, (sum_candidates p x Hb) in H.
  split; [apply members_ascending|]. split; [|apply members_range]. apply Qnat_inj'. auto.
Qed.
Lemma size_con_of : forall p k x, binary_committee p x -> is_committee p k (members p x) -> holds x (size_con p k).
Proof.
  intros p k x Hb (_ & H & _). cbn [holds size_con]. rewrite ev_const, ev_vsum, (sum_candidates p x Hb), H. reflexivity.
Qed.

(** the committee part of an assignment *)
Definition of_committee (W : list nat) (c : nat) : Q := if mem c W then 1%Q else 0%Q.
Lemma of_committee_binary : forall p x W, (forall c, c < num_cand p -> x (InCommittee c) = of_committee W c) -> binary_committee p x.
Proof. intros p x W H c Hc. rewrite H by auto. unfold of_committee. destruct (mem c W); [right|left]; reflexivity. Qed.
Lemma of_committee_members : forall p k x W, is_committee p k W ->
  (forall c, c < num_cand p -> x (InCommittee c) = of_committee W c) -> members p x = W.
Proof.
  intros p k x W (HA & _ & HR) H. pose proof (of_committee_binary p x W H) as Hb.
  apply ascending_ext; [apply members_ascending|auto|]. intros c. rewrite (members_In p x c Hb). rewrite Forall_forall in HR. split.
  - intros [Hc E]. rewrite H in E by auto. unfold of_committee in E. destruct (mem c W) eqn:M; [apply mem_In; auto|]. lra.
  - intros Hc. split; auto. rewrite H by auto. unfold of_committee. replace (mem c W) with true by (symmetry; apply mem_In; auto). reflexivity.
Qed.

Lemma finite_bound : forall (S : list nat -> Q) (l : list (list nat)), exists B, forall W, In W l -> (S W <= B)%Q.
Proof.
  intros S l. induction l as [|W l [B IH]]; [exists 0%Q; intros _ []|].
  destruct (Qlt_le_dec B (S W)) as [H|H]; [exists (S W)|exists B]; intros V [<-|HV]; auto; try lra.
  specialize (IH V HV). lra.
Qed.

(** what is asked of the solver: right answers on a program, with any committees excluded *)
Definition solves (s : solver) (p : profile) (k : nat) (m : milp) : Prop :=
  forall committees, Forall (is_committee p k) committees -> correct_on s (excluding k m committees).

(** The program [m] expresses the score [S]: its solutions are the committees of size [k]; the
    objective value of a solution is at most the score of its committee, which is attained. *)
Definition encodes (p : profile) (k : nat) (m : milp) (S : list nat -> Q) : Prop :=
  (forall x, feasible m x -> is_committee p k (members p x) /\ (ev x (objective m) <= S (members p x))%Q) /\
  forall W, is_committee p k W -> exists x, feasible m x /\ members p x = W /\ (ev x (objective m) == S W)%Q.

Lemma encodes_intro : forall p k m S, incl (in_committee_vars p) (decls m) -> In (size_con p k) (cons m) ->
  (forall x, feasible m x -> binary_committee p x -> (ev x (objective m) <= S (members p x))%Q) ->
  (forall W, is_committee p k W -> exists x, feasible m x /\ members p x = W /\ (ev x (objective m) == S W)%Q) -> encodes p k m S.
Proof.
  intros p k m S Hv Hc Hu Ha. split; auto. intros x Hx. assert (Hb : binary_committee p x) by (eapply binary_of_decls; eauto). split; [|auto].
  apply size_of_con; auto. destruct Hx as [_ Hx]. rewrite Forall_forall in Hx. auto.
Qed.

Section Encoding.
  Variables (s : solver) (th : Q) (p : profile) (k : nat) (resolute : bool) (maxn : option nat) (m : milp).
  Variables (P : list nat -> Prop) (S : list nat -> Q).
  Hypothesis Hth : (0 < th)%Q /\ (th <= 1)%Q.
  Hypothesis Hvars : incl (in_committee_vars p) (decls m).
  Hypothesis Hcon : In (size_con p k) (cons m).
  Hypothesis Hs : solves s p k m.
  Hypothesis HP : forall x, feasible m x -> P (members p x).
  Hypothesis Hup : forall x, feasible m x -> (ev x (objective m) <= S (members p x))%Q.
  Hypothesis Hach : forall W, is_committee p k W -> P W ->
    exists x, feasible m x /\ members p x = W /\ (ev x (objective m) == S W)%Q.
  Hypothesis Hex : exists W, is_committee p k W /\ P W.
  Hypothesis Hmax : valid_max maxn.

  Lemma enc_binary : forall x, feasible m x -> binary_committee p x.
  Proof using Hvars. intros. eapply binary_of_decls; eauto. Qed.
  Lemma enc_size : forall x, feasible m x -> is_committee p k (members p x).
  Proof using Hvars Hcon.
    intros x Hx. apply size_of_con; [apply enc_binary; auto|]. destruct Hx as [_ Hx]. rewrite Forall_forall in Hx. auto.
  Qed.

  Definition enc_winner (slack : Q) (W : list nat) : Prop :=
    is_committee p k W /\ P W /\ forall W', is_committee p k W' -> P W' -> (S W' <= S W + slack)%Q.

  Lemma enc_good : forall score W,
    good p score m W <-> enc_winner (slack score) W.
  Proof using Hvars Hcon HP Hup Hach.
    intros score W. split.
    - intros (q & (x & Hx & <- & Eq) & Hb). split; [apply enc_size; auto|]. split; [auto|].
      intros W' HW' HP'. destruct (Hach W' HW' HP') as (y & Hy & Em & Ey). specialize (Hb W' (S W')).
      assert (S W' <= q + slack score)%Q by (apply Hb; exists y; auto). pose proof (Hup x Hx). lra.
    - intros (HW & HPW & Hb). destruct (Hach W HW HPW) as (x & Hx & Em & Ex). exists (S W). split; [exists x; auto|].
      intros W' q' (y & Hy & <- & Ey). pose proof (Hup y Hy). specialize (Hb (members p y) (enc_size y Hy) (HP y Hy)). lra.
  Qed.

  Lemma encoding_opt : forall score,
    match score with None => True
    | Some f => forall W, is_committee p k W -> P W -> exists q, f W = Ok q /\ (q == S W)%Q end ->
    exists cs q, optimize_rule s th p k score resolute maxn m = Ok (cs, Some q) /\ cs <> [] /\
      answers (enc_winner (slack score)) resolute maxn (sorted_committees cs) /\
      (exists W r, cs = W :: r /\ enc_winner 0 W /\ (q == S W)%Q) /\
      (forall W, In W cs -> enc_winner (slack score) W).
  Proof using Hth Hvars Hcon Hs HP Hup Hach Hex Hmax.
    intros score Hsc.
    destruct (optimize_rule_spec s th p k score resolute maxn m Hth enc_binary enc_size Hs) as (cs & q & E & HA & (W & r & Ecs & HW) & Hq & Hg).
    - destruct Hex as (W & HW & HPW). destruct (Hach W HW HPW) as (x & Hx & Em & Ex). exists W, (S W). exists x. auto.
    - destruct (finite_bound S (combinations (candidates p) k)) as [B HB]. exists B.
      intros W q (x & Hx & <- & Eq). rewrite <- Eq. eapply Qle_trans; [apply Hup; auto|]. apply HB. apply combos_committee. apply enc_size. auto.
    - destruct score as [f|]; auto. intros x Hx. destruct (Hsc (members p x) (enc_size x Hx) (HP x Hx)) as (q & E & Eq).
      exists q. split; auto. destruct (Hach (members p x) (enc_size x Hx) (HP x Hx)) as (y & Hy & Em & Ey). split; [exists y; split; auto; split; auto; lra|].
      rewrite Eq. auto.
    - exact Hmax.
    - exists cs, q. split; auto. split; [rewrite Ecs; discriminate|]. split.
      { eapply answers_ext; [|exact HA]. intros. apply enc_good. }
      split.
      + exists W, r. split; auto. destruct HW as (x & Hx & <- & Eq). pose proof (Hup x Hx) as Hu.
        destruct (Hach (members p x) (enc_size x Hx) (HP x Hx)) as (y & Hy & Em & Ey).
        assert (S (members p x) <= q)%Q by (apply (Hq (members p x)); exists y; auto).
        split; [|lra]. split; [apply enc_size; auto|]. split; auto.
        intros W' HW' HP'. destruct (Hach W' HW' HP') as (z & Hz & Ez & Ev).
        assert (S W' <= q)%Q by (apply (Hq W'); exists z; auto). lra.
      + intros V HV. apply enc_good. auto.
  Qed.
End Encoding.

Section Correct.
  Variables (s : solver) (th : Q) (p : profile) (k : nat) (resolute : bool) (maxn : option nat) (m : milp).
  Variables (S : list nat -> Q) (f : list nat -> result Q).
  Hypothesis Hth : (0 < th)%Q /\ (th <= 1)%Q.
  Hypothesis Hvars : incl (in_committee_vars p) (decls m).
  Hypothesis Hcon : In (size_con p k) (cons m).
  Hypothesis Hs : solves s p k m.
  Hypothesis Hup : forall x, feasible m x -> (ev x (objective m) <= S (members p x))%Q.
  Hypothesis Hach : forall W, is_committee p k W ->
    exists x, feasible m x /\ members p x = W /\ (ev x (objective m) == S W)%Q.
  Hypothesis Hk : k <= num_cand p.
  Hypothesis Hmax : valid_max maxn.
  Hypothesis Hf : forall W, is_committee p k W -> exists q, f W = Ok q /\ (q == S W)%Q.

  Lemma encoding_correct : answers (maximises S p k) resolute maxn (solve_and_sort s th p k (Some f) resolute maxn m).
  Proof using Hth Hvars Hcon Hs Hup Hach Hk Hmax Hf.
    destruct (encoding_opt s th p k resolute maxn m (fun _ => True) S Hth Hvars Hcon Hs) with (score := Some f)
      as (cs & q & E & _ & HA & _); auto.
    - exists (seq 0 k). split; auto. split; [apply ascending_seq|]. split; [apply seq_length|].
      apply Forall_forall. intros c Hc. apply in_seq in Hc. lia.
    - unfold solve_and_sort. rewrite E. cbn [rbind fst]. eapply answers_ext; [|exact HA].
      intros W. unfold enc_winner, maximises, slack. split.
      + intros (A & _ & B). split; auto. intros W' HW'. specialize (B W' HW' I). lra.
      + intros (A & B). split; auto. split; auto. intros W' HW' _. specialize (B W' HW'). lra.
  Qed.
End Correct.

(** ** Voters by position *)
Lemma numbered_In : forall p i v, In (i, v) (numbered p) <-> nth_error (voters p) i = Some v.
Proof.
  intros p i v. unfold numbered. generalize (voters p). intros l.
  assert (G : forall a, In (i, v) (combine (seq a (length l)) l) <-> a <= i /\ nth_error l (i - a) = Some v).
  { induction l as [|u l IH]; intros a; cbn [length seq combine].
    - split; [intros []|]. intros [_ H]. destruct (i - a); discriminate.
    - cbn [In]. rewrite IH. split.
      + intros [E|[H1 H2]]; [injection E as <- <-; rewrite Nat.sub_diag; auto|]. split; [lia|].
        replace (i - a) with (Datatypes.S (i - Datatypes.S a)) by lia. auto.
      + intros [H1 H2]. destruct (Nat.eq_dec i a) as [->|Hne]; [left; rewrite Nat.sub_diag in H2; cbn in H2; congruence|].
        right. split; [lia|]. replace (i - a) with (Datatypes.S (i - Datatypes.S a)) in H2 by lia. auto. }
  rewrite G, Nat.sub_0_r. split; [tauto|]. intros; split; auto. lia.
Qed.
Lemma numbered_snd : forall p, map snd (numbered p) = voters p.
Proof.
  intros p. unfold numbered. generalize (voters p), 0. induction l as [|u l IH]; intros a; cbn; auto. f_equal. auto.
Qed.
Lemma numbered_fst : forall p, map fst (numbered p) = voter_numbers p.
Proof.
  intros p. unfold numbered, voter_numbers. generalize (voters p), 0. induction l as [|u l IH]; intros a; cbn; auto. f_equal. auto.
Qed.
Lemma numbered_voter : forall p i v, In (i, v) (numbered p) -> In v (voters p).
Proof. intros p i v H. apply numbered_In in H. eapply nth_error_In; eauto. Qed.
Lemma numbered_sum : forall (f : voter -> Q) p, (Qsum (map (fun iv => f (snd iv)) (numbered p)) == Qsum (map f (voters p)))%Q.
Proof. intros f p. rewrite <- (numbered_snd p). rewrite map_map. reflexivity. Qed.

Lemma wf_approved : forall p v, wf p -> In v (voters p) -> NoDup (approved v) /\ Forall (fun c => c < num_cand p) (approved v) /\ (0 < weight v)%Q.
Proof. intros p v [_ H] Hv. rewrite Forall_forall in H. apply H. auto. Qed.

Lemma sum_approved : forall p x v, wf p -> binary_committee p x -> In v (voters p) ->
  (ev x (vsum (map InCommittee (approved v))) == Qnat (util v (members p x)))%Q.
Proof.
  intros p x v Hw Hb Hv. destruct (wf_approved p v Hw Hv) as (_ & Hr & _).
  rewrite ev_vsum, (sum_in_committee p x _ Hb Hr). reflexivity.
Qed.

(** ** Thiele methods *)
Lemma Qsum_ascending : forall (f : nat -> Q) (hi : nat) l a,
  (forall i j, a <= i -> i <= j -> j <= hi -> (f j <= f i)%Q) -> ascending l -> Forall (fun y => a <= y <= hi) l ->
  (Qsum (map f l) <= Qsum (map f (seq a (length l))))%Q.
Proof.
  intros f hi l. induction l as [|y r IH]; intros a Hf HA HF; [cbn; lra|]. cbn [length seq map].
  inversion HF; subst. unfold Qsum; cbn [fold_right]. fold (Qsum (map f r)) (Qsum (map f (seq (S a) (length r)))).
  assert (f y <= f a)%Q by (apply Hf; lia).
  assert (Qsum (map f r) <= Qsum (map f (seq (S a) (length r))))%Q; [|lra].
  apply IH; [intros; apply Hf; lia|inversion HA; auto|]. apply Forall_forall. intros z Hz. rewrite Forall_forall in H2. specialize (H2 z Hz).
  assert (y < z); [|lia]. unfold ascending in HA. inversion HA; subst. match goal with H : Forall (lt y) r |- _ => rewrite Forall_forall in H; auto end.
Qed.

Lemma binary_filter : forall (g : nat -> Q) (u : nat -> Q) l, (forall y, In y l -> (u y == 0)%Q \/ (u y == 1)%Q) ->
  (Qsum (map (fun y => g y * u y) l) == Qsum (map g (filter (fun y => Qle_bool 1 (u y)) l)))%Q.
Proof.
  intros g u l H. induction l as [|y r IH]; [reflexivity|]. cbn [map filter]. unfold Qsum at 1; cbn [fold_right].
  fold (Qsum (map (fun y => g y * u y) r))%Q. rewrite IH by (intros; apply H; right; auto).
  destruct (Qle_bool 1 (u y)) eqn:E.
  - apply Qle_bool_iff in E. cbn [map]. unfold Qsum; cbn [fold_right]. destruct (H y) as [A|A]; [left; auto|lra|]. rewrite A. lra.
  - destruct (H y) as [A|A]; [left; auto| |]. { rewrite A. lra. }
    exfalso. assert (1 <= u y)%Q by lra. apply Qle_bool_iff in H0. congruence.
Qed.
Lemma binary_count : forall (u : nat -> Q) l, (forall y, In y l -> (u y == 0)%Q \/ (u y == 1)%Q) ->
  (Qsum (map u l) == Qnat (length (filter (fun y => Qle_bool 1 (u y)) l)))%Q.
Proof.
  intros u l H. rewrite (Qsum_map_ext _ u (fun y => 1 * u y)%Q) by (intros; lra).
  rewrite binary_filter by auto. rewrite Qsum_map_const. lra.
Qed.

Lemma best_utilities : forall (f u : nat -> Q) M t, (forall i j, 1 <= i -> i <= j -> j <= M -> (f j <= f i)%Q) ->
  (forall y, 1 <= y <= M -> (u y == 0)%Q \/ (u y == 1)%Q) ->
  (Qsum (map u (seq 1 M)) == Qnat t)%Q ->
  (Qsum (map (fun y => f y * u y) (seq 1 M)) <= Qsum (map f (seq 1 t)))%Q.
Proof.
  intros f u M t Hf Hu Hs.
  assert (Hu' : forall y, In y (seq 1 M) -> (u y == 0)%Q \/ (u y == 1)%Q) by (intros y Hy; apply in_seq in Hy; apply Hu; lia).
  rewrite binary_filter by auto. rewrite binary_count in Hs by auto. apply Qnat_inj' in Hs. rewrite <- Hs.
  apply (Qsum_ascending f M); auto; [apply ascending_filter, ascending_seq|].
  apply Forall_forall. intros y Hy. apply filter_In in Hy as [Hy _]. apply in_seq in Hy. lia.
Qed.

Lemma filter_le_seq : forall t M a, t <= M -> filter (fun y => y <? a + t) (seq a M) = seq a t.
Proof.
  intros t. induction t as [|t IH]; intros M a H.
  - rewrite Nat.add_0_r. cbn [seq]. clear H. assert (G : forall b, a <= b -> filter (fun y => y <? a) (seq b M) = []).
    { induction M; intros b Hb; auto. cbn [seq filter]. replace (b <? a) with false by (symmetry; apply Nat.ltb_ge; lia). apply IHM. lia. }
    apply G. lia.
  - destruct M as [|M]; [lia|]. cbn [seq filter]. replace (a <? a + S t) with true by (symmetry; apply Nat.ltb_lt; lia).
    f_equal. rewrite <- (IH M (S a)) by lia. apply filter_ext. intros y. replace (S a + t) with (a + S t) by lia. auto.
Qed.

(** the assignment that belongs to a committee: the first utilities are 1 *)
Definition utilities_of (p : profile) (W : list nat) : assignment := fun v =>
  match v with
  | InCommittee c => of_committee W c
  | Utility i y => match nth_error (voters p) i with
                   | Some v => if y <=? util v W then 1%Q else 0%Q
                   | None => 0%Q
                   end
  | _ => 0%Q
  end.
Lemma utilities_sum : forall p W (f : nat -> Q) i v k, nth_error (voters p) i = Some v -> util v W <= max_in_committee k v ->
  (Qsum (map (fun y => f y * utilities_of p W (Utility i y)) (seq 1 (max_in_committee k v))) == Qsum (map f (seq 1 (util v W))))%Q.
Proof.
  intros p W f i v k Hv Hle. rewrite binary_filter.
  - rewrite <- (filter_le_seq _ _ 1 Hle). erewrite filter_ext; [reflexivity|]. intros y. cbn [utilities_of]. rewrite Hv.
    change (y <? 1 + util v W) with (y <=? util v W). destruct (y <=? util v W); reflexivity.
  - intros y _. cbn [utilities_of]. rewrite Hv. destruct (y <=? util v W); [right|left]; reflexivity.
Qed.
Lemma util_le_max : forall p k W v, wf p -> In v (voters p) -> is_committee p k W -> util v W <= max_in_committee k v.
Proof.
  intros p k W v Hw Hv (HA & <- & _). unfold max_in_committee, util. apply Nat.min_glb; [apply util_le|].
  apply NoDup_incl_length; [|intros c Hc; apply filter_In in Hc as [_ Hc]; apply mem_In; auto].
  apply NoDup_filter. apply (wf_approved p v); auto.
Qed.

Lemma ev_utility_score : forall x f p k, (ev x (utility_score f p k) ==
  Qsum (map (fun iv => weight (snd iv) * Qsum (map (fun y => f y * x (Utility (fst iv) y)) (seq 1 (max_in_committee k (snd iv))))) (numbered p)))%Q.
Proof.
  intros. unfold utility_score. rewrite ev_sum, flat_map_map, Qsum_flat. apply Qsum_map_ext. intros iv _.
  rewrite map_map. rewrite <- Qsum_map_scal. apply Qsum_map_ext. intros y _. rewrite ev_scale, ev_var. lra.
Qed.

(** what feasibility says about the utilities *)
Lemma utility_feasible : forall p k m x i v, wf p -> binary_committee p x -> incl (utility_decls p k) (decls m) ->
  incl (utility_cons p k) (cons m) -> feasible m x -> In (i, v) (numbered p) ->
  (forall y, 1 <= y <= max_in_committee k v -> (x (Utility i y) == 0)%Q \/ (x (Utility i y) == 1)%Q) /\
  (Qsum (map (fun y => x (Utility i y)) (seq 1 (max_in_committee k v))) == Qnat (util v (members p x)))%Q.
Proof.
  intros p k m x i v Hw Hb Hd Hc [Fd Fc] Hiv. rewrite Forall_forall in Fd, Fc. split.
  - intros y Hy. destruct (Fd (mkDecl (Utility i y) Binary None None)) as [A _]; [|exact A].
    apply Hd. unfold utility_decls. apply in_flat_map. exists (i, v). split; auto. apply in_map_iff. exists y. split; auto. apply in_seq. cbn [snd]. lia.
  - specialize (Fc (CEq (vsum (map (Utility i) (seq 1 (max_in_committee k v)))) (vsum (map InCommittee (approved v))))).
    assert (H : holds x (CEq (vsum (map (Utility i) (seq 1 (max_in_committee k v)))) (vsum (map InCommittee (approved v))))).
    { apply Fc, Hc. unfold utility_cons. apply in_map_iff. exists (i, v). auto. }
    cbn [holds] in H. rewrite (sum_approved p x v Hw Hb (numbered_voter _ _ _ Hiv)), ev_vsum, map_map in H. exact H.
Qed.

Lemma utilities_decls_ok : forall p k W, is_committee p k W ->
  Forall (in_domain (utilities_of p W)) (in_committee_vars p ++ utility_decls p k).
Proof.
  intros p k W HW. apply Forall_app. split; apply Forall_forall; intros d Hd.
  - unfold in_committee_vars in Hd. apply in_map_iff in Hd as (c & <- & _). split; [|split; exact I]. cbn.
    unfold of_committee. destruct (mem c W); [right|left]; reflexivity.
  - unfold utility_decls in Hd. apply in_flat_map in Hd as ((i, v) & Hiv & Hd). apply in_map_iff in Hd as (y & <- & _).
    split; [|split; exact I]. cbn. apply numbered_In in Hiv. rewrite Hiv. destruct (y <=? util v W); [right|left]; reflexivity.
Qed.
Lemma utilities_members : forall p k W, is_committee p k W -> members p (utilities_of p W) = W.
Proof. intros p k W HW. eapply of_committee_members; eauto. Qed.
Lemma utilities_binary : forall p W, binary_committee p (utilities_of p W).
Proof. intros p W. eapply of_committee_binary. intros c _. reflexivity. Qed.
Lemma utilities_cons_ok : forall p k W, wf p -> is_committee p k W ->
  Forall (holds (utilities_of p W)) (size_con p k :: utility_cons p k).
Proof.
  intros p k W Hw HW. pose proof (utilities_members p k W HW) as Em. pose proof (utilities_binary p W) as Hb. constructor.
  - apply size_con_of; auto. rewrite Em. auto.
  - apply Forall_forall. intros c Hc. unfold utility_cons in Hc. apply in_map_iff in Hc as ((i, v) & <- & Hiv).
    cbn [holds fst snd]. rewrite (sum_approved p _ v Hw Hb (numbered_voter _ _ _ Hiv)), Em, ev_vsum, map_map.
    pose proof (utilities_sum p W (fun _ => 1%Q) i v k) as H.
    rewrite (Qsum_map_ext _ (fun y => utilities_of p W (Utility i y)) (fun y => 1 * utilities_of p W (Utility i y))%Q) by (intros; lra).
    rewrite H; [|apply numbered_In; auto|eapply util_le_max; eauto; eapply numbered_voter; eauto].
    rewrite Qsum_map_const, seq_length. lra.
Qed.
Lemma utilities_score_ok : forall p k W f, wf p -> is_committee p k W ->
  (ev (utilities_of p W) (utility_score f p k) == Thiele f p W)%Q.
Proof.
  intros p k W f Hw HW. rewrite ev_utility_score. unfold Thiele. rewrite <- (numbered_sum (fun v => weight v * Qsum (map f (seq 1 (util v W))))%Q p).
  apply Qsum_map_ext. intros (i, v) Hiv. cbn [fst snd]. rewrite utilities_sum; [reflexivity|apply numbered_In; auto|].
  eapply util_le_max; eauto. eapply numbered_voter; eauto.
Qed.

Lemma decreasing_antitone : forall (f : nat -> Q) k, monotonic_decreasing (map f (seq 1 k)) = true ->
  forall i j, 1 <= i -> i <= j -> j <= k -> (f j <= f i)%Q.
Proof.
  intros f k H.
  assert (Hstep : forall i, 1 <= i -> i < k -> (f (S i) <= f i)%Q).
  { intros i H1 H2. unfold monotonic_decreasing in H. rewrite forallb_forall in H.
    specialize (H (f i, f (S i))). cbn [fst snd] in H.
    assert (Hin : In (f i, f (S i)) (combine (map f (seq 1 k)) (tl (map f (seq 1 k))))).
    { assert (G : forall n a, a <= i -> S i < a + n -> In (f i, f (S i)) (combine (map f (seq a n)) (tl (map f (seq a n))))).
      { induction n as [|n IH]; intros a Ha Hb; [lia|]. destruct n as [|n]; [lia|]. cbn [seq map tl combine].
        destruct (Nat.eq_dec i a) as [->|Hne]; [left; auto|]. right. apply (IH (S a)); lia. }
      apply G; lia. }
    specialize (H Hin). apply orb_true_iff in H as [H|H].
    - apply Qltb_lt in H. lra.
    - apply andb_true_iff in H as [H _]. apply Qeq_bool_iff in H. lra. }
  intros i j H1 H2. induction H2 as [|j H2 IH]; intros Hj; [lra|].
  eapply Qle_trans; [apply Hstep; lia|apply IH; lia].
Qed.

Theorem thiele_encodes : forall f p k, wf p -> (forall i j, 1 <= i -> i <= j -> j <= k -> (f j <= f i)%Q) ->
  encodes p k (thiele_program f p k) (Thiele f p).
Proof.
  intros f p k Hw Hd. apply encodes_intro.
  - intros d Hin. apply in_or_app. auto.
  - left. auto.
  - intros x Hx Hb. cbn [objective thiele_program].
    rewrite ev_utility_score. unfold Thiele. rewrite <- (numbered_sum (fun v => weight v * Qsum (map f (seq 1 (util v (members p x)))))%Q p).
    apply Qsum_map_le. intros (i, v) Hiv. cbn [fst snd].
    destruct (utility_feasible p k (thiele_program f p k) x i v Hw Hb) as [Hu Hsum]; auto.
    { intros d Hin. apply in_or_app. auto. } { intros c Hin. right. auto. }
    assert (0 < weight v)%Q by (apply (wf_approved p v); auto; eapply numbered_voter; eauto).
    assert (Qsum (map (fun y => f y * x (Utility i y)) (seq 1 (max_in_committee k v))) <= Qsum (map f (seq 1 (util v (members p x)))))%Q; [|nra].
    apply (best_utilities f (fun y => x (Utility i y))); auto.
    intros a b Ha Hab Hbm. apply Hd; auto. unfold max_in_committee in Hbm. lia.
  - intros W HW. exists (utilities_of p W). split; [split|split].
    + apply utilities_decls_ok. auto.
    + apply utilities_cons_ok; auto.
    + eapply utilities_members; eauto.
    + apply utilities_score_ok; auto.
Qed.

Theorem ilp_thiele_correct : forall s f p k resolute maxn, wf p -> 1 <= k <= num_cand p -> valid_max maxn ->
  monotonic_decreasing (map f (seq 1 k)) = true -> (0 < f 1%nat)%Q -> solves s p k (thiele_program f p k) ->
  answers (maximises (Thiele f p) p k) resolute maxn (ilp_thiele s f p k resolute maxn).
Proof.
  intros s f p k resolute maxn Hw Hk Hm Hd H1 Hs. unfold ilp_thiele. rewrite Hd. cbn [negb].
  assert (Hmin : exists q, py_min (filter (Qltb 0) (map f (seq 1 k))) = Ok q).
  { destruct k as [|k]; [lia|]. cbn [seq map filter]. replace (Qltb 0 (f 1%nat)) with true by (symmetry; apply Qltb_lt; auto). cbn. eauto. }
  destruct Hmin as [q ->]. cbn [rbind].
  destruct (thiele_encodes f p k Hw (decreasing_antitone f k Hd)) as [Hup Hach].
  apply encoding_correct; auto; try lia.
  - unfold MIP_THRESHOLD. lra.
  - intros d Hin. apply in_or_app. auto.
  - left. auto.
  - intros x Hx. apply Hup. auto.
  - intros W HW. exists (thiele_score f p W). split; auto. apply thiele_score_correct.
    apply Forall_forall. intros v Hv. apply (wf_approved p v); auto.
Qed.

(** ** Chamberlin-Courant with OR-Tools *)
Lemma cc_voter : forall t, (Qsum (map cc_w (seq 1 t)) == (if t =? 0 then 0 else 1))%Q.
Proof.
  destruct t as [|t]; [reflexivity|]. cbn [seq map Nat.eqb]. unfold Qsum; cbn [fold_right]. fold (Qsum (map cc_w (seq 2 t))).
  rewrite Qsum_map_zero; [unfold cc_w; cbn; lra|]. intros y Hy. apply in_seq in Hy. unfold cc_w. destruct (Nat.eqb_spec y 1); [lia|reflexivity].
Qed.

Definition satisfied_of (p : profile) (W : list nat) : assignment := fun v =>
  match v with
  | InCommittee c => of_committee W c
  | Satisfied i => match nth_error (voters p) i with Some v => if util v W =? 0 then 0%Q else 1%Q | None => 0%Q end
  | _ => 0%Q
  end.

Lemma cc_objective : forall x p k, unit_weights p \/ has_unit_weights p = false ->
  (ev x (objective (cc_program p k)) == Qsum (map (fun iv => weight (snd iv) * x (Satisfied (fst iv))) (numbered p)))%Q.
Proof.
  intros x p k H. cbn [objective cc_program]. destruct (has_unit_weights p).
  - destruct H as [H|H]; [|discriminate]. rewrite ev_vsum, map_map. apply Qsum_map_ext. intros (i, v) Hiv. cbn [fst snd].
    unfold unit_weights in H. rewrite Forall_forall in H. rewrite (H v (numbered_voter _ _ _ Hiv)). lra.
  - rewrite ev_sum, map_map. apply Qsum_map_ext. intros (i, v) _. cbn [fst snd]. rewrite ev_scale, ev_var. lra.
Qed.
Lemma unit_cases : forall p, unit_weights p \/ has_unit_weights p = false.
Proof.
  intros p. destruct (has_unit_weights p) eqn:E; auto. left. unfold has_unit_weights in E. rewrite forallb_forall in E.
  apply Forall_forall. intros v Hv. specialize (E v Hv). apply Qeq_bool_iff in E. auto.
Qed.

Theorem cc_encodes : forall p k, wf p -> encodes p k (cc_program p k) (Thiele cc_w p).
Proof.
  intros p k Hw. apply encodes_intro.
  - intros d Hin. apply in_or_app. auto.
  - left. auto.
  - intros x Hx Hb. rewrite cc_objective by apply unit_cases.
    unfold Thiele. rewrite <- (numbered_sum (fun v => weight v * Qsum (map cc_w (seq 1 (util v (members p x)))))%Q p).
    apply Qsum_map_le. intros (i, v) Hiv. cbn [fst snd]. pose proof (numbered_voter _ _ _ Hiv) as Hv.
    assert (0 < weight v)%Q by (apply (wf_approved p v); auto).
    rewrite cc_voter. destruct Hx as [Fd Fc]. rewrite Forall_forall in Fd, Fc.
    destruct (Fd (mkDecl (Satisfied i) Binary None None)) as [A _].
    { apply in_or_app. right. apply in_map_iff. exists (i, v). auto. }
    cbn in A. assert (H2 : holds x (CLe (lvar (Satisfied i)) (vsum (map InCommittee (approved v))))).
    { apply Fc. right. apply in_map_iff. exists (i, v). auto. }
    cbn [holds] in H2. rewrite ev_var, (sum_approved p x v Hw Hb Hv) in H2.
    destruct (util v (members p x)) as [|t]; cbn [Nat.eqb]; [change (Qnat 0) with 0%Q in H2|]; destruct A as [A|A]; rewrite A in *; lra || nra.
  - intros W HW. exists (satisfied_of p W).
    assert (Hb : binary_committee p (satisfied_of p W)) by (eapply of_committee_binary; intros; reflexivity).
    assert (Em : members p (satisfied_of p W) = W) by (eapply of_committee_members; eauto).
    split; [split|split]; auto.
    + cbn [decls cc_program]. apply Forall_app. split; apply Forall_forall; intros d Hd.
      * unfold in_committee_vars in Hd. apply in_map_iff in Hd as (c & <- & _). split; [|split; exact I]. cbn.
        unfold of_committee. destruct (mem c W); [right|left]; reflexivity.
      * apply in_map_iff in Hd as ((i, v) & <- & Hiv). split; [|split; exact I]. cbn. apply numbered_In in Hiv. rewrite Hiv.
        destruct (util v W =? 0); [left|right]; reflexivity.
    + cbn [cons cc_program]. constructor; [apply size_con_of; auto; rewrite Em; auto|]. apply Forall_forall. intros c Hc.
      apply in_map_iff in Hc as ((i, v) & <- & Hiv). cbn [holds fst snd].
      rewrite ev_var, (sum_approved p _ v Hw Hb (numbered_voter _ _ _ Hiv)), Em. cbn [satisfied_of]. apply numbered_In in Hiv. rewrite Hiv.
      destruct (Nat.eqb_spec (util v W) 0) as [->|Hne]; [apply Qle_refl|]. change 1%Q with (Qnat 1). apply Qnat_le'. lia.
    + rewrite cc_objective by apply unit_cases. unfold Thiele.
      rewrite <- (numbered_sum (fun v => weight v * Qsum (map cc_w (seq 1 (util v W))))%Q p).
      apply Qsum_map_ext. intros (i, v) Hiv. cbn [fst snd satisfied_of]. rewrite cc_voter. apply numbered_In in Hiv. rewrite Hiv.
      destruct (util v W =? 0); lra.
Qed.

Theorem ortools_cc_correct : forall s p k resolute maxn, wf p -> k <= num_cand p -> valid_max maxn ->
  Forall (fun v => weight_is_int v = true) (voters p) -> solves s p k (cc_program p k) ->
  answers (maximises (Thiele cc_w p) p k) resolute maxn (ortools_cc s p k resolute maxn).
Proof.
  intros s p k resolute maxn Hw Hk Hm Hi Hs. unfold ortools_cc.
  replace (forallb weight_is_int (voters p)) with true.
  2:{ symmetry. apply forallb_forall. intros v Hv. rewrite Forall_forall in Hi. auto. }
  cbn [negb]. apply encoding_correct; auto.
  - unfold CP_THRESHOLD. lra.
  - intros d Hin. apply in_or_app. auto.
  - left. auto.
  - intros x Hx. apply (cc_encodes p k Hw). auto.
  - apply (cc_encodes p k Hw).
  - intros W HW. exists (thiele_score (marginal Cc) p W). split; auto.
    rewrite thiele_score_correct by (apply Forall_forall; intros v Hv; apply (wf_approved p v); auto). reflexivity.
Qed.

(** ** Minimax AV *)
Lemma ev_absent : forall x c, (ev x (absent c) == 1 - x (InCommittee c))%Q.
Proof. intros. unfold absent. rewrite ev_sub, ev_const, ev_var. reflexivity. Qed.

Lemma ev_distance : forall p x v, wf p -> binary_committee p x -> In v (voters p) ->
  (ev x (distance_lin p v) == Qnat (distance (approved v) (members p x)))%Q.
Proof.
  intros p x v Hw Hb Hv. destruct (wf_approved p v Hw Hv) as (Hn & Hr & _).
  unfold distance_lin, distance. rewrite ev_add, ev_sum, map_map, ev_vsum.
  rewrite sum_in_committee with (p := p); auto.
  2:{ apply Forall_forall. intros c Hc. apply diff_In in Hc as [Hc _]. apply in_seq in Hc. lia. }
  assert (E1 : (Qsum (map (fun c => ev x (absent c)) (approved v)) == Qnat (length (diff (approved v) (members p x))))%Q).
  { clear Hn. revert Hr. generalize (approved v) as l. induction l as [|c l IH]; intros Hr; [reflexivity|]. inversion Hr; subst.
    cbn [map]. unfold Qsum; cbn [fold_right]. fold (Qsum (map (fun c => ev x (absent c)) l)). rewrite IH by auto. rewrite ev_absent.
    unfold diff; cbn [filter]. fold (diff l (members p x)). destruct (mem c (members p x)) eqn:E; cbn [negb].
    - apply mem_In, members_In in E as [_ E]; auto. rewrite E. lra.
    - apply mem_false in E. cbn [length]. rewrite Qnat_S', (not_members p x c) by auto. lra. }
  rewrite E1. unfold Qnat. rewrite <- inject_Z_plus, <- Nat2Z.inj_add.
  assert (E2 : length (filter (fun c => mem c (members p x)) (diff (candidates p) (approved v))) = length (diff (members p x) (approved v))).
  { apply Permutation_length. apply NoDup_Permutation.
    - apply NoDup_filter, NoDup_diff. apply seq_NoDup.
    - apply NoDup_diff, ascending_NoDup, members_ascending.
    - intros c. rewrite filter_In, !diff_In, mem_In. split; [tauto|]. intros [A B]. repeat split; auto.
      unfold members in A. apply filter_In in A. tauto. }
  rewrite E2. reflexivity.
Qed.

Lemma minimax_le : forall p W d, (forall v, In v (voters p) -> distance (approved v) W <= d) -> minimaxav_score p W <= d.
Proof.
  intros p W d H. destruct (minimax_max_distance p W) as (_ & B & C). destruct (voters p) as [|v vs] eqn:E.
  - rewrite C by auto. lia.
  - destruct (B ltac:(discriminate)) as (u & Hu & <-). apply H. auto.
Qed.
Lemma minimax_le_cand : forall p k W, wf p -> is_committee p k W -> minimaxav_score p W <= num_cand p.
Proof.
  intros p k W Hw (A & _ & B). apply minimax_le. intros v Hv. destruct (wf_approved p v Hw Hv) as (Hn & Hr & _).
  apply distance_bound; auto. apply ascending_NoDup; auto.
Qed.
Lemma minimax_maximises : forall p k W,
  maximises (fun W => - Qnat (minimaxav_score p W))%Q p k W <-> minimaxav_winner p k W.
Proof.
  intros p k W. unfold maximises, minimaxav_winner. split; intros [HW H]; split; auto.
  - intros W' d d' HW' Hd Hd'. specialize (H W' HW').
    rewrite (max_distance_unique p W d (minimaxav_score p W)) by auto using minimax_max_distance.
    rewrite (max_distance_unique p W' d' (minimaxav_score p W')) by auto using minimax_max_distance. apply Qnat_le'. lra.
  - intros W' HW'. specialize (H W' _ _ HW' (minimax_max_distance p W) (minimax_max_distance p W')). apply Qnat_le' in H. lra.
Qed.

Definition hamming_of (p : profile) (W : list nat) : assignment := fun v =>
  match v with
  | InCommittee c => of_committee W c
  | MaxHamming => Qnat (minimaxav_score p W)
  | _ => 0%Q
  end.

Theorem minimaxav_encodes : forall p k, wf p -> encodes p k (minimaxav_program p k) (fun W => - Qnat (minimaxav_score p W))%Q.
Proof.
  intros p k Hw. apply encodes_intro.
  - intros d Hin. apply in_or_app. auto.
  - left. auto.
  - intros x Hx Hb. cbn [objective minimaxav_program].
    rewrite ev_scale, ev_var. destruct Hx as [Fd Fc]. rewrite Forall_forall in Fd, Fc.
    destruct (Fd (mkDecl MaxHamming Integer (Some 0%Q) (Some (Qnat (num_cand p))))) as ([z Hz] & Hlo & _).
    { apply in_or_app. right. left. auto. }
    cbn [dtype dvar dlow] in *.
    assert (Hz0 : (0 <= z)%Z) by (rewrite Zle_Qle, <- Hz; exact Hlo).
    assert (Hle : minimaxav_score p (members p x) <= Z.to_nat z).
    { apply minimax_le. intros v Hv. assert (H2 : holds x (CGe (lvar MaxHamming) (distance_lin p v))).
      { apply Fc. right. apply in_map_iff. eauto. }
      cbn [holds] in H2. rewrite ev_var, (ev_distance p x v Hw Hb Hv), Hz in H2. unfold Qnat in H2. rewrite <- Zle_Qle in H2. lia. }
    apply Qnat_le' in Hle. unfold Qnat in Hle at 2. rewrite Z2Nat.id in Hle by auto. rewrite Hz. lra.
  - intros W HW. exists (hamming_of p W).
    assert (Hb : binary_committee p (hamming_of p W)) by (eapply of_committee_binary; intros; reflexivity).
    assert (Em : members p (hamming_of p W) = W) by (eapply of_committee_members; eauto).
    split; [split|split]; auto.
    + cbn [decls minimaxav_program]. apply Forall_app. split; [apply Forall_forall; intros d Hd|constructor; [|constructor]].
      * unfold in_committee_vars in Hd. apply in_map_iff in Hd as (c & <- & _). split; [|split; exact I]. cbn.
        unfold of_committee. destruct (mem c W); [right|left]; reflexivity.
      * split; [|split]; cbn.
        -- eexists. reflexivity.
        -- change 0%Q with (Qnat 0). apply Qnat_le'. lia.
        -- apply Qnat_le'. eapply minimax_le_cand; eauto.
    + cbn [cons minimaxav_program]. constructor; [apply size_con_of; auto; rewrite Em; auto|]. apply Forall_forall. intros c Hc.
      apply in_map_iff in Hc as (v & <- & Hv). cbn [holds]. rewrite ev_var, (ev_distance p _ v Hw Hb Hv), Em. cbn [hamming_of].
      apply Qnat_le'. apply (minimax_max_distance p W). auto.
    + cbn [objective minimaxav_program]. rewrite ev_scale, ev_var. cbn [hamming_of]. lra.
Qed.

Theorem solver_minimaxav_correct : forall s th p k resolute maxn, (0 < th)%Q /\ (th <= 1)%Q ->
  wf p -> k <= num_cand p -> valid_max maxn -> solves s p k (minimaxav_program p k) ->
  answers (minimaxav_winner p k) resolute maxn (solver_minimaxav s th p k resolute maxn).
Proof.
  intros s th p k resolute maxn Hth Hw Hk Hm Hs. eapply answers_ext; [apply minimax_maximises|].
  unfold solver_minimaxav. apply encoding_correct; auto.
  - intros d Hin. apply in_or_app. auto.
  - left. auto.
  - intros x Hx. apply (minimaxav_encodes p k Hw). auto.
  - apply (minimaxav_encodes p k Hw).
  - intros W HW. eexists. split; [reflexivity|reflexivity].
Qed.
