(** * Method of Equal Shares: correctness of the purchase phase *)
From Coq Require Import String.
From Coq Require Import List Arith Bool ZArith QArith Lia Lqa Permutation Sorted Setoid.
From Verif Require Import Prelude Misc MiscProofs Preferences Scores Spec ScoresProofs Search RulesThiele
  Common ThieleProofs SpecRules SpecSeq RulesSeq SeqProofs PhragmenProofs EnestroemProofs RulesMes PoolProofs.
Import ListNotations.
Open Scope nat_scope.

Lemma sum_perm : forall l l' f, Permutation l l' -> (sum l f == sum l' f)%Q.
Proof.
  intros l l' f H. induction H; unfold sum in *; simpl; try lra.
Qed.
Lemma sum_app : forall l l' f, (sum (l ++ l') f == sum l f + sum l' f)%Q.
Proof. intros. unfold sum. rewrite map_app, Qsum_app. reflexivity. Qed.
Lemma sum_split : forall (P : nat -> bool) l f,
  (sum l f == sum (filter P l) f + sum (filter (fun i => negb (P i)) l) f)%Q.
Proof.
  intros P l f. induction l as [|a l IH]; unfold sum in *; simpl; [lra|].
  destruct (P a); simpl; lra.
Qed.
Lemma sum_lt_one : forall l (f g : nat -> Q) i, In i l -> (forall j, In j l -> (f j <= g j)%Q) -> (f i < g i)%Q ->
  (sum l f < sum l g)%Q.
Proof.
  induction l as [|a l IH]; intros f g i Hi Hle Hlt; [destruct Hi|]. unfold sum in *. simpl.
  assert (f a <= g a)%Q by (apply Hle; left; auto).
  assert (Qsum (map f l) <= Qsum (map g l))%Q by (apply Qsum_map_le; intros; apply Hle; right; auto).
  destruct Hi as [->|Hi]; [lra|].
  specialize (IH f g i Hi (fun j Hj => Hle j (or_intror Hj)) Hlt). lra.
Qed.

Lemma filter_split_perm : forall (P : nat -> bool) l,
  Permutation l (filter P l ++ filter (fun i => negb (P i)) l).
Proof.
  induction l as [|a l IH]; simpl; auto. destruct (P a); simpl.
  - constructor; auto.
  - apply Permutation_cons_app; auto.
Qed.
Lemma filter_length_split : forall (P : nat -> bool) l,
  length l = length (filter P l) + length (filter (fun i => negb (P i)) l).
Proof. intros. rewrite <- app_length. apply Permutation_length, filter_split_perm. Qed.

Lemma Qmin_le_l : forall x y, (Qmin x y <= x)%Q.
Proof. intros. unfold Qmin. destruct (Qle_bool x y) eqn:E; [lra|]. apply Qle_bool_false in E. lra. Qed.
Lemma Qmin_le_r : forall x y, (Qmin x y <= y)%Q.
Proof. intros. unfold Qmin. destruct (Qle_bool x y) eqn:E; [apply Qle_bool_iff in E; lra|lra]. Qed.
Lemma Qmin_l : forall x y, (x <= y)%Q -> (Qmin x y == x)%Q.
Proof. intros. unfold Qmin. apply Qle_bool_iff in H. rewrite H. reflexivity. Qed.
Lemma Qmin_r : forall x y, (y <= x)%Q -> (Qmin x y == y)%Q.
Proof.
  intros. unfold Qmin. destruct (Qle_bool x y) eqn:E; [|reflexivity]. apply Qle_bool_iff in E. lra.
Qed.
Lemma Qmin_glb : forall x y z, (z <= x)%Q -> (z <= y)%Q -> (z <= Qmin x y)%Q.
Proof. intros. unfold Qmin. destruct (Qle_bool x y); auto. Qed.
Lemma Qmin_mono : forall x y x' y', (x <= x')%Q -> (y <= y')%Q -> (Qmin x y <= Qmin x' y')%Q.
Proof.
  intros. apply Qmin_glb; [eapply Qle_trans; [apply Qmin_le_l|auto]|eapply Qle_trans; [apply Qmin_le_r|auto]].
Qed.
Lemma Qmin_comp : forall x y x' y', (x == x')%Q -> (y == y')%Q -> (Qmin x y == Qmin x' y')%Q.
Proof.
  intros. apply Qle_antisym; apply Qmin_mono; lra.
Qed.

Definition pairs (p : profile) (l : list nat) : list (nat * voter) := map (fun i => (i, the_voter p i)) l.

Lemma pairs_fans : forall p c, filter (fun iv => mem c (approved (snd iv))) (enum_voters p) = pairs p (fans p c).
Proof. intros. rewrite enum_voters_eq, filter_map_comm. reflexivity. Qed.

Lemma fold_pairs : forall p (g : nat -> voter -> Q) l,
  (fold_left (fun s iv => s + g (fst iv) (snd iv)) (pairs p l) 0 == sum l (fun i => g i (the_voter p i)))%Q.
Proof.
  intros. rewrite (fold_left_sum _ (fun iv => g (fst iv) (snd iv))). unfold pairs. rewrite map_map. simpl.
  unfold sum. lra.
Qed.

Section MinQ.
  Variables (p : profile) (b : list Q) (c : nat).
  Hypothesis Hw : wf p.

  Lemma weights_pos : forall l, (forall i, In i l -> i < length (voters p)) -> l <> [] -> (0 < sum l (w p))%Q.
  Proof using Hw.
    intros l Hl Hne. destruct l as [|i l]; [congruence|]. unfold sum. simpl.
    assert (0 < w p i)%Q by (apply w_pos; auto; apply Hl; left; auto).
    assert (0 <= Qsum (map (w p) l))%Q.
    { apply Qsum_map_nonneg. intros j Hj. apply Qlt_le_weak, w_pos; auto. apply Hl. right; auto. }
    lra.
  Qed.

  Lemma min_q_loop_spec : forall fuel R P q0,
    length R <= fuel -> Permutation (R ++ P) (fans p c) ->
    (forall i, In i P -> (nthQ b i <= q0 * w p i)%Q) ->
    (q0 * sum R (w p) < 1 - sum P (nthQ b))%Q ->
    exists r, min_q_loop fuel b (pairs p R) (pairs p P) = Ok r /\
      match r with Some q => price_of p (nthQ b) c q | None => (purse p (nthQ b) c < 1)%Q end.
  Proof using Hw.
    induction fuel as [|fuel IH]; intros R P q0 Hlen HP Hpoor Hq.
    - destruct R; [|simpl in Hlen; lia]. exists None. split; auto.
      simpl in HP. unfold purse. rewrite <- (sum_perm _ _ _ HP). unfold sum in Hq at 1. simpl in Hq. lra.
    - destruct R as [|i0 R0].
      { exists None. split; auto. simpl in HP. unfold purse. rewrite <- (sum_perm _ _ _ HP).
        unfold sum in Hq at 1. simpl in Hq. lra. }
      set (R := i0 :: R0) in *.
      assert (Hin : forall i, In i R -> i < length (voters p)).
      { intros i Hi. assert (Hf : In i (fans p c)) by (eapply Permutation_in; [exact HP|apply in_app_iff; auto]).
        apply in_fans in Hf. tauto. }
      assert (HwR : (0 < sum R (w p))%Q) by (apply weights_pos; auto; discriminate).
      assert (Eu : min_q_loop (S fuel) b (pairs p R) (pairs p P) =
        let q := ((1 - fold_left (fun s iv => s + nthQ b (fst iv)) (pairs p P) 0) /
                  fold_left (fun s iv => s + weight (snd iv)) (pairs p R) 0)%Q in
        let is_poor := fun iv : nat * voter => Qltb (nthQ b (fst iv)) (q * weight (snd iv)) in
        match filter is_poor (pairs p R) with
        | [] => Ok (Some q)
        | new_poor => min_q_loop fuel b (filter (fun iv => negb (is_poor iv)) (pairs p R)) (pairs p P ++ new_poor)
        end) by reflexivity.
      rewrite Eu. clear Eu.
      set (q := ((1 - fold_left (fun s iv => s + nthQ b (fst iv)) (pairs p P) 0) /
                  fold_left (fun s iv => s + weight (snd iv)) (pairs p R) 0)%Q).
      assert (Eq : (q * sum R (w p) == 1 - sum P (nthQ b))%Q).
      { unfold q. rewrite (fold_pairs p (fun i v => nthQ b i)), (fold_pairs p (fun i v => weight v)).
        change (sum R (fun i => weight (the_voter p i))) with (sum R (w p)).
        change (sum P (fun i => nthQ b i)) with (sum P (nthQ b)).
        field. lra. }
      clearbody q. cbv zeta. unfold pairs at 1 2. rewrite !filter_map_comm. cbn [fst snd].
      change (fun x => Qltb (nthQ b x) (q * weight (the_voter p x))) with (fun x => Qltb (nthQ b x) (q * w p x)).
      change (fun x => negb (Qltb (nthQ b x) (q * weight (the_voter p x)))) with (fun x => negb (Qltb (nthQ b x) (q * w p x))).
      set (isp := fun x => Qltb (nthQ b x) (q * w p x)).
      change (fun x => negb (Qltb (nthQ b x) (q * w p x))) with (fun x => negb (isp x)).
      assert (Hq0 : (q0 < q)%Q) by nra.
      destruct (filter isp R) as [|j N] eqn:EN.
      + cbn [map]. exists (Some q). split; auto.
        assert (HR : forall i, In i R -> (q * w p i <= nthQ b i)%Q).
        { intros i Hi. destruct (isp i) eqn:Ei.
          - exfalso. assert (In i (filter isp R)) by (apply filter_In; auto). rewrite EN in H. destruct H.
          - unfold isp in Ei. apply Qltb_ge in Ei. lra. }
        assert (Hcol : forall r, (collected p (nthQ b) c r ==
           sum R (fun i => Qmin (nthQ b i) (r * w p i)) + sum P (fun i => Qmin (nthQ b i) (r * w p i)))%Q).
        { intro r. unfold collected. rewrite <- (sum_perm _ _ _ HP). apply sum_app. }
        assert (HPw : forall i, In i P -> (0 < w p i)%Q).
        { intros i Hi. apply w_pos; auto. assert (Hf : In i (fans p c)) by (eapply Permutation_in; [exact HP|apply in_app_iff; auto]).
          apply in_fans in Hf. tauto. }
        split.
        * rewrite Hcol.
          rewrite (sum_ext R _ (fun i => q * w p i)%Q) by (intros i Hi; apply Qmin_r; auto).
          rewrite (sum_ext P _ (nthQ b)).
          -- rewrite sum_scal. lra.
          -- intros i Hi. apply Qmin_l. specialize (Hpoor i Hi). specialize (HPw i Hi). nra.
        * intros r Hr. rewrite Hcol.
          assert (A : (sum P (fun i => Qmin (nthQ b i) (r * w p i)) <= sum P (nthQ b))%Q).
          { apply sum_le. intros. apply Qmin_le_l. }
          assert (B : (sum R (fun i => Qmin (nthQ b i) (r * w p i)) <= sum R (fun i => r * w p i))%Q).
          { apply sum_le. intros. apply Qmin_le_r. }
          rewrite sum_scal in B. nra.
      + cbn [map].
        replace (map (fun i => (i, the_voter p i)) (filter (fun x => negb (isp x)) R)) with (pairs p (filter (fun x => negb (isp x)) R)) by auto.
        replace ((j, the_voter p j) :: map (fun i => (i, the_voter p i)) N) with (pairs p (j :: N)) by auto.
        replace (pairs p P ++ pairs p (j :: N)) with (pairs p (P ++ j :: N)) by (apply map_app).
        apply (IH _ _ q).
        * pose proof (filter_length_split isp R) as HL. rewrite EN in HL. change (length (j :: N)) with (S (length N)) in HL. lia.
        * etransitivity; [|exact HP].
          rewrite <- EN. rewrite app_assoc, Permutation_app_comm, app_assoc.
          apply Permutation_app_tail. apply Permutation_sym, filter_split_perm.
        * intros i Hi. apply in_app_iff in Hi as [Hi|Hi].
          -- specialize (Hpoor i Hi).
             assert (0 < w p i)%Q.
             { apply w_pos; auto. assert (Hf : In i (fans p c)) by (eapply Permutation_in; [exact HP|apply in_app_iff; auto]).
               apply in_fans in Hf. tauto. }
             nra.
          -- rewrite <- EN in Hi. apply filter_In in Hi as [_ Hi]. unfold isp in Hi. apply Qltb_lt in Hi. lra.
        * rewrite sum_app. pose proof (sum_split isp R (w p)) as HS. rewrite EN in HS.
          assert (HNl : (sum (j :: N) (nthQ b) < sum (j :: N) (fun i => q * w p i))%Q).
          { assert (HN : forall i, In i (j :: N) -> (nthQ b i < q * w p i)%Q).
            { intros i Hi. rewrite <- EN in Hi. apply filter_In in Hi as [_ Hi]. unfold isp in Hi. apply Qltb_lt in Hi. auto. }
            apply (sum_lt_one _ _ _ j); [left; auto| |apply HN; left; auto].
            intros i Hi. specialize (HN i Hi). lra. }
          rewrite sum_scal in HNl. 
          set (x := sum (j :: N) (nthQ b)) in *. set (y := sum (j :: N) (w p)) in *.
          set (z := sum (filter (fun i => negb (isp i)) R) (w p)) in *.
          change (sum (filter (fun x => negb (isp x)) R) (w p)) with z.
          assert (q * z == q * sum R (w p) - q * y)%Q by (rewrite HS; ring). lra.
  Qed.

  Lemma min_q_spec : exists r, min_q p b c = Ok r /\
    match r with Some q => price_of p (nthQ b) c q | None => (purse p (nthQ b) c < 1)%Q end.
  Proof using Hw.
    unfold min_q. rewrite pairs_fans. change (@nil (nat * voter)) with (pairs p []).
    apply (min_q_loop_spec _ _ _ 0%Q).
    - unfold pairs. rewrite map_length. auto.
    - rewrite app_nil_r. auto.
    - intros i [].
    - unfold sum at 2. simpl. lra.
  Qed.
End MinQ.

Lemma collected_ext : forall p x y c r r', agree p x y -> (r == r')%Q -> (collected p x c r == collected p y c r')%Q.
Proof.
  intros p x y c r r' H E. unfold collected. apply sum_fans_agree. intros i Hi. apply Qmin_comp; [apply H; auto|].
  rewrite E. reflexivity.
Qed.
Lemma purse_agree : forall p x y c, agree p x y -> (purse p x c == purse p y c)%Q.
Proof. intros p x y c H. unfold purse. apply sum_fans_agree. auto. Qed.
Lemma price_of_ext : forall p x y c r, agree p x y -> price_of p x c r -> price_of p y c r.
Proof.
  intros p x y c r H [A B]. split.
  - rewrite <- A. apply collected_ext; [apply agree_sym; auto|reflexivity].
  - intros r' Hr. eapply Qle_lt_trans; [|apply (B r' Hr)]. apply Qle_lteq. right.
    apply collected_ext; [apply agree_sym; auto|reflexivity].
Qed.
Lemma price_unique : forall p x c r r', price_of p x c r -> price_of p x c r' -> (r == r')%Q.
Proof.
  intros p x c r r' [A B] [A' B']. destruct (Q_dec r r') as [[H|H]|H]; auto.
  - specialize (B' r H). rewrite A in B'. lra.
  - specialize (B r' H). rewrite A' in B. lra.
Qed.
Lemma price_purse : forall p x c r, price_of p x c r -> (1 <= purse p x c)%Q.
Proof.
  intros p x c r [A _]. rewrite <- A. unfold collected, purse. apply sum_le. intros. apply Qmin_le_l.
Qed.

Lemma py_min_In : forall l, l <> [] -> exists mn, py_min l = Ok mn /\ In mn l /\ forall x, In x l -> (mn <= x)%Q.
Proof.
  intros l H. destruct (py_min_spec l H) as (mn & E & (i & Hi & Ei) & Hm). exists mn. split; auto. split.
  - rewrite <- Ei. apply nthQ_In; auto.
  - intros x Hx. apply In_nthQ in Hx as (j & Hj & <-). auto.
Qed.

Section Mes.
  Variables (p : profile) (k : nat).
  Hypothesis Hw : wf p.

  Definition MGood (C : list nat) (a : list Q) : Prop :=
    NoDup C /\ Forall (fun c => c < num_cand p) C /\
    forall i, i < length (voters p) -> (0 <= nthQ a i)%Q.

  Lemma min_q_dict_spec : forall b cands, exists d, min_q_dict p b cands = Ok d /\
    (forall c q, In (c, q) d -> In c cands /\ price_of p (nthQ b) c q) /\
    (forall c, In c cands -> (exists q, In (c, q) d) \/ (purse p (nthQ b) c < 1)%Q) /\
    (NoDup cands -> NoDup (map fst d)).
  Proof using Hw.
    intros b. induction cands as [|c r IH].
    - exists []. split; auto. split; [intros c q []|]. split; [intros c []|]. intros; constructor.
    - destruct IH as (d & E & A & B & N). destruct (min_q_spec p b c Hw) as (q & Eq & Hq).
      simpl. rewrite Eq, E. simpl. destruct q as [q|].
      + exists ((c, q) :: d). split; auto. split.
        { intros c' q' [H|H]; [inversion H; subst; split; [left; auto|auto]|]. destruct (A c' q' H). split; [right; auto|auto]. }
        split.
        { intros c' [<-|H]; [left; exists q; left; auto|]. destruct (B c' H) as [(q' & H')|H']; [left; exists q'; right; auto|auto]. }
        { intros Hn. inversion Hn; subst. simpl. constructor; auto. intro Hin. apply in_map_iff in Hin as ([c' q'] & Ec & Hin).
          simpl in Ec. subst c'. destruct (A c q' Hin). auto. }
      + exists d. split; auto. split.
        { intros c' q' H. destruct (A c' q' H). split; [right; auto|auto]. }
        split.
        { intros c' [<-|H]; auto. }
        { intros Hn. inversion Hn; subst. auto. }
  Qed.

  Lemma mes_sel_ok : forall C a, MGood C a ->
    exists sel, mes_select p C a = Ok sel /\ ascending sel /\ (forall c, In c sel <-> mes_choice p C (nthQ a) c) /\
      (sel = [] <-> mes_stuck p C (nthQ a)).
  Proof using Hw.
    intros C a _. unfold mes_select.
    destruct (min_q_dict_spec a (available p C)) as (d & E & A & B & N). rewrite E. cbn [rbind].
    assert (Hfr : forall c, In c (available p C) <-> fresh p C c).
    { intro c. rewrite available_In. reflexivity. }
    assert (N' : NoDup (map fst d)) by (apply N, NoDup_filter, seq_NoDup).
    destruct d as [|cq0 d0].
    - exists []. split; auto. split; [constructor|]. 
      assert (Hst : mes_stuck p C (nthQ a)).
      { intros c Hc. apply Hfr in Hc. destruct (B c Hc) as [(q & [])|]; auto. }
      split; [|split; auto].
      intro c. split; [intros []|]. intros (Hf & rho & Hp & _). specialize (Hst c Hf). apply price_purse in Hp. lra.
    - set (d := cq0 :: d0) in *.
      destruct (py_min_In (map snd d)) as (mn & Em & Hin & Hmin); [discriminate|].
      rewrite Em. cbn [rbind]. eexists. split; [reflexivity|].
      assert (Hsel : forall c, In c (isort (map fst (filter (fun cq => Qeq_bool (snd cq) mn) d))) <-> mes_choice p C (nthQ a) c).
      { intro c. rewrite isort_In, in_map_iff. split.
        - intros ([c' q] & Ec & H). simpl in Ec. subst c'. apply filter_In in H as [H1 H2]. simpl in H2. apply Qeq_bool_iff in H2.
          destruct (A c q H1) as [A1 A2]. split; [apply Hfr; auto|]. exists q. split; auto.
          intros d' r Hd' Hr. apply Hfr in Hd'. destruct (B d' Hd') as [(q' & Hq')|Hlt]; [|apply price_purse in Hr; lra].
          destruct (A d' q' Hq') as [_ Hp']. rewrite (price_unique _ _ _ _ _ Hr Hp'), H2.
          apply Hmin. apply in_map_iff. exists (d', q'). auto.
        - intros (Hf & rho & Hp & Hmn). apply Hfr in Hf. destruct (B c Hf) as [(q & Hq)|Hlt]; [|apply price_purse in Hp; lra].
          exists (c, q). split; auto. apply filter_In. split; auto. simpl. apply Qeq_bool_iff.
          destruct (A c q Hq) as [_ Hpq]. apply Qle_antisym.
          + apply in_map_iff in Hin as ([c' q'] & Ec & Hc'). simpl in Ec. subst q'. destruct (A c' mn Hc') as [X Y].
            rewrite <- (price_unique _ _ _ _ _ Hp Hpq). apply (Hmn c'); auto. apply Hfr; auto.
          + apply Hmin. apply in_map_iff. exists (c, q). auto. }
      split; [|split; [exact Hsel|]].
      + apply isort_ascending. clear -N'. induction d as [|[c q] d IH]; simpl in *; [constructor|].
        inversion N'; subst. destruct (Qeq_bool q mn); simpl; auto. constructor; auto.
        intro H. apply H1. apply in_map_iff in H as (x & Ex & Hx). apply filter_In in Hx as [Hx _].
        apply in_map_iff. eauto.
      + split; intros H.
        * exfalso. apply in_map_iff in Hin as ([c' q'] & Ec & Hc'). simpl in Ec. subst q'.
          assert (Hx : In c' (isort (map fst (filter (fun cq => Qeq_bool (snd cq) mn) d)))).
          { apply isort_In, in_map_iff. exists (c', mn). split; auto. apply filter_In. split; auto. simpl. apply Qeq_bool_iff. reflexivity. }
          rewrite H in Hx. destruct Hx.
        * exfalso. destruct cq0 as [c0 q0]. destruct (A c0 q0) as [X Y]; [left; auto|].
          apply Hfr in X. specialize (H c0 X). apply price_purse in Y. lra.
  Qed.

  Lemma mes_choice_ext : forall W W' x y c, set_same W W' -> agree p x y -> mes_choice p W x c -> mes_choice p W' y c.
  Proof using.
    intros W W' x y c HW Ha (Hf & rho & Hp & Hm). split; [eapply fresh_ext; eauto|]. exists rho.
    split; [eapply price_of_ext; eauto|]. intros d r Hd Hr. apply (Hm d).
    - eapply fresh_ext; [|exact Hd]. intro z. symmetry. auto.
    - eapply price_of_ext; [|exact Hr]. apply agree_sym; auto.
  Qed.
  Lemma mes_stuck_ext : forall W W' x y, set_same W W' -> agree p x y -> mes_stuck p W x -> mes_stuck p W' y.
  Proof using.
    intros W W' x y HW Ha H c Hc. rewrite <- (purse_agree p x y c Ha). apply H. eapply fresh_ext; [|exact Hc].
    intro z. symmetry. auto.
  Qed.
  Lemma mes_update_fun : forall W W' x y c x' y', set_same W W' -> agree p x y -> mes_choice p W x c ->
    mes_update p W x c x' -> mes_update p W' y c y' -> agree p x' y'.
  Proof using.
    intros W W' x y c x' y' HW Ha _ (r & Hp & Hx) (r' & Hp' & Hy).
    assert (E : (r == r')%Q) by (eapply price_unique; [eapply price_of_ext; [exact Ha|exact Hp]|exact Hp']).
    eapply agree_trans; [exact Hx|]. eapply agree_trans; [|apply agree_sym; exact Hy].
    intros i Hi. simpl. destruct (likes p i c); [|apply Ha; auto].
    rewrite (Qmin_comp (x i) (r * w p i) (y i) (r' * w p i)); [|apply Ha; auto|rewrite E; reflexivity].
    rewrite (Ha i Hi). reflexivity.
  Qed.

  Lemma mes_next_ok : forall C a c, MGood C a -> mes_choice p C (nthQ a) c ->
    mes_update p C (nthQ a) c (nthQ (mes_next p C a c)) /\ MGood (C ++ [c]) (mes_next p C a c).
  Proof using Hw.
    intros C a c (HN & HF & H0) ([Hlt Hni] & rho & Hp & _). unfold mes_next.
    destruct (min_q_spec p a c Hw) as (q & Eq & Hq). rewrite Eq. destruct q as [q|]; [|apply price_purse in Hp; lra].
    assert (Hval : agree p (nthQ (map (fun iv => let b := nthQ a (fst iv) in
                     if mem c (approved (snd iv))
                     then (b - (if Qltb (q * weight (snd iv)) b then q * weight (snd iv) else b))%Q
                     else b) (enum_voters p)))
            (fun i => if likes p i c then nthQ a i - Qmin (nthQ a i) (q * w p i) else nthQ a i)%Q).
    { intros i Hi. rewrite nthQ_enum by auto. simpl. change (mem c (approved (the_voter p i))) with (likes p i c).
      destruct (likes p i c); [|reflexivity]. change (weight (the_voter p i)) with (w p i). unfold Qmin.
      destruct (Qltb (q * w p i) (nthQ a i)) eqn:E1; destruct (Qle_bool (nthQ a i) (q * w p i)) eqn:E2; try reflexivity.
      - apply Qltb_lt in E1. apply Qle_bool_iff in E2. lra.
      - apply Qltb_ge in E1. apply Qle_bool_false in E2. lra. }
    split.
    - exists q. split; auto.
    - split; [apply NoDup_app_intro; auto; [repeat constructor; intros []|intros x Hx [<-|[]]; auto]|].
      split; [apply Forall_app; split; auto|].
      intros i Hi. rewrite (Hval i Hi). simpl. specialize (H0 i Hi). destruct (likes p i c); auto.
      pose proof (Qmin_le_l (nthQ a i) (q * w p i)). lra.
  Qed.
End Mes.
