(** * Leximax Phragmén with gurobi; profiles with fewer approved candidates than seats *)
From Coq Require Import String.
From Coq Require Import List Arith Bool ZArith QArith Qabs Lia Lqa Permutation.
From Verif Require Import Prelude Misc MiscProofs Preferences Scores Spec SpecRules Common ScoresProofs ThieleProofs OptProofs
  Milp MilpProofs SpecLoads RulesSolver SolverProofs SolverMonroe SolverPhragmen.
Import ListNotations.
Open Scope nat_scope.

(** ** Permutation matrices *)
Lemma matrix_order : forall (y : nat -> nat -> Q) n, (forall r i, r < n -> i < n -> (y r i == 0)%Q \/ (y r i == 1)%Q) ->
  (forall r, r < n -> (Qsum (map (fun i => y r i) (seq 0 n)) == 1)%Q) -> (forall i, i < n -> (Qsum (map (fun r => y r i) (seq 0 n)) == 1)%Q) ->
  exists order, Permutation order (seq 0 n) /\ length order = n /\ forall r i, r < n -> i < n -> (y r i == one_if (nth r order 0%nat =? i)%nat)%Q.
Proof.
  intros y n H01 Hrow Hcol.
  assert (Hz : forall r i, r < n -> i < n -> exists z, (0 <= z)%Z /\ (y r i == inject_Z z)%Q).
  { intros r i Hr Hi. destruct (H01 r i Hr Hi) as [E|E]; [exists 0%Z|exists 1%Z]; (split; [lia|rewrite E; reflexivity]). }
  assert (Hr1 : forall r, r < n -> exists i, i < n /\ forall j, j < n -> (y r j == one_if (i =? j)%nat)%Q).
  { intros r Hr. destruct (one_of (y r) (seq 0 n)) as (i & Hi & E1 & E0); auto.
    - apply seq_NoDup. - intros i Hi. apply in_seq in Hi. apply Hz; lia.
    - apply in_seq in Hi. exists i. split; [lia|]. intros j Hj. destruct (Nat.eqb_spec i j) as [<-|]; [rewrite E1; reflexivity|]. apply E0; auto. apply in_seq. lia. }
  set (row := fun r => hd 0 (filter (fun i => Qeq_bool (y r i) 1) (seq 0 n))).
  assert (Hrow' : forall r, r < n -> row r < n /\ forall j, j < n -> (y r j == one_if (row r =? j)%nat)%Q).
  { intros r Hr. destruct (Hr1 r Hr) as (i & Hi & E). assert (row r = i); [|subst i; auto]. unfold row.
    assert (G : forall l, In i l -> (forall d, In d l -> d < n) -> hd 0 (filter (fun c => Qeq_bool (y r c) 1) l) = i).
    { induction l as [|d l IH]; intros Hi' Hl; [destruct Hi'|]. cbn [filter]. destruct (Qeq_bool (y r d) 1) eqn:Eb.
      - cbn. apply Qeq_bool_iff in Eb. rewrite E in Eb by (apply Hl; left; auto). destruct (Nat.eqb_spec i d); auto. cbn in Eb. lra.
      - apply IH; [|intros; apply Hl; right; auto]. destruct Hi' as [->|]; auto. exfalso.
        assert (Qeq_bool (y r i) 1 = true); [|congruence]. apply Qeq_bool_iff. rewrite (E i Hi), Nat.eqb_refl. reflexivity. }
    apply G; [apply in_seq; lia|]. intros d Hd. apply in_seq in Hd. lia. }
  exists (map row (seq 0 n)). split; [|split].
  - apply NoDup_Permutation_bis.
    + assert (G : forall l, NoDup l -> (forall r, In r l -> r < n) -> NoDup (map row l)).
      { induction l as [|r l IH]; intros Hn Hl; [constructor|]. inversion Hn; subst. cbn [map]. constructor; [|apply IH; auto; intros; apply Hl; right; auto].
        intros Hin. apply in_map_iff in Hin as (r' & Er & Hr').
        assert (r < n) by (apply Hl; left; auto). assert (r' < n) by (apply Hl; right; auto).
        destruct (Hrow' r H) as (A & B). destruct (Hrow' r' H0) as (A' & B').
        destruct (one_of (fun q => y q (row r)) (seq 0 n)) as (q & Hq & _ & E0); auto.
        { apply seq_NoDup. } { intros q Hq. apply in_seq in Hq. apply Hz; lia. }
        assert (Hq1 : forall q', q' < n -> (y q' (row r) == 1)%Q -> q' = q).
        { intros q' Hq' E. destruct (Nat.eq_dec q' q); auto. exfalso. specialize (E0 q'). rewrite E in E0. assert (1 == 0)%Q by (apply E0; auto; apply in_seq; lia). lra. }
        assert (r = q) by (apply Hq1; auto; rewrite (B (row r) A), Nat.eqb_refl; reflexivity).
        assert (r' = q) by (apply Hq1; auto; rewrite <- Er, (B' (row r') A'), Nat.eqb_refl; reflexivity). subst. contradiction. }
      apply G; [apply seq_NoDup|]. intros r Hr. apply in_seq in Hr. lia.
    + rewrite map_length. auto.
    + intros i Hi. apply in_map_iff in Hi as (r & <- & Hr). apply in_seq in Hr. apply in_seq. destruct (Hrow' r ltac:(lia)). lia.
  - rewrite map_length, seq_length. auto.
  - intros r i Hr Hi. rewrite nth_indep with (d' := row 0) by (rewrite map_length, seq_length; auto). rewrite map_nth, seq_nth by auto. cbn [Nat.add]. apply Hrow'; auto.
Qed.

Lemma sum_unique : forall (l : list nat) r, NoDup l -> In r l -> forall f : nat -> Q, (forall q, In q l -> q <> r -> (f q == 0)%Q) -> (Qsum (map f l) == f r)%Q.
Proof.
  induction l as [|a l IH]; intros r Hn Hin f Hz; [destruct Hin|]. inversion Hn; subst. unfold Qsum; cbn [map fold_right]. fold (Qsum (map f l)). destruct Hin as [->|Hin].
  - rewrite (Qsum_map_zero _ f l); [lra|]. intros q Hq. apply Hz; [right; auto|]. intros ->. contradiction.
  - rewrite (IH r) by (auto; intros; apply Hz; auto; right; auto). rewrite (Hz a); [lra|left; auto|]. intros ->. contradiction.
Qed.

(** the positions of a permutation *)
Lemma order_nth : forall order n, Permutation order (seq 0 n) -> length order = n /\ (forall r, r < n -> nth r order 0 < n) /\
  (forall r r', r < n -> r' < n -> nth r order 0 = nth r' order 0 -> r = r') /\ forall i, i < n -> exists r, r < n /\ nth r order 0 = i.
Proof.
  intros order n H. assert (Hl : length order = n) by (rewrite (Permutation_length H), seq_length; auto). split; auto. split; [|split].
  - intros r Hr. assert (In (nth r order 0) (seq 0 n)) by (eapply Permutation_in; [exact H|]; apply nth_In; lia). apply in_seq in H0. lia.
  - intros r r' Hr Hr' E. assert (Hn : NoDup order) by (eapply Permutation_NoDup; [apply Permutation_sym; exact H|apply seq_NoDup]).
    rewrite (NoDup_nth order 0) in Hn. apply (Hn r r'); auto; lia.
  - intros i Hi. assert (Hin : In i order) by (eapply Permutation_in; [apply Permutation_sym; exact H|]; apply in_seq; lia).
    apply In_nth with (d := 0) in Hin as (r & Hr & E). exists r. split; [lia|auto].
Qed.

Section Leximax.
  Variables (s : solver) (p : profile) (k : nat).
  Hypothesis Hw : wf p.
  Hypothesis Hone : weights_at_least_one p.
  Hypothesis Hne : voters p <> [].
  Hypothesis Henough : k <= length (approved_candidates p).
  Hypothesis Hs : forall bounds, solves s p k (leximaxphragmen_program p k bounds).
  Let n := length (voters p).

  Section Bounds.
    Variable bounds : list Q.
    Hypothesis Hlen : length bounds < n.
    Hypothesis Hpos : Forall (fun b => 0 <= b)%Q bounds.
    Let m := leximaxphragmen_program p k bounds.

    Lemma lx_binary : forall x, feasible m x -> binary_committee p x.
    Proof. intros x Hx. eapply binary_of_decls; [|exact Hx]. intros d Hd. apply in_or_app. auto. Qed.
    Lemma lx_cons : forall x, feasible m x -> forall c, In c (cons m) -> holds x c.
    Proof. intros x [_ H] c Hc. rewrite Forall_forall in H. auto. Qed.
    Lemma lx_size : forall x, feasible m x -> is_committee p k (members p x).
    Proof. intros x Hx. apply size_of_con; [apply lx_binary; auto|]. apply (lx_cons x Hx). apply in_or_app. right. left. auto. Qed.
    Lemma lx_loads : forall x, feasible m x -> loads_ok p x.
    Proof.
      intros x Hx. eapply loads_ok_of; [| |exact Hx].
      - intros d Hd. apply in_or_app. right. apply in_or_app. auto.
      - intros c Hc. apply in_or_app. right. right. apply in_or_app. auto.
    Qed.
    Lemma lx_order : forall x, feasible m x -> exists order, Permutation order (seq 0 n) /\ length order = n /\
      forall r i, r < n -> i < n -> (x (BoundFor r i) == one_if (nth r order 0%nat =? i)%nat)%Q.
    Proof.
      intros x Hx. apply matrix_order.
      - intros r i Hr Hi. destruct Hx as [Fd _]. rewrite Forall_forall in Fd. destruct (Fd (mkDecl (BoundFor r i) Binary None None)) as [A _]; auto.
        cbn [m decls leximaxphragmen_program]. apply in_or_app. right. apply in_or_app. right. apply in_or_app. left. apply in_flat_map. exists r.
        split; [apply in_seq; unfold n in Hr; lia|]. apply in_map_iff. exists i. split; auto. apply in_seq. unfold n in Hi. lia.
      - intros r Hr. assert (H : holds x (CEq (vsum (map (BoundFor r) (voter_numbers p))) (lconst 1))).
        { apply (lx_cons x Hx). apply in_or_app. left. apply in_flat_map. exists r. split; [apply in_seq; unfold n in Hr; lia|left; auto]. }
        cbn [holds] in H. rewrite ev_const, ev_vsum, map_map in H. exact H.
      - intros i Hi. assert (H : holds x (CEq (vsum (map (fun j => BoundFor j i) (voter_numbers p))) (lconst 1))).
        { apply (lx_cons x Hx). apply in_or_app. left. apply in_flat_map. exists i. split; [apply in_seq; unfold n in Hi; lia|right; left; auto]. }
        cbn [holds] in H. rewrite ev_const, ev_vsum, map_map in H. exact H.
    Qed.

    Lemma bounds_in : forall r b, In (r, b) (combine (seq 0 (length bounds)) bounds) <-> nth_error bounds r = Some b.
    Proof.
      intros r b. generalize bounds. intros l.
      assert (G : forall a, In (r, b) (combine (seq a (length l)) l) <-> a <= r /\ nth_error l (r - a) = Some b).
      { induction l as [|h l IH]; intros a; cbn [length seq combine].
        - split; [intros []|]. intros [_ H]. destruct (r - a); discriminate.
        - split.
          + intros [E|H]; [injection E as -> ->; rewrite Nat.sub_diag; auto|]. apply IH in H as [A B]. split; [lia|]. replace (r - a) with (S (r - S a)) by lia. auto.
          + intros [A B]. destruct (Nat.eq_dec r a) as [->|Hn]; [rewrite Nat.sub_diag in B; injection B as ->; left; auto|].
            right. apply IH. split; [lia|]. replace (r - a) with (S (r - S a)) in B by lia. auto. }
      rewrite G, Nat.sub_0_r. intuition lia.
    Qed.

    Lemma lx_sorted_load : forall W q, achieves p m W q -> sorted_load p W bounds ACCURACY (- q).
    Proof using Hw Hlen Henough.
      intros W q (x & Hx & <- & Eq). pose proof (lx_binary x Hx) as Hb. pose proof (lx_loads x Hx) as Hok.
      destruct (lx_order x Hx) as (order & Hp & Hl & Ho). exists (loads_of p x), order. split; [apply loads_of_distribution; auto|]. split; auto.
      destruct (order_nth order n Hp) as (_ & O1 & O2 & _).
      intros r i v Hr Hi. assert (Hiv : In (i, v) (numbered p)) by (apply numbered_In; auto).
      assert (Hi' : i < n) by (apply nth_error_Some; congruence). assert (Hr' : r < n) by (rewrite <- Hl; apply nth_error_Some; congruence).
      assert (Hnth : nth r order 0 = i) by (apply nth_error_nth; auto).
      pose proof (loads_of_le p Hw x i v Hb Hok Hiv) as Hle.
      cbn [m objective leximaxphragmen_program] in Eq. rewrite ev_scale, ev_var in Eq.
      destruct (nth_error bounds r) as [b|] eqn:Eb.
      - eapply Qle_trans; [exact Hle|].
        assert (H : holds x (CLe (load_of (i, v)) (lsum [lconst b; lscale (Qnat k) (lsub (lconst 1) (lvar (BoundFor r i))); lconst ACCURACY]))).
        { apply (lx_cons x Hx). apply in_or_app. right. right. apply in_or_app. right. apply in_or_app. left. apply in_flat_map. exists (r, b).
          split; [apply bounds_in; auto|]. apply in_map_iff. exists (i, v). auto. }
        cbn [holds] in H. rewrite ev_sum in H. cbn [map] in H. unfold Qsum in H; cbn [fold_right] in H.
        rewrite !ev_const, ev_scale, ev_sub, ev_const, ev_var, (Ho r i Hr' Hi'), Hnth, Nat.eqb_refl in H. cbn [one_if] in H. lra.
      - eapply Qle_trans; [exact Hle|]. apply nth_error_None in Eb.
        assert (H : holds x (CLe (load_of (i, v)) (ladd (lvar LoadBound) (lsum (map (fun q => lscale (Qnat k) (lvar (BoundFor q i))) (seq 0 (length bounds))))))).
        { apply (lx_cons x Hx). apply in_or_app. right. right. apply in_or_app. right. apply in_or_app. right. apply in_map_iff. exists (i, v). auto. }
        cbn [holds] in H. rewrite ev_add, ev_var, ev_sum, map_map in H.
        rewrite (Qsum_map_zero _ (fun q => ev x (lscale (Qnat k) (lvar (BoundFor q i))))) in H; [lra|].
        intros q' Hq'. apply in_seq in Hq'. rewrite ev_scale, ev_var, (Ho q' i) by lia.
        destruct (Nat.eqb_spec (nth q' order 0) i) as [E|]; [|cbn; lra]. exfalso. rewrite <- Hnth in E. apply O2 in E; lia.
    Qed.

    Lemma lx_achieves : forall W b, is_committee p k W -> sorted_load p W bounds ACCURACY b -> exists b', (0 <= b' /\ b' <= b)%Q /\ achieves p m W (- b').
    Proof using Hw Hone Hne Henough Hlen Hpos.
      intros W b HW (l & order & HL & Hp & Hb). destruct (order_nth order n Hp) as (Ol & O1 & O2 & O3).
      assert (Hb2 : forall r i v, r < n -> nth r order 0 = i -> In (i, v) (numbered p) ->
        match nth_error bounds r with Some b_r => (voter_load W l i v <= b_r + ACCURACY)%Q | None => (voter_load W l i v <= b)%Q end).
      { intros r i v Hr E Hiv. apply numbered_In in Hiv. apply Hb; auto. rewrite <- E. apply nth_error_nth'. lia. }
      assert (Hb0 : (0 <= b)%Q).
      { set (i := nth (length bounds) order 0). assert (Hi : i < n) by (apply O1; auto). destruct (nth_error (voters p) i) as [v|] eqn:Ei; [|apply nth_error_None in Ei; unfold n in *; lia].
        assert (Hiv : In (i, v) (numbered p)) by (apply numbered_In; auto). specialize (Hb2 (length bounds) i v Hlen eq_refl Hiv).
        replace (nth_error bounds (length bounds)) with (@None Q) in Hb2 by (symmetry; apply nth_error_None; lia).
        pose proof (voter_load_le p k Hw Hone W l i v HW HL Hiv). lra. }
      set (b' := if Qlt_le_dec b (Qnat k) then b else Qnat k).
      assert (Hk0 : (0 <= Qnat k)%Q) by (apply Qnat_le' with (a := 0); lia).
      assert (Hb' : (0 <= b' /\ b' <= b /\ b' <= Qnat k)%Q) by (unfold b'; destruct (Qlt_le_dec b (Qnat k)); repeat split; lra).
      exists b'. split; [lra|].
      set (x := fun y => match y with InCommittee c => of_committee W c | Load i c => load_value p W l i c | LoadBound => b'
                                    | BoundFor r i => one_if (nth r order 0 =? i)%nat | _ => 0%Q end).
      assert (Hbin : binary_committee p x) by (eapply of_committee_binary; intros; reflexivity).
      assert (Em : members p x = W) by (eapply of_committee_members; eauto).
      assert (Hload : forall i v, In (i, v) (numbered p) -> (ev x (load_of (i, v)) == voter_load W l i v)%Q) by (intros i v Hiv; apply (load_value_sum p); auto).
      exists x. split; [split|split]; auto.
      - cbn [m decls leximaxphragmen_program]. apply Forall_app. split; [|apply Forall_app; split; [|apply Forall_app; split; [|constructor; [|constructor]]]].
        + apply Forall_forall. intros d Hd. unfold in_committee_vars in Hd. apply in_map_iff in Hd as (c & <- & _). split; [|split; exact I]. cbn.
          unfold of_committee. destruct (mem c W); [right|left]; reflexivity.
        + eapply load_value_decls; eauto.
        + apply Forall_forall. intros d Hd. apply in_flat_map in Hd as (r & _ & Hd). apply in_map_iff in Hd as (i & <- & _). split; [|split; exact I]. cbn.
          destruct (_ =? i); [right|left]; reflexivity.
        + split; [exact I|]. cbn. lra.
      - cbn [m cons leximaxphragmen_program]. apply Forall_app. split; [|constructor; [apply size_con_of; auto; rewrite Em; auto|apply Forall_app; split; [eapply load_value_cons; eauto|apply Forall_app; split]]].
        + apply Forall_forall. intros c Hc. apply in_flat_map in Hc as (r & Hr & Hc). apply in_seq in Hr. destruct Hc as [<-|[<-|[]]]; cbn [holds]; rewrite ev_const, ev_vsum, map_map; cbn [x].
          * rewrite (sum_unique (voter_numbers p) (nth r order 0)); [rewrite Nat.eqb_refl; reflexivity|apply seq_NoDup|apply in_seq; specialize (O1 r ltac:(unfold n; lia)); unfold n in O1; lia|].
            intros q _ Hq. destruct (Nat.eqb_spec (nth r order 0) q); [congruence|reflexivity].
          * destruct (O3 r ltac:(unfold n; lia)) as (r' & Hr' & E').
            rewrite (sum_unique (voter_numbers p) r'); [rewrite E', Nat.eqb_refl; reflexivity|apply seq_NoDup|apply in_seq; unfold n in Hr'; lia|].
            intros q Hq Hqn. apply in_seq in Hq. destruct (Nat.eqb_spec (nth q order 0) r) as [E|]; [|reflexivity]. exfalso. apply Hqn. apply O2; [unfold n; lia|auto|congruence].
        + apply Forall_forall. intros c Hc. apply in_flat_map in Hc as ((r, b_r) & Hr & Hc). apply bounds_in in Hr. apply in_map_iff in Hc as ((i, v) & <- & Hiv).
          cbn [holds fst snd]. rewrite (Hload i v Hiv), ev_sum. cbn [map]. unfold Qsum; cbn [fold_right]. rewrite !ev_const, ev_scale, ev_sub, ev_const, ev_var. cbn [x].
          assert (Hrn : r < n) by (assert (r < length bounds) by (apply nth_error_Some; congruence); lia).
          destruct (Nat.eqb_spec (nth r order 0) i) as [E|E]; cbn [one_if].
          * specialize (Hb2 r i v Hrn E Hiv). rewrite Hr in Hb2. lra.
          * pose proof (voter_load_le p k Hw Hone W l i v HW HL Hiv). rewrite Forall_forall in Hpos. specialize (Hpos b_r (nth_error_In _ _ Hr)). unfold ACCURACY. lra.
        + apply Forall_forall. intros c Hc. apply in_map_iff in Hc as ((i, v) & <- & Hiv). cbn [holds fst]. rewrite (Hload i v Hiv), ev_add, ev_var, ev_sum, map_map. cbn [x].
          assert (Hin : i < n) by (apply numbered_In in Hiv; apply nth_error_Some; congruence). destruct (O3 i Hin) as (r & Hr & E).
          pose proof (voter_load_le p k Hw Hone W l i v HW HL Hiv).
          assert (Hnn : forall q, (0 <= ev x (lscale (Qnat k) (lvar (BoundFor q i))))%Q).
          { intros q. rewrite ev_scale, ev_var. cbn [x]. unfold one_if. destruct (_ =? i); nra. }
          destruct (Nat.lt_ge_cases r (length bounds)) as [Hlt|Hge].
          * assert (Qnat k <= Qsum (map (fun q => ev x (lscale (Qnat k) (lvar (BoundFor q i)))) (seq 0 (length bounds))))%Q; [|lra].
            eapply Qle_trans; [|apply (Qsum_ge_member _ (fun q => ev x (lscale (Qnat k) (lvar (BoundFor q i)))) _ r); [intros; apply Hnn|apply in_seq; lia]].
            rewrite ev_scale, ev_var. cbn [x]. rewrite E, Nat.eqb_refl. cbn. lra.
          * assert (0 <= Qsum (map (fun q => ev x (lscale (Qnat k) (lvar (BoundFor q i)))) (seq 0 (length bounds))))%Q by (apply Qsum_map_nonneg; intros; apply Hnn).
            specialize (Hb2 r i v Hr E Hiv). replace (nth_error bounds r) with (@None Q) in Hb2 by (symmetry; apply nth_error_None; lia).
            unfold b'. destruct (Qlt_le_dec b (Qnat k)); lra.
      - cbn [m objective leximaxphragmen_program]. rewrite ev_scale, ev_var. cbn [x]. lra.
    Qed.
  End Bounds.

  Lemma lx_step : forall bounds, length bounds < n -> Forall (fun b => 0 <= b)%Q bounds -> (exists W b, is_committee p k W /\ sorted_load p W bounds ACCURACY b) ->
    forall resolute maxn, valid_max maxn ->
    exists cs q, optimize_rule s MIP_THRESHOLD p k None resolute maxn (leximaxphragmen_program p k bounds) = Ok (cs, Some q) /\
      (q <= 0)%Q /\ next_bound p k bounds ACCURACY (- q) /\
      answers (fun W => is_committee p k W /\ exists b, sorted_load p W bounds ACCURACY b /\
                 forall W' b', is_committee p k W' -> sorted_load p W' bounds ACCURACY b' -> (b <= b' + CMP_ACCURACY)%Q) resolute maxn (sorted_committees cs).
  Proof using Hw Hone Hne Henough Hs.
    intros bounds Hlen Hpos (W0 & b0 & HW0 & Hb0) resolute maxn Hm. set (m := leximaxphragmen_program p k bounds).
    assert (Hcom : forall W q, achieves p m W q -> is_committee p k W) by (intros W q (x & Hx & <- & _); apply (lx_size bounds); auto).
    assert (Hneg : forall W q, achieves p m W q -> (q <= 0)%Q).
    { intros W q (x & Hx & _ & Eq). cbn [m objective leximaxphragmen_program] in Eq. rewrite ev_scale, ev_var in Eq.
      destruct Hx as [Fd _]. rewrite Forall_forall in Fd. destruct (Fd (mkDecl LoadBound Continuous (Some 0%Q) (Some (Qnat k)))) as (_ & H & _).
      { apply in_or_app. right. apply in_or_app. right. apply in_or_app. right. left. auto. } cbn in H. lra. }
    destruct (optimize_rule_spec s MIP_THRESHOLD p k None resolute maxn m) as (cs & q & E & HA & (W & r & Ec & Ha) & Hq & _); auto.
    - unfold MIP_THRESHOLD. lra.
    - apply lx_binary.
    - apply lx_size.
    - exact (Hs bounds).
    - destruct (lx_achieves bounds Hlen Hpos W0 b0 HW0 Hb0) as (b & _ & Ha). eauto.
    - exists 0%Q. auto.
    - exists cs, q. split; auto. split; [eauto|]. split; [split|].
      + exists W. split; [eauto|]. apply lx_sorted_load; auto.
      + intros W' b' HW' Hb'. destruct (lx_achieves bounds Hlen Hpos W' b' HW' Hb') as (b2 & Hle & Ha2). specialize (Hq _ _ Ha2). lra.
      + eapply answers_ext; [|exact HA]. intros V. unfold good, slack. split.
        * intros (q' & Hv & Hb). split; [eauto|]. exists (- q')%Q. split; [apply lx_sorted_load; auto|]. intros W' b' HW' Hb'.
          destruct (lx_achieves bounds Hlen Hpos W' b' HW' Hb') as (b2 & Hle & Ha2). specialize (Hb _ _ Ha2). lra.
        * intros (HV & b & Hv & Hb). destruct (lx_achieves bounds Hlen Hpos V b HV Hv) as (b2 & Hle & Ha2). exists (- b2)%Q. split; auto.
          intros W' q' Ha'. specialize (Hb W' (- q')%Q (Hcom _ _ Ha') (lx_sorted_load bounds Hlen _ _ Ha')). lra.
  Qed.

  (** once some committee meets [bounds] with [b] for the rest, it meets [bounds ++ [b]] *)
  Lemma sorted_load_snoc : forall W bounds b, sorted_load p W bounds ACCURACY b -> sorted_load p W (bounds ++ [b]) ACCURACY b.
  Proof.
    intros W bounds b (l & order & HL & Hp & H). exists l, order. split; auto. split; auto. intros r i v Hr Hi. specialize (H r i v Hr Hi).
    destruct (Nat.lt_ge_cases r (length bounds)) as [Hlt|Hge].
    - rewrite nth_error_app1 by auto. exact H.
    - rewrite nth_error_app2 by auto. replace (nth_error bounds r) with (@None Q) in H by (symmetry; apply nth_error_None; auto).
      destruct (r - length bounds) as [|d]; cbn; [unfold ACCURACY; lra|]. destruct d; auto.
  Qed.

  Lemma pos_of_large : forall bounds, Forall (fun b => CMP_ACCURACY < b)%Q bounds -> Forall (fun b => 0 <= b)%Q bounds.
  Proof. intros bounds H. eapply Forall_impl; [|exact H]. intros b Hb. unfold CMP_ACCURACY in Hb. lra. Qed.
  Lemma leximax_iterations_ok : forall steps bounds, length bounds + steps = n - 1 -> Forall (fun b => CMP_ACCURACY < b)%Q bounds -> leximax_bounds p k ACCURACY bounds ->
    (exists W b, is_committee p k W /\ sorted_load p W bounds ACCURACY b) ->
    exists bounds', leximax_iterations s p k steps bounds = Ok bounds' /\ leximax_bounds p k ACCURACY bounds' /\ Forall (fun b => CMP_ACCURACY < b)%Q bounds' /\
      (exists W b, is_committee p k W /\ sorted_load p W bounds' ACCURACY b) /\ length bounds' <= n - 1 /\
      (length bounds' = n - 1 \/ exists b, next_bound p k bounds' ACCURACY b /\ (b <= CMP_ACCURACY)%Q).
  Proof using Hw Hone Hne Henough Hs.
    assert (Hn : 0 < n) by (unfold n; destruct (voters p); [congruence|cbn; lia]).
    induction steps as [|steps IH]; intros bounds Hlen Hpos Hlb Hex.
    - exists bounds. cbn. split; auto. split; auto. split; auto. split; auto. split; [lia|left; lia].
    - cbn [leximax_iterations]. destruct (lx_step bounds ltac:(lia) (pos_of_large _ Hpos) Hex true None I) as (cs & q & -> & Hq & Hnb & _). cbn [rbind snd].
      destruct (Qle_bool q CMP_ACCURACY && Qle_bool (- CMP_ACCURACY) q) eqn:B.
      + apply andb_true_iff in B as [_ B]. apply Qle_bool_iff in B. exists bounds. split; auto. split; auto. split; auto. split; auto. split; [lia|].
        right. exists (- q)%Q. split; auto. lra.
      + destruct (IH (bounds ++ [(- q)%Q])) as (b' & E & R); auto.
        * rewrite app_length. cbn. lia.
        * apply Forall_app. split; auto. constructor; [|constructor]. apply andb_false_iff in B. rewrite <- !not_true_iff_false, !Qle_bool_iff in B. unfold CMP_ACCURACY in *. lra.
        * constructor; auto.
        * destruct Hnb as [(W & HW & HL) _]. exists W, (- q)%Q. split; auto. apply sorted_load_snoc. auto.
        * exists b'. split; auto.
  Qed.

  Theorem gurobi_leximaxphragmen_correct :
    exists bounds, leximax_bounds p k ACCURACY bounds /\ Forall (fun b => CMP_ACCURACY < b)%Q bounds /\
      (length bounds = n - 1 \/ (length bounds < n - 1 /\ exists b, next_bound p k bounds ACCURACY b /\ (b <= CMP_ACCURACY)%Q)) /\
      (exists b, next_bound p k bounds ACCURACY b) /\
      forall resolute maxn, valid_max maxn ->
      answers (fun W => is_committee p k W /\ exists b, sorted_load p W bounds ACCURACY b /\
                 forall W' b', is_committee p k W' -> sorted_load p W' bounds ACCURACY b' -> (b <= b' + CMP_ACCURACY)%Q)
              resolute maxn (gurobi_leximaxphragmen s p k resolute maxn).
  Proof using Hw Hone Hne Henough Hs.
    assert (Hn : 0 < n) by (unfold n; destruct (voters p); [congruence|cbn; lia]).
    destruct (leximax_iterations_ok (n - 1) []) as (bounds & E & Hlb & Hpos & Hex & Hle & Hend); auto; [constructor| |].
    - destruct (approved_committee p k Hw Henough) as (W & HW & Hap). destruct (distribution_exists p Hw W Hap) as (l & HL).
      exists W, (Qnat k). split; auto. exists l, (seq 0 (length (voters p))). split; auto. split; [apply Permutation_refl|].
      intros r i v _ Hi. destruct r; cbn; apply (voter_load_le p k Hw Hone W l i v HW HL); apply numbered_In; auto.
    - exists bounds. split; auto. split; auto. split; [destruct Hend as [|Hend]; auto; destruct (Nat.eq_dec (length bounds) (n - 1)); auto; right; split; auto; lia|].
      split; [destruct (lx_step bounds ltac:(lia) (pos_of_large _ Hpos) Hex true None I) as (cs & q & _ & _ & Hnb & _); eauto|].
      intros resolute maxn Hm. unfold gurobi_leximaxphragmen. replace (length (approved_candidates p) <? k) with false by (symmetry; apply Nat.ltb_ge; auto).
      fold n. rewrite E. cbn [rbind]. unfold solve_and_sort.
      destruct (lx_step bounds ltac:(lia) (pos_of_large _ Hpos) Hex resolute maxn Hm) as (cs & q & -> & _ & Hnb & HA). cbn [rbind fst]. exact HA.
  Qed.
End Leximax.
