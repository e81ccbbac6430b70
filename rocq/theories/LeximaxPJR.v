(** * Leximax Phragmén satisfies PJR+ (C89) *)
From Coq Require Import String.
From Coq Require Import List Arith Bool ZArith QArith Lia Lqa Permutation Sorted Setoid.
From Verif Require MesFinal.
From Verif Require Import Milp RulesSolver SpecLoads SolverPhragmen SolverCompute SolverMore IsoSeq Mono.
From Verif Require Import Prelude Misc MiscProofs Preferences Scores Spec ScoresProofs Search Rule RulesThiele
  Common ThieleProofs SpecRules OptProofs Compute SpecCompute ComputeProofs Checks SpecAxioms ChecksProofs Guarantees
  SpecSeq RulesSeq SeqProofs PhragmenProofs MesProofs Proportional MaximinPJR.
Import ListNotations.
Local Open Scope string_scope.
Open Scope nat_scope.
Local Open Scope list_scope.

Lemma sum_cons : forall a l (f : nat -> Q), sum (a :: l) f = (f a + sum l f)%Q.
Proof. reflexivity. Qed.
Lemma sum_some_large : forall l (f : nat -> Q) a, (0 <= a)%Q -> (Qnat (length l) * a < sum l f)%Q -> exists d, In d l /\ (a < f d)%Q.
Proof.
  intros l f a H0. induction l as [|d l IH]; intros H.
  { exfalso. unfold sum in H. cbn [map Qsum fold_right length] in H. change (Qnat 0) with 0%Q in H. lra. }
  rewrite sum_cons in H. cbn [length] in H. rewrite Qnat_S in H. destruct (Qlt_le_dec a (f d)) as [L|L]; [exists d; split; [left; auto|auto]|].
  destruct IH as (e & He & Hl); [lra|]. exists e. split; [right; auto|auto].
Qed.
Lemma filter_len : forall (f : nat -> bool) l, length (filter f l) <= length l.
Proof. intros f l. induction l as [|a r IH]; cbn; [lia|]. destruct (f a); cbn; lia. Qed.
Lemma some_max : forall (f : nat -> Q) l, l <> [] -> exists i, In i l /\ forall j, In j l -> (f j <= f i)%Q.
Proof.
  intros f l. induction l as [|a l IH]; intros H; [congruence|]. destruct l as [|b l].
  - exists a. split; [left; auto|]. intros j [<-|[]]. lra.
  - destruct IH as (i & Hi & Hm); [discriminate|]. destruct (Qlt_le_dec (f i) (f a)) as [L|L].
    + exists a. split; [left; auto|]. intros j [<-|Hj]; [lra|]. specialize (Hm j Hj). lra.
    + exists i. split; [right; auto|]. intros j [<-|Hj]; [lra|auto].
Qed.

(** ** A group without enough members in the committee can be given one more, which lowers the largest load *)
Section Improve.
  Variable p : profile.
  Hypothesis Hw : wf p.
  Hypothesis Hv : voters p <> [].
  Variable k : nat.
  Hypothesis Hk : 1 <= k.

  (** the load of voter [i] *)
  Definition load_of (W : list nat) (l : nat -> nat -> Q) (i : nat) : Q := voter_load W l i (the_voter p i).
  Lemma load_likes : forall W l i, NoDup W -> i < length (voters p) -> (load_of W l i == sum (filter (fun d => likes p i d) W) (l i))%Q.
  Proof using Hw. intros W l i HN Hi. unfold load_of, voter_load. apply (sum_perm _ _ (l i) (inter_perm p Hw W i HN Hi)). Qed.
  Lemma paid : forall W l d, load_distribution p W l -> In d W -> (sum (fans p d) (fun i => w p i * l i d) == 1)%Q.
  Proof using. intros W l d [_ H] Hd. rewrite <- (H d Hd). rewrite positions_fans. reflexivity. Qed.
  Definition pay (l : nat -> nat -> Q) (i d : nat) : Q := (w p i * l i d)%Q.
  Lemma load_spent : forall W l i, NoDup W -> i < length (voters p) -> (w p i * load_of W l i == spent p (pay l) W i)%Q.
  Proof using Hw. intros W l i HN Hi. rewrite load_likes by auto. unfold spent, pay. rewrite sum_scal. reflexivity. Qed.

  Lemma total_load : forall W l, NoDup W -> load_distribution p W l -> (sum (voter_ids p) (fun i => w p i * load_of W l i) == Qnat (length W))%Q.
  Proof using Hw.
    intros W l HN HL. rewrite (sum_ext _ _ (spent p (pay l) W)) by (intros i Hi; apply load_spent; auto; apply in_voter_ids; auto).
    rewrite sum_spent. assert (G : forall A, incl A W -> (sum A (fun d => sum (filter (fun i => likes p i d) (voter_ids p)) (fun i => pay l i d)) == Qnat (length A))%Q).
    { intros A. induction A as [|d A IH]; intros HI; [reflexivity|]. rewrite sum_cons, IH by (intros x Hx; apply HI; right; auto). cbn [length]. rewrite Qnat_S.
      change (filter (fun i => likes p i d) (voter_ids p)) with (fans p d). rewrite (paid W l d HL) by (apply HI; left; auto). ring. }
    apply G. intros x; auto.
  Qed.
  Lemma group_load : forall W l S, NoDup W -> load_distribution p W l -> is_group p S ->
    (sum S (fun i => w p i * load_of W l i) <= Qnat (length (covered p S W)))%Q.
  Proof using Hw.
    intros W l S HN HL HS. destruct HS as (HS1 & HS2 & HS3). rewrite Forall_forall in HS3.
    rewrite (sum_ext _ _ (spent p (pay l) W)) by (intros i Hi; apply load_spent; auto).
    rewrite sum_spent. assert (G : forall A, incl A W -> (sum A (fun d => sum (filter (fun i => likes p i d) S) (fun i => pay l i d)) <= Qnat (length (covered p S A)))%Q).
    { intros A. induction A as [|d A IH]; intros HI; [unfold sum; cbn [map Qsum fold_right]; change (Qnat (length (covered p S []))) with 0%Q; lra|]. rewrite sum_cons, covered_cons. specialize (IH ltac:(intros x Hx; apply HI; right; auto)).
      destruct (existsb (fun i => likes p i d) S) eqn:Ex; cbn [Nat.add].
      - rewrite Qnat_S. assert (sum (filter (fun i => likes p i d) S) (fun i => pay l i d) <= 1)%Q; [|lra].
        rewrite <- (paid W l d HL) by (apply HI; left; auto). apply sum_incl_le.
        + apply NoDup_filter, HS2.
        + apply fans_NoDup.
        + intros i Hi. apply filter_In in Hi as [Hi Hi']. apply in_fans. auto.
        + intros i Hi. apply in_fans in Hi as [Hi _]. pose proof (w_pos p i Hw Hi). destruct HL as [HL _]. specialize (HL i d). nra.
      - assert (Ef : filter (fun i => likes p i d) S = []).
        { destruct (filter (fun i => likes p i d) S) as [|i F] eqn:Ef; auto. exfalso.
          assert (Hi : In i (filter (fun i => likes p i d) S)) by (rewrite Ef; left; auto).
          apply filter_In in Hi. assert (existsb (fun i => likes p i d) S = true) by (apply existsb_exists; eauto). congruence. }
        rewrite Ef. unfold sum at 1. cbn [map Qsum fold_right]. lra. }
    apply G. intros x; auto.
  Qed.

  Notation T := (wsum (voters p)).
  (** the average load *)
  Definition fair : Q := (Qnat k / T)%Q.
  Lemma T_pos : (0 < T)%Q.
  Proof using Hw Hv. apply MesFinal.wsum_pos; auto. Qed.
  Lemma fair_pos : (0 < fair)%Q.
  Proof using Hw Hv Hk. pose proof T_pos. unfold fair. apply Qlt_shift_div_l; auto. assert (0 < Qnat k)%Q by (apply Qnat_pos; lia). lra. Qed.
  Lemma fair_T : (fair * T == Qnat k)%Q.
  Proof using Hw Hv. pose proof T_pos. unfold fair. field. lra. Qed.
  Variables (W : list nat) (l : nat -> nat -> Q) (S : list nat) (L c : nat).
  Hypothesis HW : is_committee p k W.
  Hypothesis HL : load_distribution p W l.
  Hypothesis HS : is_group p S.
  Hypothesis HD : deserves p (default_quota p k) S L.
  Hypothesis Hc : c < num_cand p.
  Hypothesis Hn : ~ In c W.
  Hypothesis Ha : forall i, In i S -> In c (ballot p i).
  Hypothesis Hcov : length (covered p S W) < L.

  Notation x := (load_of W l).
  Lemma W_NoDup : NoDup W.
  Proof using HW. apply ascending_NoDup, HW. Qed.
  Lemma x_nonneg : forall i, (0 <= x i)%Q.
  Proof using HL. intros i. unfold load_of, voter_load. apply Qsum_map_nonneg. intros d _. apply HL. Qed.
  Lemma group_ids : forall i, In i S -> i < length (voters p).
  Proof using Hw Hv Hk HW HL HS HD Hc Hn Ha Hcov. intros i Hi. destruct HS as (_ & _ & H). rewrite Forall_forall in H. auto. Qed.
  Lemma group_weight : (Qnat L <= fair * sum S (w p))%Q.
  Proof using Hw Hv Hk HW HL HS HD Hc Hn Ha Hcov.
    pose proof T_pos as HT. unfold deserves in HD. rewrite gweight_sum in HD. pose proof fair_pos. assert (0 < Qnat k)%Q by (apply Qnat_pos; lia).
    assert (E : (fair * (Qnat L * default_quota p k) == Qnat L)%Q) by (unfold fair, default_quota; field; split; lra).
    rewrite <- E. apply Qmult_le_l; auto.
  Qed.
  Lemma L_ge : (Qnat (length (covered p S W)) + 1 <= Qnat L)%Q.
  Proof using Hw Hv Hk HW HL HS HD Hc Hn Ha Hcov. rewrite <- Qnat_S. apply -> Qnat_le. lia. Qed.

  Lemma heavy_voter : exists i, i < length (voters p) /\ (fair + 1 / T < x i)%Q /\ forall j, j < length (voters p) -> (x j <= x i)%Q.
  Proof using Hw Hv Hk HW HL HS HD Hc Hn Ha Hcov.
    pose proof T_pos as HT. assert (NE : voter_ids p <> []) by (unfold voter_ids; destruct (voters p); [congruence|discriminate]).
    destruct (some_max x (voter_ids p) NE) as (i & Hi & Hm). exists i. apply in_voter_ids in Hi. split; [exact Hi|]. split; [|intros j Hj; apply Hm, in_voter_ids; auto].
    destruct (Qlt_le_dec (fair + 1 / T) (x i)) as [H|H]; [exact H|exfalso].
    pose proof (total_load W l W_NoDup HL) as E. pose proof (group_load W l S W_NoDup HL HS) as G. destruct HW as (_ & HWk & _). rewrite HWk in E.
    set (out := filter (fun j => negb (mem j S)) (voter_ids p)).
    assert (P : Permutation (filter (fun j => mem j S) (voter_ids p)) S).
    { apply NoDup_Permutation; [apply NoDup_filter, seq_NoDup|apply HS|]. intros j. rewrite filter_In, mem_In, in_voter_ids. split; [tauto|]. intros Hj. split; auto. apply group_ids; auto. }
    rewrite (sum_split (fun j => mem j S)), (sum_perm _ _ _ P) in E. fold out in E.
    pose proof (wsum_voter_ids p) as ET. rewrite (sum_split (fun j => mem j S)), (sum_perm _ _ _ P) in ET. fold out in ET.
    assert (O : (sum out (fun j => w p j * x j) <= (fair + 1 / T) * sum out (w p))%Q).
    { rewrite <- sum_scal. apply sum_le. intros j Hj. apply filter_In in Hj as [Hj _]. pose proof (Hm j Hj) as Hx. apply in_voter_ids in Hj. pose proof (w_pos p j Hw Hj). nra. }
    pose proof group_weight as GW. pose proof L_ge as LG. pose proof fair_T as FT.
    assert (SP : (0 < sum S (w p))%Q).
    { destruct HS as (HS1 & _ & _). pose proof group_ids as GI. destruct S as [|a r]; [congruence|]. rewrite sum_cons. pose proof (w_pos p a Hw (GI a (or_introl eq_refl))).
      assert (0 <= sum r (w p))%Q by (apply sum_nonneg; intros j Hj; pose proof (w_pos p j Hw (GI j (or_intror Hj))); lra). lra. }
    assert (I1 : (1 / T * T == 1)%Q) by (field; lra). assert (IP : (0 < 1 / T)%Q) by (apply Qlt_shift_div_l; lra).
    set (a := sum S (w p)) in *. set (b := sum out (w p)) in *. set (u := (1 / T)%Q) in *. set (f := fair) in *.
    assert (Eb : (b == T - a)%Q) by lra. rewrite Eb in O.
    assert (0 < u * a)%Q by nra. assert ((f + u) * (T - a) == Qnat k + 1 - f * a - u * a)%Q by (rewrite <- FT, <- I1; ring). lra.
  Qed.

  (** what can be added to the load of voter [i] *)
  Definition room (i : nat) : Q := if Qle_bool fair (x i) then 0%Q else (fair - x i)%Q.
  Lemma room_spec : forall i, (0 <= room i)%Q /\ (fair - x i <= room i)%Q.
  Proof using.
    intros i. unfold room. destruct (Qle_bool fair (x i)) eqn:E; [apply Qle_bool_iff in E; split; lra|].
    assert (x i < fair)%Q by (destruct (Qlt_le_dec (x i) fair) as [H|H]; [exact H|]; apply Qle_bool_iff in H; congruence). split; lra.
  Qed.
  Lemma room_sum : (1 <= sum S (fun i => w p i * room i))%Q.
  Proof using Hw Hv Hk HW HL HS HD Hc Hn Ha Hcov.
    pose proof (group_load W l S W_NoDup HL HS) as G. pose proof group_weight as GW. pose proof L_ge as LG.
    assert (H : (sum S (fun i => fair * w p i - w p i * x i) <= sum S (fun i => w p i * room i))%Q).
    { apply sum_le. intros i Hi. destruct (room_spec i) as [_ H]. pose proof (w_pos p i Hw (group_ids i Hi)). nra. }
    rewrite sum_minus, sum_scal in H. lra.
  Qed.

  Lemma improve : exists W' l' i, is_committee p k W' /\ load_distribution p W' l' /\ i < length (voters p) /\
    (fair + 1 / T < x i)%Q /\ (load_of W' l' i <= x i - 1 / T)%Q /\
    forall j, j < length (voters p) -> (load_of W' l' j <= x j)%Q \/ (load_of W' l' j <= fair)%Q.
  Proof using Hw Hv Hk HW HL HS HD Hc Hn Ha Hcov.
    pose proof T_pos as HT. destruct heavy_voter as (i & Hi & Hx & Hm). pose proof fair_pos as FP.
    assert (IP : (0 < 1 / T)%Q) by (apply Qlt_shift_div_l; lra).
    assert (DX : exists d, In d (filter (fun d => likes p i d) W) /\ (1 / T < l i d)%Q).
    { apply sum_some_large; [lra|]. rewrite <- (load_likes W l i W_NoDup Hi). eapply Qle_lt_trans; [|exact Hx].
      assert (Qnat (length (filter (fun d => likes p i d) W)) <= Qnat k)%Q.
      { apply -> Qnat_le. destruct HW as (_ & <- & _). apply filter_len. }
      assert (E : (fair == Qnat k * (1 / T))%Q) by (unfold fair; field; lra). rewrite E. nra. }
    destruct DX as (d & Hd & Hl). apply filter_In in Hd as [Hd Hld].
    set (R := sum S (fun i => w p i * room i)%Q). assert (HR : (1 <= R)%Q) by apply room_sum.
    set (V := c :: without d W).
    assert (Nc : ~ In c (without d W)) by (unfold without; rewrite filter_In; tauto).
    assert (NV : NoDup V) by (constructor; [exact Nc|apply NoDup_filter, W_NoDup]).
    set (l' := fun j e => if e =? c then (if mem j S then room j / R else 0)%Q else l j e).
    assert (RR : forall j, (0 <= room j / R <= room j)%Q).
    { intros j. destruct (room_spec j) as [R0 _]. split; [apply Qle_shift_div_l; lra|apply Qle_shift_div_r; nra]. }
    assert (L0 : forall j e, (0 <= l' j e)%Q).
    { intros j e. unfold l'. destruct (e =? c); [destruct (mem j S); [apply RR|lra]|apply HL]. }
    assert (PW : Permutation W (d :: without d W)).
    { apply NoDup_Permutation; [apply W_NoDup|constructor; [unfold without; rewrite filter_In, negb_true_iff, Nat.eqb_neq; tauto|apply NoDup_filter, W_NoDup]|].
      intros e. cbn. unfold without. rewrite filter_In, negb_true_iff, Nat.eqb_neq. split; [intros H; destruct (Nat.eq_dec e d) as [->|]; [left; auto|right; auto]|intros [<-|[H _]]; auto]. }
    assert (LV : forall j, j < length (voters p) ->
      (load_of (isort V) l' j == (if likes p j c then l' j c else 0) + sum (filter (fun e => likes p j e) (without d W)) (l j))%Q).
    { intros j Hj. assert (NI : NoDup (isort V)) by (eapply Permutation_NoDup; [apply isort_perm|exact NV]). rewrite (load_likes (isort V) l' j NI Hj).
      rewrite (sum_perm _ (filter (fun e => likes p j e) V) _ (Permutation_filter _ _ _ (Permutation_sym (isort_perm V)))).
      unfold V. cbn [filter]. assert (E : (sum (filter (fun e => likes p j e) (without d W)) (l' j) == sum (filter (fun e => likes p j e) (without d W)) (l j))%Q).
      { apply sum_ext. intros e He. apply filter_In in He as [He _]. unfold l'. destruct (Nat.eqb_spec e c); [subst; tauto|reflexivity]. }
      destruct (likes p j c); [rewrite sum_cons|]; rewrite E; ring. }
    assert (LW : forall j, j < length (voters p) ->
      (x j == (if likes p j d then l j d else 0) + sum (filter (fun e => likes p j e) (without d W)) (l j))%Q).
    { intros j Hj. rewrite (load_likes W l j W_NoDup Hj), (sum_perm _ _ _ (Permutation_filter (fun e => likes p j e) _ _ PW)). cbn [filter].
      destruct (likes p j d); [rewrite sum_cons|]; ring. }
    exists (isort V), l', i. split; [|split; [|split; [exact Hi|split; [exact Hx|split]]]].
    - split; [apply isort_ascending; exact NV|]. split.
      + rewrite isort_length. pose proof (Permutation_length PW) as E. destruct HW as (_ & <- & _). unfold V. cbn in *. lia.
      + apply Forall_forall. intros e He. rewrite isort_In in He. destruct HW as (_ & _ & HF). rewrite Forall_forall in HF. destruct He as [<-|He]; [exact Hc|].
        apply filter_In in He as [He _]. auto.
    - split; [exact L0|]. intros e He. rewrite isort_In in He. rewrite positions_fans.
      change (sum (fans p e) (fun j => (w p j * l' j e)%Q) == 1)%Q. destruct He as [<-|He].
      + assert (P : Permutation (filter (fun j => mem j S) (fans p c)) S).
        { apply NoDup_Permutation; [apply NoDup_filter, fans_NoDup|apply HS|]. intros j. rewrite filter_In, mem_In. split; [tauto|]. intros Hj. split; [|auto]. apply (group_in_fans p S c HS Ha). auto. }
        rewrite (sum_split (fun j => mem j S)), (sum_perm _ _ _ P).
        rewrite (sum_ext S _ (fun j => (1 / R) * (w p j * room j))%Q).
        2:{ intros j Hj. unfold l'. rewrite Nat.eqb_refl. apply mem_In in Hj. rewrite Hj. field. lra. }
        rewrite sum_scal. fold R. rewrite (sum_ext _ _ (fun _ => 0%Q)).
        2:{ intros j Hj. apply filter_In in Hj as [_ Hj]. apply negb_true_iff in Hj. unfold l'. rewrite Nat.eqb_refl, Hj. ring. }
        rewrite sum_const0. field. lra.
      + rewrite <- (paid W l e HL) by (apply filter_In in He; tauto). apply sum_ext. intros j _. unfold l'. destruct (Nat.eqb_spec e c); [subst; tauto|reflexivity].
    - rewrite LV by auto. pose proof (LW i Hi) as E. rewrite Hld in E.
      assert (Z : ((if likes p i c then l' i c else 0) == 0)%Q).
      { destruct (likes p i c); [|reflexivity]. unfold l'. rewrite Nat.eqb_refl. destruct (mem i S); [|reflexivity]. unfold room.
        assert (B : Qle_bool fair (x i) = true) by (apply Qle_bool_iff; lra). rewrite B. unfold Qdiv. ring. }
      rewrite Z. lra.
    - intros j Hj. rewrite LV by auto. pose proof (LW j Hj) as E. assert (D0 : (0 <= if likes p j d then l j d else 0)%Q) by (destruct (likes p j d); [apply HL|lra]).
      assert (CR : ((if likes p j c then l' j c else 0) <= room j)%Q).
      { destruct (room_spec j) as [R0 _]. destruct (likes p j c); [|exact R0]. unfold l'. rewrite Nat.eqb_refl. destruct (mem j S); [apply RR|exact R0]. }
      unfold room in CR. destruct (Qle_bool fair (x j)) eqn:B; [left|right]; lra.
  Qed.
End Improve.

(** ** Lists *)
Lemma filter_later : forall (f : nat -> bool) l s j, nth_error (filter f l) s = Some j -> exists r, s <= r /\ nth_error l r = Some j.
Proof.
  intros f l. induction l as [|a l IH]; intros s j H; [destruct s; discriminate|]. cbn [filter] in H. destruct (f a).
  - destruct s as [|s]; [exists 0; auto|]. cbn in H. destruct (IH s j H) as (r & Hr & E). exists (S r). cbn. split; [lia|auto].
  - destruct (IH s j H) as (r & Hr & E). exists (S r). cbn. split; [lia|auto].
Qed.
Lemma remove_later : forall A (i : nat) C s j, nth_error (A ++ C) s = Some j -> exists r, s <= r /\ nth_error (A ++ i :: C) r = Some j.
Proof.
  intros A i C s j H. destruct (Nat.lt_ge_cases s (length A)) as [L|L].
  - exists s. rewrite nth_error_app1 in * by auto. auto.
  - exists (S s). rewrite nth_error_app2 in * by lia. split; [lia|]. replace (S s - length A) with (S (s - length A)) by lia. exact H.
Qed.
Lemma firstn_nth : forall (B : list Q) s r, nth_error (firstn s B) r = if r <? s then nth_error B r else None.
Proof.
  intros B s. revert B. induction s as [|s IH]; intros B r; [destruct r; reflexivity|]. destruct B as [|b B]; [cbn [firstn]; destruct r; cbn [nth_error]; match goal with |- context[if ?c then _ else _] => destruct c end; reflexivity|].
  destruct r as [|r]; [reflexivity|]. cbn [firstn nth_error]. rewrite IH. reflexivity.
Qed.
Lemma gap : forall (f : nat -> Q) N ids base e, (0 < e)%Q -> length ids < N ->
  exists j, j < N /\ forall i, In i ids -> ~ (base + Qnat j * e < f i /\ f i <= base + Qnat j * e + e)%Q.
Proof.
  intros f N. induction N as [|N IH]; intros ids base e He HN; [lia|].
  destruct (existsb (fun i => negb (Qle_bool (f i) base) && Qle_bool (f i) (base + e)) ids) eqn:Ex.
  - set (keep := fun i => negb (negb (Qle_bool (f i) base) && Qle_bool (f i) (base + e))).
    assert (Hl : length (filter keep ids) < N).
    { apply existsb_exists in Ex as (i & Hi & E). apply in_split in Hi as (A & C & ->). rewrite filter_app, app_length. rewrite app_length in HN. cbn [filter length] in *.
      unfold keep at 2. rewrite E. cbn [negb]. pose proof (filter_len keep A). pose proof (filter_len keep C). lia. }
    destruct (IH (filter keep ids) (base + e)%Q e He Hl) as (j & Hj & Hg). exists (S j). split; [lia|]. intros i Hi [H1 H2]. rewrite Qnat_S in H1, H2.
    assert (0 <= Qnat j * e)%Q by (apply Qmult_le_0_compat; [apply Qnat_nonneg|lra]).
    apply (Hg i); [|split; lra]. apply filter_In. split; [auto|]. unfold keep. apply negb_true_iff, andb_false_iff. right.
    destruct (Qle_bool (f i) (base + e)) eqn:E; [|reflexivity]. apply Qle_bool_iff in E. lra.
  - exists 0. split; [lia|]. intros i Hi [H1 H2]. change (Qnat 0) with 0%Q in *.
    assert (existsb (fun i => negb (Qle_bool (f i) base) && Qle_bool (f i) (base + e)) ids = true); [|congruence].
    apply existsb_exists. exists i. split; [auto|]. apply andb_true_iff. split; [|apply Qle_bool_iff; lra].
    apply negb_true_iff. destruct (Qle_bool (f i) base) eqn:E; [apply Qle_bool_iff in E; lra|reflexivity].
Qed.

(** ** The bounds of leximax Phragmén *)
Section Bounds.
  Variable p : profile.
  Hypothesis Hw : wf p.
  Hypothesis Hv : voters p <> [].
  Variable k : nat.
  Hypothesis Hk : 1 <= k.
  Notation T := (wsum (voters p)).

  Definition within (B : list Q) (eps b : Q) (r : nat) : Q := match nth_error B r with Some b_r => (b_r + eps)%Q | None => b end.
  Definition sorted_loads (W : list nat) (l : nat -> nat -> Q) (order : list nat) (B : list Q) (eps b : Q) : Prop :=
    load_distribution p W l /\ Permutation order (voter_ids p) /\
    forall r i, nth_error order r = Some i -> (load_of p W l i <= within B eps b r)%Q.
  Lemma sorted_load_iff : forall W B eps b, sorted_load p W B eps b <-> exists l order, sorted_loads W l order B eps b.
  Proof using Hw Hv Hk.
    intros W B eps b. unfold sorted_load, sorted_loads, within. split; intros (l & order & H1 & H2 & H3); exists l, order; (split; [auto|split; [auto|]]).
    - intros r i Hr. assert (Hi : In i (voter_ids p)) by (eapply Permutation_in; [exact H2|eapply nth_error_In; eauto]). apply in_voter_ids in Hi.
      destruct (nth_error (voters p) i) as [v|] eqn:E; [|apply nth_error_None in E; lia]. specialize (H3 r i v Hr E). unfold load_of, the_voter.
      rewrite (nth_error_nth _ _ _ E). destruct (nth_error B r); auto.
    - intros r i v Hr E. specialize (H3 r i Hr). unfold load_of, the_voter in H3. rewrite (nth_error_nth _ _ _ E) in H3. destruct (nth_error B r); auto.
  Qed.

  Variable B : list Q.
  Hypothesis HB : leximax_bounds p k ACCURACY B.
  Lemma bounds_at : forall s b, nth_error B s = Some b -> next_bound p k (firstn s B) ACCURACY b.
  Proof using Hw Hv Hk HB.
    generalize ACCURACY, HB. clear HB. intros eps H. induction H as [|B0 b' H IH Hn]; intros i b Hi; [destruct i; discriminate|].
    destruct (Nat.lt_ge_cases i (length B0)) as [Hlt|Hge].
    - rewrite nth_error_app1 in Hi by auto. rewrite firstn_app. replace (i - length B0) with 0 by lia. cbn [firstn]. rewrite app_nil_r. apply IH. auto.
    - rewrite nth_error_app2 in Hi by auto. destruct (i - length B0) as [|j] eqn:E; [|destruct j; discriminate]. injection Hi as <-.
      assert (i = length B0) as -> by lia. rewrite firstn_app, Nat.sub_diag, firstn_all. cbn [firstn]. rewrite app_nil_r. auto.
  Qed.
  Lemma bound_le : forall s b W b', nth_error B s = Some b -> is_committee p k W -> sorted_load p W (firstn s B) ACCURACY b' -> (b <= b')%Q.
  Proof using Hw Hv Hk HB. intros s b W b' E HW HS. apply (proj2 (bounds_at s b E) W b' HW HS). Qed.
  Lemma bounds_step : forall s a b, nth_error B s = Some a -> nth_error B (S s) = Some b -> (b <= a)%Q.
  Proof using Hw Hv Hk HB.
    intros s a b Ea Eb. destruct (bounds_at s a Ea) as [(W & HW & HS) _]. apply (bound_le (S s) b W a Eb HW).
    apply sorted_load_iff in HS as (l & order & H1 & H2 & H3). apply sorted_load_iff. exists l, order. split; [auto|split; [auto|]].
    intros r i Hr. specialize (H3 r i Hr). unfold within in *. rewrite firstn_nth in *. destruct (Nat.ltb_spec r s) as [L|L].
    - replace (r <? S s) with true by (symmetry; apply Nat.ltb_lt; lia). exact H3.
    - destruct (Nat.ltb_spec r (S s)) as [L'|L']; [|exact H3]. assert (r = s) as -> by lia. rewrite Ea. unfold ACCURACY. lra.
  Qed.
  Lemma bounds_mono : forall d s a b, nth_error B s = Some a -> nth_error B (d + s) = Some b -> (b <= a)%Q.
  Proof using Hw Hv Hk HB.
    intros d. induction d as [|d IH]; intros s a b Ea Eb; [cbn in Eb; assert (a = b) as -> by congruence; lra|].
    destruct (nth_error B (d + s)) as [c|] eqn:Ec.
    - pose proof (IH s a c Ea Ec). pose proof (bounds_step _ _ _ Ec Eb). lra.
    - apply nth_error_None in Ec. assert (nth_error B (S d + s) = None) by (apply nth_error_None; lia). congruence.
  Qed.
  Lemma bounds_anti : forall s r a b, s <= r -> nth_error B s = Some a -> nth_error B r = Some b -> (b <= a)%Q.
  Proof using Hw Hv Hk HB. intros s r a b H Ea Eb. apply (bounds_mono (r - s) s a b Ea). replace (r - s + s) with r by lia. exact Eb. Qed.

  (** a voter with at most the average load *)
  Lemma light_voter : forall W l, is_committee p k W -> load_distribution p W l -> exists i, i < length (voters p) /\ (load_of p W l i <= fair p k)%Q.
  Proof using Hw Hv Hk HB.
    intros W l HW HL. pose proof (T_pos p Hw Hv) as HT.
    destruct (existsb (fun i => Qle_bool (load_of p W l i) (fair p k)) (voter_ids p)) eqn:E.
    { apply existsb_exists in E as (i & Hi & E). exists i. apply in_voter_ids in Hi. apply Qle_bool_iff in E. auto. }
    exfalso. pose proof (total_load p Hw W l (ascending_NoDup _ (proj1 HW)) HL) as Ht. destruct HW as (_ & HWk & _). rewrite HWk in Ht.
    assert (NE : voter_ids p <> []) by (unfold voter_ids; destruct (voters p); [congruence|discriminate]).
    assert (Hall : forall i, In i (voter_ids p) -> (fair p k < load_of p W l i)%Q).
    { intros i Hi. destruct (Qlt_le_dec (fair p k) (load_of p W l i)) as [H|H]; [exact H|]. exfalso.
      assert (existsb (fun i => Qle_bool (load_of p W l i) (fair p k)) (voter_ids p) = true); [|congruence].
      apply existsb_exists. exists i. split; [auto|apply Qle_bool_iff; auto]. }
    pose proof (fair_T p Hw Hv k) as FT. assert (FT' : (fair p k * sum (voter_ids p) (w p) == Qnat k)%Q) by (rewrite <- FT; apply Qmult_comp; [reflexivity|rewrite <- (wsum_voter_ids p); reflexivity]).
    assert (G : forall A, incl A (voter_ids p) -> A <> [] -> (fair p k * sum A (w p) < sum A (fun i => w p i * load_of p W l i))%Q).
    { intros A. induction A as [|a A IH]; intros HI HA; [congruence|]. rewrite !sum_cons. pose proof (Hall a (HI a (or_introl eq_refl))) as H1.
      pose proof (w_pos p a Hw (proj1 (in_voter_ids p a) (HI a (or_introl eq_refl)))) as H2. destruct A as [|a' A].
      - unfold sum. cbn [map Qsum fold_right]. nra.
      - assert (fair p k * sum (a' :: A) (w p) < sum (a' :: A) (fun i => w p i * load_of p W l i))%Q by (apply IH; [intros x Hx; apply HI; right; auto|discriminate]). nra. }
    specialize (G (voter_ids p) (fun x H => H) NE). lra.
  Qed.

  Variable W : list nat.
  Hypothesis Henough : length B = length (voters p) - 1 \/
   (length B < length (voters p) - 1 /\ exists b, next_bound p k B ACCURACY b /\ (b <= CMP_ACCURACY)%Q).
  Hypothesis Htol : ((Qnat (length (voters p)) * ACCURACY + CMP_ACCURACY) * T < 1)%Q.

  Lemma fair_large : (CMP_ACCURACY <= fair p k)%Q.
  Proof using Hw Hv Hk Htol.
    pose proof (T_pos p Hw Hv) as HT. unfold fair. apply Qle_shift_div_l; [exact HT|]. assert (1 <= Qnat k)%Q by (change 1%Q with (Qnat 1); apply -> Qnat_le; exact Hk).
    assert (0 <= Qnat (length (voters p)) * ACCURACY * T)%Q by (apply Qmult_le_0_compat; [apply Qmult_le_0_compat; [apply Qnat_nonneg|unfold ACCURACY; lra]|lra]). lra.
  Qed.
  (** the voters without a bound need at most the average load *)
  Lemma rest_small : forall b, (exists W0, is_committee p k W0) -> sorted_load p W B ACCURACY b ->
    (forall W' b', is_committee p k W' -> sorted_load p W' B ACCURACY b' -> (b <= b' + CMP_ACCURACY)%Q) ->
    is_committee p k W -> (b <= fair p k + CMP_ACCURACY)%Q.
  Proof using Hw Hv Hk HB Htol Henough.
    intros b _ HS Hmin HW. destruct Henough as [El|(_ & b' & [(W' & HW' & HS') _] & Hb')].
    2:{ pose proof (Hmin W' b' HW' HS'). pose proof fair_large. lra. }
    assert (X : exists V l order, is_committee p k V /\ load_distribution p V l /\ Permutation order (voter_ids p) /\
      forall s r i a, s <= r -> nth_error order r = Some i -> nth_error B s = Some a -> (load_of p V l i <= a + ACCURACY)%Q).
    { destruct (length B) as [|m] eqn:Em.
      - apply sorted_load_iff in HS as (l & order & H1 & H2 & _). exists W, l, order. repeat (split; [auto|]). intros s r i a _ _ E.
        destruct B; [destruct s; discriminate|discriminate].
      - destruct (nth_error B m) as [b0|] eqn:E0; [|apply nth_error_None in E0; lia].
        destruct (bounds_at m b0 E0) as [(V & HV & HSV) _]. apply sorted_load_iff in HSV as (l & order & H1 & H2 & H3). exists V, l, order. repeat (split; [auto|]).
        intros s r i a Hsr Hr Ha. specialize (H3 r i Hr). unfold within in H3. rewrite firstn_nth in H3. destruct (Nat.ltb_spec r m) as [L|L].
        + destruct (nth_error B r) as [c|] eqn:Ec; [|apply nth_error_None in Ec; lia]. pose proof (bounds_anti s r a c Hsr Ha Ec). lra.
        + assert (s < S m) by (rewrite <- Em; apply nth_error_Some; congruence). pose proof (bounds_anti s m a b0 ltac:(lia) Ha E0). unfold ACCURACY. lra. }
    destruct X as (V & l & order & HV & HL & HP & Hx). destruct (light_voter V l HV HL) as (i & Hi & Hl).
    assert (Hin : In i order) by (eapply Permutation_in; [symmetry; exact HP|apply in_voter_ids; auto]). apply in_split in Hin as (A & C & ->).
    pose proof (Hmin V (fair p k) HV) as M. enough (sorted_load p V B ACCURACY (fair p k)) by (apply M; auto).
    apply sorted_load_iff. exists l, ((A ++ C) ++ [i]). split; [auto|]. assert (PP : Permutation ((A ++ C) ++ [i]) (A ++ i :: C)) by (rewrite <- Permutation_cons_append; apply Permutation_middle).
    split; [rewrite PP; exact HP|]. assert (Elen : length (A ++ C) = length B).
    { apply Permutation_length in HP. unfold voter_ids in HP. rewrite seq_length, app_length in HP. cbn [length] in HP. rewrite app_length. lia. }
    intros r j Hr. unfold within. destruct (Nat.lt_ge_cases r (length (A ++ C))) as [L|L].
    - rewrite nth_error_app1 in Hr by auto. destruct (nth_error B r) as [a|] eqn:Ea; [|apply nth_error_None in Ea; lia].
      destruct (remove_later A i C r j Hr) as (r' & Hr' & E'). apply (Hx r r' j a Hr' E' Ea).
    - destruct (nth_error B r) as [a|] eqn:Ea; [assert (r < length B) by (apply nth_error_Some; congruence); lia|].
      rewrite nth_error_app2 in Hr by auto. destruct (r - length (A ++ C)) as [|q]; [|destruct q; discriminate]. cbn in Hr. injection Hr as <-. exact Hl.
  Qed.

  Hypothesis HW : is_committee p k W.
  Variable b : Q.
  Hypothesis HS : sorted_load p W B ACCURACY b.
  Hypothesis Hmin : forall W' b', is_committee p k W' -> sorted_load p W' B ACCURACY b' -> (b <= b' + CMP_ACCURACY)%Q.

  Lemma group_represented : PJR_plus p (default_quota p k) W.
  Proof using Hw Hv Hk HB Htol Henough HW HS Hmin.
    assert (Hb : (b <= fair p k + CMP_ACCURACY)%Q) by (apply rest_small; eauto).
    intros G L c HG HD Hc Hn Ha. destruct (Nat.lt_ge_cases (length (covered p G W)) L) as [Hcov|Hcov]; [exfalso|exact Hcov].
    assert (Ha' : forall i, In i G -> In c (ballot p i)) by (intros j Hj; apply Ha; auto; left; auto).
    apply sorted_load_iff in HS as (l & order & HL & HP & Hx).
    destruct (improve p Hw Hv k Hk W l G L c HW HL HG HD Hc Hn Ha' Hcov) as (W' & l' & i & HW' & HL' & Hi & Hxi & Hxi' & Hother).
    set (x := load_of p W l) in *. set (x' := load_of p W' l') in *. set (n := length (voters p)) in *.
    pose proof (T_pos p Hw Hv) as HT. set (e := ACCURACY) in *. assert (He : (0 < e)%Q) by (unfold e, ACCURACY; lra).
    set (base := (x i - 1 / T + CMP_ACCURACY)%Q).
    assert (Hne : (Qnat n * e + CMP_ACCURACY < 1 / T)%Q) by (apply Qlt_shift_div_l; auto).
    destruct (gap x n (filter (fun j => negb (j =? i)) (voter_ids p)) base e He) as (g & Hg & Hgap).
    { assert (Hii : In i (voter_ids p)) by (apply in_voter_ids; auto). apply in_split in Hii as (A & C & E).
      assert (n = length (A ++ i :: C)) by (rewrite <- E; unfold voter_ids; rewrite seq_length; reflexivity). rewrite E, filter_app. cbn [filter]. rewrite Nat.eqb_refl. cbn [negb].
      rewrite app_length in *. cbn [length] in *. pose proof (filter_len (fun j => negb (j =? i)) A). pose proof (filter_len (fun j => negb (j =? i)) C). lia. }
    set (theta := (base + Qnat g * e)%Q) in *.
    assert (Hth0 : (base <= theta)%Q) by (unfold theta; assert (0 <= Qnat g * e)%Q by (apply Qmult_le_0_compat; [apply Qnat_nonneg|lra]); lra).
    assert (Hth1 : (theta + e < x i)%Q).
    { assert (Qnat (S g) * e <= Qnat n * e)%Q by (apply Qmult_le_compat_r; [apply -> Qnat_le; lia|lra]). rewrite Qnat_S in H. unfold theta, base. lra. }
    assert (Hfb : (fair p k + CMP_ACCURACY < base)%Q) by (unfold base; lra).
    set (big := fun j => negb (Qle_bool (x j) theta)).
    assert (Hbig : forall j, big j = true -> (theta < x j)%Q).
    { intros j Hj. unfold big in Hj. apply negb_true_iff in Hj. destruct (Qlt_le_dec theta (x j)) as [H|H]; [exact H|]. apply Qle_bool_iff in H. congruence. }
    assert (Hsmall : forall j, big j = false -> (x j <= theta)%Q) by (intros j Hj; unfold big in Hj; apply negb_false_iff, Qle_bool_iff in Hj; exact Hj).
    assert (Hord : forall j, In j order -> j < n) by (intros j Hj; apply in_voter_ids; eapply Permutation_in; eauto).
    assert (Hpos : forall s r j a, s <= r -> nth_error order r = Some j -> big j = true -> nth_error B s = Some a -> (x j <= a + e)%Q).
    { intros s r j a Hsr Hr Hj Es. specialize (Hx r j Hr). specialize (Hbig j Hj). unfold within in Hx. destruct (nth_error B r) as [c0|] eqn:Ec.
      - pose proof (bounds_anti s r a c0 Hsr Es Ec). fold x in Hx. lra.
      - fold x in Hx. lra. }
    assert (Hlt : forall r j, nth_error order r = Some j -> big j = true -> r < length B).
    { intros r j Hr Hj. specialize (Hx r j Hr). specialize (Hbig j Hj). unfold within in Hx. destruct (nth_error B r) eqn:Ec; [apply nth_error_Some; congruence|]. fold x in Hx. lra. }
    assert (Bi : big i = true) by (unfold big; apply negb_true_iff; destruct (Qle_bool (x i) theta) eqn:E; [apply Qle_bool_iff in E; lra|reflexivity]).
    assert (Hif : In i (filter big order)) by (apply filter_In; split; [eapply Permutation_in; [symmetry; exact HP|apply in_voter_ids; auto]|exact Bi]).
    apply in_split in Hif as (A & C & EF). set (s := length (A ++ C)).
    assert (Elen : length (filter big order) = S s) by (rewrite EF; unfold s; rewrite !app_length; cbn; lia).
    destruct (nth_error (filter big order) s) as [z|] eqn:Ez; [|apply nth_error_None in Ez; lia].
    assert (Hz : big z = true) by (apply nth_error_In, filter_In in Ez; tauto).
    destruct (filter_later _ _ _ _ Ez) as (r & Hsr & Er). pose proof (Hlt r z Er Hz) as Hrm.
    destruct (nth_error B s) as [bs|] eqn:Es; [|apply nth_error_None in Es; lia].
    pose proof (Hpos s r z bs Hsr Er Hz Es) as Hzb.
    assert (Hbs : (bs <= theta)%Q).
    { apply (bound_le s bs W' theta Es HW'). apply sorted_load_iff. exists l', ((A ++ C) ++ i :: filter (fun j => negb (big j)) order). split; [exact HL'|]. split.
      - assert (P1 : Permutation ((A ++ C) ++ i :: filter (fun j => negb (big j)) order) (filter big order ++ filter (fun j => negb (big j)) order)).
        { rewrite EF. rewrite <- !app_assoc. apply Permutation_app_head. cbn [app]. rewrite <- Permutation_middle. reflexivity. }
        rewrite P1, <- HP. clear. induction order as [|a order IH]; [reflexivity|]. cbn [filter]. destruct (big a); cbn [negb app]; [constructor; auto|]. rewrite <- Permutation_middle. constructor; auto.
      - intros r0 j Hr0. unfold within. rewrite firstn_nth. change ACCURACY with e. fold x'. destruct (Nat.ltb_spec r0 s) as [L0|L0].
        + destruct (nth_error B r0) as [a|] eqn:Ea; [|apply nth_error_None in Ea; assert (nth_error B s = None) by (apply nth_error_None; lia); congruence].
          rewrite nth_error_app1 in Hr0 by auto. destruct (remove_later A i C r0 j Hr0) as (r1 & Hr1 & E1). rewrite <- EF in E1.
          assert (Hj : big j = true) by (apply nth_error_In, filter_In in E1; tauto). destruct (filter_later _ _ _ _ E1) as (r2 & Hr2 & E2).
          pose proof (Hpos r0 r2 j a ltac:(lia) E2 Hj Ea) as H1. pose proof (Hbig j Hj) as H2.
          destruct (Hother j (Hord j (nth_error_In _ _ E2))) as [H3|H3]; fold x x' in H3; [lra|]. unfold CMP_ACCURACY in *. lra.
        + rewrite nth_error_app2 in Hr0 by auto. destruct (r0 - length (A ++ C)) as [|q]; cbn [nth_error] in Hr0.
          * injection Hr0 as <-. fold x x' in Hxi'. unfold base, CMP_ACCURACY in *. lra.
          * apply nth_error_In, filter_In in Hr0 as [H1 H2]. apply negb_true_iff in H2. pose proof (Hsmall j H2) as H4.
            destruct (Hother j (Hord j H1)) as [H3|H3]; fold x x' in H3; [lra|]. unfold CMP_ACCURACY in *. lra. }
    pose proof (Hbig z Hz) as Hzt. destruct (Nat.eq_dec z i) as [->|Hzi]; [lra|].
    apply (Hgap z); [|split; lra]. apply filter_In. split; [apply in_voter_ids, Hord; eapply nth_error_In; eauto|]. apply negb_true_iff, Nat.eqb_neq; auto.
  Qed.
End Bounds.

(** leximax Phragmén satisfies PJR+ *)
Theorem leximax_PJR_plus : forall p k bounds W, wf p -> voters p <> [] -> 1 <= k ->
  ((Qnat (length (voters p)) * ACCURACY + CMP_ACCURACY) * wsum (voters p) < 1)%Q ->
  enough_bounds p k bounds -> leximax_winner p k bounds W -> PJR_plus p (default_quota p k) W.
Proof.
  intros p k B W Hw Hv Hk Ht (HB & _ & He) (HW & b & HS & Hm). eapply group_represented; eauto.
Qed.

(** every committee that contains all approved candidates *)
Lemma elects_approved_PJR_plus : forall p q k W, wf p -> elects_approved p k W -> PJR_plus p q W.
Proof.
  intros p q k W Hw [_ HA] G L c HG _ _ Hn Ha. exfalso. apply Hn. destruct HG as (HG1 & _ & HG3). rewrite Forall_forall in HG3.
  destruct G as [|i G]; [congruence|]. assert (Hi : i < length (voters p)) by (apply HG3; left; auto).
  apply (HA (the_voter p i)); [apply nth_In; auto|]. apply (Ha i c); left; auto.
Qed.

Lemma leximax_winners_PJR_plus : forall nx sv e p k resolute maxn l W, exact_solvers p sv -> valid_call p k resolute maxn ->
  weights_at_least_one p -> ((Qnat (length (voters p)) * ACCURACY + CMP_ACCURACY) * wsum (voters p) < 1)%Q ->
  compute_leximaxphragmen (with_solvers nx sv e) p (Z.of_nat k) "gurobi" resolute maxn false = Ok l -> In W l ->
  is_committee p k W /\ PJR_plus p (default_quota p k) W.
Proof.
  intros nx sv e p k resolute maxn l W Hs Hc Ho Ht E Hin. pose proof Hc as (Hw & Hv & Hk & Hm).
  destruct (Nat.lt_ge_cases (length (approved_candidates p)) k) as [Hf|Hf].
  - assert (HA : elects_approved p k W).
    { destruct resolute.
      - assert (maxn = None) as -> by (destruct maxn as [[z|]|]; [destruct Hm; discriminate|contradiction|reflexivity]).
        destruct (compute_fill_resolute nx sv e p k Hc Hf) as (V & HV & _ & E'). rewrite E in E'. injection E' as ->. destruct Hin as [<-|[]]. exact HV.
      - destruct (compute_fill_correct nx sv e p k maxn Hc Hf) as (_ & E' & _ & HV). rewrite E in E'. injection E' as ->. apply HV; auto. }
    split; [apply HA|]. eapply elects_approved_PJR_plus; eauto.
  - destruct (compute_leximaxphragmen_correct nx sv e p k resolute maxn Hs Hc Ho Hf) as (B & HB & _ & HA).
    assert (HW : leximax_winner p k B W) by (eapply answers_In; [exact HA|exact E|exact Hin]).
    split; [apply HW|]. eapply leximax_PJR_plus; eauto. lia.
Qed.
Lemma leximax_lexicographic_In : forall nx sv e p k resolute maxn l W, exact_solvers p sv -> valid_call p k resolute maxn -> weights_at_least_one p ->
  compute_leximaxphragmen (with_solvers nx sv e) p (Z.of_nat k) "gurobi" resolute maxn true = Ok l -> In W l ->
  exists l', compute_leximaxphragmen (with_solvers nx sv e) p (Z.of_nat k) "gurobi" false None false = Ok l' /\ In W l'.
Proof.
  intros nx sv e p k resolute maxn l W Hs Hc Ho E Hin. pose proof Hc as (Hw & Hv & Hk & Hm).
  assert (Hc' : valid_call p k false None) by (split; auto).
  rewrite compute_leximax_unfold in * by auto. destruct resolute; [|discriminate].
  assert (maxn = None) as -> by (destruct maxn as [[z|]|]; [destruct Hm; discriminate|contradiction|reflexivity]).
  cbn [andb negb] in *. cbv iota in *. destruct (gurobi_leximaxphragmen (gurobi sv) p k false (limit None)) as [cs|] eqn:Ecs; [|discriminate].
  cbn [rbind] in *. exists cs. split; [reflexivity|]. assert (HF : Forall (is_committee p k) cs).
  { apply Forall_forall. intros V HV. destruct (Nat.lt_ge_cases (length (approved_candidates p)) k) as [Hf|Hf].
    - destruct (compute_fill_correct nx sv e p k None Hc' Hf) as (_ & E' & _ & HA). rewrite compute_leximax_unfold in E' by auto. cbn [andb] in E'. cbv iota in E'.
      rewrite Ecs in E'. injection E' as ->. apply HA. auto.
    - destruct (compute_leximaxphragmen_correct nx sv e p k false None Hs Hc' Ho Hf) as (B & _ & _ & HA). rewrite compute_leximax_unfold in HA by auto. cbn [andb] in HA. cbv iota in HA.
      rewrite Ecs in HA. cbn [rbind] in HA. eapply answers_In in HA; [|reflexivity|exact HV]. apply HA. }
  rewrite sorted_committees_asc in E by (eapply Forall_impl; [|exact HF]; intros V HV; apply HV). cbn [rbind] in E. injection E as <-.
  apply (sort_by_In _ committee_leb). destruct (sort_by committee_leb cs) as [|V r]; [destruct Hin|]. left. destruct Hin as [->|[]]. reflexivity.
Qed.

Lemma leximax_passes : forall nx sv e gurobi p k resolute maxn lexi l W, exact_solvers p sv ->
  valid_call p k resolute maxn -> weights_at_least_one p ->
  ((Qnat (length (voters p)) * ACCURACY + CMP_ACCURACY) * wsum (voters p) < 1)%Q ->
  compute_leximaxphragmen (with_solvers nx sv e) p (Z.of_nat k) "gurobi" resolute maxn lexi = Ok l -> In W l ->
  PJR_plus p (default_quota p k) W /\ check_JR p W None = Ok true /\
  (unit_weights p -> check_PJR gurobi p W None "brute-force" = Ok true).
Proof.
  intros nx sv e g p k resolute maxn lexi l W Hs Hc Ho Htol E Hin.
  assert (H : is_committee p k W /\ PJR_plus p (default_quota p k) W).
  { destruct lexi.
    - destruct (leximax_lexicographic_In nx sv e p k resolute maxn l W Hs Hc Ho E Hin) as (l' & E' & Hin').
      apply (leximax_winners_PJR_plus nx sv e p k false None l' W); auto. destruct Hc as (A & B & C & _). split; auto.
    - eapply leximax_winners_PJR_plus; eauto. }
  destruct H as [Hcom HP]. destruct Hc as (Hw & Hv & Hk & _).
  destruct (committee_cand_set p k W (proj1 Hk) Hcom) as [Hcs Hne].
  assert (El : length W = k) by apply Hcom.
  assert (HPJR : PJR p (default_quota p (length W)) W) by (rewrite El; apply PJR_plus_PJR; auto).
  split; auto. split; [apply passes_JR; auto; apply PJR_JR; auto|]. intros Hu. apply passes_PJR; auto.
Qed.
