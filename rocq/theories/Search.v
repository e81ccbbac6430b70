(** * Loop skeletons shared by several rules

    [dfs] is the "parallel universes" work-list loop that appears verbatim in
    _seq_thiele_irresolute (abcrules.py 1302-1342), _seqphragmen_irresolute
    (2872-2960), _maximin_support_irresolute (3858-3895),
    _phragmen_enestroem_algorithm (3987-4062) and _consensus_rule_algorithm
    (4149-4221); [scan] is the "keep the best so far" loop over
    [itertools.combinations] used by every brute-force algorithm. *)
From Coq Require Import List Arith Bool QArith Lia Permutation.
From Verif Require Import Prelude.
Import ListNotations.
Open Scope nat_scope.

(** What the inner [for cand in ...] loop produces for one selected candidate:
    a longer partial committee, or a finished committee (sorted tuple). *)
Inductive child (St : Type) := Partial (s : St) | Leaf (w : list nat).
Arguments Partial {St} _.
Arguments Leaf {St} _.

Definition mem_comm (w : list nat) (l : list (list nat)) : bool :=
  existsb (fun x => if list_eq_dec Nat.eq_dec w x then true else false) l.

(** [winning_committees.add(w)] *)
Definition set_add (w : list nat) (win : list (list nat)) : list (list nat) :=
  if mem_comm w win then win else win ++ [w].

(** [max_num_of_committees is not None and len(win) == max_num_of_committees] *)
Definition reached (maxn : option nat) (win : list (list nat)) : bool :=
  match maxn with None => false | Some n => length win =? n end.

(** The inner loop (e.g. abcrules.py 1323-1338): returns the new partial
    committees, the winning committees so far, and whether it returned early. *)
Fixpoint process {St} (maxn : option nat) (cs : list (child St)) (win : list (list nat))
  : list St * list (list nat) * bool :=
  match cs with
  | [] => ([], win, false)
  | Partial s :: r => let '(ps, win', stop) := process maxn r win in (s :: ps, win', stop)
  | Leaf w :: r =>
      let win1 := set_add w win in
      if reached maxn win1 then ([], win1, true) else process maxn r win1
  end.

(** The outer [while] loop (e.g. abcrules.py 1315-1340).  The head of [stack]
    is the end of the Python list; [partial += reversed(new)] is [new ++ stack]. *)
Fixpoint dfs {St} (expand : St -> result (list (child St))) (maxn : option nat)
         (fuel : nat) (stack : list St) (win : list (list nat)) : result (list (list nat)) :=
  match stack with
  | [] => Ok win
  | s :: rest =>
      match fuel with
      | 0 => Err OutOfFuel
      | S fuel' =>
          do cs <- expand s;
          let '(ps, win', stop) := process maxn cs win in
          if stop then Ok win' else dfs expand maxn fuel' (ps ++ rest) win'
      end
  end.

(** Upper bound on the number of loop iterations for a tree of depth [r] and
    branching [b]. *)
Fixpoint tree_size (b r : nat) : nat :=
  match r with 0 => 1 | S r' => S (b * tree_size b r') end.

(** Brute-force scan (e.g. abcrules.py 745-756): [cmp x best] compares the score
    of the current committee with the best one so far; [keep_ties] is
    [not resolute] for the Thiele scan and [true] elsewhere. *)
Section Scan.
  Context {S : Type} (better same : S -> S -> bool) (score : list nat -> S) (keep_ties : bool).
  Definition scan_step (st : list (list nat) * S) (c : list nat) : list (list nat) * S :=
    let '(opt, best) := st in
    let s := score c in
    if better s best then ([c], s)
    else if same s best then (if keep_ties then (opt ++ [c], best) else (opt, best))
    else (opt, best).
  Definition scan (init : S) (cs : list (list nat)) : list (list nat) * S :=
    fold_left scan_step cs ([], init).
End Scan.

(* ================================================================ *)
(** * Facts about [dfs] *)

Lemma mem_comm_In : forall w l, mem_comm w l = true <-> In w l.
Proof.
  intros. unfold mem_comm. rewrite existsb_exists. split.
  - intros (x & Hx & E). destruct (list_eq_dec Nat.eq_dec w x); subst; auto; discriminate.
  - intros H. exists w. split; auto. destruct (list_eq_dec Nat.eq_dec w w); auto.
Qed.

Lemma set_add_In : forall w x win, In x (set_add w win) <-> x = w \/ In x win.
Proof.
  intros. unfold set_add. destruct (mem_comm w win) eqn:E.
  - apply mem_comm_In in E. split; auto. intros [->|]; auto.
  - rewrite in_app_iff. simpl. split; intros; intuition.
Qed.

Lemma set_add_NoDup : forall w win, NoDup win -> NoDup (set_add w win).
Proof.
  intros. unfold set_add. destruct (mem_comm w win) eqn:E; auto.
  assert (~ In w win) by (rewrite <- mem_comm_In; congruence).
  apply NoDup_app_intro; auto.
  - repeat constructor. intros [].
  - intros x Hx [<-|[]]. auto.
Qed.

Lemma set_add_length : forall w win, length (set_add w win) <= S (length win).
Proof.
  intros. unfold set_add. destruct (mem_comm w win); auto.
  rewrite app_length. simpl. lia.
Qed.

Lemma set_add_length_ge : forall w win, length win <= length (set_add w win).
Proof.
  intros. unfold set_add. destruct (mem_comm w win); auto.
  rewrite app_length. simpl. lia.
Qed.

Lemma nodes_pos : forall b r, 1 <= tree_size b r.
Proof. destruct r; simpl; lia. Qed.

Lemma tree_size_mono : forall b r r', r <= r' -> tree_size b r <= tree_size b r' \/ b = 0.
Proof.
  intros b r r' H. destruct b; [auto|left].
  induction H; auto. simpl. pose proof (nodes_pos (S b) m). nia.
Qed.

Definition below (maxn : option nat) (win : list (list nat)) : Prop :=
  match maxn with None => True | Some n => length win < n end.

Definition at_most (maxn : option nat) (win : list (list nat)) : Prop :=
  match maxn with None => True | Some n => length win <= n end.

Section ProcessFacts.
  Context {St : Type} (maxn : option nat).

  Lemma process_spec : forall (cs : list (child St)) win ps win' stop,
    process maxn cs win = (ps, win', stop) -> NoDup win -> below maxn win ->
    NoDup win' /\ incl win win' /\
    (forall w, In w win' -> In w win \/ In (Leaf w) cs) /\
    (stop = false -> below maxn win' /\
        (forall w, In (Leaf w) cs -> In w win') /\
        (forall s, In s ps <-> In (Partial s) cs) /\ length ps <= length cs) /\
    (stop = true -> exists n, maxn = Some n /\ length win' = n).
  Proof.
    induction cs as [|c r IH]; simpl; intros win ps win' stop H Hn Hb.
    - inversion H; subst. split; auto. split; [apply incl_refl|]. split; auto. split.
      + intros _. repeat split; auto; try tauto.
      + discriminate.
    - destruct c as [s|w].
      + destruct (process maxn r win) as [[ps0 win0] stop0] eqn:E.
        inversion H; subst. destruct (IH _ _ _ _ E Hn Hb) as (A & B & C & D & F).
        split; auto. split; auto. split.
        { intros w Hw. destruct (C w Hw); auto. }
        split; auto. intros Hs. destruct (D Hs) as (D1 & D2 & D3 & D4).
        split; auto. split.
        { intros w [Hw|Hw]; [discriminate|auto]. }
        split; [|simpl; lia].
        intro s'. simpl. rewrite D3. split; intros [X|X]; auto.
        * left; congruence.
        * left; congruence.
      + destruct (reached maxn (set_add w win)) eqn:E.
        * inversion H; subst. split; [apply set_add_NoDup; auto|].
          split; [intros x Hx; apply set_add_In; auto|]. split.
          { intros x Hx. apply set_add_In in Hx as [->|]; auto. }
          split; [discriminate|]. intros _. unfold reached in E.
          destruct maxn as [n|]; [|discriminate]. exists n. split; auto.
          apply Nat.eqb_eq; auto.
        * assert (Hb' : below maxn (set_add w win)).
          { unfold reached in E. unfold below in *. destruct maxn as [n|]; auto.
            apply Nat.eqb_neq in E. pose proof (set_add_length w win). lia. }
          destruct (IH _ _ _ _ H (set_add_NoDup w win Hn) Hb') as (A & B & C & D & F).
          split; auto. split.
          { intros x Hx. apply B, set_add_In; auto. }
          split.
          { intros x Hx. destruct (C x Hx) as [Hx'|Hx']; auto.
            apply set_add_In in Hx' as [->|]; auto. }
          split; auto. intros Hs. destruct (D Hs) as (D1 & D2 & D3 & D4).
          split; auto. split.
          { intros x [Hx|Hx]; auto. inversion Hx; subst. apply B, set_add_In; auto. }
          split; [|lia].
          intro s'. rewrite D3. split; intros; auto. destruct H0; [discriminate|auto].
  Qed.
End ProcessFacts.

Section DfsFacts.
  Context {St : Type} (expand : St -> result (list (child St))).

  (** [reach s w]: from the partial state [s], some sequence of tie-breaking
      choices ends in the committee [w]. *)
  Inductive reach : St -> list nat -> Prop :=
  | reach_leaf : forall s cs w, expand s = Ok cs -> In (Leaf w) cs -> reach s w
  | reach_step : forall s cs s' w,
      expand s = Ok cs -> In (Partial s') cs -> reach s' w -> reach s w.

  Variable Inv : St -> Prop.
  Variable rank : St -> nat.
  Variable b : nat.
  Hypothesis expand_ok : forall s, Inv s ->
    exists cs, expand s = Ok cs /\ length cs <= b /\ cs <> [] /\
      (forall s', In (Partial s') cs -> Inv s' /\ rank s' < rank s).

  Definition stack_cost (stack : list St) : nat :=
    fold_right (fun s n => tree_size b (rank s) + n) 0 stack.

  Lemma stack_cost_app : forall a c, stack_cost (a ++ c) = stack_cost a + stack_cost c.
  Proof. induction a; simpl; intros; auto. rewrite IHa. lia. Qed.

  Lemma stack_cost_bound : forall l r, (forall s, In s l -> rank s <= r) -> 0 < b ->
    stack_cost l <= length l * tree_size b r.
  Proof.
    induction l; simpl; intros r H Hb; auto.
    assert (tree_size b (rank a) <= tree_size b r).
    { destruct (tree_size_mono b (rank a) r); auto. lia. }
    specialize (IHl r (fun s Hs => H s (or_intror Hs)) Hb). lia.
  Qed.

  Theorem dfs_spec : forall maxn fuel stack win,
    Forall Inv stack -> NoDup win -> below maxn win ->
    stack_cost stack <= fuel ->
    exists win', dfs expand maxn fuel stack win = Ok win' /\
      NoDup win' /\ incl win win' /\ at_most maxn win' /\
      (forall w, In w win' -> In w win \/ exists s, In s stack /\ reach s w) /\
      ((maxn = None \/ exists n, maxn = Some n /\ length win' < n) ->
         forall s w, In s stack -> reach s w -> In w win').
  Proof using expand_ok.
    intros maxn fuel. induction fuel as [|fuel IH]; intros stack win Hinv Hn Hb Hf.
    - destruct stack as [|s rest].
      + exists win. simpl. repeat split; auto.
        * apply incl_refl.
        * unfold below, at_most in *. destruct maxn; auto. lia.
        * intros _ s w [].
      + simpl in Hf. pose proof (nodes_pos b (rank s)). lia.
    - destruct stack as [|s rest].
      + exists win. simpl. repeat split; auto.
        * apply incl_refl.
        * unfold below, at_most in *. destruct maxn; auto. lia.
        * intros _ s w [].
      + inversion Hinv as [|? ? Hs Hrest]; subst.
        destruct (expand_ok s Hs) as (cs & Ecs & Hlen & Hne & Hch).
        simpl. rewrite Ecs. simpl.
        destruct (process maxn cs win) as [[ps win1] stop] eqn:Ep.
        destruct (process_spec maxn cs win ps win1 stop Ep Hn Hb) as (A & B & C & D & F).
        destruct stop.
        * exists win1. split; auto. split; auto. split; auto.
          destruct (F eq_refl) as (n & Em & El). split.
          { rewrite Em. simpl. lia. }
          split.
          { intros w Hw. destruct (C w Hw) as [|Hc]; auto.
            right. exists s. split; [left; auto|]. eapply reach_leaf; eauto. }
          { intros [Hm|(n' & Hm & Hl)].
            - congruence.
            - exfalso. rewrite Em in Hm. inversion Hm. subst. lia. }
        * destruct (D eq_refl) as (D1 & D2 & D3 & D4).
          assert (Hcost : stack_cost (ps ++ rest) <= fuel).
          { rewrite stack_cost_app. simpl in Hf.
            assert (0 < b) by (destruct cs; [congruence|simpl in Hlen; lia]).
            destruct (rank s) as [|r] eqn:Er.
            - assert (ps = []).
              { destruct ps as [|s' ps']; auto. exfalso.
                assert (Hi : In (Partial s') cs) by (apply D3; left; auto).
                apply Hch in Hi as [_ Hi]. lia. }
              subst ps. simpl. simpl in Hf. lia.
            - assert (stack_cost ps <= length ps * tree_size b r).
              { apply stack_cost_bound; auto. intros s' Hs'. apply D3 in Hs'.
                apply Hch in Hs' as [_ Hs']. lia. }
              assert (length ps * tree_size b r <= b * tree_size b r)
                by (apply Nat.mul_le_mono_r; lia).
              simpl in Hf. lia. }
          destruct (IH (ps ++ rest) win1) as (win' & E' & N' & I' & M' & S' & C'); auto.
          { apply Forall_app. split; auto. apply Forall_forall. intros s' Hs'.
            apply D3 in Hs'. apply Hch in Hs'. tauto. }
          exists win'. split; auto. split; auto. split.
          { intros x Hx. apply I', B; auto. }
          split; auto. split.
          { intros w Hw. destruct (S' w Hw) as [Hw'|(s' & Hs' & Hr)].
            - destruct (C w Hw') as [|Hc]; auto. right. exists s.
              split; [left; auto|]. eapply reach_leaf; eauto.
            - apply in_app_iff in Hs' as [Hs'|Hs'].
              + right. exists s. split; [left; auto|].
                eapply reach_step; eauto. apply D3; auto.
              + right. exists s'. split; [right; auto|auto]. }
          { intros Hm s' w [<-|Hs'] Hr.
            - inversion Hr; subst.
              + assert (cs0 = cs) by congruence. subst. apply I', D2; auto.
              + assert (cs0 = cs) by congruence. subst.
                match goal with Hx : In (Partial ?x) cs, Hy : reach ?x w |- _ =>
                  apply (C' Hm x w); auto; apply in_app_iff; left; apply D3; auto end.
            - apply (C' Hm s' w); auto. apply in_app_iff. auto. }
  Qed.

  Lemma reach_exists : forall s, Inv s -> exists w, reach s w.
  Proof using expand_ok.
    intro s. remember (rank s) as r eqn:Er. revert s Er.
    induction r as [r IH] using lt_wf_ind. intros s Er Hs.
    destruct (expand_ok s Hs) as (cs & Ecs & Hlen & Hne & Hch).
    destruct cs as [|c cs']; [congruence|]. destruct c as [s'|w].
    - destruct (Hch s' (or_introl eq_refl)) as [Hi Hr].
      destruct (IH (rank s') ltac:(lia) s' eq_refl Hi) as (w & Hw).
      exists w. eapply reach_step; eauto. left; auto.
    - exists w. eapply reach_leaf; eauto. left; auto.
  Qed.

  (** The leftmost branch: always the first tied candidate. *)
  Inductive first_reach : St -> list nat -> Prop :=
  | first_leaf : forall s cs w, expand s = Ok (Leaf w :: cs) -> first_reach s w
  | first_step : forall s cs s' w,
      expand s = Ok (Partial s' :: cs) -> first_reach s' w -> first_reach s w.

  Lemma first_reach_reach : forall s w, first_reach s w -> reach s w.
  Proof using.
    induction 1.
    - eapply reach_leaf; eauto. left; auto.
    - eapply reach_step; eauto. left; auto.
  Qed.

  (** If all children of a node are of the same kind (partial committees of the
      same length), asking for one committee returns the leftmost one. *)
  Hypothesis homogeneous : forall s cs, Inv s -> expand s = Ok cs ->
    (exists ss, cs = map Partial ss) \/ (exists ws, cs = map Leaf ws).

  Lemma process_partials : forall maxn (ss : list St) win,
    process maxn (map Partial ss) win = (ss, win, false).
  Proof using. induction ss; simpl; intros; auto. rewrite IHss. auto. Qed.

  Theorem dfs_first : forall fuel s rest w,
    Inv s -> stack_cost [s] <= fuel -> first_reach s w ->
    dfs expand (Some 1) fuel (s :: rest) [] = Ok [w].
  Proof using expand_ok homogeneous.
    intros fuel. induction fuel as [|fuel IH]; intros s rest w Hs Hf Hr.
    - simpl in Hf. pose proof (nodes_pos b (rank s)). lia.
    - inversion Hr; subst.
      + simpl. rewrite H. simpl. reflexivity.
      + destruct (expand_ok s Hs) as (cs' & Ecs & Hlen & Hne & Hch).
        assert (cs' = Partial s' :: cs) by congruence. subst cs'. clear Ecs.
        destruct (homogeneous s _ Hs H) as [(ss & Ess)|(ws & Ews)].
        * destruct ss as [|s'' ss]; [discriminate|]. simpl in Ess.
          inversion Ess; subst. simpl. rewrite H. simpl.
          rewrite process_partials. simpl.
          destruct (Hch s'' (or_introl eq_refl)) as [Hi Hrk].
          apply IH; auto. simpl. simpl in Hf.
          assert (0 < b) by (simpl in Hlen; lia).
          destruct (rank s) as [|r]; [lia|].
          destruct (tree_size_mono b (rank s'') r ltac:(lia)) as [Hm|Hm]; [|lia].
          simpl in Hf. pose proof (nodes_pos b r). nia.
        * destruct ws; discriminate.
  Qed.
End DfsFacts.

(** * Facts about [scan] *)
Section ScanFacts.
  Context {S : Type} (better same : S -> S -> bool) (score : list nat -> S).
  (** a total preorder "at least as good", of which [better]/[same] are the
      strict part and the equivalence *)
  Variable geb : S -> S -> bool.
  Hypothesis geb_trans : forall x y z, geb x y = true -> geb y z = true -> geb x z = true.
  Hypothesis geb_total : forall x y, geb x y = true \/ geb y x = true.
  Hypothesis better_eq : forall x y, better x y = negb (geb y x).
  Hypothesis same_eq : forall x y, better x y = false -> same x y = geb x y.

  Let is_max (cs : list (list nat)) (c : list nat) : bool :=
    forallb (fun c' => geb (score c) (score c')) cs.

  Lemma geb_refl : forall x, geb x x = true.
  Proof using geb_total. intro x. destruct (geb_total x x); auto. Qed.

  Lemma scan_gen : forall kt cs opt best, 
    exists opt' best', fold_left (scan_step better same score kt) cs (opt, best) = (opt', best') /\
      geb best' best = true /\
      (forall c, In c cs -> geb best' (score c) = true) /\
      (geb best best' = true ->
         opt' = opt ++ (if kt then filter (fun c => geb (score c) best) cs else []) /\ best' = best) /\
      (geb best best' = false ->
         In best' (map score cs) /\
         (if kt then opt' = filter (fun c => geb (score c) best') cs
          else exists c l1 l2, opt' = [c] /\ cs = l1 ++ c :: l2 /\ score c = best' /\
                 (forall x, In x l1 -> geb (score x) best' = false))).
  Proof using geb_trans geb_total better_eq same_eq.
    intros kt. induction cs as [|c r IH]; intros opt best.
    - exists opt, best. simpl. rewrite geb_refl. repeat split; auto; try (destruct kt; rewrite app_nil_r); try congruence.
    - cbn [fold_left]. unfold scan_step at 2. rewrite better_eq.
      destruct (geb best (score c)) eqn:E; cbn [negb].
      + rewrite same_eq by (rewrite better_eq, E; auto).
        set (opt1 := if geb (score c) best then if kt then (opt ++ [c], best) else (opt, best) else (opt, best)).
        assert (H1 : opt1 = (fst opt1, best)) by (unfold opt1; destruct (geb (score c) best), kt; auto).
        rewrite H1. destruct (IH (fst opt1) best) as (opt' & best' & EE & A & B & C & D).
        exists opt', best'. split; auto. split; auto. split.
        { intros x [<-|Hx]; auto. eapply geb_trans; eauto. }
        split.
        { intro Hb. destruct (C Hb) as [-> ->]. split; auto. unfold opt1.
          simpl. destruct kt; [|destruct (geb (score c) best); auto].
          destruct (geb (score c) best); simpl; auto. rewrite <- app_assoc. auto. }
        { intro Hb. destruct (D Hb) as [D1 D2]. split; [simpl; auto|].
          assert (Hc : geb (score c) best' = false).
          { destruct (geb (score c) best') eqn:Ec; auto.
            assert (geb best best' = true) by (eapply geb_trans; eauto). congruence. }
          destruct kt.
          - simpl. rewrite Hc. auto.
          - destruct D2 as (c0 & l1 & l2 & -> & -> & Es & Hl). exists c0, (c :: l1), l2.
            repeat split; auto. intros x [<-|Hx]; auto. }
      + destruct (IH [c] (score c)) as (opt' & best' & EE & A & B & C & D).
        assert (Hgt : geb (score c) best = true) by (destruct (geb_total best (score c)); congruence).
        exists opt', best'. split; auto. split; [eapply geb_trans; eauto|]. split.
        { intros x [<-|Hx]; auto. }
        assert (Hnb : geb best best' = false).
        { destruct (geb best best') eqn:Ec; auto.
          assert (geb best (score c) = true) by (eapply geb_trans; eauto). congruence. }
        split; [congruence|]. intros _.
        destruct (geb (score c) best') eqn:Ec.
        * destruct (C eq_refl) as [-> ->]. split; [simpl; auto|].
          destruct kt; simpl.
          -- rewrite geb_refl. auto.
          -- exists c, [], r. repeat split; auto. intros x [].
        * destruct (D eq_refl) as [D1 D2]. split; [simpl; auto|].
          destruct kt; simpl.
          -- rewrite Ec. auto.
          -- destruct D2 as (c0 & l1 & l2 & -> & -> & Es & Hl). exists c0, (c :: l1), l2.
             repeat split; auto. intros x [<-|Hx]; auto.
  Qed.

  Lemma scan_all : forall init cs, (exists c, In c cs /\ geb (score c) init = true) ->
    fst (scan better same score true init cs) = filter (is_max cs) cs.
  Proof using geb_trans geb_total better_eq same_eq.
    intros init cs (c0 & Hc0 & H0). unfold scan.
    destruct (scan_gen true cs [] init) as (opt' & best' & E & A & B & C & D).
    rewrite E. simpl.
    assert (Hmax : exists cm, In cm cs /\ geb (score cm) best' = true).
    { destruct (geb init best') eqn:Eb.
      - exists c0. split; auto. eapply geb_trans; eauto.
      - destruct (D eq_refl) as [D1 _]. apply in_map_iff in D1 as (cm & Es & Hcm).
        exists cm. split; auto. rewrite Es. apply geb_refl. }
    destruct Hmax as (cm & Hcm & Hm).
    assert (Ho : opt' = filter (fun c => geb (score c) best') cs).
    { destruct (geb init best') eqn:Eb.
      - destruct (C eq_refl) as [-> ->]. auto.
      - destruct (D eq_refl) as [_ D2]. auto. }
    rewrite Ho. apply filter_ext_in. intros c Hc. unfold is_max.
    destruct (geb (score c) best') eqn:Ec; symmetry.
    - apply forallb_forall. intros x Hx. eapply geb_trans; eauto.
    - apply not_true_iff_false. intro Hf. rewrite forallb_forall in Hf.
      specialize (Hf cm Hcm). assert (geb (score c) best' = true) by (eapply geb_trans; eauto).
      congruence.
  Qed.

  (** resolute scan: the first maximiser in enumeration order *)
  Lemma scan_one : forall init cs, (exists c, In c cs /\ geb init (score c) = false) ->
    exists c l1 l2, fst (scan better same score false init cs) = [c] /\
      cs = l1 ++ c :: l2 /\ (forall x, In x cs -> geb (score c) (score x) = true) /\
      (forall x, In x l1 -> geb (score x) (score c) = false).
  Proof using geb_trans geb_total better_eq same_eq.
    intros init cs (c0 & Hc0 & H0). unfold scan.
    destruct (scan_gen false cs [] init) as (opt' & best' & E & A & B & C & D).
    rewrite E. simpl. destruct (geb init best') eqn:Eb.
    - exfalso. assert (geb init (score c0) = true) by (eapply geb_trans; eauto). congruence.
    - destruct (D eq_refl) as [_ (c & l1 & l2 & -> & -> & Es & Hl)].
      exists c, l1, l2. subst best'. repeat split; auto.
  Qed.
End ScanFacts.
