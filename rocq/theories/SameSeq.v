(** * The sequential rules see a profile only through weighted sums

    Loads and budgets per unit of weight depend on the approval set only, so the
    rules of RulesSeq.v and RulesMes.v give the same results for "the same
    election" ([same_election]). *)
From Coq Require Import String.
From Coq Require Import List Arith Bool ZArith QArith Qround Lia Lqa Permutation Sorted.
From Verif Require Import Prelude Misc MiscProofs Preferences Spec SpecRules Scores ScoresProofs Search Rule RulesThiele
  Common ThieleProofs BBProofs RevseqProofs OptProofs Compute PrefProofs EquivProofs
  RulesSeq RulesMes ComputeSeq SpecSeq PhragmenProofs MesProofs MesFinal RulesMore.
Import ListNotations.
Open Scope nat_scope.

(** ** Loops over related states *)
Inductive rel_child {S T} (R : S -> T -> Prop) : child S -> child T -> Prop :=
| rel_partial : forall s t, R s t -> rel_child R (Partial s) (Partial t)
| rel_leaf : forall x, rel_child R (Leaf x) (Leaf x).
Definition rel_result {A B} (R : A -> B -> Prop) (x : result A) (y : result B) : Prop :=
  match x, y with Ok a, Ok b => R a b | Err e, Err e' => e = e' | _, _ => False end.

Lemma process_rel : forall S T (R : S -> T -> Prop) maxn cs ds win, Forall2 (rel_child R) cs ds ->
  Forall2 R (fst (fst (process maxn cs win))) (fst (fst (process maxn ds win))) /\
  snd (fst (process maxn cs win)) = snd (fst (process maxn ds win)) /\
  snd (process maxn cs win) = snd (process maxn ds win).
Proof.
  intros S T R maxn cs ds win H. revert win. induction H as [|c d cs ds Hcd H IH]; intros win; [cbn; auto|].
  destruct Hcd as [s t Hst|x]; cbn [process].
  - destruct (IH win) as (A & B & C). destruct (process maxn cs win) as [[ps w1] s1]. destruct (process maxn ds win) as [[qs w2] s2].
    cbn in *. auto.
  - destruct (reached maxn (set_add x win)); [cbn; auto|apply IH].
Qed.

Lemma dfs_rel : forall S T (R : S -> T -> Prop) e1 e2 maxn,
  (forall s t, R s t -> rel_result (Forall2 (rel_child R)) (e1 s) (e2 t)) ->
  forall fuel st1 st2 win, Forall2 R st1 st2 -> dfs e1 maxn fuel st1 win = dfs e2 maxn fuel st2 win.
Proof.
  intros S T R e1 e2 maxn He. induction fuel as [|fuel IH]; intros st1 st2 win H; destruct H as [|s t st1 st2 Hst H]; cbn [dfs]; auto.
  specialize (He s t Hst). destruct (e1 s) as [cs|], (e2 t) as [ds|]; cbn in He; try contradiction; [|subst; auto]. cbn [rbind].
  destruct (process_rel S T R maxn cs ds win He) as (A & B & C).
  destruct (process maxn cs win) as [[ps w1] s1]. destruct (process maxn ds win) as [[qs w2] s2]. cbn in A, B, C. subst.
  destruct s2; auto. apply IH. apply Forall2_app; auto.
Qed.

Definition rel_expansion {S T} (R : S -> T -> Prop) (x : expansion S) (y : expansion T) : Prop :=
  match x, y with
  | Branch cs, Branch ds => Forall2 (rel_child R) cs ds
  | Finish a, Finish b => a = b
  | _, _ => False
  end.
Lemma pool_rel : forall S T (R : S -> T -> Prop) e1 e2 maxn,
  (forall s t, R s t -> rel_result (rel_expansion R) (e1 s) (e2 t)) ->
  forall fuel st1 st2 win, Forall2 R st1 st2 -> pool_loop e1 maxn fuel st1 win = pool_loop e2 maxn fuel st2 win.
Proof.
  intros S T R e1 e2 maxn He. induction fuel as [|fuel IH]; intros st1 st2 win H; destruct H as [|s t st1 st2 Hst H]; cbn [pool_loop]; auto.
  specialize (He s t Hst). destruct (e1 s) as [x|], (e2 t) as [y|]; cbn in He; try contradiction; [|subst; auto]. cbn [rbind].
  assert (K : forall ps qs w, Forall2 R ps qs ->
     match maxn with
     | Some n => if n <=? length w then (do s <- sorted_committees w; Ok (firstn n s)) else pool_loop e1 maxn fuel (ps ++ st1) w
     | None => pool_loop e1 maxn fuel (ps ++ st1) w end =
     match maxn with
     | Some n => if n <=? length w then (do s <- sorted_committees w; Ok (firstn n s)) else pool_loop e2 maxn fuel (qs ++ st2) w
     | None => pool_loop e2 maxn fuel (qs ++ st2) w end).
  { intros ps qs w Hps. assert (E : pool_loop e1 maxn fuel (ps ++ st1) w = pool_loop e2 maxn fuel (qs ++ st2) w) by (apply IH, Forall2_app; auto).
    rewrite E. reflexivity. }
  destruct x as [cs|a], y as [ds|b]; cbn in He; try contradiction.
  - destruct (process_rel S T R maxn cs ds win He) as (A & B & C).
    destruct (process maxn cs win) as [[ps w1] s1]. destruct (process maxn ds win) as [[qs w2] s2]. cbn in A, B, C. subst.
    destruct s2; auto.
  - subst b. apply K. constructor.
Qed.

(** ** States as functions of the approval set *)
Definition rep (p : profile) (g : voter -> Q) (a : list Q) : Prop :=
  forall i, i < length (voters p) -> (nthQ a i == g (the_voter p i))%Q.

Lemma rep_map : forall p (f : nat * voter -> Q) g, (forall i, i < length (voters p) -> (f (i, the_voter p i) == g (the_voter p i))%Q) ->
  rep p g (map f (enum_voters p)).
Proof.
  intros p f g H i Hi. rewrite enum_voters_eq, map_map. unfold nthQ.
  rewrite (nth_indep _ 0%Q (f (0, the_voter p 0))) by (rewrite map_length; unfold voter_ids; rewrite seq_length; auto).
  change (f (0, the_voter p 0)) with ((fun i => f (i, the_voter p i)) 0). rewrite map_nth.
  unfold voter_ids. rewrite seq_nth by auto. apply H. auto.
Qed.
Lemma rep_voters : forall p (f : voter -> Q), rep p f (map f (voters p)).
Proof.
  intros p f i Hi. unfold nthQ, the_voter.
  rewrite (nth_indep _ 0%Q (f (mkVoter [] 1 true))) by (rewrite map_length; auto). rewrite map_nth. reflexivity.
Qed.
Lemma rep_repeat : forall p, rep p (fun _ => 0%Q) (repeat 0%Q (length (voters p))).
Proof. intros p i Hi. unfold nthQ. rewrite nth_repeat. reflexivity. Qed.

Lemma all_ids : forall p (G : voter -> Q), (sum (voter_ids p) (fun i => G (the_voter p i)) == Qsum (map G (voters p)))%Q.
Proof.
  intros p G. unfold sum, voter_ids, the_voter. rewrite <- (map_map (fun i => nth i (voters p) (mkVoter [] 1 true)) G).
  assert (E : map (fun i => nth i (voters p) (mkVoter [] 1 true)) (seq 0 (length (voters p))) = voters p).
  { apply nth_ext with (d := mkVoter [] 1 true) (d' := mkVoter [] 1 true); [rewrite map_length, seq_length; auto|].
    intros n Hn. rewrite map_length, seq_length in Hn.
    rewrite (nth_indep _ _ (nth 0 (voters p) (mkVoter [] 1 true))) by (rewrite map_length, seq_length; auto).
    rewrite (map_nth (fun i => nth i (voters p) (mkVoter [] 1 true))). rewrite seq_nth by auto. auto. }
  rewrite E. reflexivity.
Qed.

Lemma sum_filter_ids : forall (P : nat -> bool) l f, (sum (filter P l) f == sum l (fun i => if P i then f i else 0))%Q.
Proof.
  intros P l f. unfold sum, Qsum. induction l as [|i l IH]; cbn; [reflexivity|]. destruct (P i); cbn; rewrite IH; ring.
Qed.

Lemma sum_ext_ids : forall p (f g : nat -> Q), (forall i, i < length (voters p) -> (f i == g i)%Q) -> (sum (voter_ids p) f == sum (voter_ids p) g)%Q.
Proof.
  intros p f g H. unfold sum, voter_ids.
  apply Qsum_map_ext. intros i Hi. apply in_seq in Hi. apply H. lia.
Qed.

(** a sum over the fans of [c] *)
Lemma fans_lin : forall p c (f : nat -> Q) h, (forall i, i < length (voters p) -> (f i == w p i * h (approved (the_voter p i)))%Q) ->
  (sum (fans p c) f == lin (fun a => if mem c a then h a else 0) (voters p))%Q.
Proof.
  intros p c f h H. unfold fans. rewrite sum_filter_ids. unfold lin. rewrite <- all_ids.
  apply sum_ext_ids. intros i Hi.
  unfold likes, approves, w in *. fold (mem c (approved (the_voter p i))).
  destruct (mem c (approved (the_voter p i))); [apply H; auto|ring].
Qed.

Section Same.
  Variables p q : profile.
  Hypothesis Hp : wf p.
  Hypothesis Hq : wf q.
  Hypothesis Hs : same_election p q.
  Let cands := same_cands p q Hs.
  Let num := same_num p q Hs.

  Lemma weight_pos : forall r i, wf r -> i < length (voters r) -> (0 < weight (the_voter r i))%Q.
  Proof using.
    intros r i [_ H] Hi. rewrite Forall_forall in H. destruct (H (the_voter r i)) as (_ & _ & A); auto. apply nth_In. auto.
  Qed.

  Lemma same_fans : forall c (f g : nat -> Q) h h', set_fun h -> (forall a, (h a == h' a)%Q) ->
    (forall i, i < length (voters p) -> (f i == w p i * h (approved (the_voter p i)))%Q) ->
    (forall i, i < length (voters q) -> (g i == w q i * h' (approved (the_voter q i)))%Q) ->
    (sum (fans p c) f == sum (fans q c) g)%Q.
  Proof using Hs.
    intros c f g h h' Hh E A B. rewrite (fans_lin p c f h A), (fans_lin q c g h).
    - apply Hs. intros a b Hab. rewrite (mem_perm c a b Hab). destruct (mem c b); [apply Hh; auto|reflexivity].
    - intros i Hi. rewrite B, E by auto. reflexivity.
  Qed.
  Lemma same_fans_weight : forall c, (sum (fans p c) (w p) == sum (fans q c) (w q))%Q.
  Proof using Hs.
    intros c. apply (same_fans c (w p) (w q) (fun _ => 1%Q) (fun _ => 1%Q)); try (intros; ring). intros a b _. reflexivity.
  Qed.

  (** ** Selecting by a score that is the same on both sides *)
  Lemma map_leq : forall (f g : nat -> Q) l, (forall c, In c l -> (f c == g c)%Q) -> leq (map f l) (map g l).
  Proof using. intros f g l H. induction l; constructor; [apply H; cbn; auto|apply IHl; intros; apply H; cbn; auto]. Qed.
  Lemma max_entries_same : forall (f g : nat -> Q) l, (forall c, In c l -> (f c == g c)%Q) -> max_entries f l = max_entries g l.
  Proof using.
    intros f g l H. unfold max_entries. pose proof (py_max_leq _ _ (map_leq f g l H)) as E.
    destruct (py_max (map f l)) as [x|], (py_max (map g l)) as [y|]; cbn in E |- *; try contradiction; [|subst; auto].
    f_equal. apply filter_ext_in. intros c Hc. specialize (H c Hc).
    destruct (Qeq_bool (f c) x) eqn:A, (Qeq_bool (g c) y) eqn:B; auto.
    - apply Qeq_bool_iff in A. apply Qeq_bool_neq in B. exfalso. apply B. rewrite <- H, A, E. reflexivity.
    - apply Qeq_bool_iff in B. apply Qeq_bool_neq in A. exfalso. apply A. rewrite H, B, E. reflexivity.
  Qed.
  Lemma same_available : forall C, available p C = available q C.
  Proof using Hs. intros. unfold available. rewrite cands. auto. Qed.

  (** ** The generic loops *)
  Section Generic.
    Variable R : list Q -> list Q -> Prop.
    Variables s1 s2 : list nat -> list Q -> result (list nat).
    Variables n1 n2 : list nat -> list Q -> nat -> list Q.
    Hypothesis Hsel : forall C a b, R a b -> s1 C a = s2 C b.
    Hypothesis Hnext : forall C a b l c, R a b -> s1 C a = Ok l -> In c l -> R (n1 C a c) (n2 C b c).

    Definition RS (s t : list nat * list Q) : Prop := fst s = fst t /\ R (snd s) (snd t).
    Lemma expand_rel : forall k s t, RS s t -> rel_result (Forall2 (rel_child RS)) (seq_expand k s1 n1 s) (seq_expand k s2 n2 t).
    Proof using Hsel Hnext.
      intros k [C a] [D b] [E H]. cbn in E, H. subst D. unfold seq_expand. rewrite <- (Hsel C a b H).
      destruct (s1 C a) as [l|] eqn:El; cbn; auto.
      assert (K : forall m, incl m l -> Forall2 (rel_child RS)
        (map (fun c => if length (C ++ [c]) =? k then Leaf (isort (C ++ [c])) else Partial (C ++ [c], n1 C a c)) m)
        (map (fun c => if length (C ++ [c]) =? k then Leaf (isort (C ++ [c])) else Partial (C ++ [c], n2 C b c)) m)).
      { induction m as [|c m IH]; intros Hm; constructor; [|apply IH; intros x Hx; apply Hm; cbn; auto].
        destruct (length (C ++ [c]) =? k); constructor. split; auto. cbn. eapply Hnext; eauto. apply Hm. cbn; auto. }
      apply K. apply incl_refl.
    Qed.
    Lemma loop_rel : forall rounds C a b, R a b -> seq_loop s1 n1 rounds C a = seq_loop s2 n2 rounds C b.
    Proof using Hsel Hnext.
      induction rounds as [|r IH]; intros C a b H; cbn [seq_loop]; auto. rewrite <- (Hsel C a b H).
      destruct (s1 C a) as [[|c l]|] eqn:E; cbn; auto. apply IH. eapply Hnext; eauto. cbn; auto.
    Qed.
  End Generic.

  (** ** Sequential Phragmén: loads are functions of the approval set *)
  Definition Rload (a b : list Q) : Prop :=
    exists h, set_fun h /\ rep p (fun v => h (approved v)) a /\ rep q (fun v => h (approved v)) b.

  Lemma approvers_weight_same : forall c, (approvers_weight p c == approvers_weight q c)%Q.
  Proof using Hs.
    intros c. unfold approvers_weight. rewrite !(fold_left_sum voter weight).
    assert (E : forall r, (Qsum (map weight (filter (fun v => mem c (approved v)) (voters r))) == lin (fun a => if mem c a then 1 else 0) (voters r))%Q).
    { intros r. unfold lin, Qsum. induction (voters r) as [|v vs IH]; cbn; [reflexivity|].
      destruct (mem c (approved v)); cbn; rewrite IH; ring. }
    rewrite !E. pose proof (proj2 Hs) as H. rewrite H; [reflexivity|].
    intros a b Hab. rewrite (mem_perm c a b Hab). reflexivity.
  Qed.
  Lemma approvers_load_fans : forall r a c, (approvers_load r a c == sum (fans r c) (fun i => w r i * nthQ a i))%Q.
  Proof using.
    intros r a c. unfold approvers_load. rewrite pairs_fans.
    rewrite (fold_pairs r (fun i v => weight v * nthQ a i)%Q). reflexivity.
  Qed.
  Lemma new_maxload_same : forall k C a b c, Rload a b -> (new_maxload p k C a c == new_maxload q k C b c)%Q.
  Proof using Hs.
    intros k C a b c (h & Hh & A & B). unfold new_maxload. destruct (mem c C); [reflexivity|].
    rewrite (Qltb_comp 0 0 _ _ (Qeq_refl 0) (approvers_weight_same c)).
    destruct (Qltb 0 (approvers_weight q c)); [|reflexivity].
    rewrite approvers_weight_same, !approvers_load_fans.
    rewrite (same_fans c _ (fun i => w q i * nthQ b i)%Q h h); [reflexivity|auto|reflexivity| |]; intros i Hi.
    - rewrite (A i Hi). reflexivity.
    - rewrite (B i Hi). reflexivity.
  Qed.
  Lemma phragmen_select_same : forall k C a b, Rload a b -> phragmen_select p k C a = phragmen_select q k C b.
  Proof using Hs.
    intros k C a b H. unfold phragmen_select. rewrite <- cands.
    assert (L : leq (map (new_maxload p k C a) (candidates p)) (map (new_maxload q k C b) (candidates p))).
    { apply map_leq. intros. apply new_maxload_same; auto. }
    pose proof (py_min_leq _ _ L) as E.
    destruct (py_min (map (new_maxload p k C a) (candidates p))) as [x|], (py_min (map (new_maxload q k C b) (candidates p))) as [y|];
      cbn in E |- *; try contradiction; [|subst; auto].
    f_equal. apply filter_ext_leq. intros c. apply Qle_bool_comp'; auto. apply leq_get. auto.
  Qed.
  Lemma phragmen_next_same : forall k C a b c, Rload a b -> Rload (phragmen_next p k C a c) (phragmen_next q k C b c).
  Proof using Hs.
    intros k C a b c H. pose proof (new_maxload_same k C a b c H) as E. destruct H as (h & Hh & A & B).
    exists (fun s => if mem c s then new_maxload p k C a c else h s). split; [|split].
    - intros s t Hst. rewrite (mem_perm c s t Hst). destruct (mem c t); [reflexivity|apply Hh; auto].
    - apply rep_map. intros i Hi. cbn [fst snd]. destruct (mem c (approved (the_voter p i))); [reflexivity|apply A; auto].
    - apply rep_map. intros i Hi. cbn [fst snd]. destruct (mem c (approved (the_voter q i))); [symmetry; exact E|apply B; auto].
  Qed.

  Lemma seqphragmen_resolute_same : forall k a b C, Rload a b -> seqphragmen_resolute p k a C = seqphragmen_resolute q k b C.
  Proof using Hs.
    intros k a b C H. unfold seqphragmen_resolute.
    rewrite (loop_rel Rload _ (phragmen_select q k) _ (phragmen_next q k)) with (b := b); auto.
    - intros. apply phragmen_select_same; auto.
    - intros. apply phragmen_next_same; auto.
  Qed.
  Lemma seqphragmen_irresolute_same : forall k m a b C, Rload a b ->
    seqphragmen_irresolute p k m a C = seqphragmen_irresolute q k m b C.
  Proof using Hs.
    intros k m a b C H. unfold seqphragmen_irresolute. rewrite num.
    rewrite (dfs_rel _ _ (RS Rload) _ (seq_expand k (phragmen_select q k) (phragmen_next q k)) m) with (st2 := [(C, b)]); auto.
    - intros. apply expand_rel; auto; intros; [apply phragmen_select_same|apply phragmen_next_same]; auto.
    - constructor; [split; auto|constructor].
  Qed.
  Lemma zero_load_same : Rload (zero_load p) (zero_load q).
  Proof using. exists (fun _ => 0%Q). split; [intros a b _; reflexivity|]. split; apply rep_repeat. Qed.
  Lemma same_seqphragmen : forall k resolute m, seqphragmen p k resolute m = seqphragmen q k resolute m.
  Proof using Hs.
    intros. unfold seqphragmen. rewrite (seqphragmen_resolute_same k _ (zero_load q)), (seqphragmen_irresolute_same k m _ (zero_load q)); auto using zero_load_same.
  Qed.

  Lemma repE : forall r f l, rep r f l -> forall i, i < length (voters r) -> (nthQ l i == f (the_voter r i))%Q.
  Proof using. intros r f l H i Hi. exact (H i Hi). Qed.
  (** ** Budgets: weight times a function of the approval set *)
  Definition Rbudget (a b : list Q) : Prop :=
    exists h, set_fun h /\ rep p (fun v => weight v * h (approved v))%Q a /\ rep q (fun v => weight v * h (approved v))%Q b.

  Lemma pe_support_fans : forall r a c, (pe_support r a c == sum (fans r c) (fun i => if Qle_bool (nthQ a i) 0 then 0 else nthQ a i))%Q.
  Proof using.
    intros r a c. unfold pe_support.
    assert (K : forall l s, (fold_left (fun s iv => if Qle_bool (nthQ a (fst iv)) 0 then s
        else if mem c (approved (snd iv)) then s + nthQ a (fst iv) else s) l s ==
        s + Qsum (map (fun iv => if mem c (approved (snd iv)) then (if Qle_bool (nthQ a (fst iv)) 0 then 0 else nthQ a (fst iv)) else 0) l))%Q).
    { unfold Qsum. induction l as [|iv l IH]; intros s; cbn [fold_left map fold_right]; [ring|]. rewrite IH.
      destruct (Qle_bool (nthQ a (fst iv)) 0), (mem c (approved (snd iv))); ring. }
    rewrite K, enum_voters_eq, map_map. unfold fans. rewrite sum_filter_ids. unfold sum, likes, approves. cbn [fst snd]. ring.
  Qed.
  Lemma Qle_bool_scale : forall x y z, (0 < x)%Q -> (z == x * y)%Q -> Qle_bool z 0 = Qle_bool y 0.
  Proof using.
    intros x y z Hx E. destruct (Qle_bool z 0) eqn:A, (Qle_bool y 0) eqn:B; auto.
    - apply Qle_bool_iff in A. apply Qle_bool_false in B. rewrite E in A. nra.
    - apply Qle_bool_iff in B. apply Qle_bool_false in A. rewrite E in A. nra.
  Qed.
  Lemma pos_part_same : forall r a h, wf r -> rep r (fun v => weight v * h (approved v))%Q a -> forall i, i < length (voters r) ->
    ((if Qle_bool (nthQ a i) 0 then 0 else nthQ a i) ==
     w r i * (if Qle_bool (h (approved (the_voter r i))) 0 then 0 else h (approved (the_voter r i))))%Q.
  Proof using.
    intros r a h Hr A i Hi. apply (fun H => repE _ _ _ H i Hi) in A. cbn beta in A.
    rewrite (Qle_bool_scale (weight (the_voter r i)) (h (approved (the_voter r i))) (nthQ a i)); auto using weight_pos.
    destruct (Qle_bool (h (approved (the_voter r i))) 0); [ring|]. rewrite A. reflexivity.
  Qed.
  Lemma pos_set_fun : forall h, set_fun h -> set_fun (fun s => if Qle_bool (h s) 0 then 0%Q else h s).
  Proof using.
    intros h Hh s t H. rewrite (Qle_bool_comp' (h s) (h t) 0 0 (Hh s t H) (Qeq_refl 0)). destruct (Qle_bool (h t) 0); [reflexivity|auto].
  Qed.
  Lemma pe_support_same : forall a b c, Rbudget a b -> (pe_support p a c == pe_support q b c)%Q.
  Proof using Hp Hq Hs.
    intros a b c (h & Hh & A & B). rewrite !pe_support_fans.
    apply (same_fans c _ _ (fun s => if Qle_bool (h s) 0 then 0%Q else h s) (fun s => if Qle_bool (h s) 0 then 0%Q else h s)).
    - apply pos_set_fun; auto.
    - reflexivity.
    - apply pos_part_same; auto.
    - apply pos_part_same; auto.
  Qed.
  Lemma pe_select_same : forall C a b, Rbudget a b -> pe_select p C a = pe_select q C b.
  Proof using Hp Hq Hs.
    intros C a b H. unfold pe_select. rewrite <- same_available.
    rewrite (max_entries_same (pe_support p a) (pe_support q b)); auto. intros. apply pe_support_same; auto.
  Qed.
  Lemma pe_next_same : forall x y C a b c, (x == y)%Q -> Rbudget a b -> Rbudget (pe_next p x C a c) (pe_next q y C b c).
  Proof using Hp Hq Hs.
    intros x y C a b c Exy H. pose proof (pe_support_same a b c H) as E. destruct H as (h & Hh & A & B). unfold pe_next.
    set (mp := if Qltb x (pe_support p a c) then ((pe_support p a c - x) / pe_support p a c)%Q else 0%Q).
    set (mq := if Qltb y (pe_support q b c) then ((pe_support q b c - y) / pe_support q b c)%Q else 0%Q).
    assert (Em : (mp == mq)%Q).
    { unfold mp, mq. rewrite (Qltb_comp x y _ _ Exy E). destruct (Qltb y (pe_support q b c)); [rewrite E, Exy|]; reflexivity. }
    exists (fun s => if mem c s then h s * mp else h s)%Q. split; [|split].
    - intros s t Hst. rewrite (mem_perm c s t Hst). destruct (mem c t); rewrite (Hh s t Hst); reflexivity.
    - apply rep_map. intros i Hi. cbn [fst snd]. destruct (mem c (approved (the_voter p i))); rewrite (repE _ _ _ A i Hi); ring.
    - apply rep_map. intros i Hi. cbn [fst snd]. destruct (mem c (approved (the_voter q i))); rewrite (repE _ _ _ B i Hi), ?Em; ring.
  Qed.
  Lemma weights_same : Rbudget (map weight (voters p)) (map weight (voters q)).
  Proof using.
    exists (fun _ => 1%Q). split; [intros a b _; reflexivity|]. split; intros i Hi; rewrite (repE _ _ _ (rep_voters _ _) i Hi); ring.
  Qed.
  Lemma same_enestroem : forall k resolute m, phragmen_enestroem p k resolute m = phragmen_enestroem q k resolute m.
  Proof using Hp Hq Hs.
    intros. unfold phragmen_enestroem. rewrite num.
    rewrite (dfs_rel _ _ (RS Rbudget) _ (seq_expand k (pe_select q) (pe_next q (total_weight q / Qnat k)%Q)) _) with (st2 := [([], map weight (voters q))]); auto.
    - intros. apply expand_rel; auto; intros; [apply pe_select_same; auto|apply pe_next_same; auto].
      rewrite (same_total_weight p q Hs). reflexivity.
    - constructor; [split; auto using weights_same|constructor].
  Qed.

  (** ** Consensus rule *)
  Lemma cr_earn_same : forall a b, Rbudget a b -> Rbudget (cr_earn p a) (cr_earn q b).
  Proof using.
    intros a b (h & Hh & A & B). exists (fun s => h s + 1)%Q. split; [intros s t H; rewrite (Hh s t H); reflexivity|].
    split; apply rep_map; intros i Hi; cbn [fst snd]; [rewrite (repE _ _ _ A i Hi)|rewrite (repE _ _ _ B i Hi)]; ring.
  Qed.
  Lemma cr_supporters_sum : forall r a c (f : nat -> voter -> Q),
    (fold_left (fun s iv => s + f (fst iv) (snd iv)) (cr_supporters r a c) 0 ==
     sum (fans r c) (fun i => if Qle_bool (nthQ a i) 0 then 0 else f i (the_voter r i)))%Q.
  Proof using.
    intros r a c f. rewrite (fold_left_sum _ (fun iv => f (fst iv) (snd iv))). unfold cr_supporters.
    rewrite enum_voters_eq, filter_map_comm, map_map. cbn [fst snd]. unfold fans. rewrite sum_filter_ids.
    change (Qsum (map (fun x => f x (the_voter r x)) (filter (fun x => negb (Qle_bool (nthQ a x) 0) && mem c (approved (the_voter r x))) (voter_ids r))))
      with (sum (filter (fun x => negb (Qle_bool (nthQ a x) 0) && mem c (approved (the_voter r x))) (voter_ids r)) (fun x => f x (the_voter r x))).
    rewrite sum_filter_ids.
    assert (E : (sum (voter_ids r) (fun i => if negb (Qle_bool (nthQ a i) 0) && mem c (approved (the_voter r i)) then f i (the_voter r i) else 0) ==
                 sum (voter_ids r) (fun i => if likes r i c then if Qle_bool (nthQ a i) 0 then 0 else f i (the_voter r i) else 0))%Q).
    { apply sum_ext_ids. intros i Hi. unfold likes, approves.
      destruct (Qle_bool (nthQ a i) 0), (mem c (approved (the_voter r i))); reflexivity. }
    rewrite E. ring.
  Qed.
  Lemma cr_support_same : forall a b c, Rbudget a b -> (cr_support p a c == cr_support q b c)%Q.
  Proof using Hp Hq Hs.
    intros a b c H. unfold cr_support. rewrite !(cr_supporters_sum _ _ _ (fun i _ => nthQ _ i)), <- !pe_support_fans.
    apply pe_support_same; auto.
  Qed.
  Lemma cr_weight_same : forall a b c, Rbudget a b ->
    (fold_left (fun s iv => s + weight (snd iv)) (cr_supporters p a c) 0 == fold_left (fun s iv => s + weight (snd iv)) (cr_supporters q b c) 0)%Q.
  Proof using Hp Hq Hs.
    intros a b c (h & Hh & A & B). rewrite !(cr_supporters_sum _ _ _ (fun _ v => weight v)).
    apply (same_fans c _ _ (fun s => if Qle_bool (h s) 0 then 0%Q else 1%Q) (fun s => if Qle_bool (h s) 0 then 0%Q else 1%Q)).
    - intros s t H. rewrite (Qle_bool_comp' (h s) (h t) 0 0 (Hh s t H) (Qeq_refl 0)). reflexivity.
    - reflexivity.
    - intros i Hi. rewrite (Qle_bool_scale (weight (the_voter p i)) (h (approved (the_voter p i))) (nthQ a i)); auto using weight_pos; try (apply A; auto).
      destruct (Qle_bool (h (approved (the_voter p i))) 0); unfold w; ring.
    - intros i Hi. rewrite (Qle_bool_scale (weight (the_voter q i)) (h (approved (the_voter q i))) (nthQ b i)); auto using weight_pos; try (apply B; auto).
      destruct (Qle_bool (h (approved (the_voter q i))) 0); unfold w; ring.
  Qed.
  Lemma cr_select_same : forall C a b, Rbudget a b -> cr_select p C a = cr_select q C b.
  Proof using Hp Hq Hs.
    intros C a b H. unfold cr_select. rewrite <- same_available.
    rewrite (max_entries_same (cr_support p (cr_earn p a)) (cr_support q (cr_earn q b))); auto.
    intros. apply cr_support_same, cr_earn_same; auto.
  Qed.
  Lemma cr_member : forall r a h c i, wf r -> rep r (fun v => weight v * h (approved v))%Q a -> i < length (voters r) ->
    mem i (map fst (cr_supporters r a c)) = negb (Qle_bool (h (approved (the_voter r i))) 0) && mem c (approved (the_voter r i)).
  Proof using.
    clear num cands. intros r a h c i Hr A Hi. rewrite <- (Qle_bool_scale (weight (the_voter r i)) (h (approved (the_voter r i))) (nthQ a i)); auto using weight_pos; try (apply A; auto).
    unfold cr_supporters. rewrite enum_voters_eq, filter_map_comm, map_map. cbn [fst snd]. rewrite map_id.
    destruct (negb (Qle_bool (nthQ a i) 0) && mem c (approved (the_voter r i))) eqn:E.
    - apply mem_In. apply filter_In. split; auto. apply in_seq. lia.
    - destruct (mem i _) eqn:M; auto. apply mem_In, filter_In in M as [_ M]. congruence.
  Qed.
  Lemma cr_next_same : forall C a b c, Rbudget a b -> Rbudget (cr_next p C a c) (cr_next q C b c).
  Proof using Hp Hq Hs.
    intros C a b c H. apply cr_earn_same in H. pose proof (cr_weight_same _ _ c H) as Ew. unfold cr_next.
    set (a' := cr_earn p a) in *. set (b' := cr_earn q b) in *.
    set (sp := (total_weight p / fold_left (fun s iv => s + weight (snd iv)) (cr_supporters p a' c) 0)%Q).
    set (sq := (total_weight q / fold_left (fun s iv => s + weight (snd iv)) (cr_supporters q b' c) 0)%Q).
    assert (Es : (sp == sq)%Q). { unfold sp, sq. rewrite Ew, (same_total_weight p q Hs). reflexivity. }
    destruct H as (h & Hh & A & B).
    exists (fun s => if negb (Qle_bool (h s) 0) && mem c s then h s - sp else h s)%Q. split; [|split].
    - intros s t Hst. rewrite (mem_perm c s t Hst), (Qle_bool_comp' (h s) (h t) 0 0 (Hh s t Hst) (Qeq_refl 0)).
      destruct (negb (Qle_bool (h t) 0) && mem c t); rewrite (Hh s t Hst); reflexivity.
    - apply rep_map. intros i Hi. cbn [fst snd]. rewrite (cr_member p a' h c i Hp A Hi).
      destruct (negb _ && _); rewrite (repE _ _ _ A i Hi); ring.
    - apply rep_map. intros i Hi. cbn [fst snd]. rewrite (cr_member q b' h c i Hq B Hi).
      destruct (negb _ && _); rewrite (repE _ _ _ B i Hi), ?Es; ring.
  Qed.
  Lemma zero_budget_same : Rbudget (repeat 0%Q (length (voters p))) (repeat 0%Q (length (voters q))).
  Proof using.
    exists (fun _ => 0%Q). split; [intros a b _; reflexivity|]. split; intros i Hi; rewrite (repE _ _ _ (rep_repeat _) i Hi); ring.
  Qed.
  Lemma same_consensus : forall k resolute m, consensus_rule p k resolute m = consensus_rule q k resolute m.
  Proof using Hp Hq Hs.
    intros. unfold consensus_rule. rewrite num.
    rewrite (dfs_rel _ _ (RS Rbudget) _ (seq_expand k (cr_select q) (cr_next q)) _) with (st2 := [([], repeat 0%Q (length (voters q)))]); auto.
    - intros. apply expand_rel; auto; intros; [apply cr_select_same; auto|apply cr_next_same; auto].
    - constructor; [split; auto using zero_budget_same|constructor].
  Qed.

  (** ** Method of Equal Shares *)
  Lemma Qmin_scale : forall x h r, (0 < x)%Q -> (Qmin (x * h) (r * x) == x * Qmin h r)%Q.
  Proof using.
    intros x h r Hx. destruct (Qlt_le_dec h r) as [H|H].
    - rewrite (Qmin_l h r) by lra. rewrite Qmin_l by nra. reflexivity.
    - rewrite (Qmin_r h r) by lra. rewrite Qmin_r by nra. ring.
  Qed.
  Lemma Qmin_scaled : forall x h z r, (0 < x)%Q -> (z == x * h)%Q -> (Qmin z (r * x) == x * Qmin h r)%Q.
  Proof using.
    intros x h z r Hx E. rewrite (Qmin_comp z (r * x) (x * h) (r * x) E (Qeq_refl _)). apply Qmin_scale; auto.
  Qed.
  Lemma Qmin_set_fun : forall h r, set_fun h -> set_fun (fun s => Qmin (h s) r).
  Proof using. intros h r Hh s t H. apply Qmin_comp; [apply Hh; auto|reflexivity]. Qed.
  Lemma collected_same : forall a b c r, Rbudget a b -> (collected p (nthQ a) c r == collected q (nthQ b) c r)%Q.
  Proof using Hp Hq Hs.
    intros a b c r (h & Hh & A & B). unfold collected.
    apply (same_fans c _ _ (fun s => Qmin (h s) r) (fun s => Qmin (h s) r)).
    - apply Qmin_set_fun; auto.
    - reflexivity.
    - intros i Hi. unfold w. apply Qmin_scaled; [apply weight_pos; auto|apply A; auto].
    - intros i Hi. unfold w. apply Qmin_scaled; [apply weight_pos; auto|apply B; auto].
  Qed.
  Lemma purse_same : forall a b c, Rbudget a b -> (purse p (nthQ a) c == purse q (nthQ b) c)%Q.
  Proof using Hs.
    intros a b c (h & Hh & A & B). unfold purse. apply (same_fans c _ _ h h); auto; reflexivity.
  Qed.
  Lemma price_same : forall a b c r, Rbudget a b -> price_of p (nthQ a) c r <-> price_of q (nthQ b) c r.
  Proof using Hp Hq Hs.
    intros a b c r H. unfold price_of. rewrite (collected_same a b c r H). split; intros [X Y]; split; auto; intros r' Hr.
    - rewrite <- (collected_same a b c r' H). auto.
    - rewrite (collected_same a b c r' H). auto.
  Qed.
  Definition rel_price (x y : option Q) : Prop :=
    match x, y with Some r, Some r' => (r == r')%Q | None, None => True | _, _ => False end.
  Lemma min_q_same : forall a b c, Rbudget a b ->
    exists x y, min_q p a c = Ok x /\ min_q q b c = Ok y /\ rel_price x y.
  Proof using Hp Hq Hs.
    intros a b c H. destruct (min_q_spec p a c Hp) as (x & Ex & X). destruct (min_q_spec q b c Hq) as (y & Ey & Y).
    exists x, y. split; auto. split; auto. destruct x as [x|], y as [y|]; cbn; auto.
    - apply (price_same a b c x H) in X. eapply price_unique; eauto.
    - apply price_purse in X. rewrite (purse_same a b c H) in X. lra.
    - apply price_purse in Y. rewrite <- (purse_same a b c H) in Y. lra.
  Qed.
  Definition rel_entry (x y : nat * Q) : Prop := fst x = fst y /\ (snd x == snd y)%Q.
  Lemma min_q_dict_same : forall a b l, Rbudget a b ->
    exists d e, min_q_dict p a l = Ok d /\ min_q_dict q b l = Ok e /\ Forall2 rel_entry d e.
  Proof using Hp Hq Hs.
    intros a b l H. induction l as [|c l (d & e & D & E & F)]; cbn [min_q_dict].
    - exists [], []. auto.
    - destruct (min_q_same a b c H) as (x & y & Ex & Ey & R). rewrite Ex, Ey, D, E. cbn.
      destruct x as [x|], y as [y|]; cbn in R; try contradiction.
      + exists ((c, x) :: d), ((c, y) :: e). repeat split; auto. constructor; auto. split; auto.
      + exists d, e. auto.
  Qed.
  Lemma mes_select_same : forall C a b, Rbudget a b -> mes_select p C a = mes_select q C b.
  Proof using Hp Hq Hs.
    intros C a b H. unfold mes_select. rewrite <- same_available.
    destruct (min_q_dict_same a b (available p C) H) as (d & e & D & E & F). rewrite D, E. cbn [rbind].
    assert (L : leq (map snd d) (map snd e)). { clear -F. induction F as [|x y d e [_ X] F IH]; constructor; auto. }
    pose proof (py_min_leq _ _ L) as M. inversion F as [|x y d' e' Xy F' Ed Ee]; auto. rewrite Ed, Ee.
    destruct (py_min (map snd d)) as [m|], (py_min (map snd e)) as [m'|]; cbn in M |- *; try contradiction; [|subst; auto].
    do 2 f_equal. clear -F M. induction F as [|x y d e [X Y] F IH]; auto. cbn [filter].
    assert (K : Qeq_bool (snd x) m = Qeq_bool (snd y) m').
    { destruct (Qeq_bool (snd y) m') eqn:Z.
      - apply Qeq_bool_iff in Z. apply Qeq_bool_iff. rewrite Y, Z, M. reflexivity.
      - destruct (Qeq_bool (snd x) m) eqn:Z'; auto. apply Qeq_bool_iff in Z'. apply Qeq_bool_neq in Z. exfalso. apply Z.
        rewrite <- Y, Z', M. reflexivity. }
    rewrite K. destruct (Qeq_bool (snd y) m'); cbn; rewrite IH, ?X; auto.
  Qed.
  Lemma pay_min : forall x z r, (z - (if Qltb (r * x) z then r * x else z) == z - Qmin z (r * x))%Q.
  Proof using.
    intros x z r. destruct (Qltb (r * x) z) eqn:E.
    - apply Qltb_lt in E. rewrite Qmin_r by lra. reflexivity.
    - apply Qltb_ge in E. rewrite Qmin_l by lra. reflexivity.
  Qed.
  Lemma mes_next_same : forall C a b c, Rbudget a b -> Rbudget (mes_next p C a c) (mes_next q C b c).
  Proof using Hp Hq Hs.
    intros C a b c H. unfold mes_next. destruct (min_q_same a b c H) as (x & y & Ex & Ey & R). rewrite Ex, Ey.
    destruct x as [x|], y as [y|]; cbn in R; try contradiction; auto.
    destruct H as (h & Hh & A & B).
    exists (fun s => if mem c s then h s - Qmin (h s) x else h s)%Q. split; [|split].
    - intros s t Hst. rewrite (mem_perm c s t Hst). destruct (mem c t); [|apply Hh; auto].
      rewrite (Qmin_comp (h s) x (h t) x (Hh s t Hst) (Qeq_refl x)), (Hh s t Hst). reflexivity.
    - apply rep_map. intros i Hi. cbn [fst snd]. destruct (mem c (approved (the_voter p i))); [|apply A; auto].
      rewrite pay_min, (Qmin_scaled _ (h (approved (the_voter p i))) _ _ (weight_pos p i Hp Hi)) by (apply A; auto).
      rewrite (repE _ _ _ A i Hi). ring.
    - apply rep_map. intros i Hi. cbn [fst snd]. destruct (mem c (approved (the_voter q i))); [|apply B; auto].
      rewrite pay_min, (Qmin_scaled _ (h (approved (the_voter q i))) _ _ (weight_pos q i Hq Hi)) by (apply B; auto).
      rewrite (repE _ _ _ B i Hi), (Qmin_comp _ y _ x (Qeq_refl _) (Qeq_sym _ _ R)). ring.
  Qed.
  Lemma mes_expand_same : forall k resolute f g, (forall C a b, Rbudget a b -> f C a = g C b) ->
    forall s t, RS Rbudget s t -> rel_result (rel_expansion (RS Rbudget)) (mes_expand p k resolute f s) (mes_expand q k resolute g t).
  Proof using Hp Hq Hs.
    intros k resolute f g Hf [C a] [D b] [E H]. cbn in E, H. subst D. unfold mes_expand. rewrite <- (mes_select_same C a b H).
    destruct (mes_select p C a) as [l|]; cbn; auto.
    assert (K : forall m, Forall2 (rel_child (RS Rbudget))
      (map (fun c => if length (C ++ [c]) =? k then Leaf (isort (C ++ [c])) else Partial (C ++ [c], mes_next p C a c)) m)
      (map (fun c => if length (C ++ [c]) =? k then Leaf (isort (C ++ [c])) else Partial (C ++ [c], mes_next q C b c)) m)).
    { induction m as [|c m IH]; constructor; auto.
      destruct (length (C ++ [c]) =? k); constructor. split; auto. cbn. apply mes_next_same; auto. }
    destruct l as [|c l]; cbn.
    - rewrite <- (Hf C a b H). destruct (f C a); cbn; auto.
    - apply K.
  Qed.
  Lemma same_equal_shares : forall k resolute m f g a b, (forall C a b, Rbudget a b -> f C a = g C b) -> Rbudget a b ->
    equal_shares p k resolute m f a = equal_shares q k resolute m g b.
  Proof using Hp Hq Hs.
    intros k resolute m f g a b Hf H. unfold equal_shares. rewrite num.
    rewrite (pool_rel _ _ (RS Rbudget) _ (mes_expand q k resolute g) (if resolute then Some 1 else m)) with (st2 := [([], b)]); auto.
    - apply mes_expand_same; auto.
    - constructor; [split; auto|constructor].
  Qed.
  Lemma fill_phragmen_same : forall k resolute C a b, Rbudget a b -> fill_phragmen p k resolute C a = fill_phragmen q k resolute C b.
  Proof using Hp Hq Hs.
    intros k resolute C a b (h & Hh & A & B). unfold fill_phragmen.
    assert (R : Rload (map (fun iv => - nthQ a (fst iv) / weight (snd iv))%Q (enum_voters p)) (map (fun iv => - nthQ b (fst iv) / weight (snd iv))%Q (enum_voters q))).
    { exists (fun s => - h s)%Q. split; [intros s t Hst; rewrite (Hh s t Hst); reflexivity|].
      split; apply rep_map; intros i Hi; cbn [fst snd].
      - rewrite (repE _ _ _ A i Hi). pose proof (weight_pos p i Hp Hi). field. lra.
      - rewrite (repE _ _ _ B i Hi). pose proof (weight_pos q i Hq Hi). field. lra. }
    destruct resolute; [apply seqphragmen_resolute_same|apply seqphragmen_irresolute_same]; auto.
  Qed.
  Lemma fill_av_same : forall k C a b, fill_av p k C a = fill_av q k C b.
  Proof using Hp Hq Hs.
    intros k C a b. unfold fill_av. generalize (k - length C). generalize k at 2 4. intros n. induction n as [|n IH]; intros m; cbn [av_phase]; auto.
    rewrite (same_separable p q Hp Hq Hs). destruct (separable_rule SepAV q m false None); cbn; auto.
    destruct (existsb _ _); auto. destruct (filter _ _); auto.
  Qed.
  Lemma mes_start_same : forall k, Rbudget (mes_start p k) (mes_start q k).
  Proof using Hs.
    intros k. exists (fun _ => Qnat k / total_weight p)%Q. split; [intros s t _; reflexivity|].
    split; intros i Hi; unfold mes_start; rewrite (repE _ _ _ (rep_voters _ _) i Hi).
    - unfold Qdiv. ring.
    - rewrite (same_total_weight p q Hs). unfold Qdiv. ring.
  Qed.
  Lemma mes_start_increment_same : forall k, Rbudget (mes_start_increment p k) (mes_start_increment q k).
  Proof using Hs.
    intros k. exists (fun _ => Qnat k / total_weight p)%Q. split; [intros s t _; reflexivity|].
    split; intros i Hi; unfold mes_start_increment; rewrite (repE _ _ _ (rep_voters _ _) i Hi).
    - reflexivity.
    - rewrite (same_total_weight p q Hs). reflexivity.
  Qed.
  Lemma same_increment_loop : forall k r n, increment_loop p k r n = increment_loop q k r n.
  Proof using Hp Hq Hs.
    intros k. induction r as [|r IH]; intros n; cbn [increment_loop]; auto.
    rewrite (same_equal_shares k true None fill_none fill_none _ (mes_start_increment q n)); auto using mes_start_increment_same.
    destruct (equal_shares q k true None fill_none (mes_start_increment q n)); cbn; auto. destruct (filter _ _); auto.
  Qed.
  Lemma fans_in : forall r c i, In i (fans r c) -> i < length (voters r).
  Proof using. clear. intros r c i H. unfold fans, voter_ids in H. apply filter_In in H as [H _]. apply in_seq in H. lia. Qed.
  Lemma fans_weight : forall r c, wf r -> (0 <? length (fans r c)) = Qltb 0 (sum (fans r c) (w r)).
  Proof using.
    clear. intros r c Hr. pose proof (fans_in r c) as F. destruct (fans r c) as [|i l]; [reflexivity|].
    symmetry. apply Qltb_lt. apply weights_pos; auto. discriminate.
  Qed.
  Lemma same_supported : supported p = supported q.
  Proof using Hp Hq Hs.
    unfold supported. rewrite num. apply filter_ext. intros c. rewrite !fans_weight by auto.
    apply Qltb_comp; [reflexivity|apply same_fans_weight].
  Qed.
  Lemma same_increment : forall k, equal_shares_increment p k = equal_shares_increment q k.
  Proof using Hp Hq Hs.
    intros k. unfold equal_shares_increment.
    rewrite (Permutation_length (approved_supported p Hp)), (Permutation_length (approved_supported q Hq)), same_supported.
    rewrite (same_separable p q Hp Hq Hs), same_increment_loop.
    assert (E : Qceiling (Qnat k * total_weight p + 1) = Qceiling (Qnat k * total_weight q + 1)).
    { apply Qceiling_comp. rewrite (same_total_weight p q Hs). reflexivity. }
    rewrite E. auto.
  Qed.
  Lemma same_equal_shares_rule : forall k resolute m c, equal_shares_rule p k resolute m c = equal_shares_rule q k resolute m c.
  Proof using Hp Hq Hs.
    intros k resolute m c. unfold equal_shares_rule. destruct c.
    - rewrite (same_equal_shares k resolute m fill_none fill_none _ (mes_start q k)); auto using mes_start_same.
    - rewrite (same_equal_shares k resolute m _ (fill_phragmen q k resolute) _ (mes_start q k)); auto using mes_start_same, fill_phragmen_same.
    - rewrite (same_equal_shares k resolute m _ (fill_av q k) _ (mes_start q k)); auto using mes_start_same, fill_av_same.
    - rewrite same_increment. auto.
  Qed.

  (** ** E Pluribus Hugo *)
  Lemma fold_if_lin : forall (c : nat) (g : list nat -> Q) (P : list nat -> bool) vs,
    (fold_left (fun s v => if P (approved v) then s + weight v * g (approved v) else s) vs 0 ==
     lin (fun a => if P a then g a else 0) vs)%Q.
  Proof using.
    intros c g P vs. unfold lin, Qsum.
    assert (K : forall s, (fold_left (fun s v => if P (approved v) then s + weight v * g (approved v) else s) vs s ==
      s + fold_right Qplus 0 (map (fun v => weight v * (if P (approved v) then g (approved v) else 0)) vs))%Q).
    { induction vs as [|v vs IH]; intros s; cbn [fold_left map fold_right]; [ring|]. rewrite IH. destruct (P (approved v)); ring. }
    rewrite K. ring.
  Qed.
  Lemma filter_mem_perm : forall (R s t : list nat), Permutation s t -> filter (fun c => mem c s) R = filter (fun c => mem c t) R.
  Proof using. intros R s t H. apply filter_ext. intros c. apply mem_perm; auto. Qed.
  Lemma sdv_same : forall R c, (sdv_score p R c == sdv_score q R c)%Q.
  Proof using Hs.
    intros R c. unfold sdv_score, Qdiv.
    rewrite !(fold_if_lin c (fun a => / Qnat (length (filter (fun c => mem c a) R)))%Q (fun a => mem c (filter (fun c => mem c a) R))).
    apply Hs. intros s t H. rewrite (filter_mem_perm R s t H). reflexivity.
  Qed.
  Lemma eph_av_same : forall R c, (eph_av_score p R c == eph_av_score q R c)%Q.
  Proof using Hs.
    intros R c.
    assert (E : forall r, (eph_av_score r R c == lin (fun a => if mem c (filter (fun c => mem c a) R) then 1 else 0) (voters r))%Q).
    { intros r. rewrite <- (fold_if_lin c (fun _ => 1%Q)). unfold eph_av_score.
      assert (K : forall vs s s', (s == s')%Q -> (fold_left (fun s v => if mem c (filter (fun c => mem c (approved v)) R) then s + weight v else s) vs s ==
        fold_left (fun s v => if mem c (filter (fun c => mem c (approved v)) R) then s + weight v * 1 else s) vs s')%Q).
      { induction vs as [|v vs IH]; intros s s' H; cbn [fold_left]; auto. apply IH. destruct (mem c _); rewrite H; [ring|reflexivity]. }
      apply K. reflexivity. }
    rewrite !E. apply Hs. intros s t H. rewrite (filter_mem_perm R s t H). reflexivity.
  Qed.
  Lemma elimination_same : forall R, elimination p R = elimination q R.
  Proof using Hs.
    intros R. unfold elimination.
    assert (L : leq (sort_by Qle_bool (map (sdv_score p R) R)) (sort_by Qle_bool (map (sdv_score q R) R))).
    { apply sort_leq, map_leq. intros. apply sdv_same. }
    assert (N : match nth_error (sort_by Qle_bool (map (sdv_score p R) R)) 1, nth_error (sort_by Qle_bool (map (sdv_score q R) R)) 1 with
      Some x, Some y => (x == y)%Q | None, None => True | _, _ => False end).
    { destruct L as [|a b l m Hab L]; cbn; auto. destruct L; cbn; auto. }
    destruct (nth_error (sort_by Qle_bool (map (sdv_score p R) R)) 1) as [x|], (nth_error (sort_by Qle_bool (map (sdv_score q R) R)) 1) as [y|]; try contradiction; auto.
    assert (F : filter (fun c => Qle_bool (sdv_score p R c) x) R = filter (fun c => Qle_bool (sdv_score q R c) y) R).
    { apply filter_ext. intros c. apply Qle_bool_comp'; auto. apply sdv_same. }
    rewrite F. set (l := filter (fun c => Qle_bool (sdv_score q R c) y) R).
    assert (L' : leq (map (eph_av_score p R) l) (map (eph_av_score q R) l)) by (apply map_leq; intros; apply eph_av_same).
    pose proof (py_min_leq _ _ L') as M.
    destruct (py_min (map (eph_av_score p R) l)) as [m|], (py_min (map (eph_av_score q R) l)) as [m'|]; cbn in M |- *; try contradiction; [|subst; auto].
    f_equal. apply filter_ext. intros c. apply Qle_bool_comp'; auto. apply eph_av_same.
  Qed.
  Lemma same_eph : forall k resolute m, eph_algorithm p k resolute m = eph_algorithm q k resolute m.
  Proof using Hs.
    intros k resolute m. unfold eph_algorithm. rewrite num, cands. generalize (candidates q). generalize (S (num_cand q)).
    induction n as [|n IH]; intros R; cbn [eph_loop]; auto. rewrite elimination_same. destruct (elimination q R); cbn [rbind]; auto.
    destruct (_ <=? k); auto.
  Qed.
End Same.

Local Open Scope string_scope.
From Verif Require Import SpecCompute SpecSame ProfileFacts.
Lemma same_with_fractions : forall e id alg p q k resolute maxn x, alg <> "float-fractions" ->
  with_fractions e id alg p k resolute maxn x = with_fractions e id alg q k resolute maxn x.
Proof. intros e id alg p q k resolute maxn x H. unfold with_fractions. apply String.eqb_neq in H. rewrite H. auto. Qed.

Lemma same_election_results_sequential : forall e p q, wf p -> wf q -> same_election p q -> same_results_sequential e p q.
Proof.
  intros e p q Hp Hq Hs k alg resolute maxn A B.
  assert (E : forall completion, compute_equal_shares e p k alg resolute maxn completion = compute_equal_shares e q k alg resolute maxn completion).
  { intros completion. unfold compute_equal_shares. destruct (completion_rule completion) as [ic|]; cbn; auto.
    apply same_run_alg; auto. intros. rewrite (same_equal_shares_rule p q Hp Hq Hs). apply same_with_fractions; auto. }
  repeat split.
  - unfold compute_eph. apply same_run_alg; auto. intros. rewrite (same_eph p q Hs). apply same_with_fractions; auto.
  - unfold compute_seqphragmen. apply same_run_alg; auto. intros. rewrite (same_seqphragmen p q Hs). apply same_with_fractions; auto.
  - unfold compute_phragmen_enestroem. apply same_run_alg; auto. intros. rewrite (same_enestroem p q Hp Hq Hs). apply same_with_fractions; auto.
  - unfold compute_consensus_rule. apply same_run_alg; auto. intros. rewrite (same_consensus p q Hp Hq Hs). apply same_with_fractions; auto.
  - exact E.
  - intros skip. unfold compute_rule_x. apply E.
Qed.

Lemma sequential_reordered : forall e p q, wf p -> reordered p q -> same_results_sequential e p q.
Proof. intros e p q Hw H. destruct (reordered_same p q Hw H). apply same_election_results_sequential; auto. Qed.
Lemma sequential_copies : forall e p v vs1 vs2 n, wf p -> voters p = (vs1 ++ v :: vs2)%list -> (weight v == Qnat n)%Q ->
  same_results_sequential e p (with_voters p (vs1 ++ repeat (mkVoter (approved v) 1 true) n ++ vs2)).
Proof. intros e p v vs1 vs2 n Hw E Hn. destruct (copies_same p v vs1 vs2 n Hw E Hn). apply same_election_results_sequential; auto. Qed.
Lemma sequential_conversion : forall e p, wf p ->
  (forall ord, (forall l, Permutation (ord l) l) -> same_results_sequential e p (convert_to_weighted ord p)) /\
  (forall q, Forall (fun v => weight_is_int v = true -> exists z, (weight v == inject_Z z)%Q) (voters p) ->
     convert_to_unit_weights p = (Ok tt, q) -> same_results_sequential e p q).
Proof.
  intros e p Hw. split.
  - intros ord Ho. apply same_election_results_sequential; auto; [|apply weighted_same_election; auto].
    apply weighted_inv; auto.
  - intros q Hf H. destruct (unit_same_election p q Hw Hf H) as [S U]. apply same_election_results_sequential; auto.
    pose proof (unit_inv p Hw) as [A _]. rewrite H in A. exact A.
Qed.
