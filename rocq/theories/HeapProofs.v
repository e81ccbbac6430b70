(** * Proofs about the store of Heap.v *)
From Coq Require Import String.
From Coq Require Import List Arith Bool ZArith QArith Lia Permutation.
From Verif Require Import Prelude Misc MiscProofs Preferences Spec PrefProofs Heap.
Import ListNotations.
Open Scope nat_scope.

Definition inv (s : store) : Prop :=
  (forall i o, get s i = Some o ->
     NoDup (po_voters o) /\ Forall (fun r => r < length (voter_objs s)) (po_voters o)) /\
  (forall i j oi oj r, i <> j -> get s i = Some oi -> get s j = Some oj ->
     In r (po_voters oi) -> ~ In r (po_voters oj)).

Lemma nth_replace_same : forall (A:Type) i (x:A) l, i < length l -> nth_error (replace_nth i x l) i = Some x.
Proof. induction i as [|i IH]; intros x [|y l] H; simpl in *; try lia; auto. apply IH; lia. Qed.
Lemma nth_replace_other : forall (A:Type) i j (x:A) l, i <> j -> nth_error (replace_nth i x l) j = nth_error l j.
Proof. induction i as [|i IH]; intros [|j] x [|y l] H; simpl; auto; lia. Qed.
Lemma replace_length : forall (A:Type) i (x:A) l, length (replace_nth i x l) = length l.
Proof. induction i as [|i IH]; intros x [|y l]; simpl; auto. Qed.

Lemma get_lt : forall s i o, get s i = Some o -> i < length (profile_objs s).
Proof. intros s i o H. apply nth_error_Some. unfold get in H. congruence. Qed.

Lemma deref_old : forall s vs r, r < length (voter_objs s) ->
  deref (mkStore (voter_objs s ++ vs) (profile_objs s)) r = deref s r.
Proof. intros. unfold deref. simpl. apply app_nth1. auto. Qed.

Lemma view_alloc : forall s vs o ps, Forall (fun r => r < length (voter_objs s)) (po_voters o) ->
  view (mkStore (voter_objs s ++ vs) ps) o = view s o.
Proof.
  intros s vs o ps H. unfold view. f_equal. apply map_ext_in. intros r Hr. rewrite Forall_forall in H.
  unfold deref. simpl. apply app_nth1. auto.
Qed.

Definition upd (s : store) (vs : list voter) (i : nat) (o : profile_obj) : store :=
  put (mkStore (voter_objs s ++ vs) (profile_objs s)) i o.

Lemma get_put_same : forall s i o o', get s i = Some o' -> get (put s i o) i = Some o.
Proof. intros s i o o' H. unfold get, put; simpl. apply nth_replace_same. eapply get_lt; eauto. Qed.
Lemma get_put_other : forall s i j o, i <> j -> get (put s i o) j = get s j.
Proof. intros. unfold get, put; simpl. apply nth_replace_other; auto. Qed.

Lemma upd_inv : forall s vs i o n nm l, inv s -> get s i = Some o -> NoDup l ->
  (forall r, In r l -> In r (po_voters o) \/ length (voter_objs s) <= r < length (voter_objs s) + length vs) ->
  inv (upd s vs i (mkProfileObj n nm l)).
Proof.
  intros s vs i o n nm l [H1 H2] Hi Hn Hr. unfold upd. split.
  - intros j oj Hj. destruct (Nat.eq_dec i j) as [<-|Hne].
    + erewrite get_put_same in Hj; eauto. inversion Hj; subst; simpl. split; auto.
      apply Forall_forall. intros r Hin. rewrite app_length. destruct (Hr r Hin) as [Ho|]; [|lia].
      destruct (H1 i o Hi) as [_ F]. rewrite Forall_forall in F. specialize (F r Ho). lia.
    + rewrite get_put_other in Hj; auto. destruct (H1 j oj Hj) as [A B]. split; auto. simpl.
      eapply Forall_impl; [|exact B]. intros r Hlt. simpl in Hlt. rewrite app_length. lia.
  - assert (K : forall j oj r, i <> j -> get s j = Some oj -> In r l -> ~ In r (po_voters oj)).
    { intros j oj r Hne Hj Hin. destruct (Hr r Hin) as [Ho|Hlt]; [eapply H2; eauto|].
      intro Hin'. destruct (H1 j oj Hj) as [_ F]. rewrite Forall_forall in F. specialize (F r Hin'). lia. }
    intros j1 j2 o1 o2 r Hne G1 G2 Hin. destruct (Nat.eq_dec i j1) as [<-|N1].
    + erewrite get_put_same in G1; eauto. inversion G1; subst. rewrite get_put_other in G2; auto.
      eapply K; eauto.
    + rewrite get_put_other in G1; auto. destruct (Nat.eq_dec i j2) as [<-|N2].
      * erewrite get_put_same in G2; eauto. inversion G2; subst. simpl. intro Hin'. eapply K; eauto.
      * rewrite get_put_other in G2; auto. eapply H2; [exact Hne| | |]; eauto.
Qed.

Lemma upd_frame : forall s vs i o j oj, inv s -> i <> j -> get s j = Some oj ->
  get (upd s vs i o) j = Some oj /\ view (upd s vs i o) oj = view s oj.
Proof.
  intros s vs i o j oj [H1 _] Hne Hj. unfold upd. split; [rewrite get_put_other; auto|].
  destruct (H1 j oj Hj) as [_ F]. unfold put. simpl. apply view_alloc. auto.
Qed.

Lemma map_deref_fresh : forall s vs ps,
  map (deref (mkStore (voter_objs s ++ vs) ps)) (seq (length (voter_objs s)) (length vs)) = vs.
Proof.
  intros s vs ps. apply nth_ext with (d:=dangling) (d':=dangling); [rewrite map_length, seq_length; auto|].
  intros n Hn. rewrite map_length, seq_length in Hn.
  rewrite nth_indep with (d':= deref (mkStore (voter_objs s ++ vs) ps) 0) by (rewrite map_length, seq_length; auto).
  rewrite map_nth, seq_nth by auto. unfold deref; simpl. rewrite app_nth2 by lia. f_equal. lia.
Qed.

Lemma fresh_NoDup : forall s o m, inv s -> (exists i, get s i = Some o) ->
  NoDup (po_voters o ++ seq (length (voter_objs s)) m).
Proof.
  intros s o m [H1 _] [i Hi]. destruct (H1 i o Hi) as [A B]. rewrite Forall_forall in B.
  apply NoDup_app_intro; auto; [apply seq_NoDup|].
  intros r Hr Hr'. apply in_seq in Hr'. specialize (B r Hr). lia.
Qed.

(** growing the list of profiles by an empty one *)
Definition new_obj (s : store) (n : nat) (nm : list string) : store :=
  mkStore (voter_objs s) (profile_objs s ++ [mkProfileObj n nm []]).
Lemma new_obj_get : forall s n nm j o, get (new_obj s n nm) j = Some o ->
  get s j = Some o \/ (j = length (profile_objs s) /\ o = mkProfileObj n nm []).
Proof.
  intros s n nm j o H. unfold get, new_obj in H; simpl in H.
  destruct (Nat.lt_ge_cases j (length (profile_objs s))).
  - rewrite nth_error_app1 in H; auto.
  - rewrite nth_error_app2 in H; auto. destruct (j - length (profile_objs s)) as [|d] eqn:E.
    + right. inversion H. split; auto. lia.
    + destruct d; discriminate.
Qed.
Lemma new_obj_old : forall s n nm j o, get s j = Some o -> get (new_obj s n nm) j = Some o.
Proof. intros s n nm j o H. pose proof (get_lt _ _ _ H). unfold get, new_obj in *; simpl. rewrite nth_error_app1; auto. Qed.
Lemma new_obj_new : forall s n nm, get (new_obj s n nm) (length (profile_objs s)) = Some (mkProfileObj n nm []).
Proof. intros. unfold get, new_obj; simpl. rewrite nth_error_app2, Nat.sub_diag by lia. reflexivity. Qed.
Lemma new_obj_inv : forall s n nm, inv s -> inv (new_obj s n nm).
Proof.
  intros s n nm [H1 H2]. split.
  - intros i o H. apply new_obj_get in H as [H|[_ ->]]; [exact (H1 i o H)|]. simpl. split; constructor.
  - intros i j oi oj r Hne Gi Gj Hr. apply new_obj_get in Gi as [Gi|[Ei ->]]; [|destruct Hr].
    apply new_obj_get in Gj as [Gj|[Ej ->]]; [eapply (H2 i j); eauto|intros []].
Qed.

Lemma add_all_spec : forall refs s i, inv s -> inv (add_all s i refs) /\
  (forall j oj, i <> j -> get s j = Some oj ->
     get (add_all s i refs) j = Some oj /\ view (add_all s i refs) oj = view s oj).
Proof.
  induction refs as [|r refs IH]; intros s i Hs; cbn [add_all]; [split; auto|].
  destruct (get s i) as [o|] eqn:Gi; [|split; auto].
  destruct (unique_voter (view s o) (ArgVoter (deref s r))) as [v|]; [|split; auto].
  cbn [alloc]. set (o' := mkProfileObj (po_num_cand o) (po_names o) (po_voters o ++ seq (length (voter_objs s)) 1)).
  assert (Hi : inv (upd s [v] i o')).
  { eapply upd_inv; eauto; [apply fresh_NoDup; eauto|]. intros x Hx. apply in_app_iff in Hx as [|Hx]; auto.
    apply in_seq in Hx. right. simpl. auto. }
  destruct (IH (upd s [v] i o') i Hi) as [A B]. split; [exact A|].
  intros j oj Hne Gj. destruct (upd_frame s [v] i o' j oj Hs Hne Gj) as [C D].
  destruct (B j oj Hne C) as [E F]. split; [exact E|]. rewrite <- D. exact F.
Qed.

Lemma add_all_views : forall refs s i o j oj, inv s -> i <> j -> get s i = Some o -> get s j = Some oj ->
  incl refs (po_voters oj) -> 0 < po_num_cand o ->
  Forall (fun r => wf_voter (po_num_cand o) (deref s r)) refs ->
  exists o', get (add_all s i refs) i = Some o' /\
    view (add_all s i refs) o' = with_voters (view s o) (voters (view s o) ++ map (deref s) refs).
Proof.
  induction refs as [|r refs IH]; intros s i o j oj Hs Hne Gi Gj Hincl Hpos Hw.
  - exists o. split; auto. unfold with_voters. simpl. rewrite app_nil_r. reflexivity.
  - cbn [add_all]. rewrite Gi. inversion Hw; subst. unfold unique_voter. cbn [num_cand view].
    rewrite voter_new_accepts by auto. cbn [alloc].
    set (v := deref s r) in *.
    set (o' := mkProfileObj (po_num_cand o) (po_names o) (po_voters o ++ seq (length (voter_objs s)) 1)).
    assert (Hi : inv (upd s [v] i o')).
    { eapply upd_inv; eauto; [apply fresh_NoDup; eauto|]. intros x Hx. apply in_app_iff in Hx as [|Hx]; auto.
      apply in_seq in Hx. right. simpl. auto. }
    assert (Gi' : get (upd s [v] i o') i = Some o') by (eapply get_put_same; eauto).
    destruct (upd_frame s [v] i o' j oj Hs Hne Gj) as [Gj' Vj].
    assert (Hd : forall x, In x refs -> deref (upd s [v] i o') x = deref s x).
    { intros x Hx. unfold upd, put. simpl. apply deref_old. destruct Hs as [H1' _].
      destruct (H1' j oj Gj) as [_ F]. rewrite Forall_forall in F. apply F, Hincl. right. auto. }
    destruct (IH (upd s [v] i o') i o' j oj Hi Hne Gi' Gj') as (o2 & G2 & V2); auto.
    { intros x Hx. apply Hincl. right. auto. }
    { apply Forall_forall. intros x Hx. rewrite Hd by auto. rewrite Forall_forall in H2. auto. }
    exists o2. split; [exact G2|]. etransitivity; [exact V2|].
    assert (Vo : voters (view (upd s [v] i o') o') = voters (view s o) ++ [v]).
    { unfold o', upd, put, view. simpl voters. cbn [po_voters]. rewrite map_app. f_equal.
      - apply map_ext_in. intros x Hx. apply deref_old. destruct Hs as [H1' _].
        destruct (H1' i o Gi) as [_ F]. rewrite Forall_forall in F. auto.
      - apply (map_deref_fresh s [v]). }
    unfold with_voters. rewrite Vo. simpl. f_equal. rewrite <- app_assoc. f_equal. simpl. f_equal.
    apply map_ext_in. auto.
Qed.

Lemma poke_inv : forall s r v, inv s -> inv (mkStore (replace_nth r v (voter_objs s)) (profile_objs s)).
Proof.
  intros s r v [H1 H2]. split; [|exact H2]. intros i o H. destruct (H1 i o H) as [A B]. split; auto.
  simpl. rewrite replace_length. auto.
Qed.

Lemma deref_replace_other : forall s r v x ps, r <> x ->
  deref (mkStore (replace_nth r v (voter_objs s)) ps) x = deref s x.
Proof.
  intros. unfold deref; simpl. 
  destruct (nth_error (replace_nth r v (voter_objs s)) x) eqn:E;
    pose proof E as E'; rewrite nth_replace_other in E' by auto.
  - rewrite (nth_error_nth _ _ _ E), (nth_error_nth _ _ _ E'). auto.
  - apply nth_error_None in E, E'. rewrite !nth_overflow; auto.
Qed.

Lemma step_spec : forall s a, inv s -> inv (step s a) /\
  (forall j oj, get s j = Some oj -> target a <> Some j ->
     get (step s a) j = Some oj /\ view (step s a) oj = view s oj).
Proof.
  intros s a Hs. destruct a as [l w wi|nc names|i|i a|i k a|i|i ord|i k v]; simpl.
  - destruct (voter_new l w wi None) as [v|]; [|split; auto]. simpl. split.
    + destruct Hs as [H1 H2]. split; [|exact H2]. intros i o H. destruct (H1 i o H) as [A B]. split; auto.
      eapply Forall_impl; [|exact B]. intros r Hr. simpl in *. rewrite app_length. simpl. lia.
    + intros j oj Hj _. split; [exact Hj|]. apply view_alloc. destruct Hs as [H1 _]. apply (H1 j oj Hj).
  - destruct (profile_new nc names) as [p|]; [|split; auto]. split; [apply new_obj_inv; auto|].
    intros j oj Hj _. split; [apply new_obj_old; auto|reflexivity].
  - destruct (get s i) as [o|]; [|split; auto].
    destruct (profile_new (Z.of_nat (po_num_cand o)) None) as [q|]; [|split; auto].
    fold (new_obj s (num_cand q) (cand_names q)).
    destruct (add_all_spec (po_voters o) (new_obj s (num_cand q) (cand_names q)) (length (profile_objs s))
                (new_obj_inv s _ _ Hs)) as [A B]. split; [exact A|].
    intros j oj Hj _. pose proof (get_lt _ _ _ Hj). destruct (B j oj) as [C D]; [lia|apply new_obj_old; auto|].
    split; [exact C|]. rewrite D. reflexivity.
  - destruct (get s i) as [o|] eqn:Gi; [|split; auto].
    destruct (unique_voter (view s o) (arg_value s a)) as [v|]; [|split; auto]. cbn [alloc].
    fold (upd s [v] i (mkProfileObj (po_num_cand o) (po_names o) (po_voters o ++ seq (length (voter_objs s)) (length [v])))).
    split.
    + eapply upd_inv; eauto; [apply (fresh_NoDup s o 1); eauto|]. intros x Hx. apply in_app_iff in Hx as [|Hx]; auto.
      right. simpl in *. lia.
    + intros j oj Hj Ht. apply upd_frame; auto; congruence.
  - destruct (get s i) as [o|] eqn:Gi; [|split; auto].
    destruct (unique_voter (view s o) (arg_value s a)) as [v|]; [|split; auto].
    destruct (k <? length (po_voters o)) eqn:Ek; [|split; auto].
    fold (upd s [v] i (mkProfileObj (po_num_cand o) (po_names o) (replace_nth k (length (voter_objs s)) (po_voters o)))).
    split.
    + destruct Hs as [H1 H2]. destruct (H1 i o Gi) as [A B]. eapply upd_inv; [split; eauto|eauto| |].
      * assert (Hn : ~ In (length (voter_objs s)) (po_voters o)).
        { intro Hin. rewrite Forall_forall in B. specialize (B _ Hin). lia. }
        clear -A Hn. revert k. induction (po_voters o) as [|y l IH]; intros [|k]; simpl; auto.
        -- inversion A; subst. constructor; auto. intro; apply Hn; right; auto.
        -- inversion A; subst. constructor; [|apply IH; auto; intro; apply Hn; right; auto].
           assert (G : forall k, In y (replace_nth k (length (voter_objs s)) l) -> In y l \/ y = length (voter_objs s)).
           { clear. induction l as [|z l IH]; intros [|k]; simpl; auto; intros [|]; subst; auto.
             destruct (IH k H); auto. }
           intro Hin. destruct (G k Hin) as [|E]; auto. apply Hn. left. auto.
      * intros r Hr. assert (G : forall l k, In r (replace_nth k (length (voter_objs s)) l) -> In r l \/ r = length (voter_objs s)).
        { clear. induction l as [|z l IH]; intros [|k]; simpl; auto; intros [|]; subst; auto.
          destruct (IH k H); auto. }
        destruct (G _ _ Hr); auto. right. simpl. lia.
    + intros j oj Hj Ht. apply upd_frame; auto; congruence.
  - destruct (get s i) as [o|] eqn:Gi; [|split; auto].
    destruct (unit_copies (map (deref s) (po_voters o))) as [vs|]; [|split; auto]. cbn [alloc].
    fold (upd s vs i (mkProfileObj (po_num_cand o) (po_names o) (seq (length (voter_objs s)) (length vs)))).
    split.
    + eapply upd_inv; eauto; [apply seq_NoDup|]. intros x Hx. apply in_seq in Hx. auto.
    + intros j oj Hj Ht. apply upd_frame; auto; congruence.
  - destruct (get s i) as [o|] eqn:Gi; [|split; auto].
    set (vs := voters (convert_to_weighted ord (view s o))). cbn [alloc].
    fold (upd s vs i (mkProfileObj (po_num_cand o) (po_names o) (seq (length (voter_objs s)) (length vs)))).
    split.
    + eapply upd_inv; eauto; [apply seq_NoDup|]. intros x Hx. apply in_seq in Hx. auto.
    + intros j oj Hj Ht. apply upd_frame; auto; congruence.
  - destruct (get s i) as [o|] eqn:Gi; [|split; auto].
    destruct (nth_error (po_voters o) k) as [r|] eqn:Er; [|split; auto]. split; [apply poke_inv; auto|].
    intros j oj Hj Ht. split; [exact Hj|]. unfold view. f_equal. apply map_ext_in. intros x Hx.
    apply deref_replace_other. intros <-. apply nth_error_In in Er. destruct Hs as [_ H2].
    apply (H2 i j o oj r); auto; congruence.
Qed.

Lemma steps_spec : forall acts s, inv s -> inv (fold_left step acts s) /\
  (forall j oj, get s j = Some oj -> Forall (fun a => target a <> Some j) acts ->
     get (fold_left step acts s) j = Some oj /\ view (fold_left step acts s) oj = view s oj).
Proof.
  induction acts as [|a acts IH]; intros s Hs; simpl; [split; auto|].
  destruct (step_spec s a Hs) as [A B]. destruct (IH _ A) as [C D]. split; auto.
  intros j oj Hj Ht. inversion Ht; subst. destruct (B j oj Hj H1) as [E F]. destruct (D j oj E H2) as [G H].
  split; auto. congruence.
Qed.

Lemma empty_inv : inv empty_store.
Proof. split; intros i; intros; destruct i; discriminate. Qed.

(** ** refinement of the value model *)
Lemma view_upd_fresh : forall s vs i n nm l, Forall (fun r => r < length (voter_objs s)) l ->
  view (upd s vs i (mkProfileObj n nm (l ++ seq (length (voter_objs s)) (length vs))))
       (mkProfileObj n nm (l ++ seq (length (voter_objs s)) (length vs))) =
  mkProfile n nm (map (deref s) l ++ vs).
Proof.
  intros s vs i n nm l H. unfold view, upd, put. cbn [po_num_cand po_names po_voters voter_objs profile_objs].
  f_equal. rewrite map_app. f_equal; [|apply map_deref_fresh].
  apply map_ext_in. intros r Hr. rewrite Forall_forall in H. apply deref_old. auto.
Qed.

Lemma map_replace : forall (A B:Type) (f : A -> B) i x l, map f (replace_nth i x l) = replace_nth i (f x) (map f l).
Proof. induction i as [|i IH]; intros x [|y l]; simpl; auto. f_equal. auto. Qed.

Definition as_op (s : store) (a : action) : option op :=
  match a with
  | Add _ a => Some (OpAdd (arg_value s a))
  | SetItem _ j a => Some (OpSet j (arg_value s a))
  | ToUnit _ => Some OpUnit
  | ToWeighted _ ord => Some (OpWeighted ord)
  | _ => None
  end.

Lemma step_refines : forall s a i o op, inv s -> target a = Some i -> as_op s a = Some op ->
  get s i = Some o ->
  exists o', get (step s a) i = Some o' /\ view (step s a) o' = run_op (view s o) op.
Proof.
  intros s a i o op Hs Ht Ho Gi. pose proof Hs as [H1 _]. destruct (H1 i o Gi) as [Hn Hb].
  destruct a as [l w wi|nc names|i'|i' a|i' k a|i'|i' ord|i' k v]; simpl in Ht, Ho; try discriminate;
    inversion Ht; inversion Ho; subst; cbn [step]; rewrite Gi; unfold run_op.
  - unfold add_voter. destruct (unique_voter (view s o) (arg_value s a)) as [v|]; cbn [snd]; [|eauto].
    cbn [alloc]. eexists. split; [eapply get_put_same; exact Gi|].
    etransitivity; [apply (view_upd_fresh s [v]); auto|]. reflexivity.
  - unfold set_voter. destruct (unique_voter (view s o) (arg_value s a)) as [v|]; cbn [snd]; [|eauto].
    cbn [view voters]. rewrite map_length. destruct (k <? length (po_voters o)) eqn:Ek; cbn [snd]; [|eauto].
    cbn [alloc]. eexists. split; [eapply get_put_same; exact Gi|].
    unfold view, with_voters, put. cbn [po_num_cand po_names po_voters num_cand cand_names voters]. f_equal.
    rewrite map_replace. cbn [voter_objs profile_objs].
    f_equal.
    + unfold deref; simpl. rewrite app_nth2, Nat.sub_diag by lia. reflexivity.
    + apply map_ext_in. intros r Hr. rewrite Forall_forall in Hb. apply deref_old. auto.
  - unfold convert_to_unit_weights. cbn [view voters].
    destruct (unit_copies (map (deref s) (po_voters o))) as [vs|]; cbn [snd]; [|eauto].
    cbn [alloc]. eexists. split; [eapply get_put_same; exact Gi|].
    etransitivity; [apply (view_upd_fresh s vs i (po_num_cand o) (po_names o) []); constructor|]. reflexivity.
  - cbn [alloc]. eexists. split; [eapply get_put_same; exact Gi|].
    etransitivity; [apply (view_upd_fresh s _ i (po_num_cand o) (po_names o) []); constructor|]. reflexivity.
Qed.

Lemma copy_view : forall s i o, inv s -> get s i = Some o -> wf (view s o) ->
  exists o', get (step s (Copy i)) (length (profile_objs s)) = Some o' /\
    view (step s (Copy i)) o' = mkProfile (num_cand (view s o)) (map str_nat (seq 0 (num_cand (view s o)))) (voters (view s o)).
Proof.
  intros s i o Hs Gi [Hpos Hw]. cbn [step]. rewrite Gi. cbn [view num_cand] in Hpos.
  assert (E : profile_new (Z.of_nat (po_num_cand o)) None =
              Ok (mkProfile (po_num_cand o) (map str_nat (seq 0 (po_num_cand o))) [])).
  { unfold profile_new. destruct (Z.leb_spec (Z.of_nat (po_num_cand o)) 0); [lia|]. rewrite Nat2Z.id. reflexivity. }
  rewrite E. cbn [num_cand cand_names].
  fold (new_obj s (po_num_cand o) (map str_nat (seq 0 (po_num_cand o)))).
  set (s0 := new_obj s (po_num_cand o) (map str_nat (seq 0 (po_num_cand o)))).
  pose proof (get_lt _ _ _ Gi).
  edestruct (add_all_views (po_voters o) s0 (length (profile_objs s))) with (j := i) (oj := o) as (o' & G & V).
  - apply new_obj_inv; auto.
  - lia.
  - apply new_obj_new.
  - apply new_obj_old; auto.
  - apply incl_refl.
  - exact Hpos.
  - cbn [po_num_cand]. cbn [view voters num_cand] in Hw. rewrite Forall_forall in Hw |- *. intros r Hr.
    apply Hw. change (deref s0 r) with (deref s r). apply in_map. auto.
  - exists o'. split; [exact G|]. rewrite V. reflexivity.
Qed.

Lemma copy_independent : forall acts i o, let s := fold_left step acts empty_store in
  get s i = Some o -> wf (view s o) ->
  exists o', let s' := step s (Copy i) in let n := length (profile_objs s) in
    get s' n = Some o' /\ n <> i /\
    num_cand (view s' o') = num_cand (view s o) /\ voters (view s' o') = voters (view s o) /\
    cand_names (view s' o') = map str_nat (seq 0 (num_cand (view s o))) /\
    (forall later, Forall (fun a => target a <> Some i) later ->
       get (fold_left step later s') i = Some o /\ view (fold_left step later s') o = view s o) /\
    (forall later, Forall (fun a => target a <> Some n) later ->
       get (fold_left step later s') n = Some o' /\ view (fold_left step later s') o' = view s' o').
Proof.
  intros acts i o s Gi Hw. assert (Hs : inv s) by (apply steps_spec, empty_inv).
  destruct (copy_view s i o Hs Gi Hw) as (o' & G & V). exists o'. cbv zeta.
  destruct (step_spec s (Copy i) Hs) as [A B]. destruct (B i o Gi) as [C D]; [discriminate|].
  pose proof (get_lt _ _ _ Gi).
  split; [exact G|]. split; [lia|]. rewrite V. split; [reflexivity|]. split; [reflexivity|]. split; [reflexivity|].
  split; intros later Hl; destruct (steps_spec later _ A) as [_ S].
  - destruct (S i o C Hl) as [S1 S2]. split; [exact S1|]. rewrite S2. exact D.
  - destruct (S _ o' G Hl) as [S1 S2]. split; [exact S1|]. rewrite S2. exact V.
Qed.
