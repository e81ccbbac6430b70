(** * Proofs about [Profile.str_compact] *)
From Coq Require Import String Ascii.
From Coq Require Import List Arith Bool ZArith QArith Lia Lqa Permutation Sorted.
From Verif Require Import Prelude Misc MiscProofs Preferences Spec PrefProofs FileIO SpecFile YamlProofs SpecText StrProfile Compact.
Import ListNotations.
Local Open Scope string_scope.
Open Scope nat_scope.
Local Open Scope list_scope.

Notation same_as A := (fun v => if list_eq_dec Nat.eq_dec (approved v) A then true else false).

Lemma compact_add_keys : forall d v A, In A (map fst (compact_add d v)) <-> In A (map fst d) \/ A = approved v.
Proof.
  induction d as [|[a [w i]] d IH]; intros v A; cbn [compact_add map fst In].
  - intuition.
  - destruct (list_eq_dec Nat.eq_dec (approved v) a) as [E|E]; cbn [map fst In].
    + subst a. intuition.
    + rewrite IH. intuition.
Qed.
Lemma compact_add_nodup : forall d v, NoDup (map fst d) -> NoDup (map fst (compact_add d v)).
Proof.
  induction d as [|[a [w i]] d IH]; intros v H; cbn [compact_add map fst].
  - repeat constructor; auto.
  - inversion H; subst. destruct (list_eq_dec Nat.eq_dec (approved v) a) as [E|E]; cbn [map fst]; constructor; auto.
    rewrite compact_add_keys. intros [X|X]; congruence.
Qed.
Lemma compact_add_value : forall d v A w i, NoDup (map fst d) -> In (A, (w, i)) (compact_add d v) ->
  (In (A, (w, i)) d /\ approved v <> A) \/
  (approved v = A /\ ((~ In A (map fst d) /\ w = weight v) \/ exists w' i', In (A, (w', i')) d /\ w = (w' + weight v)%Q)).
Proof.
  induction d as [|[a [w0 i0]] d IH]; intros v A w i N H; cbn [compact_add] in H.
  - destruct H as [H|[]]. inversion H; subst. right. split; auto.
  - inversion N as [|? ? N1 N2]; subst. destruct (list_eq_dec Nat.eq_dec (approved v) a) as [E|E].
    + destruct H as [H|H].
      * inversion H; subst. right. split; auto. right. exists w0, i0. split; [left|]; auto.
      * left. split; [right; auto|]. intros X. apply N1. subst a. rewrite X. apply (in_map fst) in H. exact H.
    + destruct H as [H|H].
      * inversion H; subst. left. split; [left|]; auto.
      * destruct (IH v A w i N2 H) as [[X Y]|[X [[Y Z]|(w' & i' & Y & Z)]]].
        -- left. split; [right; auto|auto].
        -- right. split; auto. left. split; auto. cbn. intros [W|W]; [congruence|auto].
        -- right. split; auto. right. exists w', i'. split; [right|]; auto.
Qed.
Lemma Qsum_app' : forall l m, (Qsum (l ++ m) == Qsum l + Qsum m)%Q.
Proof. unfold Qsum. induction l as [|x l IH]; intros m; cbn [app fold_right]; [lra|]. rewrite IH. lra. Qed.

Lemma compact_inv : forall vs pre d,
  NoDup (map fst d) -> (forall A, In A (map fst d) <-> exists v, In v pre /\ approved v = A) ->
  (forall A w i, In (A, (w, i)) d -> (w == Qsum (map weight (filter (same_as A) pre)))%Q) ->
  let d' := fold_left compact_add vs d in
  NoDup (map fst d') /\ (forall A, In A (map fst d') <-> exists v, In v (pre ++ vs) /\ approved v = A) /\
  (forall A w i, In (A, (w, i)) d' -> (w == Qsum (map weight (filter (same_as A) (pre ++ vs))))%Q).
Proof.
  induction vs as [|v vs IH]; intros pre d N K V; cbn [fold_left].
  - rewrite app_nil_r. auto.
  - replace (pre ++ v :: vs) with ((pre ++ [v]) ++ vs) by (rewrite <- app_assoc; auto).
    apply IH.
    + apply compact_add_nodup; auto.
    + intros A. rewrite compact_add_keys, K. split.
      * intros [(u & Hu & Eu)|E]; [exists u; split; auto; apply in_or_app; auto|exists v; split; auto; apply in_or_app; right; left; auto].
      * intros (u & Hu & Eu). apply in_app_or in Hu as [Hu|[->|[]]]; [left; exists u; auto|right; auto].
    + intros A w i H. rewrite filter_app, map_app, Qsum_app'. cbn [filter].
      destruct (compact_add_value d v A w i N H) as [[X Y]|[X [[Y Z]|(w' & i' & Y & Z)]]].
      * destruct (list_eq_dec Nat.eq_dec (approved v) A); [congruence|]. cbn [map]. rewrite (V _ _ _ X). cbn; lra.
      * destruct (list_eq_dec Nat.eq_dec (approved v) A); [|congruence]. cbn [map].
        assert (filter (same_as A) pre = []) as ->.
        { assert (Y' : ~ exists u, In u pre /\ approved u = A) by (rewrite <- K; auto). clear -Y'.
          induction pre as [|u pre IH]; auto. cbn. destruct (list_eq_dec Nat.eq_dec (approved u) A) as [E|E].
          - exfalso. apply Y'. exists u. split; [left|]; auto.
          - apply IH. intros (x & Hx & Ex). apply Y'. exists x. split; [right|]; auto. }
        subst w. cbn; lra.
      * destruct (list_eq_dec Nat.eq_dec (approved v) A); [|congruence]. cbn [map]. subst w. rewrite (V _ _ _ Y). cbn; lra.
Qed.

Lemma compact_grouped : forall p, grouped (voters p) (map (fun e => (fst e, fst (snd e))) (compact p)).
Proof.
  intros p. unfold compact. destruct (compact_inv (voters p) [] []) as (N & K & V).
  - constructor.
  - intros A. split; [intros []|intros (v & [] & _)].
  - intros A w i [].
  - cbn [app] in *. unfold grouped. rewrite map_map. cbn [fst]. split; [exact N|]. split; [exact K|].
    intros A w H. apply in_map_iff in H as ([A' [w' i']] & E & H). cbn in E. inversion E; subst. eapply V; eauto.
Qed.

Lemma compact_nil : forall p, compact p = [] -> voters p = [].
Proof.
  intros p E. destruct (voters p) as [|v vs] eqn:Ev; auto. exfalso.
  destruct (compact_grouped p) as (_ & K & _). rewrite E, Ev in K. cbn in K. apply (K (approved v)). exists v. split; auto.
Qed.

Lemma str_compact_text : forall sw p s, str_compact sw p = Ok s ->
  exists groups lines, grouped (voters p) groups /\
    Forall2 (fun g line => exists t is_int, set_text (cand_names p) (fst g) t /\ line = (" " ++ sw (snd g) is_int ++ " x " ++ t)%string) groups lines /\
    exists total is_int, (total == wsum (voters p))%Q /\
    s = (header p ++ match voters p with [] => "" | _ => ":" ++ nl ++ String.concat ("," ++ nl) lines end ++
         (if has_unit_weights p then "" else nl ++ "total weight: " ++ sw total is_int) ++ nl)%string.
Proof.
  intros sw p s H. unfold str_compact in H.
  match type of H with rbind ?X _ = _ => destruct X as [lines|] eqn:E; [|discriminate] end. cbn [rbind] in H. inversion H as [Hs]. clear H.
  assert (L : exists ls, lines = map (fun x => (x ++ "," ++ nl)%string) ls /\
    Forall2 (fun g line => exists t is_int, set_text (cand_names p) (fst g) t /\ line = (" " ++ sw (snd g) is_int ++ " x " ++ t)%string)
      (map (fun e => (fst e, fst (snd e))) (compact p)) ls).
  { clear Hs. revert lines E. induction (compact p) as [|[a [w i]] d IH]; intros lines E; cbn [rmapM] in E.
    - inversion E. exists []. split; constructor.
    - cbn [fst snd] in E. destruct (str_set_with_names a (cand_names p)) as [t|] eqn:Et; [|discriminate]. cbn [rbind] in E.
      match type of E with rbind ?X _ = _ => destruct X as [l2|] eqn:E2; [|discriminate] end. cbn [rbind] in E. inversion E; subst.
      destruct (IH l2 eq_refl) as (ls & -> & F). exists ((" " ++ sw w i ++ " x " ++ t)%string :: ls). split.
      + cbn [map]. rewrite !string_app_assoc. reflexivity.
      + cbn [map]. constructor; auto. exists t, i. split; [apply str_set_text; auto|reflexivity]. }
  destruct L as (ls & -> & F). exists (map (fun e => (fst e, fst (snd e))) (compact p)), ls. split; [apply compact_grouped|]. split; [exact F|].
  exists (total_weight p), (forallb weight_is_int (voters p)). split; [apply total_weight_wsum|].
  match goal with |- context[substring 0 _ ?out] => assert (exists b c, out = (b ++ c)%string /\ String.length c = 2 /\
     b = (header p ++ match voters p with [] => "" | _ => ":" ++ nl ++ String.concat ("," ++ nl) ls end)%string) as (b & c & Eb & Hc & E2) end.
  - unfold header. destruct (voters p) as [|v vs] eqn:Ev.
    + assert (compact p = []) as Ec by (unfold compact; rewrite Ev; reflexivity). rewrite Ec in F. inversion F; subst.
      exists (header p), (":" ++ nl)%string. cbn [map String.concat].
      unfold header. rewrite Ev. split; [|split; [reflexivity|rewrite append_nil_r; reflexivity]].
      rewrite !string_app_assoc. cbn [append]. reflexivity.
    + eexists _, ("," ++ nl)%string. split; [|split; [reflexivity|reflexivity]]. rewrite concat_lines.
      * rewrite !string_app_assoc. reflexivity.
      * intros ->. inversion F as [E0|]. symmetry in E0. apply map_eq_nil, compact_nil in E0. congruence.
  - rewrite Eb. rewrite cut_two by auto. rewrite E2, !string_app_assoc. reflexivity.
Qed.
