(** * Proofs about the functions that look into a directory *)
From Coq Require Import String Ascii.
From Coq Require Import List Arith Bool ZArith Lia Permutation Sorted.
From Verif Require Import Prelude Misc MiscProofs Preferences FileIO Directory.
Import ListNotations.
Local Open Scope string_scope.
Open Scope nat_scope.
Local Open Scope list_scope.

Lemma length_app_str : forall a b, String.length (a ++ b)%string = String.length a + String.length b.
Proof. induction a as [|c a IH]; intros b; cbn; auto. Qed.
Lemma substring_all : forall b, substring 0 (String.length b) b = b.
Proof. induction b as [|c b IH]; cbn; [auto|]. rewrite IH. reflexivity. Qed.
Lemma substring_tail : forall a b, substring (String.length a) (String.length b) (a ++ b)%string = b.
Proof. induction a as [|c a IH]; intros b; cbn; [apply substring_all|apply IH]. Qed.
Lemma split_at : forall f n, n <= String.length f -> exists a, f = (a ++ substring n (String.length f - n) f)%string /\ String.length a = n.
Proof.
  induction f as [|c f IH]; intros n Hn.
  - cbn in Hn. assert (n = 0) as -> by lia. exists "". auto.
  - destruct n as [|n].
    + exists "". split; [|auto]. rewrite Nat.sub_0_r. symmetry. apply (substring_all (String c f)).
    + cbn in Hn. destruct (IH n) as (a & E & L); [lia|]. exists (String c a). split; [|cbn; lia]. cbn. f_equal. exact E.
Qed.
Lemma endswith_iff : forall f x, endswith f x = true <-> exists a, f = (a ++ x)%string.
Proof.
  intros f x. unfold endswith. rewrite andb_true_iff, Nat.leb_le, String.eqb_eq. split.
  - intros [Hl E]. destruct (split_at f (String.length f - String.length x)) as (a & Ea & _); [lia|]. exists a.
    replace (String.length f - (String.length f - String.length x)) with (String.length x) in Ea by lia. rewrite E in Ea. exact Ea.
  - intros (a & ->). rewrite length_app_str. split; [lia|]. replace (String.length a + String.length x - String.length x) with (String.length a) by lia. apply substring_tail.
Qed.

Definition byte_sorted (l : list string) : Prop := StronglySorted (fun a b => str_leb a b = true) l.
Lemma sort_str_spec : forall l, Permutation l (sort_str l) /\ byte_sorted (sort_str l).
Proof.
  intros l. split.
  - apply (sort_by_perm _ str_leb).
  - apply (sort_by_sorted str_leb str_leb_total str_leb_trans).
Qed.
(** a list is determined by its elements and the order *)
Lemma byte_sorted_unique : forall l l', byte_sorted l -> byte_sorted l' -> Permutation l l' -> l = l'.
Proof.
  induction l as [|a l IH]; intros l' H H' HP.
  - apply Permutation_nil in HP. auto.
  - destruct l' as [|b l']; [apply Permutation_sym, Permutation_nil in HP; discriminate|].
    inversion H as [|? ? Hs Ha]; subst. inversion H' as [|? ? Hs' Hb]; subst.
    assert (E : a = b).
    { assert (Ia : In a (b :: l')) by (eapply Permutation_in; [exact HP|left; auto]). assert (Ib : In b (a :: l)) by (eapply Permutation_in; [apply Permutation_sym; exact HP|left; auto]).
      destruct Ia as [Ia|Ia]; auto. destruct Ib as [Ib|Ib]; auto. rewrite Forall_forall in Ha, Hb. apply str_leb_antisym; auto. }
    subst b. f_equal. apply IH; auto. apply Permutation_cons_inv in HP. auto.
Qed.

Section Read.
  Variable from_ordinal : instance Z -> option Z -> instance Z.
  Variables (contents : string -> result parsed) (top_ranks setsize : option Z).
  Let read f := read_preflib_file from_ordinal (contents f) top_ranks setsize false.
  Lemma put_new : forall (f : string) (p : profile) d, ~ In f (map fst d) -> put f p d = d ++ [(f, p)].
  Proof.
    intros f p. induction d as [|[g q] d IH]; intros Hn; [reflexivity|]. cbn in *. destruct (String.eqb_spec f g) as [->|Hne]; [exfalso; apply Hn; auto|]. rewrite IH; auto.
  Qed.
  Lemma read_files_ok : forall files d, NoDup (map fst d ++ files) -> (forall f, In f files -> exists p, read f = Ok p) ->
    exists l, read_files from_ordinal contents top_ranks setsize files d = Returns (d ++ l) /\ map fst l = files /\ forall f p, In (f, p) l -> read f = Ok p.
  Proof.
    induction files as [|f files IH]; intros d Hn Hr.
    - exists []. rewrite app_nil_r. split; [reflexivity|]. split; [reflexivity|]. intros f p [].
    - cbn [read_files]. destruct (Hr f (or_introl eq_refl)) as (p & Ep). unfold read in Ep. rewrite Ep.
      assert (Hf : ~ In f (map fst d)). { apply NoDup_remove_2 in Hn. intro H. apply Hn. apply in_or_app. auto. }
      rewrite put_new by exact Hf. destruct (IH (d ++ [(f, p)])) as (l & El & Em & Hl).
      + rewrite map_app. cbn [map fst]. rewrite <- app_assoc. exact Hn.
      + intros g Hg. apply Hr. right. auto.
      + exists ((f, p) :: l). split; [rewrite El, <- app_assoc; reflexivity|]. split; [cbn; rewrite Em; reflexivity|].
        intros g q [E|H]; [injection E as <- <-; exact Ep|auto].
  Qed.
  Lemma read_files_err : forall before f after e d, (forall g, In g before -> exists p, read g = Ok p) -> read f = Err e ->
    read_files from_ordinal contents top_ranks setsize (before ++ f :: after) d = Raises e.
  Proof.
    induction before as [|g before IH]; intros f after e d Hb He; cbn [app read_files].
    - unfold read in He. rewrite He. reflexivity.
    - destruct (Hb g (or_introl eq_refl)) as (p & Ep). unfold read in Ep. rewrite Ep. apply IH; auto. intros h Hh. apply Hb. right. auto.
  Qed.
End Read.
