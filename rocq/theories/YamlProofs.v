(** * Proofs about the .abc.yaml half of fileio.py *)
From Coq Require Import String.
From Coq Require Import List Arith Bool ZArith QArith Lia Lqa Permutation.
From Verif Require Import Prelude Misc MiscProofs Preferences Spec PrefProofs FileIO SpecFile FileProofs.
Import ListNotations.
Local Open Scope string_scope.
Open Scope nat_scope.
Local Open Scope list_scope.

(** ** Dictionaries *)
Lemma get_put_same : forall (A : Type) k (x : A) d, get k (put k x d) = Some x.
Proof.
  induction d as [|[k' y] d IH]; simpl; [rewrite String.eqb_refl; auto|].
  destruct (String.eqb_spec k k') as [->|E]; simpl; [rewrite String.eqb_refl; auto|].
  apply String.eqb_neq in E. rewrite E. auto.
Qed.
Lemma get_put_other : forall (A : Type) k k' (x : A) d, k <> k' -> get k (put k' x d) = get k d.
Proof.
  induction d as [|[k2 y] d IH]; simpl; intros E.
  - apply String.eqb_neq in E. rewrite E. auto.
  - destruct (String.eqb_spec k' k2) as [->|E']; simpl.
    + apply String.eqb_neq in E. rewrite E. auto.
    + destruct (String.eqb k k2); auto.
Qed.
Lemma get_map : forall (A B : Type) (f : A -> B) k d,
  get k (map (fun kx => (fst kx, f (snd kx))) d) = option_map f (get k d).
Proof. induction d as [|[k' x] d IH]; simpl; auto. destruct (String.eqb k k'); auto. Qed.
Lemma get_app : forall (A : Type) k (d1 d2 : list (string * A)),
  get k (d1 ++ d2) = match get k d1 with Some x => Some x | None => get k d2 end.
Proof. induction d1 as [|[k' x] d IH]; simpl; auto. intros d2. destruct (String.eqb k k'); auto. Qed.
Lemma get_In : forall (A : Type) k (x : A) d, get k d = Some x -> In (k, x) d.
Proof.
  induction d as [|[k' y] d IH]; simpl; [discriminate|]. destruct (String.eqb_spec k k') as [->|E]; auto.
  intros H; inversion H; auto.
Qed.

Lemma plain_list : forall l, plain (YList l) <-> Forall plain l.
Proof.
  induction l as [|x l IH]; simpl in *; [split; auto|]. rewrite IH. split; [intros []; auto|].
  intros H; inversion H; auto.
Qed.
Lemma plain_dict : forall d, plain (YDict d) <-> NoDup (map fst d) /\ Forall (fun kx => plain (snd kx)) d.
Proof.
  intros d. simpl. assert ((fix all (d : list (string * yval)) : Prop :=
        match d with [] => True | (_, x) :: r => plain x /\ all r end) d <-> Forall (fun kx => plain (snd kx)) d).
  { induction d as [|[k x] d IH]; [split; auto|]. rewrite IH. split; [intros []; auto|]. intros H; inversion H; auto. }
  tauto.
Qed.
Lemma int_list : forall l, int_only (YList l) <-> Forall int_only l.
Proof.
  induction l as [|x l IH]; simpl in *; [split; auto|]. rewrite IH. split; [intros []; auto|].
  intros H; inversion H; auto.
Qed.
Lemma int_dict : forall d, int_only (YDict d) <-> Forall (fun kx => int_only (snd kx)) d.
Proof.
  induction d as [|[k x] d IH]; simpl in *; [split; auto|]. rewrite IH. split; [intros []; auto|].
  intros H; inversion H; auto.
Qed.

Lemma plain_y_int : forall n, plain (y_int n).
Proof.
  intros n. unfold y_int. simpl. split; auto. unfold Qred, inject_Z.
  pose proof (Z.ggcd_gcd (Z.of_nat n) 1) as G. pose proof (Z.ggcd_correct_divisors (Z.of_nat n) 1) as D.
  destruct (Z.ggcd (Z.of_nat n) 1) as [g [a b]]. simpl in G, D. rewrite Z.gcd_1_r in G. subst g.
  destruct D as [D1 D2]. rewrite Z.mul_1_l in D1, D2. subst. auto.
Qed.
Lemma plain_YZ : forall z, plain (YNum (inject_Z z) true).
Proof.
  intros z. simpl. split; auto. unfold Qred, inject_Z.
  pose proof (Z.ggcd_gcd z 1) as G. pose proof (Z.ggcd_correct_divisors z 1) as D.
  destruct (Z.ggcd z 1) as [g [a b]]. simpl in G, D. rewrite Z.gcd_1_r in G. subst g.
  destruct D as [D1 D2]. rewrite Z.mul_1_l in D1, D2. subst. auto.
Qed.
Lemma Qred_int : forall q z, (q == inject_Z z)%Q -> Qred q = inject_Z z.
Proof. intros q z H. rewrite (Qred_complete _ _ H). apply (plain_YZ z). Qed.

(** ** Candidates and profiles *)
Lemma py_int_YZ : forall z b, py_int (YNum (inject_Z z) b) = Ok z.
Proof. intros. simpl. rewrite Z.quot_1_r. auto. Qed.

Lemma py_cand_list_ok : forall a, py_cand_list (YList (map y_int a)) = Ok (py_cands a).
Proof.
  intros a. unfold py_cand_list. simpl. f_equal. unfold py_cands. generalize 0.
  induction a as [|c a IH]; intros n; simpl; auto. rewrite Z.quot_1_r, IH. auto.
Qed.

Lemma sets_ok : forall vs, rmapM py_cand_list (map (fun v => YList (map y_int (approved v))) vs) =
  Ok (map (fun v => py_cands (approved v)) vs).
Proof. induction vs as [|v vs IH]; auto. cbn [map rmapM]. rewrite py_cand_list_ok. cbn [rbind]. rewrite IH. auto. Qed.

Lemma add_weighted_ok : forall vs p, wf p -> Forall (wf_voter (num_cand p)) vs ->
  add_weighted p (combine (map (fun v => py_cands (approved v)) vs)
                          (map (fun v => YNum (Qred (weight v)) (weight_is_int v)) vs)) =
  Ok (with_voters p (voters p ++ map (fun v => mkVoter (approved v) (Qred (weight v)) (weight_is_int v)) vs)).
Proof.
  induction vs as [|v vs IH]; intros p Hw Hv.
  - simpl. rewrite app_nil_r. destruct p; auto.
  - inversion Hv as [|? ? (Hn & Hr & Hpos) Hv']; subst. cbn [map combine add_weighted].
    assert (Hpos' : (0 < Qred (weight v))%Q) by (rewrite Qred_correct; auto).
    unfold voter_new, py_cands. rewrite candidate_set_new_accepts by (auto; discriminate). cbn [rbind].
    apply Qle_bool_false in Hpos' as E. rewrite E. cbn [rbind].
    unfold add_voter, unique_voter.
    pose proof (voter_new_accepts (num_cand p) (mkVoter (approved v) (Qred (weight v)) (weight_is_int v))) as V.
    cbn [approved weight weight_is_int] in *. rewrite V by (repeat split; auto).
    unfold py_cands in IH. rewrite IH.
    + unfold with_voters. simpl. rewrite <- app_assoc. auto.
    + destruct Hw. split; auto. simpl. apply Forall_app. split; auto. constructor; auto. repeat split; auto.
    + auto.
Qed.

Definition data_profile (p : profile) : profile :=
  mkProfile (num_cand p) (map str_nat (seq 0 (num_cand p)))
    (if has_unit_weights p then map (fun v => mkVoter (approved v) 1 true) (voters p)
     else map (fun v => mkVoter (approved v) (Qred (weight v)) (weight_is_int v)) (voters p)).

Lemma yaml_profile_ok : forall p data, wf p ->
  get "profile" data = Some (YList (map (fun v => YList (map y_int (approved v))) (voters p))) ->
  get "num_cand" data = Some (y_int (num_cand p)) ->
  get "voter_weights" data = (if has_unit_weights p then None
     else Some (YList (map (fun v => YNum (Qred (weight v)) (weight_is_int v)) (voters p)))) ->
  yaml_profile data = Ok (data_profile p).
Proof.
  intros p data Hw E1 E2 E3. unfold yaml_profile. rewrite E1, E2, E3. cbn [py_list rbind]. rewrite sets_ok.
  cbn [rbind]. unfold y_int at 1. rewrite py_int_YZ. cbn [rbind]. destruct Hw as [Hm Hv].
  unfold profile_new. destruct (Z.leb_spec (Z.of_nat (num_cand p)) 0); [lia|]. rewrite Nat2Z.id. cbn [rbind].
  set (p0 := mkProfile (num_cand p) (map str_nat (seq 0 (num_cand p))) []).
  assert (W0 : wf p0) by (split; simpl; auto). unfold data_profile.
  destruct (has_unit_weights p).
  - rewrite map_map. pose proof (add_voters_sets (map approved (voters p)) p0 W0) as V. rewrite !map_map in V.
    rewrite V; auto. clear -Hv. induction Hv as [|v vs (A & B & _)]; simpl; auto.
  - cbn [py_list rbind]. rewrite !map_length, Nat.eqb_refl. cbn [negb]. rewrite (add_weighted_ok (voters p) p0 W0 Hv).
    auto.
Qed.

(** ** Compute instances *)
Definition reserved : list string := ["rule_id"; "result"; "profile"; "committeesize"].

Lemma other_params_get : forall c others, other_params c = Ok others -> forall key,
  option_map PData (get key others) = if existsb (String.eqb key) reserved then None else get key c.
Proof.
  induction c as [|[k v] c IH]; intros others H key; cbn [other_params] in H.
  - inversion H; subst. cbn [get]. destruct (existsb (String.eqb key) reserved); auto.
  - fold reserved in H. cbn [get]. destruct (existsb (String.eqb k) reserved) eqn:E.
    + rewrite (IH _ H). destruct (String.eqb_spec key k) as [->|N]; auto. rewrite E. auto.
    + destruct v as [y| |]; try discriminate. destruct (other_params c) as [r'|] eqn:E'; [|discriminate].
      cbn [rbind] in H. inversion H; subst. cbn [get].
      destruct (String.eqb_spec key k) as [->|N]; [rewrite E; auto|]. apply IH; auto.
Qed.
Lemma other_params_keys : forall c others, other_params c = Ok others ->
  NoDup (map fst c) -> Forall (fun kv => match snd kv with PData y => plain y | _ => True end) c ->
  NoDup (map fst others) /\ incl (map fst others) (map fst c) /\
  Forall (fun k => existsb (String.eqb k) reserved = false) (map fst others) /\
  Forall (fun kx => plain (snd kx)) others.
Proof.
  induction c as [|[k v] c IH]; intros others H N F; cbn [other_params] in H.
  - inversion H; subst. split; [constructor|]. split; [apply incl_refl|]. split; constructor.
  - fold reserved in H. inversion N as [|? ? N1 N2]; inversion F as [|? ? F1 F2]; subst. cbn [snd] in F1.
    destruct (existsb (String.eqb k) reserved) eqn:E.
    + destruct (IH _ H N2 F2) as (A & B & C). split; auto. split; auto. cbn [map]. apply incl_tl; auto.
    + destruct v as [y| |]; try discriminate. destruct (other_params c) as [r'|] eqn:E'; [|discriminate].
      cbn [rbind] in H. inversion H; subst. destruct (IH _ eq_refl N2 F2) as (A & B & C & D). cbn [map fst].
      split; [constructor; auto|]. split; [|split; constructor; auto].
      intros x [<-|Hx]; [left; auto|right; auto].
Qed.

Lemma candidate_sets_ok : forall l, Forall (@NoDup nat) l ->
  rmapM (fun c => do s <- py_cand_list c; candidate_set_new s None) (map (fun c => YList (map y_int c)) l) = Ok l.
Proof.
  induction 1 as [|c l Hn _ IH]; auto. cbn [map rmapM]. rewrite py_cand_list_ok. cbn [rbind].
  unfold py_cands. rewrite candidate_set_new_accepts by (auto; discriminate). cbn [rbind]. rewrite IH. auto.
Qed.

Section W.
Variable str_weight : Q -> bool -> string.

Lemma write_instance_ok : forall p k c y q, wf_compute_instance c ->
  write_compute_instance str_weight p k c = Ok y ->
  plain y /\ exists c', read_compute_instance q k y = Ok c' /\ restored q k c c'.
Proof using.
  intros p k c y q [Hn Hf] H. unfold write_compute_instance in H.
  destruct (get "rule_id" c) as [[rid| |]|] eqn:Er; try discriminate.
  set (res := match get "result" c with None => Ok [] | Some v => do y <- write_result v; Ok [("result", y)] end) in H.
  destruct res as [rs|] eqn:Ers; [|discriminate]. unfold res in Ers. clear res. cbn [rbind] in H.
  match type of H with (do _ <- ?X; _) = _ => destruct X; [|discriminate] end. cbn [rbind] in H.
  match type of H with (do _ <- ?X; _) = _ => destruct X; [|discriminate] end. cbn [rbind] in H.
  destruct (other_params c) as [others|] eqn:Eo; [|discriminate]. cbn [rbind] in H. inversion H; subst y. clear H.
  rewrite Forall_forall in Hf.
  destruct (other_params_keys _ _ Eo Hn) as (O1 & O2 & O3 & O4).
  { apply Forall_forall. intros kv Hkv. specialize (Hf kv Hkv). destruct (snd kv); auto. }
  rewrite Forall_forall in O3.
  pose proof (Hf _ (get_In _ _ _ _ Er)) as Prid. cbn [snd] in Prid.
  (* the written result and what is read from it *)
  assert (Hres : (rs = [] /\ get "result" c = None) \/
    exists ry rv, rs = [("result", ry)] /\ get "result" c = Some rv /\ plain ry /\ read_result ry = Ok rv).
  { destruct (get "result" c) as [v|] eqn:Ev; [|left; inversion Ers; auto]. right.
    pose proof (Hf _ (get_In _ _ _ _ Ev)) as Pv. cbn [snd fst] in Pv.
    destruct v as [yv|q0|l]; cbn [write_result] in Ers.
    - destruct yv; try discriminate. inversion Ers. exists YNull, (PData YNull). cbn. auto.
    - discriminate.
    - inversion Ers. eexists _, (PCommittees l). split; auto. split; auto. destruct Pv as [_ Pv]. split.
      + apply plain_list. apply Forall_forall. intros x Hx. apply in_map_iff in Hx as (c0 & <- & _).
        apply plain_list. apply Forall_forall. intros x Hx. apply in_map_iff in Hx as (n & <- & _). apply plain_y_int.
      + cbn [read_result]. rewrite candidate_sets_ok; auto. }
  assert (Nr : ~ In "rule_id" (map fst others)) by (intros X; apply O3 in X; discriminate).
  assert (Ns : ~ In "result" (map fst others)) by (intros X; apply O3 in X; discriminate).
  split.
  { apply plain_dict. cbn [map fst]. split.
    - destruct Hres as [[-> _]|(ry & rv & -> & _)]; cbn [app map fst].
      + constructor; auto.
      + constructor; [intros [X|X]; [discriminate|auto]|]. constructor; auto.
    - constructor; auto. apply Forall_app. split; auto.
      destruct Hres as [[-> _]|(ry & rv & -> & _ & P & _)]; auto. }
  set (d := ("rule_id", rid) :: rs ++ others). unfold read_compute_instance.
  assert (get "rule_id" d = Some rid) as -> by reflexivity.
  set (c0 := put "committeesize" _ (put "profile" (PProfile q) (map (fun kx => (fst kx, PData (snd kx))) d))).
  assert (G0 : forall key, key <> "profile" -> key <> "committeesize" -> key <> "result" -> get key c0 = get key c).
  { intros key K1 K2 K3. unfold c0. rewrite !get_put_other by auto. rewrite get_map. unfold d. cbn [get].
    destruct (String.eqb_spec key "rule_id") as [->|K4]; [auto|].
    rewrite get_app. assert (get key rs = None) as ->.
    { destruct Hres as [[-> _]|(ry & rv & -> & _)]; auto. cbn [get]. apply String.eqb_neq in K3. rewrite K3. auto. }
    rewrite (other_params_get _ _ Eo). cbn. 
    apply String.eqb_neq in K1, K2, K3, K4. rewrite K1, K2, K3, K4. auto. }
  assert (Gp : get "profile" c0 = Some (PProfile q)).
  { unfold c0. rewrite get_put_other by discriminate. apply get_put_same. }
  assert (Gk : get "committeesize" c0 =
    Some (PData (match k with Some z => YNum (inject_Z z) true | None => YNull end))) by apply get_put_same.
  assert (Gd : get "result" d = get "result" (rs ++ others)) by reflexivity. rewrite Gd.
  destruct Hres as [[-> Ec]|(ry & rv & -> & Ec & _ & Ev)].
  - assert (get "result" ([] ++ others) = None) as E0.
    { destruct (get "result" ([] ++ others)) as [y|] eqn:E; auto. exfalso. apply Ns.
      apply get_In in E. apply (in_map fst) in E. auto. }
    rewrite E0.
    exists c0. split; auto. split; auto. intros key K1 K2.
    destruct (String.eqb_spec key "result") as [->|K3]; auto. rewrite Ec.
    unfold c0. rewrite !get_put_other by discriminate. rewrite get_map, Gd, E0. auto.
  - change (get "result" ([("result", ry)] ++ others)) with (Some ry). cbv iota. rewrite Ev. cbn [rbind].
    exists (put "result" rv c0). split; auto. split; [|split].
    + intros key K1 K2. destruct (String.eqb_spec key "result") as [->|K3].
      * rewrite get_put_same. auto.
      * rewrite get_put_other by auto. auto.
    + rewrite get_put_other by discriminate. auto.
    + rewrite get_put_other by discriminate. auto.
Qed.

End W.

Section W2.
Variable str_weight : Q -> bool -> string.

Lemma data_profile_same : forall p, wf p -> wf (data_profile p) /\ same_voters p (data_profile p).
Proof using.
  intros p [Hm Hv]. unfold data_profile, same_voters. split.
  - split; auto. cbn [num_cand voters]. destruct (has_unit_weights p).
    + clear -Hv. induction Hv as [|v vs (A & B & C)]; simpl; constructor; auto. repeat split; simpl; auto; lra.
    + clear -Hv. induction Hv as [|v vs (A & B & C)]; simpl; constructor; auto. repeat split; cbn [approved weight]; auto.
      rewrite Qred_correct. auto.
  - cbn [voters]. unfold has_unit_weights. destruct (forallb _ _) eqn:E.
    + clear -E. induction (voters p) as [|v vs IH]; simpl in *; constructor.
      * apply andb_true_iff in E as [E _]. apply Qeq_bool_iff in E. split; auto. symmetry. auto.
      * apply andb_true_iff in E as [_ E]. auto.
    + clear. induction (voters p) as [|v vs IH]; simpl; constructor; auto. split; auto. cbn. apply Qred_correct.
Qed.

Definition head_data (p : profile) (k : option Z) (description : option string) : list (string * yval) :=
    match description with Some s => [("description", YStr s)] | None => [] end ++
    [("profile", YList (map (fun v => YList (map y_int (approved v))) (voters p)))] ++
    (if has_unit_weights p then []
     else [("voter_weights", YList (map (fun v => YNum (Qred (weight v)) (weight_is_int v)) (voters p)))]) ++
    [("num_cand", y_int (num_cand p))] ++
    match k with Some z => [("committeesize", YNum (inject_Z z) true)] | None => [] end.

Lemma plain_sets : forall (l : list (list nat)), plain (YList (map (fun c => YList (map y_int c)) l)).
Proof using.
  intros l. apply plain_list. apply Forall_forall. intros x Hx. apply in_map_iff in Hx as (c0 & <- & _).
  apply plain_list. apply Forall_forall. intros x Hx. apply in_map_iff in Hx as (n & <- & _). apply plain_y_int.
Qed.

Lemma head_data_plain : forall p k desc comp, wf p ->
  Forall (fun v => weight_is_int v = true -> exists z, (weight v == inject_Z z)%Q) (voters p) ->
  comp = [] \/ (exists y, comp = [("compute", y)] /\ plain y) -> plain (YDict (head_data p k desc ++ comp)).
Proof using.
  intros p k desc comp Hw Hfl Hc. apply plain_dict.
  assert (P1 : plain (YList (map (fun v => YList (map y_int (approved v))) (voters p)))).
  { pose proof (plain_sets (map approved (voters p))) as P. rewrite map_map in P. auto. }
  assert (P2 : plain (YList (map (fun v => YNum (Qred (weight v)) (weight_is_int v)) (voters p)))).
  { apply plain_list. apply Forall_forall. intros x Hx. apply in_map_iff in Hx as (v & <- & Hv). cbn [plain].
    rewrite Forall_forall in Hfl. split; [apply Qred_complete, Qred_correct|]. intros E.
    destruct (Hfl v Hv E) as [z Hz]. rewrite (Qred_int _ _ Hz). auto. }
  assert (P3 : plain (y_int (num_cand p))) by apply plain_y_int.
  assert (P4 : forall z, plain (YNum (inject_Z z) true)) by apply plain_YZ.
  unfold head_data. split.
  - destruct Hc as [->|(y & -> & _)]; destruct desc, (has_unit_weights p), k; cbn [app map fst];
      repeat constructor; cbn; intuition discriminate.
  - assert (Hc' : Forall (fun kx => plain (snd kx)) comp) by (destruct Hc as [->|(y & -> & Py)]; auto).
    rewrite !Forall_app. repeat split; auto.
    + destruct desc; constructor; cbn; auto.
    + destruct (has_unit_weights p); constructor; auto.
    + destruct k; constructor; auto. exact (P4 z).
Qed.

Lemma yaml_data_head : forall p k insts desc, yaml_data str_weight p k insts desc =
  (do comp <- match insts with
             | None => Ok []
             | Some l => do ys <- rmapM (write_compute_instance str_weight p k) l;
                         Ok [("compute", YList ys)]
             end; Ok (YDict (head_data p k desc ++ comp))).
Proof using.
  intros. unfold yaml_data, head_data. destruct insts as [l|].
  - destruct (rmapM (write_compute_instance str_weight p k) l); cbn [rbind]; auto. rewrite <- !app_assoc. auto.
  - cbn [rbind]. rewrite <- !app_assoc. auto.
Qed.

Lemma yaml_roundtrip_data : forall p k insts desc y, wf p ->
  Forall (fun v => weight_is_int v = true -> exists z, (weight v == inject_Z z)%Q) (voters p) ->
  (forall l, insts = Some l -> Forall wf_compute_instance l) ->
  yaml_data str_weight p k insts desc = Ok y ->
  plain y /\ exists insts', read_abcvoting_yaml_data y = Ok (data_profile p, k, insts') /\
    Forall2 (restored (data_profile p) k) (match insts with Some l => l | None => [] end) insts'.
Proof using.
  intros p k insts desc y Hw Hfl Hi H. rewrite yaml_data_head in H.
  assert (Hx : exists comp, y = YDict (head_data p k desc ++ comp) /\
    (comp = [] \/ (exists z, comp = [("compute", z)] /\ plain z)) /\
    exists insts', (match get "compute" (head_data p k desc ++ comp) with
                  | Some c => do l <- py_list c; rmapM (read_compute_instance (data_profile p) k) l
                  | None => Ok [] end) = Ok insts' /\
      Forall2 (restored (data_profile p) k) (match insts with Some l => l | None => [] end) insts').
  { assert (G : get "compute" (head_data p k desc) = None).
    { unfold head_data. destruct desc, (has_unit_weights p), k; reflexivity. }
    destruct insts as [l|].
    - destruct (rmapM (write_compute_instance str_weight p k) l) as [ys|] eqn:E; [|discriminate].
      cbn [rbind] in H. inversion H; subst y. eexists. split; [reflexivity|].
      specialize (Hi l eq_refl). apply rmapM_Forall2 in E.
      assert (Forall plain ys /\ exists insts', rmapM (read_compute_instance (data_profile p) k) ys = Ok insts' /\
         Forall2 (restored (data_profile p) k) l insts') as (P & insts' & R & F).
      { clear H. induction E as [|c z l ys E F IH]; [split; auto; exists []; split; auto|]. inversion Hi; subst.
        destruct (IH H2) as (P & insts' & R & F').
        destruct (write_instance_ok str_weight p k c z (data_profile p) H1 E) as (Pz & c' & Rz & Fz).
        split; auto. exists (c' :: insts'). cbn [rmapM]. rewrite Rz. cbn [rbind]. rewrite R. auto. }
      split; [right; exists (YList ys); split; auto; apply plain_list; auto|].
      exists insts'. rewrite get_app, G. cbn [get]. rewrite String.eqb_refl. cbn [py_list rbind]. auto.
    - cbn [rbind] in H. inversion H; subst y. exists []. split; auto. split; auto. exists []. rewrite app_nil_r, G. auto. }
  destruct Hx as (comp & -> & Hc & insts' & Ei & F). split; [apply head_data_plain; auto|].
  exists insts'. split; auto. unfold read_abcvoting_yaml_data.
  rewrite (yaml_profile_ok p); auto.
  - cbn [rbind].
    assert (get "committeesize" (head_data p k desc ++ comp) =
            match k with Some z => Some (YNum (inject_Z z) true) | None => None end) as ->.
    { unfold head_data. destruct Hc as [->|(z & -> & _)]; destruct desc, (has_unit_weights p), k; reflexivity. }
    assert (match match k with Some z => Some (YNum (inject_Z z) true) | None => None end with
            | Some n => rmap Some (py_int n) | None => Ok None end = Ok k) as ->.
    { destruct k as [z|]; auto. rewrite py_int_YZ. auto. }
    cbn [rbind]. rewrite Ei. cbn [rbind].
    assert (forallb (fun kx => existsb (String.eqb (fst kx)) ABC_YAML_VALID_KEYS) (head_data p k desc ++ comp) = true)
      as ->; auto.
    unfold head_data. destruct Hc as [->|(z & -> & _)]; destruct desc, (has_unit_weights p), k; reflexivity.
  - unfold head_data. destruct Hc as [->|(z & -> & _)]; destruct desc, (has_unit_weights p), k; reflexivity.
  - unfold head_data. destruct Hc as [->|(z & -> & _)]; destruct desc, (has_unit_weights p), k; reflexivity.
  - unfold head_data. destruct Hc as [->|(z & -> & _)]; destruct desc, (has_unit_weights p), k; reflexivity.
Qed.

(** ** Writing succeeds *)
Lemma str_profile_total : forall p, wf p -> length (cand_names p) = num_cand p -> exists s, str_profile str_weight p = Ok s.
Proof using.
  intros p [Hm Hv] Hl. unfold str_profile.
  match goal with |- exists s, rbind (rmapM ?f ?l) _ = Ok s => destruct (rmapM_total _ _ f l) as [lines E] end.
  - apply Forall_forall. intros [i v] Hin. apply in_combine_r in Hin. rewrite Forall_forall in Hv.
    destruct (Hv v Hin) as (_ & Hr & _). unfold str_set_with_names. cbn [snd fst].
    destruct (rmapM_total _ _ (fun c => match nth_error (cand_names p) c with
                              | Some s => Ok s | None => Err IndexError end) (approved v)) as [l ->].
    + apply Forall_forall. intros c Hc. rewrite Forall_forall in Hr. specialize (Hr c Hc).
      destruct (nth_error (cand_names p) c) eqn:En; eauto. apply nth_error_None in En. lia.
    + cbn [rbind]. eauto.
  - rewrite E. cbn [rbind]. eauto.
Qed.

Lemma write_instance_total : forall p k c, wf p -> length (cand_names p) = num_cand p -> consistent p k c ->
  exists y, write_compute_instance str_weight p k c = Ok y.
Proof using.
  intros p k c Hw Hl [Hr Hf]. unfold write_compute_instance. rewrite Forall_forall in Hf.
  destruct (get "rule_id" c) as [rv|] eqn:Er; [|congruence].
  destruct (Hf _ (get_In _ _ _ _ Er)) as (_ & _ & _ & Hd). cbn [fst snd] in Hd.
  destruct Hd as [rid ->]; [discriminate|discriminate|].
  assert (exists rs, match get "result" c with None => Ok [] | Some v => do y <- write_result v; Ok [("result", y)] end
                     = Ok rs) as [rs ->].
  { destruct (get "result" c) as [v|] eqn:E; [|eauto].
    destruct (Hf _ (get_In _ _ _ _ E)) as (_ & _ & Hd & _). cbn [fst snd] in Hd.
    destruct (Hd eq_refl) as [->|[l ->]]; cbn; eauto. }
  cbn [rbind].
  match goal with |- exists y, rbind ?X _ = _ => assert (exists u, X = Ok u) as [u ->] end.
  { destruct (get "profile" c) as [v|] eqn:E; [|eauto].
    destruct (Hf _ (get_In _ _ _ _ E)) as (Hd & _). cbn [fst snd] in Hd; rewrite (Hd eq_refl).
    destruct (str_profile_total p Hw Hl) as [s ->]. cbn [rbind]. rewrite String.eqb_refl. eauto. }
  cbn [rbind].
  match goal with |- exists y, rbind ?X _ = _ => assert (exists u, X = Ok u) as [u' ->] end.
  { destruct (get "committeesize" c) as [v|] eqn:E; [|eauto].
    destruct (Hf _ (get_In _ _ _ _ E)) as (_ & Hd & _). cbn [fst snd] in Hd. destruct (Hd eq_refl) as (z & -> & ->).
    rewrite py_int_YZ. cbn [rbind]. rewrite Z.eqb_refl. eauto. }
  cbn [rbind].
  assert (exists others, other_params c = Ok others) as [others ->]; [|cbn [rbind]; eauto].
  clear Er. induction c as [|[key v] c IH]; [eexists; reflexivity|]. cbn [other_params]. fold reserved.
  destruct IH as [r Er]; [intros x Hx; apply Hf; right; auto|].
  destruct (existsb (String.eqb key) reserved) eqn:E; [eauto|].
  destruct (Hf (key, v) (or_introl eq_refl)) as (_ & _ & _ & Hd). cbn [fst snd] in Hd.
  destruct Hd as [y ->]; [intros ->; discriminate|intros ->; discriminate|]. rewrite Er. cbn [rbind]. eauto.
Qed.

Lemma yaml_data_total : forall p k insts desc, wf p -> length (cand_names p) = num_cand p ->
  (forall l, insts = Some l -> Forall (consistent p k) l) -> exists y, yaml_data str_weight p k insts desc = Ok y.
Proof using.
  intros p k insts desc Hw Hl Hi. rewrite yaml_data_head. destruct insts as [l|]; [|cbn; eauto].
  destruct (rmapM_total _ _ (write_compute_instance str_weight p k) l) as [ys ->].
  - eapply Forall_impl; [|apply Hi; auto]. intros c Hc. apply write_instance_total; auto.
  - cbn. eauto.
Qed.

End W2.

(** ** What has been read is a valid profile *)
Lemma add_weighted_wf : forall l p q, wf p -> add_weighted p l = Ok q -> wf q /\ num_cand q = num_cand p.
Proof.
  induction l as [|[s w] l IH]; intros p q Hw H; cbn [add_weighted] in H.
  - inversion H; subst; auto.
  - destruct w; try discriminate. destruct (voter_new s q0 isint None) as [v|]; [|discriminate]. cbn [rbind] in H.
    pose proof (add_voter_inv p (ArgVoter v) Hw) as [A [B _]].
    destruct (add_voter p (ArgVoter v)) as [[u|e] p']; [|discriminate]. simpl in A, B.
    destruct (IH p' q A H) as [C D]. split; auto. congruence.
Qed.
Lemma profile_new_wf : forall nc names p, profile_new nc names = Ok p -> wf p.
Proof.
  intros nc names p H. unfold profile_new in H. destruct (Z.leb_spec nc 0); [discriminate|].
  destruct names as [[|s l]|]; try destruct (_ <? _); inversion H; subst; split; simpl; auto; lia.
Qed.
Lemma yaml_profile_wf : forall data p, yaml_profile data = Ok p -> wf p.
Proof.
  intros data p H. unfold yaml_profile in H. destruct (get "profile" data) as [y|]; [|discriminate].
  match type of H with rbind ?X _ = _ => destruct X as [sets|]; [|discriminate] end. cbn [rbind] in H.
  match type of H with rbind ?X _ = _ => destruct X as [nc|]; [|discriminate] end. cbn [rbind] in H.
  destruct (profile_new nc None) as [p0|] eqn:E; [|discriminate]. cbn [rbind] in H. apply profile_new_wf in E.
  destruct (get "voter_weights" data) as [w|].
  - destruct (py_list w) as [ws|]; [|discriminate]. cbn [rbind] in H.
    destruct (negb _); [discriminate|]. eapply add_weighted_wf in H; [|exact E]. tauto.
  - pose proof (add_voters_inv (map ArgSet sets) p0 E) as [A _].
    destruct (add_voters p0 (map ArgSet sets)) as [[u|e] p']; [|discriminate]. inversion H; subst; auto.
Qed.
Lemma add_weighted_len : forall l p q, add_weighted p l = Ok q -> length (voters q) = length (voters p) + length l.
Proof.
  induction l as [|[s w] l IH]; intros p q H; cbn [add_weighted] in H.
  - inversion H; subst; simpl; lia.
  - destruct w; try discriminate. destruct (voter_new s q0 isint None) as [v|]; [|discriminate]. cbn [rbind] in H.
    unfold add_voter in H. destruct (unique_voter p (ArgVoter v)) as [u|]; [|discriminate].
    apply IH in H. simpl in H. rewrite app_length in H. simpl in *. lia.
Qed.
Lemma yaml_weights_len : forall data p w, yaml_profile data = Ok p -> get "voter_weights" data = Some w ->
  exists ws, w = YList ws /\ length ws = length (voters p).
Proof.
  intros data p w H Ew. unfold yaml_profile in H. destruct (get "profile" data) as [y|]; [|discriminate].
  match type of H with rbind ?X _ = _ => destruct X as [sets|]; [|discriminate] end. cbn [rbind] in H.
  match type of H with rbind ?X _ = _ => destruct X as [nc|]; [|discriminate] end. cbn [rbind] in H.
  destruct (profile_new nc None) as [p0|] eqn:E; [|discriminate]. cbn [rbind] in H. rewrite Ew in H.
  destruct w as [| | | |ws|]; try discriminate. cbn [py_list rbind] in H. exists ws. split; auto.
  destruct (Nat.eqb_spec (length ws) (length sets)) as [El|]; [|discriminate]. cbn [negb] in H.
  apply add_weighted_len in H. rewrite combine_length, El, Nat.min_id in H. rewrite H, El.
  unfold profile_new in E. destruct (Z.leb nc 0); [discriminate|]. inversion E; subst. auto.
Qed.
Lemma read_instance_keys : forall p k y c, read_compute_instance p k y = Ok c ->
  get "profile" c = Some (PProfile p) /\ get "rule_id" c <> None.
Proof.
  intros p k y c H. destruct y as [| | | | |d]; try discriminate. unfold read_compute_instance in H.
  destruct (get "rule_id" d) as [rid|] eqn:Er; [|discriminate].
  set (c0 := put "committeesize" _ _) in H.
  assert (A : get "profile" c0 = Some (PProfile p)).
  { unfold c0. rewrite get_put_other by discriminate. apply get_put_same. }
  assert (B : get "rule_id" c0 <> None).
  { unfold c0. rewrite !get_put_other by discriminate. rewrite get_map, Er. discriminate. }
  destruct (get "result" d) as [r|].
  - destruct (read_result r) as [r'|]; [|discriminate]. cbn [rbind] in H. inversion H; subst.
    rewrite !get_put_other by discriminate. auto.
  - inversion H; subst; auto.
Qed.
Lemma read_yaml_wf : forall y p k insts, read_abcvoting_yaml_data y = Ok (p, k, insts) ->
  wf p /\ exists data, y = YDict data /\ get "profile" data <> None /\
    (forall key v, In (key, v) data -> In key ABC_YAML_VALID_KEYS) /\
    (forall w, get "voter_weights" data = Some w -> exists ws, w = YList ws /\ length ws = length (voters p)) /\
    Forall (fun c => get "profile" c = Some (PProfile p) /\ get "rule_id" c <> None) insts.
Proof.
  intros y p k insts H. unfold read_abcvoting_yaml_data in H. destruct y as [| | | | |data]; try discriminate.
  destruct (yaml_profile data) as [p0|] eqn:E1; [|discriminate]. cbn [rbind] in H.
  match type of H with rbind ?X _ = _ => destruct X as [k0|] eqn:E2; [|discriminate] end. cbn [rbind] in H.
  match type of H with rbind ?X _ = _ => destruct X as [insts0|] eqn:E3; [|discriminate] end. cbn [rbind] in H.
  destruct (forallb _ data) eqn:E4; [|discriminate]. inversion H; subst. clear H.
  split; [eapply yaml_profile_wf; eauto|]. exists data. split; auto.
  split; [intros E; unfold yaml_profile in E1; rewrite E in E1; discriminate|]. split; [|split].
  - intros key v Hin. rewrite forallb_forall in E4. specialize (E4 _ Hin). apply existsb_exists in E4 as (x & Hx & Ex).
    apply String.eqb_eq in Ex. cbn [fst] in Ex. congruence.
  - intros w Ew. eapply yaml_weights_len; eauto.
  - destruct (get "compute" data) as [c|]; [|inversion E3; constructor].
    destruct (py_list c) as [l|]; [|discriminate]. cbn [rbind] in E3. apply rmapM_Forall2 in E3.
    clear -E3. induction E3 as [|y c l insts E F IH]; constructor; auto. eapply read_instance_keys; eauto.
Qed.

(** ** Writing back what has been read *)
Lemma put_keys : forall (A : Type) k (x : A) d, incl (map fst (put k x d)) (k :: map fst d).
Proof.
  induction d as [|[k' y] d IH]; cbn; [apply incl_refl|]. destruct (String.eqb_spec k k') as [->|E]; cbn.
  - apply incl_tl, incl_refl.
  - intros z [<-|Hz]; [right; left; auto|]. apply IH in Hz as [<-|Hz]; [left; auto|right; right; auto].
Qed.
Lemma put_nodup : forall (A : Type) k (x : A) d, NoDup (map fst d) -> NoDup (map fst (put k x d)).
Proof.
  induction d as [|[k' y] d IH]; cbn; intros N; [repeat constructor; auto|]. inversion N; subst.
  destruct (String.eqb_spec k k') as [->|E]; cbn; constructor; auto. intros Hin. apply put_keys in Hin as [->|Hin]; auto.
Qed.
Lemma put_In : forall (A : Type) k (x : A) d k' v, NoDup (map fst d) -> In (k', v) (put k x d) ->
  (k' = k /\ v = x) \/ (k' <> k /\ In (k', v) d).
Proof.
  induction d as [|[k1 y] d IH]; cbn; intros k' v N H.
  - destruct H as [H|[]]. inversion H; auto.
  - inversion N; subst. destruct (String.eqb_spec k k1) as [->|E]; cbn in H.
    + destruct H as [H|H]; [inversion H; auto|]. right. split; auto. intros ->. apply H2. apply (in_map fst) in H. auto.
    + destruct H as [H|H]; [inversion H; subst; right; split; auto|].
      destruct (IH _ _ H3 H) as [?|[? ?]]; auto.
Qed.

Lemma get_None : forall (A : Type) k (d : list (string * A)), get k d = None -> ~ In k (map fst d).
Proof.
  induction d as [|[k' x] d IH]; cbn; intros H; auto. destruct (String.eqb_spec k k') as [->|E]; [discriminate|].
  intros [X|X]; [congruence|]. exact (IH H X).
Qed.
Lemma add_weighted_keeps : forall l p q, wf p -> add_weighted p l = Ok q -> keeps p q.
Proof.
  induction l as [|[s w] l IH]; intros p q Hw H; cbn [add_weighted] in H.
  - inversion H; subst; apply keeps_refl.
  - destruct w; try discriminate. destruct (voter_new s q0 isint None) as [v|]; [|discriminate]. cbn [rbind] in H.
    pose proof (add_voter_inv p (ArgVoter v) Hw) as [A B].
    destruct (add_voter p (ArgVoter v)) as [[u|e] p']; [|discriminate]. simpl in A, B.
    eapply keeps_trans; [exact B|]. eauto.
Qed.
Lemma yaml_profile_names : forall data p, yaml_profile data = Ok p -> length (cand_names p) = num_cand p.
Proof.
  intros data p H. unfold yaml_profile in H. destruct (get "profile" data) as [y|]; [|discriminate].
  match type of H with rbind ?X _ = _ => destruct X as [sets|]; [|discriminate] end. cbn [rbind] in H.
  match type of H with rbind ?X _ = _ => destruct X as [nc|]; [|discriminate] end. cbn [rbind] in H.
  destruct (profile_new nc None) as [p0|] eqn:E; [|discriminate]. cbn [rbind] in H.
  apply profile_new_wf in E as W0.
  assert (L0 : length (cand_names p0) = num_cand p0).
  { unfold profile_new in E. destruct (Z.leb nc 0); inversion E; subst; cbn. rewrite map_length, seq_length. auto. }
  assert (K : keeps p0 p); [|destruct K; congruence].
  destruct (get "voter_weights" data) as [w|].
  - destruct (py_list w) as [ws|]; [|discriminate]. cbn [rbind] in H.
    destruct (negb _); [discriminate|]. eapply add_weighted_keeps in H; eauto.
  - pose proof (add_voters_inv (map ArgSet sets) p0 W0) as [_ A].
    destruct (add_voters p0 (map ArgSet sets)) as [[u|e] p']; [|discriminate]. inversion H; subst; auto.
Qed.

Lemma read_result_kind : forall r v, read_result r = Ok v -> v = PData YNull \/ exists l, v = PCommittees l.
Proof.
  intros r v H. destruct r; try discriminate; cbn [read_result] in H; [inversion H; auto|].
  destruct (rmapM _ l); [|discriminate]. cbn in H. inversion H; eauto.
Qed.

Lemma read_instance_consistent : forall p z y c, plain y -> read_compute_instance p (Some z) y = Ok c ->
  consistent p (Some z) c.
Proof.
  intros p z y c Py H. split; [apply (read_instance_keys _ _ _ _ H)|].
  destruct y as [| | | | |d]; try discriminate. apply plain_dict in Py as [Nd _]. unfold read_compute_instance in H.
  destruct (get "rule_id" d) as [rid|] eqn:Er; [|discriminate].
  set (c1 := map (fun kx => (fst kx, PData (snd kx))) d) in H.
  assert (N1 : NoDup (map fst c1)). { unfold c1. rewrite map_map. cbn. auto. }
  assert (F1 : forall k' v, In (k', v) c1 -> exists y, v = PData y).
  { intros k' v Hin. apply in_map_iff in Hin as ([a b] & E & _). inversion E; eauto. }
  set (c2 := put "profile" (PProfile p) c1) in H.
  assert (N2 : NoDup (map fst c2)) by (apply put_nodup; auto).
  set (c3 := put "committeesize" (PData (YNum (inject_Z z) true)) c2) in H.
  assert (N3 : NoDup (map fst c3)) by (apply put_nodup; auto).
  assert (F3 : forall k' v, In (k', v) c3 ->
    (k' = "committeesize" /\ v = PData (YNum (inject_Z z) true)) \/ (k' = "profile" /\ v = PProfile p) \/
    (k' <> "committeesize" /\ k' <> "profile" /\ exists y, v = PData y)).
  { intros k' v Hin. apply (put_In _ _ _ _ _ _ N2) in Hin as [Hin|[A Hin]]; auto.
    apply (put_In _ _ _ _ _ _ N1) in Hin as [Hin|[B Hin]]; auto. right; right. eauto. }
  destruct (get "result" d) as [r|] eqn:Eres.
  - destruct (read_result r) as [r'|] eqn:Er'; [|discriminate]. cbn [rbind] in H. inversion H; subst c.
    apply read_result_kind in Er'. apply Forall_forall. intros [k' v] Hin. cbn [fst snd].
    apply (put_In _ _ _ _ _ _ N3) in Hin as [[-> ->]|[A Hin]].
    + repeat split; intros; try discriminate; auto. congruence.
    + apply F3 in Hin as [[-> ->]|[[-> ->]|(B & C & y & ->)]]; repeat split; intros; try discriminate; try congruence; eauto.
  - inversion H; subst c. apply Forall_forall. intros [k' v] Hin. cbn [fst snd].
    assert (A : k' <> "result").
    { intros ->. apply (in_map fst) in Hin. cbn [fst] in Hin. apply put_keys in Hin as [X|Hin]; [discriminate|].
      apply put_keys in Hin as [X|Hin]; [discriminate|]. unfold c1 in Hin. rewrite map_map in Hin. cbn [fst] in Hin.
      exact (get_None _ _ _ Eres Hin). }
    apply F3 in Hin as [[-> ->]|[[-> ->]|(B & C & y & ->)]]; repeat split; intros; try discriminate; try congruence; eauto.
Qed.

Lemma rewrite_ok : forall str_weight y p z insts desc, plain y -> read_abcvoting_yaml_data y = Ok (p, Some z, insts) ->
  exists y', yaml_data str_weight p (Some z) (Some insts) desc = Ok y'.
Proof.
  intros sw y p z insts desc Py H. pose proof (read_yaml_wf _ _ _ _ H) as (Hw & _).
  apply yaml_data_total; auto.
  - (* names *)
    unfold read_abcvoting_yaml_data in H. destruct y as [| | | | |data]; try discriminate.
    destruct (yaml_profile data) as [p0|] eqn:E1; [|discriminate]. cbn [rbind] in H.
    match type of H with rbind ?X _ = _ => destruct X as [k0|]; [|discriminate] end. cbn [rbind] in H.
    match type of H with rbind ?X _ = _ => destruct X as [insts0|]; [|discriminate] end. cbn [rbind] in H.
    destruct (forallb _ data); [|discriminate]. inversion H; subst. clear H.
    eapply yaml_profile_names; eauto.
  - intros l E. inversion E; subst l. clear E.
    unfold read_abcvoting_yaml_data in H. destruct y as [| | | | |data]; try discriminate.
    destruct (yaml_profile data) as [p0|] eqn:E1; [|discriminate]. cbn [rbind] in H.
    match type of H with rbind ?X _ = _ => destruct X as [k0|]; [|discriminate] end. cbn [rbind] in H.
    match type of H with rbind ?X _ = _ => destruct X as [insts0|] eqn:E3; [|discriminate] end. cbn [rbind] in H.
    destruct (forallb _ data); [|discriminate]. inversion H; subst. clear H.
    destruct (get "compute" data) as [c|] eqn:Ec; [|inversion E3; constructor].
    destruct c as [| | | |l|]; try discriminate. cbn [py_list rbind] in E3. apply rmapM_Forall2 in E3.
    apply plain_dict in Py as [_ Py]. rewrite Forall_forall in Py. specialize (Py _ (get_In _ _ _ _ Ec)).
    cbn [snd] in Py. apply plain_list in Py.
    clear -E3 Py. induction E3 as [|y c l insts E F IH]; constructor; inversion Py; subst; auto.
    eapply read_instance_consistent; eauto.
Qed.

Definition int_instance (c : compute_instance) : Prop :=
  Forall (fun kv => match snd kv with PData y => int_only y | _ => True end) c.

Lemma other_params_int : forall c others, other_params c = Ok others -> int_instance c ->
  Forall (fun kx => int_only (snd kx)) others.
Proof.
  induction c as [|[k v] c IH]; intros others H F; cbn [other_params] in H.
  - inversion H; constructor.
  - fold reserved in H. inversion F; subst. destruct (existsb (String.eqb k) reserved); [eauto|].
    destruct v as [y| |]; try discriminate. destruct (other_params c) as [r'|] eqn:E'; [|discriminate].
    cbn [rbind] in H. inversion H; subst. constructor; eauto.
Qed.
Lemma int_sets : forall (l : list (list nat)), int_only (YList (map (fun c => YList (map y_int c)) l)).
Proof.
  intros l. apply int_list. apply Forall_forall. intros x Hx. apply in_map_iff in Hx as (c0 & <- & _).
  apply int_list. apply Forall_forall. intros x Hx. apply in_map_iff in Hx as (n & <- & _). reflexivity.
Qed.
Lemma write_instance_int : forall sw p k c y, int_instance c -> write_compute_instance sw p k c = Ok y -> int_only y.
Proof.
  intros sw p k c y Hf H. unfold write_compute_instance in H.
  destruct (get "rule_id" c) as [[rid| |]|] eqn:Er; try discriminate.
  match type of H with rbind ?X _ = _ => destruct X as [rs|] eqn:Ers; [|discriminate] end. cbn [rbind] in H.
  match type of H with (do _ <- ?X; _) = _ => destruct X; [|discriminate] end. cbn [rbind] in H.
  match type of H with (do _ <- ?X; _) = _ => destruct X; [|discriminate] end. cbn [rbind] in H.
  destruct (other_params c) as [others|] eqn:Eo; [|discriminate]. cbn [rbind] in H. inversion H; subst y. clear H.
  apply int_dict. pose proof (other_params_int _ _ Eo Hf) as O. unfold int_instance in Hf. rewrite Forall_forall in Hf.
  constructor; [apply (Hf _ (get_In _ _ _ _ Er))|]. apply Forall_app. split; auto.
  destruct (get "result" c) as [v|]; [|inversion Ers; constructor].
  destruct v as [yv| |l]; cbn [write_result] in Ers; [destruct yv; try discriminate|discriminate|];
    inversion Ers; constructor; auto; [exact I|apply int_sets].
Qed.
Lemma yaml_data_int : forall sw p k insts desc y, Forall (fun v => weight_is_int v = true) (voters p) ->
  (forall l, insts = Some l -> Forall int_instance l) -> yaml_data sw p k insts desc = Ok y -> int_only y.
Proof.
  intros sw p k insts desc y Hv Hi H. rewrite yaml_data_head in H.
  assert (Hx : exists comp, y = YDict (head_data p k desc ++ comp) /\ Forall (fun kx => int_only (snd kx)) comp).
  { destruct insts as [l|].
    - destruct (rmapM (write_compute_instance sw p k) l) as [ys|] eqn:E; [|discriminate]. cbn [rbind] in H.
      inversion H; subst y. eexists. split; [reflexivity|]. constructor; auto. cbn [snd]. apply int_list.
      apply rmapM_Forall2 in E. specialize (Hi l eq_refl). clear -E Hi.
      induction E; inversion Hi; subst; constructor; auto. eapply write_instance_int; eauto.
    - inversion H. exists []. auto. }
  destruct Hx as (comp & -> & Hc). apply int_dict. apply Forall_app. split; auto. unfold head_data.
  rewrite !Forall_app. repeat split; auto.
  - destruct desc; repeat constructor.
  - constructor; auto. cbn [snd]. pose proof (int_sets (map approved (voters p))) as P. rewrite map_map in P. auto.
  - destruct (has_unit_weights p); constructor; auto. cbn [snd]. apply int_list. apply Forall_forall. intros x Hx.
    apply in_map_iff in Hx as (v & <- & Hin). rewrite Forall_forall in Hv. apply Hv. auto.
  - constructor; auto. reflexivity.
  - destruct k; repeat constructor.
Qed.
