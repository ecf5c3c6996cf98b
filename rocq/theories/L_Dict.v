(* Facts about insertion-ordered dictionaries. *)
From Coq Require Import Permutation.
From Verif Require Import M_Prelude.

Section Dict.
Context {K V : Type} `{EqB K}.
Implicit Types (d e : dict K V) (k : K) (v : V).

Lemma eqb_refl k : eqb k k = true.
Proof. destruct (eqb_spec k k); congruence. Qed.
Lemma eqb_neq k k' : k <> k' -> eqb k k' = false.
Proof. destruct (eqb_spec k k'); congruence. Qed.

Lemma dget_cons d k v k' : dget ((k, v) :: d) k' = if eqb k' k then Some v else dget d k'.
Proof. reflexivity. Qed.
Lemma dget_dset d k v k' : dget (dset d k v) k' = if eqb k' k then Some v else dget d k'.
Proof.
  induction d as [|[k0 v0] d IH]; simpl.
  - destruct (eqb_spec k' k); reflexivity.
  - destruct (eqb_spec k k0) as [->|Hne]; simpl.
    + destruct (eqb_spec k' k0); reflexivity.
    + destruct (eqb_spec k' k0) as [->|Hne']; [|apply IH].
      rewrite eqb_neq by congruence. reflexivity.
Qed.
Lemma dget_dset_same d k v : dget (dset d k v) k = Some v.
Proof. rewrite dget_dset, eqb_refl. reflexivity. Qed.
Lemma dget_dset_other d k v k' : k' <> k -> dget (dset d k v) k' = dget d k'.
Proof. intros Hne. rewrite dget_dset, eqb_neq by auto. reflexivity. Qed.

Lemma dget_In d k v : dget d k = Some v -> In (k, v) d.
Proof.
  induction d as [|[k0 v0] d IH]; simpl; [discriminate|].
  destruct (eqb_spec k k0) as [->|Hne]; [intros [= ->]; auto|auto].
Qed.
Lemma dget_None d k : dget d k = None <-> ~ In k (dkeys d).
Proof.
  induction d as [|[k0 v0] d IH]; simpl; [tauto|].
  destruct (eqb_spec k k0) as [->|Hne].
  - split; [discriminate|tauto].
  - rewrite IH. intuition congruence.
Qed.
Lemma dget_Some_key d k : In k (dkeys d) <-> exists v, dget d k = Some v.
Proof.
  destruct (dget d k) as [v|] eqn:E.
  - split; [eauto|]. intros _. apply dget_In in E. apply (in_map fst) in E. exact E.
  - apply dget_None in E. split; [tauto|]. intros [v Hv]. discriminate.
Qed.
Lemma dmem_In d k : dmem d k = true <-> In k (dkeys d).
Proof.
  unfold dmem. rewrite dget_Some_key. destruct (dget d k); split; eauto; try discriminate.
  intros [v Hv]; discriminate.
Qed.
Lemma dmem_dget d k : dmem d k = match dget d k with Some _ => true | None => false end.
Proof. reflexivity. Qed.
Lemma In_dget d k v : NoDup (dkeys d) -> In (k, v) d -> dget d k = Some v.
Proof.
  induction d as [|[k0 v0] d IH]; simpl; [tauto|].
  intros Hnd. apply NoDup_cons_iff in Hnd as [Hni Hnd].
  intros [[= -> ->]|Hin]; [rewrite eqb_refl; auto|].
  destruct (eqb_spec k k0) as [->|Hne]; auto.
  exfalso. apply Hni. apply (in_map fst) in Hin. exact Hin.
Qed.

Lemma dkeys_dset_in d k v : In k (dkeys d) -> dkeys (dset d k v) = dkeys d.
Proof.
  induction d as [|[k0 v0] d IH]; simpl; [tauto|].
  destruct (eqb_spec k k0) as [->|Hne]; simpl; auto.
  intros [E|Hin]; [congruence|]. f_equal; auto.
Qed.
Lemma dkeys_dset_notin d k v : ~ In k (dkeys d) -> dkeys (dset d k v) = dkeys d ++ [k].
Proof.
  induction d as [|[k0 v0] d IH]; simpl; auto.
  intros Hni. destruct (eqb_spec k k0) as [->|Hne]; [tauto|]. simpl. f_equal. apply IH. tauto.
Qed.
Lemma dset_notin d k v : ~ In k (dkeys d) -> dset d k v = d ++ [(k, v)].
Proof.
  induction d as [|[k0 v0] d IH]; simpl; auto.
  intros Hni. destruct (eqb_spec k k0) as [->|Hne]; [tauto|]. simpl. f_equal. apply IH. tauto.
Qed.
Lemma in_dkeys_dset d k v k' : In k' (dkeys (dset d k v)) <-> k' = k \/ In k' (dkeys d).
Proof.
  rewrite !dget_Some_key. setoid_rewrite dget_dset.
  destruct (eqb_spec k' k) as [->|Hne].
  - split; eauto.
  - split; [eauto|]. intros [E|Hx]; [congruence|auto].
Qed.
Lemma in_dec_key (k : K) l : {In k l} + {~ In k l}.
Proof.
  induction l as [|a l IH]; simpl; [auto|].
  destruct (eqb_spec a k); [auto|]. destruct IH; [auto|right; tauto].
Qed.
Lemma NoDup_snoc {A} (l : list A) a : NoDup l -> ~ In a l -> NoDup (l ++ [a]).
Proof.
  intros Hn Hi. apply (Permutation_NoDup (l := a :: l)).
  - apply Permutation_cons_append.
  - constructor; auto.
Qed.
Lemma NoDup_dset d k v : NoDup (dkeys d) -> NoDup (dkeys (dset d k v)).
Proof.
  intros Hn. destruct (in_dec_key k (dkeys d)) as [Hi|Hi].
  - rewrite dkeys_dset_in by auto. auto.
  - rewrite dkeys_dset_notin by auto. apply NoDup_snoc; auto.
Qed.

Lemma dget_dpop d k k' : NoDup (dkeys d) -> dget (dpop d k) k' = if eqb k' k then None else dget d k'.
Proof.
  induction d as [|[k0 v0] d IH]; simpl; intros Hnd.
  - destruct (eqb k' k); reflexivity.
  - apply NoDup_cons_iff in Hnd as [Hni Hnd].
    destruct (eqb_spec k k0) as [->|Hne].
    + destruct (eqb_spec k' k0) as [E|Hne']; [subst; apply dget_None; auto|reflexivity].
    + simpl. rewrite IH by auto. destruct (eqb_spec k' k0) as [E|Hne'].
      * subst k0. rewrite eqb_neq by congruence. reflexivity.
      * reflexivity.
Qed.

Lemma dget_app d e k : dget (d ++ e) k = match dget d k with Some v => Some v | None => dget e k end.
Proof.
  induction d as [|[k0 v0] d IH]; simpl; auto. destruct (eqb k k0); auto.
Qed.

Lemma dget_filter (p : K * V -> bool) d k : NoDup (dkeys d) ->
  dget (filter p d) k = match dget d k with Some v => if p (k, v) then Some v else None | None => None end.
Proof.
  induction d as [|[k0 v0] d IH]; simpl; intros Hnd; auto.
  apply NoDup_cons_iff in Hnd as [Hni Hnd].
  destruct (eqb_spec k k0) as [->|Hne].
  - destruct (p (k0, v0)) eqn:E; simpl; [rewrite eqb_refl; auto|].
    rewrite IH by auto. apply dget_None in Hni. rewrite Hni. reflexivity.
  - destruct (p (k0, v0)); simpl; [rewrite eqb_neq by auto|]; apply IH; auto.
Qed.
Lemma NoDup_filter_keys (p : K * V -> bool) d : NoDup (dkeys d) -> NoDup (dkeys (filter p d)).
Proof.
  induction d as [|[k0 v0] d IH]; simpl; intros Hnd; auto.
  apply NoDup_cons_iff in Hnd as [Hni Hnd].
  destruct (p (k0, v0)); simpl; auto. constructor; auto.
  intros Hi. apply Hni. unfold dkeys in *. apply in_map_iff in Hi as ([k v] & <- & Hin).
  apply filter_In in Hin as [Hin _]. apply (in_map fst) in Hin. exact Hin.
Qed.

(* the "loop over a copy of the items and pop" idiom is filter *)
Lemma pop_loop_filter (p : K * V -> bool) : forall l pre,
  NoDup (dkeys (pre ++ l)) -> (forall x, In x pre -> p x = false) ->
  fold_left (fun acc kv => if p kv then dpop acc (fst kv) else acc) l (pre ++ l)
  = pre ++ filter (fun kv => negb (p kv)) l.
Proof.
  induction l as [|[k v] l IH]; intros pre Hnd Hpre; simpl; auto.
  destruct (p (k, v)) eqn:E; simpl.
  - assert (Hp : dpop (pre ++ (k, v) :: l) k = pre ++ l).
    { clear IH Hpre. induction pre as [|[k1 v1] pre IHp]; simpl; [rewrite eqb_refl; auto|].
      simpl in Hnd. apply NoDup_cons_iff in Hnd as [Hni Hnd].
      rewrite eqb_neq; [f_equal; auto|]. intros ->. apply Hni.
      unfold dkeys. rewrite map_app. apply in_or_app. right. left. reflexivity. }
    rewrite Hp. apply IH; auto.
    unfold dkeys in *. rewrite map_app in *. simpl in Hnd. apply NoDup_remove_1 in Hnd. exact Hnd.
  - replace (pre ++ (k, v) :: l) with ((pre ++ [(k, v)]) ++ l) by (rewrite <- app_assoc; auto).
    rewrite IH.
    + rewrite <- app_assoc. reflexivity.
    + rewrite <- app_assoc. exact Hnd.
    + intros x Hx. apply in_app_or in Hx as [Hx|[<-|[]]]; auto.
Qed.
Lemma pop_loop_filter0 (p : K * V -> bool) d : NoDup (dkeys d) ->
  fold_left (fun acc kv => if p kv then dpop acc (fst kv) else acc) d d = filter (fun kv => negb (p kv)) d.
Proof. intros Hnd. apply (pop_loop_filter p d []); auto. intros x []. Qed.

Lemma dict_ext_perm d e : NoDup (dkeys d) -> NoDup (dkeys e) -> (forall k, dget d k = dget e k) -> Permutation d e.
Proof.
  intros Hd He Hx. apply NoDup_Permutation.
  - apply (NoDup_map_inv fst). exact Hd.
  - apply (NoDup_map_inv fst). exact He.
  - intros [k v]. split; intros Hin.
    + apply dget_In. rewrite <- Hx. apply In_dget; auto.
    + apply dget_In. rewrite Hx. apply In_dget; auto.
Qed.
Lemma dget_perm d e k : NoDup (dkeys d) -> Permutation d e -> dget d k = dget e k.
Proof.
  intros Hd Hp.
  assert (He : NoDup (dkeys e)) by (eapply Permutation_NoDup; [apply Permutation_map; eauto|auto]).
  destruct (dget d k) as [v|] eqn:E.
  - symmetry. apply In_dget; auto. eapply Permutation_in; eauto. apply dget_In; auto.
  - symmetry. apply dget_None. intros Hi. apply dget_None in E. apply E.
    eapply Permutation_in; [|exact Hi]. apply Permutation_map. symmetry; auto.
Qed.

Lemma dupdate_get e : forall d k, dget (dupdate d e) k =
  fold_left (fun r kv => if eqb k (fst kv) then Some (snd kv) else r) e (dget d k).
Proof.
  unfold dupdate. induction e as [|[k0 v0] e IH]; intros d k; simpl; auto.
  rewrite IH, dget_dset. reflexivity.
Qed.
Lemma fold_last_dget e k : NoDup (dkeys e) -> forall r,
  fold_left (fun r (kv : K * V) => if eqb k (fst kv) then Some (snd kv) else r) e r =
  match dget e k with Some v => Some v | None => r end.
Proof.
  induction e as [|[k0 v0] e IH]; simpl; intros Hnd r; auto.
  apply NoDup_cons_iff in Hnd as [Hni Hnd]. rewrite IH by auto.
  destruct (eqb_spec k k0) as [->|Hne]; auto.
  apply dget_None in Hni. rewrite Hni. reflexivity.
Qed.
Lemma dget_dupdate d e k : NoDup (dkeys e) ->
  dget (dupdate d e) k = match dget e k with Some v => Some v | None => dget d k end.
Proof. intros Hnd. rewrite dupdate_get, fold_last_dget by auto. reflexivity. Qed.
Lemma NoDup_dupdate e : forall d, NoDup (dkeys d) -> NoDup (dkeys (dupdate d e)).
Proof.
  unfold dupdate. induction e as [|[k0 v0] e IH]; intros d Hd; simpl; auto.
  apply IH. apply NoDup_dset. auto.
Qed.
Lemma dupdate_nil e : NoDup (dkeys e) -> dupdate [] e = e.
Proof.
  intros Hn. unfold dupdate.
  assert (G : forall l pre : dict K V, NoDup (dkeys (pre ++ l)) ->
    fold_left (fun acc kv => dset acc (fst kv) (snd kv)) l pre = pre ++ l).
  { induction l as [|[k v] l IH]; intros pre Hp; simpl; [rewrite app_nil_r; auto|].
    rewrite dset_notin.
    - rewrite IH; rewrite <- app_assoc; auto.
    - unfold dkeys in *. rewrite map_app in Hp. simpl in Hp. apply NoDup_remove_2 in Hp.
      intros Hi. apply Hp. apply in_or_app. auto. }
  apply (G e []). exact Hn.
Qed.

End Dict.
