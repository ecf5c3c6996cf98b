(* get_basis: shells, and the whole basis. *)
From Coq Require Import Sorting.Permutation.
From Verif Require Import M_Prelude M_PSR M_Basis S_Occ S_Fock S_Basis.
From Verif Require Import L_PSR L_Dict L_Fock L_Ham L_ExpandP L_FromH L_Index L_Basis.
Local Open Scope Z_scope.

Lemma zrange2_app a b c : a <= b <= c -> zrange2 a b ++ zrange2 b c = zrange2 a c.
Proof.
  intros Hb. unfold zrange2. replace (Z.to_nat (c - a)) with (Z.to_nat (b - a) + Z.to_nat (c - b))%nat by lia.
  rewrite seq_app, map_app. f_equal. rewrite Nat.add_0_l.
  replace (Z.to_nat (b - a)) with (0 + Z.to_nat (b - a))%nat at 1 by lia. generalize (Z.to_nat (c - b)) as k. intros k.
  assert (E : forall s, map (fun k0 => b + Z.of_nat k0) (seq s k) = map (fun k0 => a + Z.of_nat k0) (seq (s + Z.to_nat (b - a)) k)).
  { induction k as [|k IH]; intros s; simpl; auto. f_equal; [lia|]. rewrite IH. reflexivity. }
  exact (E 0%nat).
Qed.
Lemma zrange2_shift d a b : map (fun m => m + d) (zrange2 a b) = zrange2 (a + d) (b + d).
Proof. unfold zrange2. rewrite map_map. replace (b + d - (a + d)) with (b - a) by lia. apply map_ext. intros; lia. Qed.
Lemma zrange_zrange2 n : zrange n = zrange2 0 n.
Proof. unfold zrange, zrange2. rewrite Z.sub_0_r. apply map_ext. intros; lia. Qed.

(* ---- one partition ---- *)
Definition triple (I V C : list Z) (a b c : nat) : list (list Z) :=
  flat_map (fun bI => flat_map (fun bV => map (fun bC => bI ++ bV ++ bC) (combs C c)) (combs V b)) (combs I a).
Lemma combs_len {A} (l : list A) : forall r s, In s (combs l r) -> length s = r.
Proof.
  induction l as [|a l IH]; intros [|r] s Hs; simpl in Hs.
  - destruct Hs as [<-|[]]; auto.
  - destruct Hs.
  - destruct Hs as [<-|[]]; auto.
  - apply in_app_iff in Hs as [Hs|Hs]; [|eauto]. apply in_map_iff in Hs as (s' & <- & Hs'). simpl. f_equal. eauto.
Qed.
Lemma triple_split I V C a b c s : In s (triple I V C a b c) <->
  exists sI sV sC, s = sI ++ sV ++ sC /\ In sI (combs I a) /\ In sV (combs V b) /\ In sC (combs C c).
Proof.
  unfold triple. rewrite in_flat_map. split.
  - intros (sI & HI & Hs). apply in_flat_map in Hs as (sV & HV & Hs). apply in_map_iff in Hs as (sC & <- & HC). eauto 10.
  - intros (sI & sV & sC & -> & HI & HV & HC). exists sI. split; auto. apply in_flat_map. exists sV. split; auto. apply in_map_iff. eauto.
Qed.
Lemma triple_NoDup I V C a b c : NoDup I -> NoDup V -> NoDup C -> NoDup (triple I V C a b c).
Proof.
  intros HI HV HC. unfold triple. apply NoDup_flat_map_intro; [apply combs_NoDup; auto| |].
  - intros sI HsI. apply NoDup_flat_map_intro; [apply combs_NoDup; auto| |].
    + intros sV HsV. apply NoDup_map_on; [|apply combs_NoDup; auto]. intros x y _ _ E. apply app_inv_head in E. apply app_inv_head in E. auto.
    + intros x y z Hx Hy H1 H2. apply in_map_iff in H1 as (c1 & <- & _). apply in_map_iff in H2 as (c2 & E & _).
      apply app_inv_head in E. apply app_inj_len in E as [E _]; [auto|]. rewrite (combs_len _ _ _ Hx), (combs_len _ _ _ Hy). auto.
  - intros x y z Hx Hy H1 H2. apply in_flat_map in H1 as (v1 & _ & H1). apply in_map_iff in H1 as (c1 & <- & _).
    apply in_flat_map in H2 as (v2 & _ & H2). apply in_map_iff in H2 as (c2 & E & _).
    apply app_inj_len in E as [E _]; [auto|]. rewrite (combs_len _ _ _ Hx), (combs_len _ _ _ Hy). auto.
Qed.
Lemma flat_map_const_len {A B} (f : A -> list B) n l : (forall a, In a l -> length (f a) = n) -> length (flat_map f l) = (length l * n)%nat.
Proof. induction l as [|a l IH]; intros Hf; simpl; auto. rewrite app_length, Hf by (left; auto). rewrite IH by (intros; apply Hf; right; auto). auto. Qed.
Lemma triple_length I V C a b c : length (triple I V C a b c) = (binom (length I) a * binom (length V) b * binom (length C) c)%nat.
Proof.
  unfold triple. rewrite (flat_map_const_len _ (binom (length V) b * binom (length C) c)).
  - rewrite combs_length. lia.
  - intros sI _. rewrite (flat_map_const_len _ (binom (length C) c)); [rewrite combs_length; auto|].
    intros sV _. rewrite map_length. apply combs_length.
Qed.
Lemma triple_In I V C a b c s : NoDup (I ++ V ++ C) -> In s (triple I V C a b c) <->
  s = filter (inl_ s) (I ++ V ++ C) /\ length (filter (inl_ s) I) = a /\ length (filter (inl_ s) V) = b /\ length (filter (inl_ s) C) = c.
Proof.
  intros Hn. rewrite triple_split. pose proof (NoDup_app_l _ _ Hn) as HnI. pose proof (NoDup_app_r _ _ Hn) as HnVC.
  pose proof (NoDup_app_l _ _ HnVC) as HnV. pose proof (NoDup_app_r _ _ HnVC) as HnC. split.
  - intros (sI & sV & sC & -> & HI & HV & HC).
    pose proof (combs_sub _ _ _ HI) as SI. pose proof (combs_sub _ _ _ HV) as SV. pose proof (combs_sub _ _ _ HC) as SC.
    pose proof (combs_len _ _ _ HI) as LI. pose proof (combs_len _ _ _ HV) as LV. pose proof (combs_len _ _ _ HC) as LC.
    apply combs_In in HI as [EI _]; auto. apply combs_In in HV as [EV _]; auto. apply combs_In in HC as [EC _]; auto.
    assert (FI : filter (inl_ (sI ++ sV ++ sC)) I = sI).
    { transitivity (filter (inl_ sI) I); [|auto]. apply filter_ext_in. intros x Hx. apply Bool.eq_iff_eq_true. rewrite !inl_spec, !in_app_iff. split; [|tauto].
      intros [?|[Hv|Hc]]; auto; exfalso; eapply (NoDup_app_disj _ _ x Hn); eauto; apply in_app_iff; auto. }
    assert (FV : filter (inl_ (sI ++ sV ++ sC)) V = sV).
    { transitivity (filter (inl_ sV) V); [|auto]. apply filter_ext_in. intros x Hx. apply Bool.eq_iff_eq_true. rewrite !inl_spec, !in_app_iff. split; [|tauto].
      intros [Hi|[?|Hc]]; auto; exfalso; [eapply (NoDup_app_disj _ _ x Hn); eauto; apply in_app_iff; auto|].
      eapply (NoDup_app_disj _ _ x HnVC); eauto. }
    assert (FC : filter (inl_ (sI ++ sV ++ sC)) C = sC).
    { transitivity (filter (inl_ sC) C); [|auto]. apply filter_ext_in. intros x Hx. apply Bool.eq_iff_eq_true. rewrite !inl_spec, !in_app_iff. split; [|tauto].
      intros [Hi|[Hv|?]]; auto; exfalso; [eapply (NoDup_app_disj _ _ x Hn); eauto; apply in_app_iff; auto|].
      eapply (NoDup_app_disj _ _ x HnVC); eauto. }
    rewrite !filter_app, FI, FV, FC. auto.
  - intros (E & LI & LV & LC). exists (filter (inl_ s) I), (filter (inl_ s) V), (filter (inl_ s) C).
    rewrite !filter_app in E. split; [exact E|]. split; [|split]; apply combs_filter; auto.
Qed.

(* ---- folds that append ---- *)
Lemma fold_app_map {A B} (g : A -> res (list B)) l : forall acc,
  fold_res (fun acc x => do new <- g x; Ok (acc ++ new)) l acc = (do ns <- map_res g l; Ok (acc ++ concat ns)).
Proof.
  induction l as [|a l IH]; intros acc; cbn [fold_res map_res bind concat]; [rewrite app_nil_r; auto|].
  destruct (g a) as [new|e]; cbn [bind]; auto. rewrite IH. destruct (map_res g l); cbn [bind concat]; auto. rewrite app_assoc. auto.
Qed.
Lemma map_res_ext {A B} (f g : A -> res B) l : (forall a, In a l -> f a = g a) -> map_res f l = map_res g l.
Proof.
  induction l as [|a l IH]; intros Hf; simpl; auto. rewrite Hf by (left; auto). rewrite IH by (intros; apply Hf; right; auto). auto.
Qed.
Lemma map_res_inv {A B} (f : A -> res B) l : forall bs, map_res f l = Ok bs -> forall a, In a l -> exists b, f a = Ok b.
Proof.
  induction l as [|x l IH]; intros bs E a Ha; [destruct Ha|]. simpl in E. destruct (f x) eqn:Ef; [|discriminate]. simpl in E.
  destruct (map_res f l) eqn:Em; [|discriminate]. destruct Ha as [->|Ha]; eauto.
Qed.
Lemma map_res_err {A B} (f : A -> res B) (P : exc -> Prop) l : (forall a e, In a l -> f a = Err e -> P e) -> forall e, map_res f l = Err e -> P e.
Proof.
  induction l as [|x l IH]; intros Hf e E; simpl in E; [discriminate|]. destruct (f x) eqn:Ef; simpl in E.
  - destruct (map_res f l) eqn:Em; [discriminate|]. simpl in E. injection E as <-. apply IH; auto. intros; eapply Hf; eauto; right; auto.
  - injection E as <-. eapply Hf; eauto. left; auto.
Qed.

(* ---- nBaths of get_basis ---- *)
Section D.
Variable d : zdict.
Hypothesis Hw : wf_shells d.
Let nb := nbaths_of d.

Lemma dkeys_nb : dkeys nb = map KInt (dkeys d).
Proof. unfold nb, nbaths_of, dkeys. rewrite !map_map. reflexivity. Qed.
Lemma angs_nb : angs nb = dkeys d.
Proof. unfold angs. rewrite dkeys_nb. unfold dkeys. induction d as [|kv e IH]; simpl; auto. f_equal. apply IH.
  destruct Hw as [H1 H2]. split; [simpl in H1; apply NoDup_cons_iff in H1; tauto|inversion H2; auto]. Qed.
Lemma wf_nb : wf_nbaths nb.
Proof.
  destruct Hw as [Hn HF]. split; [|split].
  - rewrite dkeys_nb. apply FinFun.Injective_map_NoDup; auto. intros x y [= E]; auto.
  - rewrite angs_nb. unfold dkeys. apply Forall_forall. intros l Hl. apply in_map_iff in Hl as (kn & <- & Hk). rewrite Forall_forall in HF. apply HF in Hk. tauto.
  - unfold nb, nbaths_of. apply Forall_forall. intros [k n] Hk. apply in_map_iff in Hk as (kn & [= <- <-] & Hk). cbn [snd].
    rewrite Forall_forall in HF. apply HF in Hk. tauto.
Qed.
Lemma nb_In l nB : In (l, nB) d -> In (KInt l, nB) nb.
Proof. intros H. unfold nb, nbaths_of. apply in_map_iff. exists (l, nB). auto. Qed.
Lemma shell_nonneg l nB : In (l, nB) d -> 0 <= l /\ 0 <= nB.
Proof. intros H. destruct Hw as [_ HF]. rewrite Forall_forall in HF. exact (HF _ H). Qed.
Lemma shell_key l nB : In (l, nB) d -> In l (dkeys d).
Proof. intros H. apply in_map_iff. exists (l, nB). auto. Qed.
Lemma dkeys_fst : map fst d = dkeys d. Proof. reflexivity. Qed.

Lemma imp_indices l nB : In (l, nB) d -> map_res (c2i nb) (shell_coords l) = Ok (imp_idx d l).
Proof.
  intros H. destruct (shell_nonneg _ _ H) as [Hl HnB]. rewrite (map_res_map _ (coord_index nb)).
  - f_equal. unfold imp_idx. rewrite shell_coords_eq, map_app, !map_map. cbn [coord_index]. rewrite angs_nb, dkeys_fst.
    set (o := imp_offset (dkeys d) l).
    rewrite (map_ext (fun x => o + 0 * (2 * l + 1) + (x + l)) (fun x => x + (o + l))) by (intros; lia).
    rewrite (map_ext (fun x => o + 1 * (2 * l + 1) + (x + l)) (fun x => x + (o + (2 * l + 1) + l))) by (intros; lia).
    rewrite !zrange2_shift. unfold shell_size.
    replace (- l + (o + l)) with o by lia. replace (l + 1 + (o + l)) with (o + (2 * l + 1)) by lia.
    replace (- l + (o + (2 * l + 1) + l)) with (o + (2 * l + 1)) by lia. replace (l + 1 + (o + (2 * l + 1) + l)) with (o + 2 * (2 * l + 1)) by lia.
    apply zrange2_app. lia.
  - intros x Hx. apply shell_coords_In in Hx as (s & m & -> & Hs & Hm). apply c2i_ok; [apply wf_nb|]. cbn [coord_ok].
    rewrite angs_nb. split; [eapply shell_key; eauto|auto].
Qed.
Lemma bath_indices l nB a b : In (l, nB) d -> 0 <= a -> b <= nB ->
  map_res (fun b => c2i nb (SBath (KInt l) b)) (zrange2 a b) = Ok (zrange2 (bath_start d l + a) (bath_start d l + b)).
Proof.
  intros H Ha Hb. rewrite (map_res_map _ (fun b => coord_index nb (SBath (KInt l) b))).
  - f_equal. cbn [coord_index]. fold (bath_start d l).
    rewrite (map_ext (fun b0 => n_imp nb + bath_offset nb (KInt l) + b0) (fun x => x + bath_start d l)) by (intros; unfold bath_start, nb; lia).
    rewrite zrange2_shift. f_equal; lia.
  - intros x Hx. apply zrange2_In in Hx. apply c2i_ok; [apply wf_nb|]. exists nB. split; [apply nb_In; auto|lia].
Qed.

Lemma partition_ok l nB v a b c : In (l, nB) d -> 0 <= v <= nB -> 0 <= a -> 0 <= b -> 0 <= c -> (v = 0 -> b = 0) -> (nB - v = 0 -> c = 0) ->
  partition_basis d l nB v a b c = Ok (triple (imp_idx d l) (val_idx d l v) (con_idx d l v nB) (Z.to_nat a) (Z.to_nat b) (Z.to_nat c)).
Proof.
  intros H Hv Ha Hb Hc Hvb Hvc. unfold partition_basis. fold nb. rewrite (imp_indices l nB H). cbn [bind].
  unfold combinations at 1. destruct (Z.ltb_spec a 0); [lia|]. cbn [bind].
  assert (EV : (if v =? 0 then Ok [[]] else do indices <- map_res (fun b => c2i nb (SBath (KInt l) b)) (zrange v); combinations indices b)
    = Ok (combs (val_idx d l v) (Z.to_nat b))).
  { destruct (Z.eqb_spec v 0) as [->|Hv0].
    - rewrite (Hvb eq_refl). destruct (val_idx d l 0); reflexivity.
    - rewrite zrange_zrange2, (bath_indices l nB) by (auto; lia). cbn [bind]. unfold combinations. destruct (Z.ltb_spec b 0); [lia|].
      rewrite Z.add_0_r. reflexivity. }
  rewrite EV. cbn [bind].
  assert (EC : (if nB - v =? 0 then Ok [[]] else do indices <- map_res (fun b => c2i nb (SBath (KInt l) b)) (zrange2 v nB); combinations indices c)
    = Ok (combs (con_idx d l v nB) (Z.to_nat c))).
  { destruct (Z.eqb_spec (nB - v) 0) as [Hz|Hv0].
    - rewrite (Hvc Hz). destruct (con_idx d l v nB); reflexivity.
    - rewrite (bath_indices l nB) by (auto; lia). cbn [bind]. unfold combinations. destruct (Z.ltb_spec c 0); [lia|]. reflexivity. }
  rewrite EC. reflexivity.
Qed.
(* when a partition succeeds *)
Lemma partition_inv l nB v a b c : In (l, nB) d -> v <= nB ->
  match partition_basis d l nB v a b c with
  | Ok _ => 0 <= a /\ (v <> 0 -> 0 <= b /\ (0 <= v \/ nB - v = 0)) /\ (nB - v <> 0 -> 0 <= c)
  | Err e => e = ValueError \/ (v < 0 /\ e = GenericException)
  end.
Proof.
  intros H Hv. unfold partition_basis. fold nb. rewrite (imp_indices l nB H). cbn [bind].
  destruct (shell_nonneg _ _ H) as [Hl HnB].
  unfold combinations at 1. destruct (Z.ltb_spec a 0); cbn [bind]; [auto|].
  destruct (Z.eqb_spec v 0) as [->|Hv0]; cbn [bind].
  - destruct (Z.eqb_spec (nB - 0) 0) as [Hz|Hz]; cbn [bind]; [split; [auto|split; intros; [contradiction|lia]]|].
    rewrite (bath_indices l nB) by (auto; lia). cbn [bind]. unfold combinations. destruct (Z.ltb_spec c 0); cbn [bind]; [auto|].
    split; [auto|split; intros; [contradiction|lia]].
  - rewrite zrange_zrange2, (bath_indices l nB) by (auto; lia). cbn [bind]. unfold combinations at 1. destruct (Z.ltb_spec b 0); cbn [bind]; [auto|].
    destruct (Z.eqb_spec (nB - v) 0) as [Hz|Hz]; cbn [bind]; [split; [auto|split; intros; lia]|].
    destruct (Z_le_dec 0 v) as [Hv1|Hv1].
    + rewrite (bath_indices l nB) by (auto; lia). cbn [bind]. unfold combinations. destruct (Z.ltb_spec c 0); cbn [bind]; [auto|].
      split; [auto|split; intros; lia].
    + assert (EE : map_res (fun b => c2i nb (SBath (KInt l) b)) (zrange2 v nB) = Err GenericException).
      { unfold zrange2. destruct (Z.to_nat (nB - v)) as [|k] eqn:Ek; [lia|]. cbn [seq map map_res].
        rewrite c2i_err; [reflexivity|]. cbn [coord_ok]. intros (n & _ & Hn). lia. }
      rewrite EE. cbn [bind]. right. split; [lia|auto].
Qed.
End D.
