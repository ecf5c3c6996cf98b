(* get_basis: final form. *)
From Coq Require Import Sorting.Permutation.
From Verif Require Import M_Prelude M_PSR M_Basis S_Occ S_Fock S_Basis.
From Verif Require Import L_PSR L_Dict L_Fock L_Ham L_ExpandP L_FromH L_Index L_Basis L_Basis2 L_Basis3.
Local Open Scope Z_scope.

Lemma Forall2_map_iff {S A} (P : S -> A -> Prop) (f : A -> list S) (l : list A) : forall cf,
  (forall a s, In a l -> In s (f a) <-> P s a) -> Forall2 (@In S) cf (map f l) <-> Forall2 P cf l.
Proof.
  induction l as [|a l IH]; intros cf H; simpl.
  - split; intros G; inversion G; constructor.
  - split; intros G; inversion G; subst; constructor.
    + apply (proj1 (H _ _ (or_introl eq_refl))); assumption.
    + apply (proj1 (IH _ (fun kv s Hk => H kv s (or_intror Hk)))); assumption.
    + apply (proj2 (H _ _ (or_introl eq_refl))); assumption.
    + apply (proj2 (IH _ (fun kv s Hk => H kv s (or_intror Hk)))); assumption.
Qed.
Lemma Forall2_map_intro {S A} (P : S -> A -> Prop) (f : A -> S) (l : list A) : (forall a, In a l -> P (f a) a) -> Forall2 P (map f l) l.
Proof. induction l as [|a l IH]; intros H; simpl; constructor; [apply H; left; auto|apply IH; intros; apply H; right; auto]. Qed.

Lemma Forall2_impl' {A B} (P Q : A -> B -> Prop) l m : (forall a b, P a b -> Q a b) -> Forall2 P l m -> Forall2 Q l m.
Proof. intros H HF. induction HF; constructor; auto. Qed.

Lemma Forall2_impl_in {A B} (P Q : A -> B -> Prop) l m : (forall a b, In b m -> P a b -> Q a b) -> Forall2 P l m -> Forall2 Q l m.
Proof. intros H HF. induction HF; constructor; [apply H; [left|]; auto|apply IHHF; intros; apply H; [right|]; auto]. Qed.

Lemma Forall2_both {A B} (P Q : A -> B -> Prop) l m b : Forall2 P l m -> Forall2 Q l m -> In b m -> exists a, P a b /\ Q a b.
Proof.
  intros HP. induction HP as [|a b' l m Hab HP IH]; intros HQ Hb; [destruct Hb|]. inversion HQ; subst.
  destruct Hb as [->|Hb]; [eauto|auto].
Qed.

Lemma Forall2_fun {A B} (f : B -> A) l l' m : Forall2 (fun a b => a = f b) l m -> Forall2 (fun a b => a = f b) l' m -> l = l'.
Proof. intros H. revert l'. induction H as [|a b l m E H IH]; intros l2 H2; inversion H2; subst; auto. f_equal; auto. Qed.
Lemma sum_flat_map {B} (p : Z -> bool) (f : B -> list Z) (g : B -> Z) l : (forall b, In b l -> Z.of_nat (length (filter p (f b))) = g b) ->
  Z.of_nat (length (filter p (flat_map f l))) = zsum (map g l).
Proof.
  induction l as [|b l IH]; intros H; [reflexivity|]. cbn [flat_map map zsum fold_right]. rewrite filter_app, app_length, Nat2Z.inj_add.
  rewrite H by (left; auto). rewrite IH by (intros; apply H; right; auto). reflexivity.
Qed.

(* families of disjoint index lists *)
Section Fam.
Context {A : Type}.
Variable idx : A -> list Z.
Lemma fam_tail (x : list Z) (cf : list (list Z)) (l : list A) : Forall2 (fun s a => incl s (idx a)) cf l ->
  forall y, In y (concat cf) -> exists a, In a l /\ In y (idx a).
Proof.
  induction 1 as [|s a cf l Hs HF IH]; intros y Hy; [destruct Hy|]. simpl in Hy. apply in_app_iff in Hy as [Hy|Hy].
  - exists a. split; [left; auto|apply Hs; auto].
  - destruct (IH y Hy) as (b & Hb & H). exists b. split; [right; auto|auto].
Qed.
Lemma fam_NoDup cf l : NoDup l -> (forall a b y, In a l -> In b l -> In y (idx a) -> In y (idx b) -> a = b) ->
  Forall2 (fun s a => incl s (idx a) /\ NoDup s) cf l -> NoDup (concat cf).
Proof.
  intros Hn Hd HF. revert Hn Hd. induction HF as [|s a cf l [Hs HsN] HF IH]; intros Hn Hd; simpl; [constructor|].
  apply NoDup_cons_iff in Hn as [Ha Hn]. apply NoDup_app_intro; auto.
  - apply IH; auto. intros b c y Hb Hc. apply Hd; right; auto.
  - intros y Hy Hy'. assert (HF' : Forall2 (fun s a => incl s (idx a)) cf l) by (clear -HF; induction HF; constructor; tauto).
    destruct (fam_tail [] cf l HF' y Hy') as (b & Hb & Hyb). assert (a = b) by (apply (Hd a b y); [left; auto|right; auto|apply Hs; auto|auto]). congruence.
Qed.
Lemma fam_recover cf l : NoDup l -> (forall a b y, In a l -> In b l -> In y (idx a) -> In y (idx b) -> a = b) ->
  Forall2 (fun s a => s = filter (inl_ s) (idx a)) cf l -> Forall2 (fun s a => s = filter (inl_ (concat cf)) (idx a)) cf l.
Proof.
  intros Hn Hd HF. revert Hn Hd. induction HF as [|s a cf l Hs HF IH]; intros Hn Hd; [constructor|].
  apply NoDup_cons_iff in Hn as [Ha Hn].
  assert (HF' : Forall2 (fun s a => incl s (idx a)) cf l).
  { clear -HF. induction HF as [|s a cf l E HF IH]; constructor; auto. rewrite E. intros y Hy. apply filter_In in Hy as [Hy _]; exact Hy. }
  assert (Hsi : incl s (idx a)) by (rewrite Hs; intros y Hy; apply filter_In in Hy as [Hy _]; exact Hy).
  constructor.
  - rewrite Hs at 1. apply filter_ext_in. intros y Hy. apply Bool.eq_iff_eq_true. rewrite !inl_spec. cbn [concat]. rewrite in_app_iff. split; [auto|].
    intros [?|Hy']; auto. destruct (fam_tail [] cf l HF' y Hy') as (b & Hb & Hyb).
    assert (a = b) by (apply (Hd a b y); [left; auto|right; auto|auto|auto]). congruence.
  - assert (IH' : Forall2 (fun s a => s = filter (inl_ (concat cf)) (idx a)) cf l).
    { apply IH; auto. intros b c y Hb Hc. apply Hd; right; auto. }
    assert (HX : forall b, In b l -> filter (inl_ (concat cf)) (idx b) = filter (inl_ (concat (s :: cf))) (idx b)).
    { intros b Hb. apply filter_ext_in. intros y Hy. apply Bool.eq_iff_eq_true. rewrite !inl_spec. cbn [concat]. rewrite in_app_iff. split; [auto|].
      intros [Hys|?]; auto. assert (a = b) by (apply (Hd a b y); [left; auto|right; auto|apply Hsi; auto|auto]). congruence. }
    clear -IH' HX. revert IH' HX. generalize (inl_ (concat (s :: cf))) as f, (inl_ (concat cf)) as g. intros f g IH'.
    induction IH' as [|s' b cf l E HF IH]; intros HX; constructor; [rewrite <- HX by (left; auto); auto|]. apply IH. intros; apply HX; right; auto.
Qed.
Lemma fam_in cf l a : NoDup l -> (forall a b y, In a l -> In b l -> In y (idx a) -> In y (idx b) -> a = b) ->
  Forall2 (fun s a => s = filter (inl_ s) (idx a)) cf l -> In a l -> In (filter (inl_ (concat cf)) (idx a)) cf.
Proof.
  intros Hn Hd HF Ha. pose proof (fam_recover cf l Hn Hd HF) as HR. clear -HR Ha. revert HR. generalize (inl_ (concat cf)) as f. intros f HR.
  induction HR as [|s b cf l E HR IH]; [destruct Ha|]. destruct Ha as [->|Ha]; [left; auto|right; auto].
Qed.
End Fam.

Section G.
Variables d val dnV dnC tol n0 : zdict.
Hypothesis Hw : wf_shells d.
Let nb := nbaths_of d.
Let N := Z.to_nat (n_total nb).
Notation sparams := (shell_params val dnV dnC tol n0).
Notation aidx := (fun kv : Z * Z => all_idx d (fst kv) (snd kv)).

Lemma n_total_nonneg : 0 <= n_total nb.
Proof.
  pose proof (n_imp_nonneg nb (wf_nb d Hw)). destruct (wf_nb d Hw) as (_ & _ & HF). pose proof (zsum_snd_nonneg nb HF). unfold n_total. lia.
Qed.
Lemma n_spin_orbitals_eq : n_spin_orbitals d = n_total nb.
Proof.
  unfold n_spin_orbitals, n_total, n_imp. unfold nb. rewrite angs_nb by auto. unfold dkeys, nbaths_of. rewrite !map_map. cbn [snd].
  assert (E : forall l acc, fold_left (fun acc kv => acc + (2 * (2 * fst kv + 1) + snd kv)) l acc =
     acc + (zsum (map (fun x : Z * Z => shell_size (fst x)) l) + zsum (map (fun x : Z * Z => snd x) l))).
  { induction l as [|kv l IH]; intros acc; cbn [fold_left map zsum fold_right]; [lia|]. rewrite IH.
    fold (zsum (map (fun x : Z * Z => shell_size (fst x)) l)) (zsum (map (fun x : Z * Z => snd x) l)). unfold shell_size. lia. }
  rewrite E. reflexivity.
Qed.
Lemma all_idx_lt l nB x : In (l, nB) d -> In x (all_idx d l nB) -> 0 <= x < n_total nb.
Proof.
  intros H Hx. unfold all_idx in Hx. apply in_app_iff in Hx as [Hx|Hx].
  - apply (imp_idx_lt d Hw l nB x H) in Hx. fold nb in Hx. destruct (wf_nb d Hw) as (_ & _ & HF). pose proof (zsum_snd_nonneg nb HF). unfold n_total. lia.
  - apply (bath_idx_ge d Hw l nB x H) in Hx. fold nb in Hx. pose proof (n_imp_nonneg nb (wf_nb d Hw)). lia.
Qed.
Lemma idx_coord l nB x : In (l, nB) d -> In x (all_idx d l nB) ->
  exists co, coord_ok nb co /\ coord_index nb co = x /\ match co with SImp l' _ _ => l' = l | SBath k _ => k = KInt l end.
Proof.
  intros H Hx. destruct (shell_nonneg _ Hw _ _ H) as [Hl HnB]. unfold all_idx in Hx. apply in_app_iff in Hx as [Hx|Hx].
  - unfold imp_idx in Hx. apply zrange2_In in Hx. rewrite dkeys_fst in Hx. set (j := x - imp_offset (dkeys d) l) in *.
    unfold shell_size in Hx.
    assert (exists s m, (s = 0 \/ s = 1) /\ - l <= m <= l /\ j = s * (2 * l + 1) + (m + l)) as (s & m & Hs & Hm & Ej).
    { destruct (Z_lt_dec j (2 * l + 1)); [exists 0, (j - l)|exists 1, (j - (2 * l + 1) - l)]; unfold j in *; lia. }
    exists (SImp l s m). split; [|split; auto].
    + cbn [coord_ok]. unfold nb. rewrite angs_nb by auto. split; [eapply shell_key; eauto|auto].
    + cbn [coord_index]. unfold nb. rewrite angs_nb by auto. unfold j in Ej. lia.
  - apply zrange2_In in Hx. exists (SBath (KInt l) (x - bath_start d l)). split; [|split; auto].
    + exists nB. split; [apply nb_In; auto|lia].
    + cbn [coord_index]. unfold bath_start, nb. lia.
Qed.
Lemma idx_disjoint a b y : In a d -> In b d -> In y (aidx a) -> In y (aidx b) -> a = b.
Proof.
  destruct a as [l nB], b as [l' nB']. cbn [fst snd]. intros Ha Hb Hy Hy'.
  destruct (idx_coord _ _ _ Ha Hy) as (co & Hc & E & Hs). destruct (idx_coord _ _ _ Hb Hy') as (co' & Hc' & E' & Hs').
  assert (co = co') by (apply (coord_index_inj nb); auto; [apply wf_nb; auto|congruence]). subst co'.
  assert (l = l') by (destruct co; congruence). subst l'. f_equal. destruct Hw as [Hn _].
  pose proof (In_dget d l nB Hn Ha) as E1. pose proof (In_dget d l nB' Hn Hb) as E2. congruence.
Qed.
Lemma idx_cover x : 0 <= x < n_total nb -> exists l nB, In (l, nB) d /\ In x (all_idx d l nB).
Proof.
  intros Hx. destruct (i2c_total nb x (wf_nb d Hw) Hx) as (co & _ & Hc & Hi).
  assert (NoDup (angs nb)) as Hna by (unfold nb; rewrite angs_nb by auto; apply Hw). specialize (Hi Hna).
  destruct co as [l s m|k b]; cbn [coord_ok coord_index] in *.
  - destruct Hc as (Hl & Hs & Hm). unfold nb in Hl, Hi. rewrite angs_nb in Hl, Hi by auto. unfold dkeys in Hl. apply in_map_iff in Hl as ([l' nB] & E & HI).
    cbn [fst] in E. subst l'. exists l, nB. split; auto. unfold all_idx. apply in_app_iff. left. unfold imp_idx. apply zrange2_In. rewrite dkeys_fst.
    unfold shell_size. destruct Hs as [->| ->]; lia.
  - destruct Hc as (n & Hk & Hb). unfold nb, nbaths_of in Hk. apply in_map_iff in Hk as ([l nB] & [= <- <-] & HI). exists l, nB. split; auto.
    unfold all_idx. apply in_app_iff. right. apply zrange2_In. unfold bath_start. fold nb. cbn [fst snd] in *. lia.
Qed.
Lemma d_NoDup : NoDup d. Proof. destruct Hw as [Hn _]. eapply NoDup_map_inv; exact Hn. Qed.
Lemma zrange_perm : Permutation (zrange (n_total nb)) (flat_map aidx d).
Proof.
  apply NoDup_Permutation; [apply zrange_NoDup| |].
  - apply NoDup_flat_map_intro; [apply d_NoDup| |].
    + intros [l nB] H. apply all_idx_NoDup; auto.
    + intros a b x. apply idx_disjoint.
  - intros x. rewrite zrange_In, in_flat_map. split.
    + intros Hx. destruct (idx_cover x Hx) as (l & nB & H & Hi). exists (l, nB). auto.
    + intros ([l nB] & H & Hi). eapply all_idx_lt; eauto.
Qed.

(* ---- the basis ---- *)
Notation par := (par val dnV dnC tol n0).
Lemma par_eq l p : sparams l p -> p = par l.
Proof. intros (E1 & E2 & E3 & E4 & E5). unfold par. rewrite E1, E2, E3, E4, E5. destruct p; reflexivity. Qed.
Lemma feasible_par l nB : feasible d val dnV dnC tol n0 -> In (l, nB) d -> sparams l (par l) /\ feas l nB (par l).
Proof.
  intros HF H. destruct (HF l nB H) as (p & Hp & Hv & Hm). pose proof (par_eq l p Hp). subst p. split; auto. split; auto.
Qed.
Definition lists : list (list (list Z)) := map (fun kv => shell_list d (fst kv) (snd kv) (par (fst kv))) d.

Section F.
Hypothesis HF : feasible d val dnV dnC tol n0.

Lemma sanity_ok : fold_res (fun _ kv => do v <- dgetitem val (fst kv); assert_that (v <=? snd kv)) d tt = Ok tt.
Proof.
  assert (H : forall kv, In kv d -> exists v, dget val (fst kv) = Some v /\ v <= snd kv).
  { intros [l nB] H. destruct (feasible_par l nB HF H) as [Hp [Hv _]]. exists (p_val (par l)). split; [apply Hp|auto]. }
  induction d as [|kv e IH]; [reflexivity|]. cbn [fold_res]. destruct (H kv (or_introl eq_refl)) as (v & E & Hv).
  rewrite (dgetitem_ok _ _ _ E). cbn [bind]. destruct (Z.leb_spec v (snd kv)); [|lia]. cbn [assert_that bind]. 
  assert (G : forall kv, In kv e -> exists v, dget val (fst kv) = Some v /\ v <= snd kv) by (intros; apply H; right; auto).
  clear -G. revert G. induction e as [|kv e IH]; intros G; [reflexivity|]. cbn [fold_res]. destruct (G kv (or_introl eq_refl)) as (v & E & Hv).
  rewrite (dgetitem_ok _ _ _ E). cbn [bind]. destruct (Z.leb_spec v (snd kv)); [|lia]. cbn [assert_that bind]. apply IH. intros; apply G; right; auto.
Qed.
Lemma lists_ok : map_res (fun kv => shell_basis d val dnV dnC tol n0 (fst kv) (snd kv)) d = Ok lists.
Proof.
  apply map_res_map. intros [l nB] H. cbn [fst snd]. destruct (feasible_par l nB HF H) as [Hp Hf].
  exact (shell_ok d val dnV dnC tol n0 Hw l nB (par l) H Hp Hf).
Qed.
Lemma prod_spec cf : In cf (product lists) <->
  Forall2 (fun s kv => s = filter (inl_ s) (aidx kv) /\ exists dv dc, moves (par (fst kv)) dv dc /\ counts d (fst kv) (snd kv) (par (fst kv)) (inl_ s) dv dc) cf d.
Proof.
  rewrite product_In. unfold lists.
  assert (H : forall kv s, In kv d -> In s (shell_list d (fst kv) (snd kv) (par (fst kv))) <->
     s = filter (inl_ s) (aidx kv) /\ exists dv dc, moves (par (fst kv)) dv dc /\ counts d (fst kv) (snd kv) (par (fst kv)) (inl_ s) dv dc).
  { intros [l nB] s H. cbn [fst snd]. destruct (feasible_par l nB HF H) as [Hp Hf]. apply shell_list_In; auto. }
  exact (Forall2_map_iff _ _ d cf H).
Qed.
Lemma prod_facts cf : In cf (product lists) ->
  NoDup (concat cf) /\ Forall (fun x => 0 <= x < Z.of_nat N) (concat cf) /\
  Forall2 (fun s kv => s = filter (inl_ s) (aidx kv)) cf d.
Proof.
  intros H. apply prod_spec in H.
  assert (H1 : Forall2 (fun s kv => s = filter (inl_ s) (aidx kv)) cf d).
  { eapply Forall2_impl'; [|exact H]. intros s kv [E _]. exact E. }
  assert (HFn : NoDup (concat cf)).
  { apply (fam_NoDup aidx cf d d_NoDup idx_disjoint).
    assert (HD : forall kv, In kv d -> NoDup (aidx kv)) by (intros [l nB] Hk; apply all_idx_NoDup; auto).
    eapply Forall2_impl_in; [|exact H1]. intros s kv Hk E. cbv beta in E. rewrite E.
    split; [intros y Hy; apply filter_In in Hy as [Hy _]; exact Hy|]. apply NoDup_filter. apply HD; auto. }
  split; [exact HFn|]. split; [|exact H1].
  apply Forall_forall. intros x Hx.
  assert (H2 : Forall2 (fun s kv => incl s (aidx kv)) cf d).
  { eapply Forall2_impl'; [|exact H1]. intros s kv E. cbv beta in E. rewrite E. intros y Hy. apply filter_In in Hy as [Hy _]; exact Hy. }
  destruct (fam_tail aidx [] cf d H2 x Hx) as ([l nB] & Hk & Hi). pose proof (all_idx_lt l nB x Hk Hi). unfold N. rewrite Z2Nat.id by (apply n_total_nonneg). auto.
Qed.
Lemma basis_eq : get_basis d val dnV dnC tol n0 = Ok (map (fun cf => key (cfg_of N (concat cf))) (product lists)).
Proof.
  unfold get_basis. rewrite sanity_ok. cbn [bind]. rewrite lists_ok. cbn [bind]. apply map_res_map. intros cf Hcf.
  destruct (prod_facts cf Hcf) as (H1 & H2 & _). rewrite n_spin_orbitals_eq.
  replace (n_total nb) with (Z.of_nat N) by (unfold N; rewrite Z2Nat.id; auto; apply n_total_nonneg). apply tuple2bytes_cfg; auto.
Qed.
Lemma val_sub l nB p : 0 <= p_val p <= nB -> incl (imp_idx d l) (all_idx d l nB) /\ incl (val_idx d l (p_val p)) (all_idx d l nB) /\ incl (con_idx d l (p_val p) nB) (all_idx d l nB).
Proof.
  intros Hv. rewrite (all_idx_split d l nB (p_val p) Hv). split; [|split]; intros x Hx; rewrite !in_app_iff; auto.
Qed.
Lemma counts_ext l nB p f g dv dc : 0 <= p_val p <= nB -> (forall x, In x (all_idx d l nB) -> f x = g x) -> counts d l nB p f dv dc -> counts d l nB p g dv dc.
Proof.
  intros Hv Hfg (C1 & C2 & C3). destruct (val_sub l nB p Hv) as (I1 & I2 & I3).
  unfold counts. rewrite <- (filter_ext_in f g (imp_idx d l)) by auto. rewrite <- (filter_ext_in f g (val_idx d l (p_val p))) by auto.
  rewrite <- (filter_ext_in f g (con_idx d l (p_val p) nB)) by auto. auto.
Qed.
Lemma moves_val l nB dv dc : In (l, nB) d -> moves (par l) dv dc -> 0 <= p_val (par l) <= nB.
Proof.
  intros H Hm. destruct (feasible_par l nB HF H) as [_ [Hv Hf]]. destruct (Hf dv dc Hm) as (H1 & _). destruct Hm as (? & _). lia.
Qed.
Lemma basis_In k : In k (map (fun cf => key (cfg_of N (concat cf))) (product lists)) <->
  exists c, length c = N /\ k = key c /\ admitted d val dnV dnC tol n0 c.
Proof.
  rewrite in_map_iff. split.
  - intros (cf & <- & Hcf). exists (cfg_of N (concat cf)). split; [apply cfg_of_length|]. split; auto.
    destruct (prod_facts cf Hcf) as (Hn & HR & HE). apply prod_spec in Hcf. intros l nB Hl.
    pose proof (fam_recover aidx cf d d_NoDup idx_disjoint HE) as HREC.
    assert (HP : exists s, s = filter (inl_ (concat cf)) (aidx (l, nB)) /\ s = filter (inl_ s) (aidx (l, nB)) /\
       exists dv dc, moves (par l) dv dc /\ counts d l nB (par l) (inl_ s) dv dc).
    { destruct (Forall2_both _ _ _ _ _ HREC Hcf Hl) as (s & E1 & E2 & E3). exists s. auto. }
    destruct HP as (s & E1 & E2 & dv & dc & Hm & HC). destruct (feasible_par l nB HF Hl) as [Hp Hf].
    exists (par l), dv, dc. split; [exact Hp|]. split; [exact Hm|]. pose proof (moves_val l nB dv dc Hl Hm) as Hv.
    unfold occ_in. apply (counts_ext l nB (par l) (inl_ s) (occupied (cfg_of N (concat cf))) dv dc Hv); auto.
    intros x Hx. rewrite cfg_of_occupied by auto. apply Bool.eq_iff_eq_true. change (inb x (concat cf)) with (inl_ (concat cf) x).
    cbn [fst snd] in E1. rewrite E1 at 1. rewrite inl_spec, filter_In. tauto.
  - intros (c & Lc & -> & Hadm). set (cf := map (fun kv => filter (occupied c) (aidx kv)) d).
    assert (Hext : forall (kv : Z * Z) x, In x (aidx kv) -> inl_ (filter (occupied c) (aidx kv)) x = occupied c x).
    { intros kv x Hx. apply Bool.eq_iff_eq_true. rewrite inl_spec, filter_In. tauto. }
    assert (Hcf : In cf (product lists)).
    { apply prod_spec. unfold cf.
      assert (G : forall kv, In kv d -> (fun s kv => s = filter (inl_ s) (aidx kv) /\ exists dv dc, moves (par (fst kv)) dv dc /\
          counts d (fst kv) (snd kv) (par (fst kv)) (inl_ s) dv dc) (filter (occupied c) (aidx kv)) kv).
      { intros [l nB] Hl. cbv beta. cbn [fst snd]. split.
        - apply filter_ext_in. intros x Hx. symmetry. apply (Hext (l, nB)); auto.
        - destruct (Hadm l nB Hl) as (p & dv & dc & Hp & Hm & HC). pose proof (par_eq l p Hp). subst p. exists dv, dc. split; auto.
          apply (counts_ext l nB (par l) (occupied c) _ dv dc (moves_val l nB dv dc Hl Hm)); [|exact HC].
          intros x Hx. symmetry. apply (Hext (l, nB)); auto. }
      exact (Forall2_map_intro _ _ d G). }
    exists cf. split; auto. f_equal. destruct (prod_facts cf Hcf) as (Hn & HR & HE).
    rewrite (bits_as_obits c), Lc. apply obits_ext. intros k Hk.
    assert (Hkk : 0 <= Z.of_nat k < n_total nb) by (unfold N in Hk; lia).
    destruct (idx_cover (Z.of_nat k) Hkk) as (l & nB & Hl & Hi).
    apply Bool.eq_iff_eq_true. rewrite inb_In. unfold cf. rewrite <- flat_map_concat_map, in_flat_map.
    assert (Eo : occupied c (Z.of_nat k) = nth k c false).
    { unfold occupied. destruct (Z.leb_spec 0 (Z.of_nat k)); [|lia]. rewrite Nat2Z.id. auto. }
    rewrite <- Eo. split.
    + intros (kv & _ & Hx). apply filter_In in Hx. tauto.
    + intros E. exists (l, nB). split; auto. apply filter_In. auto.
Qed.
Lemma basis_NoDup : NoDup (map (fun cf => key (cfg_of N (concat cf))) (product lists)).
Proof.
  apply NoDup_map_on.
  - intros cf cf' H H' E. apply key_inj in E; [|rewrite !cfg_of_length; auto].
    destruct (prod_facts cf H) as (Hn & HR & HE). destruct (prod_facts cf' H') as (Hn' & HR' & HE').
    assert (EO : forall x, inl_ (concat cf) x = inl_ (concat cf') x).
    { intros x. pose proof (cfg_of_occupied N (concat cf) x HR) as E1. pose proof (cfg_of_occupied N (concat cf') x HR') as E2. unfold inl_. congruence. }
    pose proof (fam_recover aidx cf d d_NoDup idx_disjoint HE) as R1. pose proof (fam_recover aidx cf' d d_NoDup idx_disjoint HE') as R2.
    assert (R2' : Forall2 (fun s a => s = filter (inl_ (concat cf)) (aidx a)) cf' d).
    { eapply Forall2_impl'; [|exact R2]. intros s a Es. cbv beta in *. rewrite Es. apply filter_ext. intros x. auto. }
    exact (Forall2_fun _ _ _ _ R1 R2').
  - apply product_NoDup. apply Forall_forall. intros x Hx. unfold lists in Hx. apply in_map_iff in Hx as ([l nB] & <- & H). cbn [fst snd].
    destruct (feasible_par l nB HF H) as [Hp Hf]. apply shell_list_NoDup; auto.
Qed.
Lemma basis_length : length (product lists) = nprod (map (fun kv => n_choices (fst kv) (snd kv) (par (fst kv))) d).
Proof.
  rewrite product_length. f_equal. unfold lists. rewrite map_map. apply map_ext_in. intros [l nB] H. cbn [fst snd].
  destruct (feasible_par l nB HF H) as [Hp Hf]. apply shell_list_length; auto.
Qed.
(* electron number *)
Lemma admitted_electrons c : length c = N -> admitted d val dnV dnC tol n0 c ->
  electrons c = zsum (map (fun kv => p_n0 (par (fst kv)) + p_val (par (fst kv))) d).
Proof.
  intros Lc Hadm. unfold electrons.
  assert (E1 : length (filter (fun b => b) c) = length (filter (occupied c) (zrange (n_total nb)))).
  { unfold zrange. fold N. rewrite <- Lc. clear.
    assert (G : forall c pre, length (filter (fun b => b) c) = length (filter (occupied (pre ++ c)) (map Z.of_nat (seq (length pre) (length c))))).
    { clear c. induction c as [|b c IH]; intros pre; simpl; auto.
      assert (Eo : occupied (pre ++ b :: c) (Z.of_nat (length pre)) = b).
      { unfold occupied. destruct (Z.leb_spec 0 (Z.of_nat (length pre))); [|lia]. rewrite Nat2Z.id, app_nth2, Nat.sub_diag by lia. reflexivity. }
      rewrite Eo. specialize (IH (pre ++ [b])). rewrite <- app_assoc in IH. simpl in IH. rewrite app_length in IH. simpl in IH. rewrite Nat.add_1_r in IH.
      destruct b; simpl; rewrite IH; auto. }
    exact (G c []). }
  rewrite E1.
  assert (PL : forall f (l m : list Z), Permutation l m -> length (filter f l) = length (filter f m)).
  { intros f l m HP. induction HP; simpl; auto; [destruct (f x); simpl; auto|destruct (f x), (f y); simpl; auto|congruence]. }
  rewrite (PL _ _ _ zrange_perm).
  assert (H2 : forall kv, In kv d -> Z.of_nat (length (filter (occupied c) (aidx kv))) = p_n0 (par (fst kv)) + p_val (par (fst kv))).
  { intros [l nB] H. cbn [fst snd]. destruct (Hadm l nB H) as (p & dv & dc & Hp & Hm & (C1 & C2 & C3)). pose proof (par_eq l p Hp). subst p.
    rewrite (all_idx_split d l nB (p_val (par l)) (moves_val l nB dv dc H Hm)). rewrite !filter_app, !app_length, !Nat2Z.inj_add.
    unfold occ_in in *. rewrite C1, C2, C3. lia. }
  apply sum_flat_map. exact H2.
Qed.
End F.

(* ---- acceptance ---- *)
Lemma sanity_inv : fold_res (fun _ kv => do v <- dgetitem val (fst kv); assert_that (v <=? snd kv)) d tt = Ok tt ->
  forall l nB p, In (l, nB) d -> sparams l p -> p_val p <= nB.
Proof.
  intros E l nB p H (Ev & _). revert E. induction d as [|kv e IH]; intros E; [destruct H|]. cbn [fold_res] in E.
  destruct H as [->|H].
  - cbn [fst snd] in E. rewrite (dgetitem_ok _ _ _ Ev) in E. cbn [bind] in E. destruct (Z.leb_spec (p_val p) nB); auto. discriminate.
  - destruct (dgetitem val (fst kv)) as [v|]; cbn [bind] in E; [|discriminate]. destruct (v <=? snd kv); cbn [assert_that bind] in E; [|discriminate].
    clear -E H Ev. revert E H. induction e as [|kv e IH]; intros E H; [destruct H|]. cbn [fold_res] in E. destruct H as [->|H].
    + cbn [fst snd] in E. rewrite (dgetitem_ok _ _ _ Ev) in E. cbn [bind] in E. destruct (Z.leb_spec (p_val p) nB); auto. discriminate.
    + destruct (dgetitem val (fst kv)) as [v|]; cbn [bind] in E; [|discriminate]. destruct (v <=? snd kv); cbn [assert_that bind] in E; [|discriminate]. auto.
Qed.
Lemma accept_inv basis : complete d val dnV dnC tol n0 -> no_empty_valence d val dnV dnC tol n0 ->
  get_basis d val dnV dnC tol n0 = Ok basis -> feasible d val dnV dnC tol n0.
Proof.
  intros HC HN E. unfold get_basis in E. destruct (fold_res _ d tt) as [[]|] eqn:ES; [|discriminate]. cbn [bind] in E.
  destruct (map_res _ d) as [bl|] eqn:EL; [|discriminate]. intros l nB H.
  pose proof (shell_key d l nB H) as Hk. destruct (HC l Hk) as (p & Hp). pose proof (sanity_inv ES l nB p H Hp) as Hv.
  destruct (map_res_inv _ _ _ EL (l, nB) H) as (bs & Eb). cbn [fst snd] in Eb.
  exists p. split; [exact Hp|]. exact (shell_ok_inv d val dnV dnC tol n0 Hw l nB p bs H Hp Hv (fun Hz => HN l p Hk Hp Hz) Eb).
Qed.
Lemma reject_err e : complete d val dnV dnC tol n0 -> no_empty_valence d val dnV dnC tol n0 ->
  get_basis d val dnV dnC tol n0 = Err e -> e = AssertionError \/ e = ValueError.
Proof.
  intros HC HN E. pose proof E as E0. unfold get_basis in E. destruct (fold_res _ d tt) as [[]|e'] eqn:ES.
  - cbn [bind] in E. destruct (map_res _ d) as [bl|e'] eqn:EL.
    + exfalso. assert (HF : feasible d val dnV dnC tol n0).
      { intros l nB H. pose proof (shell_key d l nB H) as Hk. destruct (HC l Hk) as (p & Hp). pose proof (sanity_inv ES l nB p H Hp) as Hv.
        destruct (map_res_inv _ _ _ EL (l, nB) H) as (bs & Eb). cbn [fst snd] in Eb.
        exists p. split; [exact Hp|]. exact (shell_ok_inv d val dnV dnC tol n0 Hw l nB p bs H Hp Hv (fun Hz => HN l p Hk Hp Hz) Eb). }
      rewrite (basis_eq HF) in E0. discriminate.
    + cbn [bind] in E. injection E as <-. revert EL. apply (map_res_err _ (fun e => e = AssertionError \/ e = ValueError)). intros [l nB] e1 H E1. cbn [fst snd] in E1.
      pose proof (shell_key d l nB H) as Hk. destruct (HC l Hk) as (p & Hp). pose proof (sanity_inv ES l nB p H Hp) as Hv.
      rewrite (shell_eq d val dnV dnC tol n0 l nB p Hp) in E1. destruct (map_res _ (zrange (p_dv p + 1))) as [|e2] eqn:E2; [discriminate|].
      cbn [bind] in E1. injection E1 as <-. revert E2. apply (map_res_err _ (fun e => e = AssertionError \/ e = ValueError)). intros dv e3 Hdv E3.
      destruct (map_res _ (zrange (p_dc p + 1))) as [|e4] eqn:E4; [discriminate|]. cbn [bind] in E3. injection E3 as <-. revert E4. apply (map_res_err _ (fun e => e = AssertionError \/ e = ValueError)).
      intros dc e5 Hdc E5. eapply (part_err d); eauto.
  - cbn [bind] in E. injection E as <-. left. clear E0.
    assert (G : forall l, In l (dkeys d) -> exists v, dget val l = Some v) by (intros l Hl; destruct (HC l Hl) as (p & Hp & _); eauto).
    clear -ES G. unfold dkeys in G. revert G ES. generalize d as e. induction e as [|kv e IH]; intros G ES; [discriminate|]. cbn [fold_res] in ES.
    destruct (G (fst kv) (or_introl eq_refl)) as (v & Ev). rewrite (dgetitem_ok _ _ _ Ev) in ES. cbn [bind] in ES.
    destruct (v <=? snd kv); cbn [assert_that bind] in ES; [|congruence]. apply IH; auto. intros; apply G; right; auto.
Qed.
End G.

Lemma basis_size_P d val dnV dnC tol n0 basis : wf_shells d -> feasible d val dnV dnC tol n0 ->
  get_basis d val dnV dnC tol n0 = Ok basis ->
  length basis = fold_right Nat.mul 1%nat (map (fun kv => n_choices (fst kv) (snd kv) (par val dnV dnC tol n0 (fst kv))) d).
Proof.
  intros Hw HF E. rewrite (basis_eq d val dnV dnC tol n0 Hw HF) in E. injection E as <-. rewrite map_length. apply basis_length; auto.
Qed.
Lemma accepted_P d val dnV dnC tol n0 : wf_shells d -> complete d val dnV dnC tol n0 -> no_empty_valence d val dnV dnC tol n0 ->
  match get_basis d val dnV dnC tol n0 with
  | Ok _ => feasible d val dnV dnC tol n0
  | Err e => ~ feasible d val dnV dnC tol n0 /\ (e = AssertionError \/ e = ValueError)
  end.
Proof.
  intros Hw HC HN. destruct (get_basis d val dnV dnC tol n0) as [b|e] eqn:E.
  - eapply accept_inv; eauto.
  - split; [|eapply reject_err; eauto]. intros HF. rewrite (basis_eq d val dnV dnC tol n0 Hw HF) in E. discriminate.
Qed.
Lemma electrons_P d val dnV dnC tol n0 basis : wf_shells d -> complete d val dnV dnC tol n0 ->
  no_empty_valence d val dnV dnC tol n0 -> get_basis d val dnV dnC tol n0 = Ok basis ->
  forall k, In k basis -> exists c, k = key c /\ length c = Z.to_nat (n_total (nbaths_of d)) /\
    electrons c = zsum (map (fun kv => p_n0 (par val dnV dnC tol n0 (fst kv)) + p_val (par val dnV dnC tol n0 (fst kv))) d).
Proof.
  intros Hw HC HN E k Hk. pose proof (accept_inv d val dnV dnC tol n0 Hw basis HC HN E) as HF.
  rewrite (basis_eq d val dnV dnC tol n0 Hw HF) in E. injection E as <-.
  apply (basis_In d val dnV dnC tol n0 Hw HF) in Hk as (c & Lc & -> & Ha). exists c. split; [auto|]. split; [auto|].
  apply (admitted_electrons d val dnV dnC tol n0 Hw HF c Lc Ha).
Qed.
