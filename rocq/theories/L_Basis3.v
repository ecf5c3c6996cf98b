(* get_basis: the whole basis. *)
From Coq Require Import Sorting.Permutation.
From Verif Require Import M_Prelude M_PSR M_Basis S_Occ S_Fock S_Basis.
From Verif Require Import L_PSR L_Dict L_Fock L_Ham L_ExpandP L_FromH L_Index L_Basis L_Basis2.
Local Open Scope Z_scope.

Section G.
Variables d val dnV dnC tol n0 : zdict.
Hypothesis Hw : wf_shells d.
Let nb := nbaths_of d.
Notation sparams := (shell_params val dnV dnC tol n0).

Lemma dgetitem_ok (e : zdict) k v : dget e k = Some v -> dgetitem e k = Ok v.
Proof. intros E. unfold dgetitem. rewrite E. reflexivity. Qed.

Definition part (l nB : Z) (p : shell_par) (dv dc : Z) : res (list (list Z)) :=
  if Z.abs (dv - dc) <=? p_tol p then
    do _ <- assert_that (p_val p - dv <=? p_val p);
    do _ <- assert_that (dc <=? nB - p_val p);
    do _ <- assert_that (p_n0 p + (dv - dc) <=? 2 * (2 * l + 1));
    partition_basis d l nB (p_val p) (p_n0 p + (dv - dc)) (p_val p - dv) dc
  else Ok [].
Lemma shell_eq l nB p : sparams l p -> shell_basis d val dnV dnC tol n0 l nB =
  do ns <- map_res (fun dv => do ns <- map_res (part l nB p dv) (zrange (p_dc p + 1)); Ok (concat ns)) (zrange (p_dv p + 1)); Ok (concat ns).
Proof.
  intros (E1 & E2 & E3 & E4 & E5). unfold shell_basis. rewrite (dgetitem_ok _ _ _ E2). cbn [bind].
  rewrite <- (app_nil_l (concat _)) || idtac.
  etransitivity; [|etransitivity; [apply (fold_app_map (fun dv => do ns <- map_res (part l nB p dv) (zrange (p_dc p + 1)); Ok (concat ns)))|]].
  - apply fold_res_ext. intros acc dv _. rewrite (dgetitem_ok _ _ _ E3). cbn [bind].
    etransitivity; [|etransitivity; [apply (fold_app_map (part l nB p dv))|]].
    + apply fold_res_ext. intros acc' dc _. rewrite (dgetitem_ok _ _ _ E4). cbn [bind]. unfold part.
      destruct (Z.abs (dv - dc) <=? p_tol p); cbn [bind]; [|rewrite app_nil_r; auto].
      rewrite (dgetitem_ok _ _ _ E5), (dgetitem_ok _ _ _ E1). cbn [bind].
      destruct (p_val p - dv <=? p_val p), (dc <=? nB - p_val p), (p_n0 p + (dv - dc) <=? 2 * (2 * l + 1)); reflexivity.
    + destruct (map_res (part l nB p dv) (zrange (p_dc p + 1))); reflexivity.
  - reflexivity.
Qed.

Definition tri (l nB : Z) (p : shell_par) (dv dc : Z) : list (list Z) :=
  if Z.abs (dv - dc) <=? p_tol p then
    triple (imp_idx d l) (val_idx d l (p_val p)) (con_idx d l (p_val p) nB)
      (Z.to_nat (p_n0 p + dv - dc)) (Z.to_nat (p_val p - dv)) (Z.to_nat dc)
  else [].
Definition shell_list (l nB : Z) (p : shell_par) : list (list Z) :=
  flat_map (fun dv => flat_map (tri l nB p dv) (zrange (p_dc p + 1))) (zrange (p_dv p + 1)).
Definition feas (l nB : Z) (p : shell_par) : Prop := p_val p <= nB /\
  forall dv dc, moves p dv dc -> dv <= p_val p /\ dc <= nB - p_val p /\ 0 <= p_n0 p + dv - dc <= shell_size l.
Lemma moves_iff p dv dc : moves p dv dc <-> In dv (zrange (p_dv p + 1)) /\ In dc (zrange (p_dc p + 1)) /\ Z.abs (dv - dc) <=? p_tol p = true.
Proof. unfold moves. rewrite !zrange_In, Z.leb_le. intuition lia. Qed.

Lemma part_ok l nB p dv dc : In (l, nB) d -> feas l nB p -> In dv (zrange (p_dv p + 1)) -> In dc (zrange (p_dc p + 1)) ->
  part l nB p dv dc = Ok (tri l nB p dv dc).
Proof.
  intros H [Hv HF] Hdv Hdc. unfold part, tri. destruct (Z.abs (dv - dc) <=? p_tol p) eqn:E; auto.
  destruct (HF dv dc) as (H1 & H2 & H3); [apply moves_iff; auto|]. apply zrange_In in Hdv, Hdc.
  unfold shell_size in H3. destruct (shell_nonneg _ Hw _ _ H) as [Hl HnB].
  destruct (Z.leb_spec (p_val p - dv) (p_val p)); [|lia]. destruct (Z.leb_spec dc (nB - p_val p)); [|lia].
  destruct (Z.leb_spec (p_n0 p + (dv - dc)) (2 * (2 * l + 1))); [|lia]. cbn [assert_that bind].
  rewrite partition_ok by (auto; lia). do 2 f_equal. f_equal. lia.
Qed.
Lemma shell_ok l nB p : In (l, nB) d -> sparams l p -> feas l nB p -> shell_basis d val dnV dnC tol n0 l nB = Ok (shell_list l nB p).
Proof.
  intros H Hp HF. rewrite (shell_eq l nB p Hp).
  rewrite (map_res_map _ (fun dv => flat_map (tri l nB p dv) (zrange (p_dc p + 1)))).
  - cbn [bind]. f_equal. unfold shell_list. symmetry. apply flat_map_concat_map.
  - intros dv Hdv. rewrite (map_res_map _ (tri l nB p dv)).
    + cbn [bind]. f_equal. symmetry. apply flat_map_concat_map.
    + intros dc Hdc. apply part_ok; auto.
Qed.
Lemma shell_ok_inv l nB p bs : In (l, nB) d -> sparams l p -> p_val p <= nB -> (p_val p = 0 -> p_dv p <= 0) ->
  shell_basis d val dnV dnC tol n0 l nB = Ok bs -> feas l nB p.
Proof.
  intros H Hp Hv Hne E. rewrite (shell_eq l nB p Hp) in E. split; auto. intros dv dc Hm. pose proof Hm as HM. apply moves_iff in Hm as (Hdv & Hdc & Hab).
  destruct (map_res _ (zrange (p_dv p + 1))) as [ns|] eqn:E1; [|discriminate].
  destruct (map_res_inv _ _ _ E1 dv Hdv) as (b & Eb). destruct (map_res _ (zrange (p_dc p + 1))) as [ns'|] eqn:E2; [|discriminate].
  destruct (map_res_inv _ _ _ E2 dc Hdc) as (b' & Eb'). unfold part in Eb'. rewrite Hab in Eb'. unfold assert_that in Eb'.
  destruct (p_val p - dv <=? p_val p); [|discriminate].
  destruct (Z.leb_spec dc (nB - p_val p)); [|discriminate]. destruct (Z.leb_spec (p_n0 p + (dv - dc)) (2 * (2 * l + 1))); [|discriminate].
  cbn [bind] in Eb'. pose proof (partition_inv d Hw l nB (p_val p) (p_n0 p + (dv - dc)) (p_val p - dv) dc H Hv) as HI. rewrite Eb' in HI.
  destruct HI as (Ha & Hb & Hc). unfold shell_size. destruct HM as (HM1 & HM2 & _).
  destruct (Z.eq_dec (p_val p) 0) as [Hz|Hz].
  - specialize (Hne Hz). lia.
  - specialize (Hb Hz). lia.
Qed.
Lemma part_err l nB p dv dc e : In (l, nB) d -> p_val p <= nB -> In dv (zrange (p_dv p + 1)) -> part l nB p dv dc = Err e -> e = AssertionError \/ e = ValueError.
Proof.
  intros H Hv Hdv E. apply zrange_In in Hdv. unfold part in E. destruct (Z.abs (dv - dc) <=? p_tol p); [|discriminate]. unfold assert_that in E.
  destruct (p_val p - dv <=? p_val p); cbn [bind] in E; [|injection E as <-; auto].
  destruct (dc <=? nB - p_val p); cbn [bind] in E; [|injection E as <-; auto].
  destruct (p_n0 p + (dv - dc) <=? 2 * (2 * l + 1)); cbn [bind] in E; [|injection E as <-; auto].
  pose proof (partition_inv d Hw l nB (p_val p) (p_n0 p + (dv - dc)) (p_val p - dv) dc H Hv) as HI. rewrite E in HI.
  destruct HI as [->|[Hn ->]]; auto. exfalso. revert E. unfold partition_basis. rewrite (imp_indices d Hw l nB H). cbn [bind].
  unfold combinations at 1. destruct (_ <? 0); cbn [bind]; [discriminate|]. destruct (Z.eqb_spec (p_val p) 0); [lia|].
  rewrite zrange_zrange2, (bath_indices d Hw l nB) by (auto; lia). cbn [bind]. unfold combinations at 1.
  destruct (Z.ltb_spec (p_val p - dv) 0); [|lia]. cbn [bind]. discriminate.
Qed.

(* ---- the configurations of a shell ---- *)
Definition all_idx (l nB : Z) : list Z := imp_idx d l ++ zrange2 (bath_start d l) (bath_start d l + nB).
Lemma all_idx_split l nB v : 0 <= v <= nB -> all_idx l nB = imp_idx d l ++ val_idx d l v ++ con_idx d l v nB.
Proof. intros Hv. unfold all_idx, val_idx, con_idx. rewrite zrange2_app by lia. auto. Qed.
Lemma imp_idx_lt l nB x : In (l, nB) d -> In x (imp_idx d l) -> 0 <= x < n_imp nb.
Proof.
  intros H Hx. destruct (shell_nonneg _ Hw _ _ H) as [Hl HnB]. unfold imp_idx in Hx. apply zrange2_In in Hx. rewrite dkeys_fst in Hx.
  assert (Hc : forall s m, (s = 0 \/ s = 1) -> - l <= m <= l -> coord_ok nb (SImp l s m)).
  { intros. cbn [coord_ok]. unfold nb. rewrite angs_nb by auto. split; [eapply shell_key; eauto|auto]. }
  pose proof (coord_index_range nb (SImp l 0 (- l)) (wf_nb d Hw) (Hc 0 (- l) ltac:(auto) ltac:(lia))) as R1.
  pose proof (coord_index_range nb (SImp l 1 l) (wf_nb d Hw) (Hc 1 l ltac:(auto) ltac:(lia))) as R2.
  cbn [coord_index] in R1, R2. unfold nb in R1, R2. rewrite angs_nb in R1, R2 by auto. fold nb in R1, R2. unfold shell_size in Hx. lia.
Qed.
Lemma bath_idx_ge l nB x : In (l, nB) d -> In x (zrange2 (bath_start d l) (bath_start d l + nB)) -> n_imp nb <= x < n_total nb.
Proof.
  intros H Hx. apply zrange2_In in Hx.
  pose proof (coord_index_range nb (SBath (KInt l) (x - bath_start d l)) (wf_nb d Hw)) as R. cbn [coord_index] in R.
  unfold bath_start in *. fold nb in R, Hx |- *. replace (n_imp nb + bath_offset nb (KInt l) + (x - (n_imp nb + bath_offset nb (KInt l)))) with x in R by lia.
  apply R. exists nB. split; [apply nb_In; auto|lia].
Qed.
Lemma all_idx_NoDup l nB : In (l, nB) d -> NoDup (all_idx l nB).
Proof.
  intros H. unfold all_idx. apply NoDup_app_intro; try apply zrange2_NoDup. intros x Hx Hx'.
  apply (imp_idx_lt l nB x H) in Hx. apply (bath_idx_ge l nB x H) in Hx'. lia.
Qed.
Definition counts (l nB : Z) (p : shell_par) (f : Z -> bool) (dv dc : Z) : Prop :=
  Z.of_nat (length (filter f (imp_idx d l))) = p_n0 p + dv - dc /\
  Z.of_nat (length (filter f (val_idx d l (p_val p)))) = p_val p - dv /\
  Z.of_nat (length (filter f (con_idx d l (p_val p) nB))) = dc.
Lemma shell_list_In l nB p s : In (l, nB) d -> feas l nB p ->
  In s (shell_list l nB p) <-> s = filter (inl_ s) (all_idx l nB) /\ exists dv dc, moves p dv dc /\ counts l nB p (inl_ s) dv dc.
Proof.
  intros H [Hv HF]. unfold shell_list. rewrite in_flat_map. split.
  - intros (dv & Hdv & Hs). apply in_flat_map in Hs as (dc & Hdc & Hs). unfold tri in Hs.
    destruct (Z.abs (dv - dc) <=? p_tol p) eqn:E; [|destruct Hs].
    assert (Hm : moves p dv dc) by (apply moves_iff; auto). destruct (HF dv dc Hm) as (H1 & H2 & H3). apply zrange_In in Hdv, Hdc.
    rewrite (all_idx_split l nB (p_val p)) by lia.
    apply triple_In in Hs; [|rewrite <- all_idx_split by lia; apply all_idx_NoDup; auto].
    destruct Hs as (Es & L1 & L2 & L3). split; [exact Es|]. exists dv, dc. split; auto. unfold counts. rewrite L1, L2, L3. lia.
  - intros (Es & dv & dc & Hm & (L1 & L2 & L3)). destruct (HF dv dc Hm) as (H1 & H2 & H3).
    apply moves_iff in Hm as (Hdv & Hdc & E). exists dv. split; auto. apply in_flat_map. exists dc. split; auto. unfold tri. rewrite E.
    apply zrange_In in Hdv, Hdc. rewrite (all_idx_split l nB (p_val p)) in Es by lia.
    apply triple_In; [rewrite <- all_idx_split by lia; apply all_idx_NoDup; auto|]. split; [exact Es|]. lia.
Qed.
Lemma shell_list_NoDup l nB p : In (l, nB) d -> feas l nB p -> NoDup (shell_list l nB p).
Proof.
  intros H [Hv HF].
  assert (HT : forall dv dc s, In dv (zrange (p_dv p + 1)) -> In dc (zrange (p_dc p + 1)) -> In s (tri l nB p dv dc) -> counts l nB p (inl_ s) dv dc).
  { intros dv dc s Hdv Hdc Hs. unfold tri in Hs. destruct (Z.abs (dv - dc) <=? p_tol p) eqn:E; [|destruct Hs].
    assert (Hm : moves p dv dc) by (apply moves_iff; auto). destruct (HF dv dc Hm) as (H1 & H2 & H3). apply zrange_In in Hdv, Hdc.
    apply triple_In in Hs; [|rewrite <- all_idx_split by lia; apply all_idx_NoDup; auto].
    destruct Hs as (Es & L1 & L2 & L3). unfold counts. rewrite L1, L2, L3. lia. }
  unfold shell_list. apply NoDup_flat_map_intro; [apply zrange_NoDup| |].
  - intros dv Hdv. apply NoDup_flat_map_intro; [apply zrange_NoDup| |].
    + intros dc Hdc. unfold tri. destruct (Z.abs (dv - dc) <=? p_tol p); [|constructor].
      apply triple_NoDup; apply zrange2_NoDup.
    + intros a b s Ha Hb Hs1 Hs2. destruct (HT dv a s) as (_ & _ & E1); auto. destruct (HT dv b s) as (_ & _ & E2); auto. lia.
  - intros a b s Ha Hb Hs1 Hs2. apply in_flat_map in Hs1 as (c1 & Hc1 & Hs1). apply in_flat_map in Hs2 as (c2 & Hc2 & Hs2).
    destruct (HT a c1 s) as (_ & E1 & _); auto. destruct (HT b c2 s) as (_ & E2 & _); auto. lia.
Qed.
Lemma shell_list_length l nB p : In (l, nB) d -> feas l nB p -> length (shell_list l nB p) = n_choices l nB p.
Proof.
  intros H [Hv HF]. destruct (shell_nonneg _ Hw _ _ H) as [Hl HnB].
  unfold shell_list, n_choices.
  assert (E : forall (f : Z -> Z -> list (list Z)) (g : Z -> Z -> nat) l1 l2, (forall a b, In a l1 -> In b l2 -> length (f a b) = g a b) ->
    length (flat_map (fun a => flat_map (f a) l2) l1) = list_sum (flat_map (fun a => map (g a) l2) l1)).
  { intros f g l1 l2 Hfg. induction l1 as [|a l1 IH]; simpl; auto. rewrite app_length, list_sum_app, IH by (intros; apply Hfg; auto; right; auto). f_equal.
    assert (Ha : forall b, In b l2 -> length (f a b) = g a b) by (intros; apply Hfg; auto; left; auto). clear -Ha.
    induction l2 as [|b l2 IH]; simpl; auto. rewrite app_length, Ha by (left; auto). rewrite IH by (intros; apply Ha; right; auto). auto. }
  apply E. intros dv dc Hdv Hdc. unfold tri. destruct (Z.abs (dv - dc) <=? p_tol p) eqn:Eab; [|reflexivity].
  assert (Hm : moves p dv dc) by (apply moves_iff; auto). destruct (HF dv dc Hm) as (H1 & H2 & H3). apply zrange_In in Hdv, Hdc.
  rewrite triple_length. unfold imp_idx, val_idx, con_idx. rewrite !zrange2_length. unfold shell_size in *.
  f_equal; [f_equal|]; f_equal; lia.
Qed.
End G.
