(* Sectors: the states of a run. *)
From Coq Require Import Permutation Ring Field.
From Verif Require Import M_Prelude M_Scalar M_PSR M_State M_Basis M_Expect M_Hamiltonian M_Operators M_Main M_Program S_Fock S_Ops S_Basis S_Expect S_Ham S_Green S_Moments S_Spectrum S_Operators S_Program S_Spectrum2 S_Sector.
From Verif Require Import L_Scalar L_Sum L_Dict L_Fock L_State L_Ops L_Index L_Basis2 L_Basis3 L_Basis4 L_RIXS L_Program3 L_Program4 L_Program5 L_Program6 L_Sector L_Sector2.
Local Open Scope Z_scope.

(* ---- electrons and charges ---- *)
Lemma charge_from_occ w c : forall i, charge_from w i c = zsum (map (fun k => if nth k c false then w (i + Z.of_nat k) else 0) (seq 0 (length c))).
Proof.
  induction c as [|b c IH]; intros i; [reflexivity|]. cbn [charge_from length seq map]. unfold zsum in *. cbn [fold_right]. rewrite IH, <- seq_shift, map_map. cbn [nth]. rewrite Z.add_0_r. f_equal. f_equal.
  apply map_ext. intros k. replace (i + 1 + Z.of_nat k) with (i + Z.of_nat (S k)) by lia. reflexivity.
Qed.
Lemma charge_ext w w' c : (forall i, 0 <= i < Z.of_nat (length c) -> w i = w' i) -> charge w c = charge w' c.
Proof.
  intros H. unfold charge. rewrite !charge_from_occ. f_equal. apply map_ext_in. intros k Hk. apply in_seq in Hk. rewrite H by lia. reflexivity.
Qed.
Lemma charge_electrons c : charge (fun _ => 1) c = electrons c.
Proof. unfold charge, electrons. generalize 0 at 1. induction c as [|b c IH]; intros i; [reflexivity|]. cbn [charge_from filter]. rewrite IH. destruct b; cbn [length]; lia. Qed.
Lemma zsum_app a b : zsum (a ++ b) = zsum a + zsum b.
Proof. unfold zsum. induction a as [|x a IH]; cbn; [reflexivity|]. rewrite IH. lia. Qed.
Lemma zsum_0 {A} (g : A -> Z) l : (forall a, In a l -> g a = 0) -> zsum (map g l) = 0.
Proof. intros H. unfold zsum. induction l as [|x l IH]; cbn; [reflexivity|]. rewrite IH, (H x); auto; [left; auto|intros; apply H; right; auto]. Qed.
Lemma count_zsum (p : nat -> bool) l : zsum (map (fun k => if p k then 1 else 0) l) = Z.of_nat (length (filter p l)).
Proof. unfold zsum. induction l as [|x l IH]; cbn; [reflexivity|]. rewrite IH. destruct (p x); cbn [length]; lia. Qed.
Lemma charge_range lo hi c : 0 <= lo <= hi -> hi <= Z.of_nat (length c) ->
  charge (fun i => if (lo <=? i) && (i <? hi) then 1 else 0) c = occ_in c (zrange2 lo hi).
Proof.
  intros H1 H2. unfold charge, occ_in, zrange2. rewrite charge_from_occ.
  replace (length c) with (Z.to_nat lo + (Z.to_nat (hi - lo) + (length c - Z.to_nat hi)))%nat by lia. rewrite !seq_app, !map_app, !zsum_app.
  rewrite (zsum_0 _ (seq 0 _)), (zsum_0 _ (seq (0 + Z.to_nat lo + Z.to_nat (hi - lo)) _)).
  - rewrite Z.add_0_r, Z.add_0_l. rewrite <- (Nat.add_0_r (0 + Z.to_nat lo)).
    assert (E : forall m a b, map (fun k => k + b)%nat (seq a m) = seq (b + a) m).
    { induction m as [|m IH]; intros a b; [reflexivity|]. cbn [seq map]. rewrite IH. f_equal; [lia|]. f_equal. lia. }
    rewrite <- E, map_map. 
    transitivity (zsum (map (fun k => if nth (k + Z.to_nat lo) c false then 1 else 0) (seq 0 (Z.to_nat (hi - lo))))).
    + f_equal. apply map_ext_in. intros k Hk. apply in_seq in Hk. rewrite Nat.add_0_l. match goal with |- context [(lo <=? ?u) && (?v <? hi)] => replace ((lo <=? u) && (v <? hi)) with true by (symmetry; apply andb_true_iff; split; [apply Z.leb_le|apply Z.ltb_lt]; lia) end. reflexivity.
    + rewrite count_zsum. f_equal. rewrite <- (map_length (fun k => lo + Z.of_nat k)%Z). f_equal.
      generalize (seq 0 (Z.to_nat (hi - lo))). intros l. induction l as [|k l IH]; [reflexivity|]. cbn [map filter]. unfold S_Fock.occupied at 1. replace (0 <=? lo + Z.of_nat k) with true by (symmetry; apply Z.leb_le; lia). cbn [andb].
      replace (Z.to_nat (lo + Z.of_nat k)) with (k + Z.to_nat lo)%nat by lia. destruct (nth _ c false); cbn [map]; rewrite IH; reflexivity.
  - intros k Hk. apply in_seq in Hk. destruct (nth k c false); auto. replace (0 + Z.of_nat k <? hi) with false by (symmetry; apply Z.ltb_ge; lia). rewrite andb_false_r. reflexivity.
  - intros k Hk. apply in_seq in Hk. destruct (nth k c false); auto. replace (lo <=? 0 + Z.of_nat k) with false by (symmetry; apply Z.leb_gt; lia). reflexivity.
Qed.
(* the electrons of a shell, counted in its orbitals *)
Lemma imp_offset_nonneg ls l : Forall (fun l => 0 <= l) ls -> 0 <= imp_offset ls l.
Proof. induction 1 as [|b ls Hb HF IH]; cbn [imp_offset]; [lia|]. destruct (b =? l); unfold shell_size; lia. Qed.
Lemma shell_count d l nB c : wf_shells d -> In (l, nB) d -> length c = Z.to_nat (n_total (nbaths_of d)) -> in_shell_l (nbaths_of d) l c = occ_in c (imp_idx d l).
Proof.
  intros Hd Hl Hc. set (nb := nbaths_of d) in *. pose proof (wf_nb d Hd) as W. fold nb in W. pose proof (shell_nonneg d Hd l nB Hl) as [L0 _].
  assert (Hpos : 0 <= imp_offset (map fst d) l).
  { apply imp_offset_nonneg. destruct Hd as [_ HF]. apply Forall_forall. intros x Hx. apply in_map_iff in Hx as (kv & <- & Hk). rewrite Forall_forall in HF. apply HF in Hk. tauto. }
  assert (Hang : NoDup (angs nb)) by (unfold nb; rewrite angs_nb by auto; apply Hd).
  assert (Hlt : imp_offset (map fst d) l + shell_size l <= n_total nb).
  { assert (X : In (imp_offset (map fst d) l + shell_size l - 1) (all_idx d l nB)).
    { unfold all_idx. apply in_or_app. left. unfold imp_idx. apply zrange2_In. unfold shell_size. lia. }
    apply (all_idx_lt d Hd l nB) in X; auto. fold nb in X. lia. }
  unfold in_shell_l. rewrite (charge_ext _ (fun i => if (imp_offset (map fst d) l <=? i) && (i <? imp_offset (map fst d) l + shell_size l) then 1 else 0)).
  - unfold imp_idx. apply charge_range; [unfold shell_size; lia|]. lia.
  - intros i Hi. rewrite Hc in Hi. destruct (i2c_bijection nb i W Hang) as (x & Ex & Cx & Hx & Hu); [lia|]. unfold at_index. rewrite Ex.
    destruct (Z.leb_spec (imp_offset (map fst d) l) i) as [A|A]; [destruct (Z.ltb_spec i (imp_offset (map fst d) l + shell_size l)) as [B|B]|]; cbn [andb].
    + destruct (idx_coord d Hd l nB i Hl) as (co & Cc & Ec & Hs). { unfold all_idx. apply in_or_app. left. unfold imp_idx. apply zrange2_In. lia. }
      assert (co = x). { apply Hu; auto. fold nb in Cc, Ec. rewrite c2i_ok by auto. congruence. } subst co. fold nb in Ec, Cc.
      destruct x as [l' s m|k b]; cbn [q_shell]; [subst l'; rewrite Z.eqb_refl; reflexivity|].
      exfalso. pose proof (coord_index_range nb _ W Cc) as Rg. cbn beta iota in Rg. rewrite Ec in Rg.
      assert (X : In i (imp_idx d l)) by (unfold imp_idx; apply zrange2_In; lia). apply (imp_idx_lt d Hd l nB i Hl) in X. fold nb in X. lia.
    + destruct x as [l' s m|k b]; cbn [q_shell]; auto. destruct (Z.eqb_spec l' l) as [->|]; auto. exfalso. assert (Hy : coord_index nb (SImp l s m) = i) by (rewrite c2i_ok in Hx by auto; congruence). clear Hx. rename Hy into Hx. unfold coord_index in Hx. destruct Cx as (_ & [-> | ->] & Cm).
      unfold nb in Hx. rewrite angs_nb in Hx by auto. rewrite <- dkeys_fst in Hx. unfold shell_size in *. lia.
      unfold nb in Hx. rewrite angs_nb in Hx by auto. rewrite <- dkeys_fst in Hx. unfold shell_size in *. lia.
    + destruct x as [l' s m|k b]; cbn [q_shell]; auto. destruct (Z.eqb_spec l' l) as [->|]; auto. exfalso. assert (Hy : coord_index nb (SImp l s m) = i) by (rewrite c2i_ok in Hx by auto; congruence). clear Hx. rename Hy into Hx. unfold coord_index in Hx. destruct Cx as (_ & [-> | ->] & Cm).
      unfold nb in Hx. rewrite angs_nb in Hx by auto. rewrite <- dkeys_fst in Hx. unfold shell_size in *. lia.
      unfold nb in Hx. rewrite angs_nb in Hx by auto. rewrite <- dkeys_fst in Hx. unfold shell_size in *. lia.
Qed.

(* ---- the eigenstates ---- *)
Section Run.
Context {F : ofield}.
Lemma state_keys basis swm col (psi : psi_t F) : state_of_column basis swm col = Ok psi -> incl (dkeys psi) basis.
Proof.
  unfold state_of_column. apply (fold_res_inv' _ (fun psi : psi_t F => incl (dkeys psi) basis)); [|intros k []].
  intros s i s' H Hi. destruct (nth_res col i) as [v|]; [|discriminate]. cbn [bind]. destruct (_ <? _)%F; [intros E; injection E as <-; exact H|].
  unfold nth_res. destruct (nth_error basis i) as [b|] eqn:Eb; [|discriminate]. cbn [bind]. intros E. injection E as <-.
  intros k Hk. apply in_dkeys_dset in Hk as [->|Hk]; auto. eapply nth_error_In; eauto.
Qed.
Lemma run_keys k_B eigh eigsh argsort R (a : @args F) su es psis : run_states k_B eigh eigsh argsort R a su es psis -> Forall (fun psi => incl (dkeys psi) (su_basis su)) psis.
Proof.
  intros (es0 & psis0 & others & E & El).
  assert (H0 : Forall (fun psi : psi_t F => incl (dkeys psi) (su_basis su)) psis0).
  { assert (Hi : In (Ok (es0, psis0)) (eigensystem eigh eigsh argsort R (n_spin_orbitals (su_nBaths su)) (su_hOp su) (su_basis su) (a_nPsiMax a) LanczosDiag slaterWeightMin)) by (rewrite E; left; auto).
    unfold eigensystem in Hi. apply in_map_iff in Hi as ([r h] & E' & _). cbn [fst snd] in E'. destruct h as [h|]; [|discriminate]. cbn [bind] in E'.
    unfold eigen_local in E'. destruct (_ && _); [discriminate|]. destruct (diagonalize _ _ _ _ _ _ _) as [[es1 vecs]|]; [|discriminate]. cbn [bind] in E'.
    destruct (map_res _ _) as [ps|] eqn:Em; [|discriminate]. cbn [bind] in E'. injection E' as -> ->. eapply map_res_all; [|exact Em]. intros vi psi _ Es. cbn beta in Es.
    destruct (nth_res vecs vi) as [col|]; [|discriminate]. cbn [bind] in Es. eapply state_keys; eauto. }
  revert El. unfold low_energy. match goal with |- context [bind ?X _] => destruct X as [e2|] end; [|discriminate]. cbn [bind].
  destruct (map_res _ _) as [ps|] eqn:Em; [|discriminate]. cbn [bind]. intros E'. injection E' as -> ->. eapply map_res_all; [|exact Em].
  intros i psi _ Ei. unfold nth_res in Ei. destruct (nth_error psis0 i) eqn:En; [|discriminate]. injection Ei as <-. rewrite Forall_forall in H0. apply H0. eapply nth_error_In; eauto.
Qed.
Lemma amp_key (psi : psi_t F) t : amp psi t <> c0 -> In (key t) (dkeys psi).
Proof. unfold amp. intros H. apply dget_Some_key. destruct (dget psi (key t)) as [v|]; [eauto|congruence]. Qed.
(* sums over the shells *)
Definition got (e : zdict) (l : Z) : Z := match dget e l with Some v => v | None => 0 end.
Lemma got_sum ls xs : NoDup ls -> length xs = length ls -> zsum (map (got (combine ls xs)) ls) = zsum xs.
Proof.
  revert xs. induction ls as [|l ls IH]; intros [|x xs] Hn Hl; try discriminate; [reflexivity|]. apply NoDup_cons_iff in Hn as [Hi Hn]. cbn [combine map]. unfold zsum. cbn [fold_right]. f_equal.
  - unfold got. cbn [dget]. rewrite eqb_refl. reflexivity.
  - fold (zsum xs). rewrite <- (IH xs) by (auto; cbn in Hl; lia). unfold zsum. f_equal. apply map_ext_in. intros k Hk. unfold got. cbn [dget]. destruct (eqb_spec k l) as [->|]; [contradiction|reflexivity].
Qed.
Lemma zsum_add {A} (g h : A -> Z) l : zsum (map (fun x => g x + h x) l) = zsum (map g l) + zsum (map h l).
Proof. unfold zsum. induction l as [|x l IH]; cbn; [reflexivity|]. rewrite IH. lia. Qed.
Lemma run_sector k_B eigh eigsh argsort R hamiltonian (a : @args F) su es psis psi i Nc : sound_args a -> main_setup hamiltonian a = Ok su -> run_states k_B eigh eigsh argsort R a su es psis -> In psi psis ->
  nth_error (a_ls a) i = Some 1 -> nth_error (a_dnTols a) i = Some 0 -> nth_error (a_n0imps a) i = Some Nc ->
  sector (nbaths_of (su_nBaths su)) (zsum (a_n0imps a) + zsum (a_nValBaths a)) Nc (amp psi).
Proof.
  intros HS Es Hr Hpsi E1 E2 E3 t Ht Hne. pose proof (run_keys _ _ _ _ _ _ _ _ _ Hr) as Hk. rewrite Forall_forall in Hk. apply amp_key in Hne. apply (Hk _ Hpsi) in Hne. clear Hk Hr Hpsi.
  apply setup_inv in Es. destruct (setup_ok a HS (fun _ _ _ => Ok (su_hOp su))) as (su' & E' & _ & Ed & _ & Hb & _); [reflexivity|]. assert (su' = su) by congruence. subst su'.
  apply Hb in Hne as (c & Lc & Ec & Ha). rewrite Ed in *. pose proof (d_shells a HS) as Hsh. 
  assert (t = c). { apply key_inj in Ec; auto. rewrite Ht, Lc. reflexivity. } subst c.
  pose proof HS as (Hn & _ & _ & HL & _). repeat (inversion_clear HL as [|? ? ? HL']; rename HL' into HL).
  split.
  - rewrite (admitted_electrons _ _ _ _ _ _ Hsh (d_feasible a HS) t Lc Ha). etransitivity; [|etransitivity; [apply (zsum_add (fun kv => got (ordered (a_ls a) (a_n0imps a)) (fst kv)) (fun kv => got (ordered (a_ls a) (a_nValBaths a)) (fst kv)) (ordered (a_ls a) (a_nBaths a)))|]]; [f_equal; apply map_ext; intros kv; reflexivity|].
    rewrite <- (map_map fst (got (ordered (a_ls a) (a_n0imps a)))), <- (map_map fst (got (ordered (a_ls a) (a_nValBaths a)))), dkeys_fst, (d_keys a HS).
    rewrite !ordered_eq by auto. rewrite !got_sum; auto.
  - destruct (nth_some (a_nBaths a) (a_ls a) i 1) as [nB EB]; auto.
    assert (Hin : In (1, nB) (ordered (a_ls a) (a_nBaths a))) by (rewrite ordered_eq by auto; eapply nth_error_In, combine_nth_error; eauto).
    rewrite (shell_count _ 1 nB); auto. destruct (Ha 1 nB Hin) as (p & dv & dc & (P1 & P2 & P3 & P4 & P5) & (M1 & M2 & M3) & -> & _).
    assert (X4 : Some (p_tol p) = Some 0) by (rewrite <- P4; eapply ordered_get; eauto). assert (X5 : Some (p_n0 p) = Some Nc) by (rewrite <- P5; eapply ordered_get; eauto).
    injection X4 as X4. injection X5 as X5. lia.
Qed.
End Run.
