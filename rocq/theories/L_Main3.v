(* Lemmas on the occupation restrictions of main and on the printed thermal averages. *)
From Verif Require Import M_Prelude M_Scalar M_PSR M_Ladder M_State M_Mpi M_Hamiltonian M_Basis M_Average M_Expect M_Main.
From Verif Require Import S_Fock S_Basis S_Expect S_Thermal S_Print S_Green.
From Verif Require Import L_Scalar L_Sum L_Dict L_PSR L_Fock L_State L_Ops L_Index L_Basis L_Basis2 L_Basis3 L_Basis4 L_Average L_Expect L_Expect2 L_Expect3 L_Expect4 L_Expect5 L_Expect6 L_Expect7 L_Main.
From Coq Require Import Field Ring.
Local Open Scope Z_scope.

(* ---- restrictions ---- *)
Section R.
Variables d val dnV dnC tol n0 : zdict.
Hypothesis Hw : wf_shells d.
Variable nB : Z.
Hypothesis H2 : In (2, nB) d.
Variable p : shell_par.
Hypothesis Hp : shell_params val dnV dnC tol n0 2 p.
Hypothesis Hv : 0 <= p_val p <= nB.

Let imp := imp_idx d 2.
Let va := val_idx d 2 (p_val p).
Let co := con_idx d 2 (p_val p) nB.
Let r_imp := (imp, (p_n0 p - 1, p_n0 p + p_tol p + 1)).
Let r_val := (va, (p_val p - p_dv p, p_val p)).
Let r_con := (co, (0, p_dc p)).

Lemma fs_eqb_iff a b : fs_eqb a b = true <-> forall x : Z, In x a <-> In x b.
Proof.
  unfold fs_eqb. rewrite andb_true_iff, !forallb_forall. split.
  - intros [H H'] x. split; intros Hx; [apply H in Hx|apply H' in Hx]; now apply inb_In in Hx.
  - intros H. split; intros x Hx; apply inb_In; now apply H.
Qed.
Lemma val_bath x : In x va -> n_imp (nbaths_of d) <= x.
Proof.
  intros Hx. apply (bath_idx_ge d Hw 2 nB x H2). unfold va, val_idx in Hx. apply zrange2_In in Hx. apply zrange2_In. lia.
Qed.
Lemma con_bath x : In x co -> n_imp (nbaths_of d) <= x.
Proof.
  intros Hx. apply (bath_idx_ge d Hw 2 nB x H2). unfold co, con_idx in Hx. apply zrange2_In in Hx. apply zrange2_In. lia.
Qed.
Lemma imp_differs l : (forall x, In x l -> n_imp (nbaths_of d) <= x) -> fs_eqb imp l = false.
Proof.
  intros Hl. apply not_true_iff_false. intros H. rewrite fs_eqb_iff in H.
  assert (Ho : In (imp_offset (map fst d) 2) imp) by (unfold imp, imp_idx; apply zrange2_In; unfold shell_size; lia).
  pose proof (imp_idx_lt d Hw 2 nB _ H2 Ho). apply H in Ho. apply Hl in Ho. lia.
Qed.
Lemma val_con : fs_eqb va co = true -> va = [] /\ co = [].
Proof.
  intros H. rewrite fs_eqb_iff in H. unfold va, co, val_idx, con_idx in *.
  assert (Hd : forall x, In x (zrange2 (bath_start d 2) (bath_start d 2 + p_val p)) -> In x (zrange2 (bath_start d 2 + p_val p) (bath_start d 2 + nB)) -> False).
  { intros x Hx Hx'. apply zrange2_In in Hx, Hx'. lia. }
  split; [destruct (zrange2 _ (_ + p_val p)) as [|x l] eqn:E|destruct (zrange2 _ (_ + nB)) as [|x l] eqn:E]; auto; exfalso; apply (Hd x).
  - left; auto.
  - apply H. left; auto.
  - apply H. left; auto.
  - left; auto.
Qed.
Lemma restrictions_eq : excited_restrictions d val dnV dnC tol n0 = Ok (if fs_eqb va co then [r_imp; (va, snd r_con)] else [r_imp; r_val; r_con]).
Proof.
  destruct Hp as (P1 & P2 & P3 & P4 & P5). unfold excited_restrictions.
  rewrite (imp_indices d Hw 2 nB H2). cbn [bind]. rewrite (dgetitem_ok n0 2 _ P5), (dgetitem_ok tol 2 _ P4), (dgetitem_ok val 2 _ P1). cbn [bind].
  rewrite zrange_zrange2, (bath_indices d Hw 2 nB 0 (p_val p) H2) by lia. cbn [bind]. rewrite (dgetitem_ok dnV 2 _ P2). cbn [bind].
  assert (E : dget d 2 = Some nB) by (apply In_dget; [apply Hw|exact H2]). rewrite (dgetitem_ok d 2 _ E). cbn [bind].
  rewrite (bath_indices d Hw 2 nB (p_val p) nB H2) by lia. cbn [bind]. rewrite (dgetitem_ok dnC 2 _ P3). cbn [bind]. f_equal.
  replace (bath_start d 2 + 0) with (bath_start d 2) by lia.
  change (zrange2 (bath_start d 2) (bath_start d 2 + p_val p)) with va. change (zrange2 (bath_start d 2 + p_val p) (bath_start d 2 + nB)) with co.
  change (imp_idx d 2) with imp. cbn [rset]. rewrite (imp_differs va) by apply val_bath. cbn [rset]. rewrite (imp_differs co) by apply con_bath.
  destruct (fs_eqb va co); reflexivity.
Qed.
Lemma allowed_meaning rs c : 0 <= p_dv p -> excited_restrictions d val dnV dnC tol n0 = Ok rs ->
  (allowed rs c <-> p_n0 p - 1 <= occ_in c imp <= p_n0 p + p_tol p + 1 /\ p_val p - p_dv p <= occ_in c va <= p_val p /\ 0 <= occ_in c co <= p_dc p).
Proof.
  intros Hd E. rewrite restrictions_eq in E. injection E as <-. unfold allowed, occ_in. destruct (fs_eqb va co) eqn:E.
  - destruct (val_con E) as [E1 E2]. assert (Hval : p_val p = 0).
    { unfold va, val_idx in E1. destruct (Z.eq_dec (p_val p) 0); auto. exfalso.
      assert (Hi : In (bath_start d 2) (zrange2 (bath_start d 2) (bath_start d 2 + p_val p))) by (apply zrange2_In; lia). rewrite E1 in Hi. destruct Hi. }
    rewrite !Forall_cons_iff. cbn [fst snd r_imp r_con]. rewrite E1, E2, Hval. simpl filter. cbn [length]. split; [intros (Ha & Hb & _)|intros (Ha & Hb & Hc)]; repeat split; try lia; constructor.
  - rewrite !Forall_cons_iff. cbn [fst snd r_imp r_val r_con]. split; [intros (Ha & Hb & Hc & _)|intros (Ha & Hb & Hc)]; repeat split; try lia; constructor.
Qed.
End R.

Lemma basis_allowed d val dnV dnC tol n0 basis nB p : wf_shells d -> complete d val dnV dnC tol n0 -> no_empty_valence d val dnV dnC tol n0 ->
  get_basis d val dnV dnC tol n0 = Ok basis -> In (2, nB) d -> shell_params val dnV dnC tol n0 2 p -> p_tol p <= 1 \/ p_dc p <= 1 ->
  forall k, In k basis -> exists rs c, excited_restrictions d val dnV dnC tol n0 = Ok rs /\ k = key c /\
    length c = Z.to_nat (n_total (nbaths_of d)) /\ allowed rs c.
Proof.
  intros Hw Hc Hne E H2 Hp Hs k Hk. pose proof (accepted_P d val dnV dnC tol n0 Hw Hc Hne) as HF. rewrite E in HF.
  rewrite (basis_eq d val dnV dnC tol n0 Hw HF) in E. injection E as <-. apply (basis_In d val dnV dnC tol n0 Hw HF) in Hk as (c & Lc & -> & Ha).
  destruct (Ha 2 nB H2) as (p' & dv & dc & Hp' & Hm & O1 & O2 & O3). assert (p' = p) as ->.
  { destruct Hp as (A1 & A2 & A3 & A4 & A5), Hp' as (B1 & B2 & B3 & B4 & B5). destruct p, p'; simpl in *. f_equal; congruence. }
  destruct (HF 2 nB H2) as (p' & Hp'' & Hle & Hmv). assert (p' = p) as ->.
  { destruct Hp as (A1 & A2 & A3 & A4 & A5), Hp'' as (B1 & B2 & B3 & B4 & B5). destruct p, p'; simpl in *. f_equal; congruence. }
  pose proof (Hmv dv dc Hm) as (M1 & M2 & M3). unfold moves in Hm.
  pose proof (restrictions_eq d val dnV dnC tol n0 Hw nB H2 p Hp ltac:(lia)) as ER.
  eexists _, c. split; [exact ER|]. split; [auto|]. split; [auto|].
  apply (allowed_meaning d val dnV dnC tol n0 Hw nB H2 p Hp ltac:(lia) _ c ltac:(lia) ER). rewrite O1, O2, O3. lia.
Qed.

(* ---- printed averages ---- *)
Section T.
Context {F : ofield}.
Add Field Ff : (f_field F).
Add Ring Cring : (@c_ring F).
Add Field Cf : (@c_field F).
Variable fsqrt fexp : F -> F.
Hypothesis HE : exp_laws fexp.
Hypothesis HS : sqrt_laws fsqrt.
Variable k_B T : F.
Hypothesis HT : (k_B * T <> 0)%F.

Lemma combine_maps {A B C} (f : A -> B) (g : A -> C) l : combine (map f l) (map g l) = map (fun a => (f a, g a)) l.
Proof. induction l; simpl; f_equal; auto. Qed.
Lemma avg_means (sel : list (F * psi_t F)) e0 (fs : list (F * psi_t F -> cx F)) : sel <> [] ->
  thermal_average fexp k_B (map (fun ep => fst ep - e0)%F sel) (map (fun ep => map (fun f => f ep) fs) sel) T = Ok (map (boltz_mean fexp (k_B * T)%F sel) fs).
Proof.
  intros Hne. set (obs := map (fun ep => map (fun f => f ep) fs) sel).
  assert (Hm : forall o, In o obs -> length o = length fs). { intros o Ho. apply in_map_iff in Ho as (ep & <- & _). apply map_length. }
  assert (Hne' : map fst sel <> []) by (destruct sel; [contradiction|discriminate]).
  assert (HL : length (map fst sel) = length obs) by (unfold obs; now rewrite !map_length).
  replace (map (fun ep => fst ep - e0)%F sel) with (map (fun e => e + - e0)%F (map fst sel)) by (rewrite map_map; apply map_ext; intros; ring).
  rewrite (avg_shift fexp HE k_B T (k_B * T)%F eq_refl HT (map fst sel) obs (length fs) (- e0)%F Hne' HL Hm).
  destruct (avg_ok fexp HE k_B T (k_B * T)%F eq_refl HT (map fst sel) obs (length fs) Hne' HL Hm) as (r & E & Lr & Hr). rewrite E. f_equal.
  apply (nth_ext _ _ c0 c0); [now rewrite map_length|]. intros i Hi. rewrite Lr in Hi. rewrite Hr by auto.
  set (h := boltz_mean fexp (k_B * T)%F sel). rewrite (nth_indep (map h fs) c0 (h (fun _ => c0))) by (rewrite map_length; auto). rewrite (map_nth h).
  unfold average_at, h, boltz_mean, obs. rewrite combine_maps, map_map. f_equal. apply map_ext. intros ep. cbn [fst snd]. f_equal.
  exact (map_nth (fun f : F * psi_t F -> cx F => f ep) fs (fun _ => c0) i).
Qed.
Lemma masked_maps {X} (p : F -> bool) (es : list F) : forall (l : list X), length l = length es ->
  masked (map p es) l = map snd (filter (fun ep => p (fst ep)) (combine es l)).
Proof.
  unfold masked. induction es as [|e es IH]; intros [|x l] Hl; try discriminate; simpl; auto.
  destruct (p e); simpl; [f_equal|]; apply IH; simpl in Hl; lia.
Qed.
Lemma map_filter_combine {X Y} (p : F -> bool) (g : F -> Y) (es : list F) : forall (l : list X), length l = length es ->
  map (fun ep => g (fst ep)) (filter (fun ep => p (fst ep)) (combine es l)) = map g (filter p es).
Proof. induction es as [|e es IH]; intros [|x l] Hl; try discriminate; simpl; auto. destruct (p e); simpl; [f_equal|]; apply IH; simpl in Hl; lia. Qed.
Lemma masked_self {Y} (p : F -> bool) (g : F -> Y) (es : list F) : masked (map p es) (map g es) = map g (filter p es).
Proof. unfold masked. induction es as [|e es IH]; simpl; auto. destruct (p e); simpl; [f_equal|]; auto. Qed.

Variable nb : nbaths_t.
Hypothesis Hsh : has_shell nb 2.
Notation n := (n_orb nb).
Lemma inner_is_ev op (psi psi' : psi_t F) : is_op n op psi psi' -> inner psi psi' = ev n op psi.
Proof.
  intros [Hv Ha]. rewrite (inner_vinner n) by auto. unfold vinner, ev. apply csum_ext. intros t Ht.
  rewrite Ha; auto. now apply allcfg_In in Ht.
Qed.
Lemma norm2_is_op op (psi psi' : psi_t F) : is_op n op psi psi' -> norm2 psi' = op_norm2 n op psi.
Proof.
  intros [Hv Ha]. unfold op_norm2.
  assert (E : creal (norm2 psi') = creal (fsum (fun t => cabs2 (op_vec n op psi t)) (allcfg n))).
  { rewrite norm2_inner by apply Hv. rewrite (inner_vinner n) by auto. rewrite vinner_self. f_equal. apply fsum_ext. intros t Ht. rewrite Ha; auto. now apply allcfg_In in Ht. }
  exact (f_equal re E).
Qed.
Variable u : list (list (cx F)).
Hypothesis Hu : get_spherical_2_cubic_matrix fsqrt false 2 = Ok u.

Lemma avg1_ok (f : psi_t F -> res F) (g : F * psi_t F -> cx F) sel e0 : sel <> [] -> (forall ep, In ep sel -> exists x, f (snd ep) = Ok x /\ creal x = g ep) ->
  (do o <- map_res (fun psi => do x <- f psi; Ok [creal x]) (map snd sel); thermal_average fexp k_B (map (fun ep => fst ep - e0)%F sel) o T) =
  Ok [boltz_mean fexp (k_B * T)%F sel g].
Proof.
  intros Hne Hf. assert (E : map_res (fun psi => do x <- f psi; Ok [creal x]) (map snd sel) = Ok (map (fun ep => map (fun f => f ep) [g]) sel)).
  { clear Hne. induction sel as [|ep sel IH]; [reflexivity|]. cbn [map map_res]. destruct (Hf ep (or_introl eq_refl)) as (x & E1 & E2). rewrite E1. cbn [bind].
    rewrite IH by (intros; apply Hf; right; auto). cbn [bind]. now rewrite E2. }
  rewrite E. cbn [bind]. exact (avg_means sel e0 [g] Hne).
Qed.

Lemma print_ok es psis e0 cutOff : hd_error es = Some e0 -> length psis = length es -> (0 < cutOff * k_B * T)%F -> (forall psi, In psi psis -> valid_psi n psi) ->
  printThermalExpValues fsqrt fexp k_B nb es psis T cutOff =
  Ok (map (boltz_mean fexp (k_B * T)%F (selected e0 (cutOff * k_B * T)%F es psis)) (observables fsqrt nb u e0)).
Proof.
  intros He0 Hl Hcut Hval. unfold printThermalExpValues. assert (E0 : nth_res es 0 = Ok e0) by (destruct es; [discriminate|]; simpl in He0; injection He0 as ->; reflexivity).
  rewrite E0. cbn [bind]. rewrite !map_length, Hl, Nat.eqb_refl. cbn [negb]. rewrite map_map.
  set (p := fun x => (x - e0 <? cutOff * k_B * T)%F). set (sel := selected e0 _ es psis).
  assert (Ee : masked (map p es) (map (fun x => x - e0)%F es) = map (fun ep => fst ep - e0)%F sel).
  { rewrite masked_self. symmetry. exact (map_filter_combine p (fun e => e - e0)%F es psis Hl). }
  assert (Ep : masked (map p es) psis = map snd sel) by (now rewrite masked_maps).
  change (map (fun x => (x - e0 <? cutOff * k_B * T)%F) es) with (map p es). rewrite Ee, Ep.
  assert (Hne : sel <> []).
  { destruct es as [|e es']; [discriminate|]. destruct psis as [|psi psis']; [discriminate|]. simpl in He0. injection He0 as ->. unfold sel, selected. simpl.
    replace (e0 - e0)%F with (0 : F)%F by ring. rewrite Hcut. discriminate. }
  assert (Hvs : forall ep, In ep sel -> valid_psi n (snd ep)).
  { intros [e psi] Hin. apply filter_In in Hin as [Hin _]. apply in_combine_r in Hin. now apply Hval. }
  set (obs := observables fsqrt nb u e0). set (o i := nth i obs (fun _ => c0)).
  assert (Hoc : map_res (fun psi => do o <- getEgT2gOccupation fsqrt nb psi; Ok (map as_complex o)) (map snd sel) =
                Ok (map (fun ep => map (fun f => f ep) [o 2; o 3; o 4; o 5]%nat) sel)).
  { clear Hne Ee Ep. clearbody sel. induction sel as [|ep sel IH]; [reflexivity|]. cbn [map map_res].
    destruct (occ_u F fsqrt nb Hsh HS (snd ep) (Hvs ep (or_introl eq_refl)) u Hu) as (a & b & c & d' & E & E1 & E2 & E3 & E4 & _). rewrite E. cbn [bind map as_complex].
    rewrite IH by (intros; apply Hvs; right; auto). cbn [bind map]. rewrite E1, E2, E3, E4. reflexivity. }
  rewrite Hoc. cbn [bind]. rewrite (avg_means sel e0 _ Hne). cbn [bind].
  rewrite map_map. pose proof (avg_means sel e0 [o 0%nat] Hne) as HEn. cbn [map] in HEn. change (fun ep : F * psi_t F => [o 0%nat ep]) with (fun ep : F * psi_t F => [creal (fst ep - e0)%F]) in HEn.
  rewrite HEn. cbn [bind].
  rewrite (avg1_ok _ (o 1%nat) sel e0 Hne). 2:{ intros ep Hin. destruct (trace_agree nb (snd ep) 2 Hsh (Hvs ep Hin)) as (v & E & E1 & _). exists v. split; [exact E|exact E1]. }
  cbn [bind].
  rewrite (avg1_ok _ (o 6%nat) sel e0 Hne). 2:{ intros ep Hin. destruct (Lz_agree nb (snd ep) Hsh (Hvs ep Hin)) as (v & psi' & E & _ & E1 & E2). exists v. split; [exact E|]. rewrite <- E2. exact (inner_is_ev _ _ _ E1). }
  cbn [bind].
  rewrite (avg1_ok _ (o 7%nat) sel e0 Hne). 2:{ intros ep Hin. destruct (Sz_agree nb (snd ep) Hsh (Hvs ep Hin)) as (v & psi' & E & _ & E1 & E2). exists v. split; [exact E|]. rewrite <- E2. exact (inner_is_ev _ _ _ E1). }
  cbn [bind].
  rewrite (avg1_ok _ (o 8%nat) sel e0 Hne).
  2:{ intros ep Hin. unfold getLsqr3d. destruct (acts_is_op nb Hsh _ _ (snd ep) (ok_Lz nb Hsh) (acts_Lz nb Hsh) (Hvs ep Hin)) as (z & E1 & O1).
      destruct (acts_is_op nb Hsh _ _ (snd ep) (ok_Lp fsqrt nb Hsh) (acts_Lp fsqrt nb Hsh) (Hvs ep Hin)) as (z' & E2 & O2).
      destruct (acts_is_op nb Hsh _ _ (snd ep) (ok_Lm fsqrt nb Hsh) (acts_Lm fsqrt nb Hsh) (Hvs ep Hin)) as (z'' & E3 & O3). rewrite E1, E2, E3. cbn [bind].
      eexists. split; [reflexivity|]. rewrite (norm2_is_op _ _ _ O1), (norm2_is_op _ _ _ O2), (norm2_is_op _ _ _ O3). reflexivity. }
  cbn [bind].
  rewrite (avg1_ok _ (o 9%nat) sel e0 Hne).
  2:{ intros ep Hin. unfold getSsqr3d. destruct (acts_is_op nb Hsh _ _ (snd ep) (ok_Sz nb Hsh) (acts_Sz nb Hsh) (Hvs ep Hin)) as (z & E1 & O1).
      destruct (acts_is_op nb Hsh _ _ (snd ep) (ok_Sp nb Hsh) (acts_Sp nb Hsh) (Hvs ep Hin)) as (z' & E2 & O2).
      destruct (acts_is_op nb Hsh _ _ (snd ep) (ok_Sm nb Hsh) (acts_Sm nb Hsh) (Hvs ep Hin)) as (z'' & E3 & O3). rewrite E1, E2, E3. cbn [bind].
      eexists. split; [reflexivity|]. rewrite (norm2_is_op _ _ _ O1), (norm2_is_op _ _ _ O2), (norm2_is_op _ _ _ O3). reflexivity. }
  cbn [bind]. reflexivity.
Qed.
End T.
