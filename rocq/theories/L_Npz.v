(* The file data.npz. *)
From Coq Require Import String Ring Field.
From Verif Require Import M_Prelude M_Scalar M_PSR M_State M_Mpi M_Hamiltonian M_Lanczos M_Basis M_Average M_Expect M_Operators M_Spectra M_Simulate M_RIXS M_Main M_Program M_Npz.
From Verif Require Import S_Fock S_Basis S_Expect S_Program S_Npz L_Scalar L_Dict L_Basis2 L_Basis4 L_Program3 L_Program6 L_Program9 L_Program2 L_Program7 L_Length L_Plot.
Local Open Scope Z_scope.

Section N.
Context {F : ofield}.
Add Field Ff : (f_field F).
Local Open Scope of_scope.
Variables fsqrt fexp arccos fsin f32 : F -> F.
Variables k_B pi : F.
Variable gaunt : Z -> Z -> Z -> Z -> Z -> Z -> F.
Variable jn : Z -> F -> F.
Variable sph : Z -> Z -> F -> F -> cx F.
Variable bicgstab : list (vec F) -> vec F -> vec F.
Variable eigh : nat -> M_Hamiltonian.mat F -> res (list F * list (list (cx F))).
Variable eigsh : nat -> M_Hamiltonian.mat F -> Z -> res (list F * list (list (cx F))).
Variable argsort : list F -> list nat.
Variable fuel : nat.
Variable ord : nat -> nat -> nat -> nat -> set_order.
Variable ranks : nat.
Notation prog := (main fsqrt fexp arccos fsin f32 k_B pi gaunt jn sph bicgstab eigh eigsh argsort fuel ord ranks).
Notation npz_of := (data_npz fsqrt fexp k_B eigh eigsh argsort ranks).
Notation eig su a := (eigensystem eigh eigsh argsort ranks (n_spin_orbitals (su_nBaths su)) (su_hOp su) (su_basis su) (a_nPsiMax a) LanczosDiag slaterWeightMin).

Lemma npz_inv ham ms a name z : npz_of ham ms a name = Some z -> exists su es psis others t e w d, main_setup ham a = Ok su /\
  eig su a = Ok (es, psis) :: others /\ forallb is_ok others = true /\
  printThermalExpValues fsqrt fexp k_B (nbaths_of (su_nBaths su)) es psis (fofZ 300) (fofZ 10) = Ok t /\ printExpValues fsqrt (nbaths_of (su_nBaths su)) es psis = Ok e /\
  print_weights argsort (a_nPrintSlaterWeights a) psis = Ok w /\ print_density fsqrt (nbaths_of (su_nBaths su)) (a_tolPrintOccupation a) psis = Ok d /\ z = saved k_B a ms su name.
Proof.
  unfold data_npz. cbv zeta. destruct (main_setup ham a) as [su|]; [|discriminate]. destruct (eig su a) as [|[[es psis]|] others] eqn:Ee; try discriminate.
  destruct (forallb is_ok others) eqn:Eo; [|discriminate]. cbn [andb].
  destruct (printThermalExpValues _ _ _ _ _ _ _ _) as [t|] eqn:E1; [|discriminate]. cbn [andb is_ok].
  destruct (printExpValues _ _ _ _) as [e|] eqn:E2; [|discriminate]. cbn [andb is_ok].
  destruct (print_weights _ _ _) as [w|] eqn:E3; [|discriminate]. cbn [andb is_ok].
  destruct (print_density _ _ _ _) as [d|] eqn:E4; [|discriminate]. cbn [andb is_ok]. intros E. injection E as <-.
  exists su, es, psis, others, t, e, w, d. repeat (split; [auto|]). auto.
Qed.
Definition h5s (ms : meshes) (radial : list (F * F)) (es : list F) : list (output F) :=
  [H5 "E" [length es] es; H5 "w" [length (m_w ms)] (m_w ms); H5 "wIn" [length (m_wIn ms)] (m_wIn ms); H5 "wLoss" [length (m_wLoss ms)] (m_wLoss ms);
   H5 "qsNIXS" [length (m_qsNIXS ms); 3%nat] (flat_map (fun q => let '(q0, q1, q2) := q in [q0; q1; q2]) (m_qsNIXS ms));
   H5 "r" [length (map fst radial)] (map fst radial); H5 "RiNIXS" [length (map snd radial)] (map snd radial); H5 "RjNIXS" [length (map snd radial)] (map snd radial)]%string.
Lemma prints_eq a ms radial nb es psis t e w d :
  printThermalExpValues fsqrt fexp k_B nb es psis (fofZ 300) (fofZ 10) = Ok t -> printExpValues fsqrt nb es psis = Ok e ->
  print_weights argsort (a_nPrintSlaterWeights a) psis = Ok w -> print_density fsqrt nb (a_tolPrintOccupation a) psis = Ok d ->
  rank0_prints fsqrt fexp k_B argsort a ms radial nb es psis = (PThermal t :: PExpValues e :: PWeights w :: PDensity d :: h5s ms radial es, Ok tt).
Proof. intros E1 E2 E3 E4. unfold rank0_prints. rewrite E1, E2, E3, E4. reflexivity. Qed.

(* the same file data.npz: the same eigensystem and the same arguments of simulate_spectra *)
Lemma same_saved a a' ms su su' name ham ham' : main_setup ham a = Ok su -> main_setup ham' a' = Ok su' -> saved k_B a ms su name = saved k_B a' ms su' name ->
  su = su' /\ a_nPsiMax a = a_nPsiMax a' /\ a_T a = a_T a' /\ a_energy_cut a * (k_B * a_T a) = a_energy_cut a' * (k_B * a_T a') /\ a_delta a = a_delta a' /\
  a_deltaRIXS a = a_deltaRIXS a' /\ a_deltaNIXS a = a_deltaNIXS a'.
Proof.
  intros E E' Ez. unfold saved in Ez. injection Ez as L1 L2 L3 L4 L5 L6 L7 _ _ _ _ _ _ _ _ HP HT HC HD HR HRI HNI _ HO.
  split; [|repeat split; auto]. revert E E'. unfold main_setup. cbv zeta. 
  destruct (excited_restrictions _ _ _ _ _ _) as [rs|]; [|discriminate]. cbn [bind]. destruct (hField3 (a_hField a)) as [[[hx hy] hz]|]; [|discriminate]. cbn [bind].
  destruct (ham _ _ _) as [h|]; [|discriminate]. cbn [bind]. destruct (get_basis _ _ _ _ _ _) as [b|] eqn:Eb; [|discriminate]. cbn [bind]. intros E. injection E as <-.
  destruct (excited_restrictions _ _ _ _ _ _) as [rs'|]; [|discriminate]. cbn [bind]. destruct (hField3 (a_hField a')) as [[[hx' hy'] hz']|]; [|discriminate]. cbn [bind].
  destruct (ham' _ _ _) as [h'|]; [|discriminate]. cbn [bind]. rewrite <- L2, <- L3, <- L4, <- L5, <- L6, <- L7, Eb. cbn [bind]. intros E. injection E as <-.
  cbn [su_rs su_hOp] in *. congruence.
Qed.
Lemma main_of ham ms a radial su es psis others t e w d : main_setup ham a = Ok su -> eig su a = Ok (es, psis) :: others -> forallb is_ok others = true ->
  printThermalExpValues fsqrt fexp k_B (nbaths_of (su_nBaths su)) es psis (fofZ 300) (fofZ 10) = Ok t -> printExpValues fsqrt (nbaths_of (su_nBaths su)) es psis = Ok e ->
  print_weights argsort (a_nPrintSlaterWeights a) psis = Ok w -> print_density fsqrt (nbaths_of (su_nBaths su)) (a_tolPrintOccupation a) psis = Ok d ->
  let printed := PThermal t :: PExpValues e :: PWeights w :: PDensity d :: h5s ms radial es in
  let rr := Ok tt :: map (fun _ => thermal_occupations fsqrt fexp k_B (nbaths_of (su_nBaths su)) es psis (fofZ 300) (fofZ 10)) others in
  prog ham ms a radial = if forallb is_ok rr then
    match low_energy es psis (a_energy_cut a * (k_B * a_T a)) with
    | Err x => (printed, repeat (Err x) ranks)
    | Ok (es', psis') =>
        let fe := simulate_spectra fsqrt fexp arccos fsin f32 k_B pi gaunt jn sph bicgstab fuel ord ranks (su_nBaths su) (su_rs su) (su_hOp su) es' psis' (a_T a) (a_delta a) (a_deltaNIXS a) (a_deltaRIXS a) ms
                               2 2 (map (fun rR => (fst rR, (creal (snd rR), creal (snd rR)))) radial) in
        ((printed ++ fst fe)%list, snd fe)
    end
  else (printed, stopped rr).
Proof.
  intros Es Ee Eo E1 E2 E3 E4 printed rr. unfold main. rewrite Es. cbv zeta. rewrite Ee, Eo, (prints_eq a ms radial _ es psis t e w d E1 E2 E3 E4). fold printed. fold rr.
  destruct (forallb is_ok rr); [|reflexivity]. destruct (low_energy _ _ _) as [[es' psis']|]; [|reflexivity].
  match goal with |- (let (_, _) := ?X in _) = _ => destruct X as [fl en] eqn:EX end. reflexivity.
Qed.
Lemma same_files ham ham' ms a a' radial name z : npz_of ham ms a name = Some z -> npz_of ham' ms a' name = Some z ->
  files (fst (prog ham ms a radial)) = files (fst (prog ham' ms a' radial)) /\ snd (prog ham ms a radial) = snd (prog ham' ms a' radial).
Proof.
  intros Hz Hz'. apply npz_inv in Hz as (su & es & psis & others & t & e & w & d & S1 & S2 & S3 & S4 & S5 & S6 & S7 & S8).
  apply npz_inv in Hz' as (su' & es' & psis' & others' & t' & e' & w' & d' & T1 & T2 & T3 & T4 & T5 & T6 & T7 & T8).
  subst z. destruct (same_saved a a' ms su su' name ham ham' S1 T1 T8) as (<- & P1 & P2 & P3 & P4 & P5 & P6).
  rewrite <- P1, S2 in T2. injection T2 as <- <- <-. rewrite S4 in T4. injection T4 as <-. rewrite S5 in T5. injection T5 as <-.
  rewrite (main_of ham ms a radial su es psis others t e w d S1 S2 S3 S4 S5 S6 S7). cbv zeta.
  rewrite P1 in S2. rewrite (main_of ham' ms a' radial su es psis others t e w' d' T1 S2 S3 S4 S5 T6 T7). cbv zeta.
  rewrite <- P3, <- P2, <- P4, <- P5, <- P6. match goal with |- context [forallb is_ok ?L] => destruct (forallb is_ok L) end; [|split; reflexivity]. destruct (low_energy _ _ _) as [[es1 psis1]|]; [|split; reflexivity]. cbn [fst snd]. split; reflexivity.
Qed.

(* another radial function *)
Lemma filter_none {A} (p : A -> bool) l : Forall (fun x => p x = false) l -> filter p l = [].
Proof. induction 1 as [|x l Hx H IH]; [reflexivity|]. cbn. rewrite Hx. exact IH. Qed.
Lemma nixs_names nBaths rs hOp es psis T dn ms li lj rad f rest :
  part_NIXS fsqrt fexp arccos fsin k_B pi gaunt jn sph fuel ord ranks nBaths rs hOp es psis T dn ms li lj rad = Ok f :: rest -> files_but_radial f = [].
Proof.
  unfold part_NIXS, with_ops. intros H. destruct (getNIXSOperators _ _ _ _ _ _ _ _ _ _ _ _) as [ops|]; [|destruct ranks; discriminate].
  match type of H with map ?u ?v = _ => destruct v as [|[g|] v'] end; try discriminate. cbn [map bind] in H. injection H as H _.
  unfold report in H. cbv zeta in H. destruct (thermal_average _ _ _ _ _); [|discriminate]. cbn [bind] in H. destruct (M_Simulate.columns _ _ _ _ _ _ _); [|discriminate]. cbn [bind] in H.
  injection H as <-. reflexivity.
Qed.
Hypothesis Hranks : (1 <= ranks)%nat.
Lemma parts_complete nBaths rs hOp es psis T d dn dr ms li lj rad o :
  simulate_spectra fsqrt fexp arccos fsin f32 k_B pi gaunt jn sph bicgstab fuel ord ranks nBaths rs hOp es psis T d dn dr ms li lj rad = o ->
  nth_error (snd o) 0 = Some (Ok tt) ->
  exists f1 r1 f2 r2 f3 r3 f4 r4 f5 r5, part_PS fsqrt fexp k_B fuel ord ranks nBaths rs hOp es psis T d ms = Ok f1 :: r1 /\
    part_XPS fsqrt fexp k_B fuel ord ranks nBaths rs hOp es psis T d ms = Ok f2 :: r2 /\
    part_NIXS fsqrt fexp arccos fsin k_B pi gaunt jn sph fuel ord ranks nBaths rs hOp es psis T dn ms li lj rad = Ok f3 :: r3 /\
    part_XAS fsqrt fexp k_B pi gaunt fuel ord ranks nBaths rs hOp es psis T d ms = Ok f4 :: r4 /\
    part_RIXS fsqrt fexp f32 k_B pi gaunt bicgstab fuel ord ranks nBaths rs hOp es psis T d dr ms = Ok f5 :: r5 /\
    fst o = (f1 ++ f2 ++ f3 ++ f4 ++ f5)%list.
Proof.
  intros <- H. unfold simulate_spectra in *.
  assert (L1 : part_PS fsqrt fexp k_B fuel ord ranks nBaths rs hOp es psis T d ms <> []).
  { apply (nonempty ranks Hranks). unfold part_PS. apply with_ops_len. intros [ips ps]. rewrite map_length, combine_length, !call_len. apply Nat.min_id. }
  assert (L2 : part_XPS fsqrt fexp k_B fuel ord ranks nBaths rs hOp es psis T d ms <> []).
  { apply (nonempty ranks Hranks). unfold part_XPS. apply with_ops_len. intros ps. rewrite map_length. apply call_len. }
  assert (L3 : part_NIXS fsqrt fexp arccos fsin k_B pi gaunt jn sph fuel ord ranks nBaths rs hOp es psis T dn ms li lj rad <> []).
  { apply (nonempty ranks Hranks). unfold part_NIXS. apply with_ops_len. intros ps. rewrite map_length. apply call_len. }
  assert (L4 : part_XAS fsqrt fexp k_B pi gaunt fuel ord ranks nBaths rs hOp es psis T d ms <> []).
  { apply (nonempty ranks Hranks). unfold part_XAS. apply with_ops_len. intros ps. rewrite map_length. apply call_len. }
  apply stage_complete in H as (f1 & r1 & E1 & -> & H); [|exact L1]. apply stage_complete in H as (f2 & r2 & E2 & -> & H); [|exact L2].
  apply stage_complete in H as (f3 & r3 & E3 & -> & H); [|exact L3]. apply stage_complete in H as (f4 & r4 & E4 & -> & H); [|exact L4].
  apply last_complete in H as (f5 & r5 & E5 & ->). exists f1, r1, f2, r2, f3, r3, f4, r4, f5, r5. repeat (split; [assumption|]). reflexivity.
Qed.
Lemma other_files ham ham' ms a a' radial radial' name z : npz_of ham ms a name = Some z -> npz_of ham' ms a' name = Some z ->
  hd_error (snd (prog ham ms a radial)) = Some (Ok tt) -> hd_error (snd (prog ham' ms a' radial')) = Some (Ok tt) ->
  files_but_radial (fst (prog ham ms a radial)) = files_but_radial (fst (prog ham' ms a' radial')).
Proof.
  intros Hz Hz'. apply npz_inv in Hz as (su & es & psis & others & t & e & w & d & S1 & S2 & S3 & S4 & S5 & S6 & S7 & S8).
  apply npz_inv in Hz' as (su' & es' & psis' & others' & t' & e' & w' & d' & T1 & T2 & T3 & T4 & T5 & T6 & T7 & T8).
  subst z. destruct (same_saved a a' ms su su' name ham ham' S1 T1 T8) as (<- & P1 & P2 & P3 & P4 & P5 & P6).
  rewrite <- P1, S2 in T2. injection T2 as <- <- <-. rewrite S4 in T4. injection T4 as <-. rewrite S5 in T5. injection T5 as <-.
  rewrite (main_of ham ms a radial su es psis others t e w d S1 S2 S3 S4 S5 S6 S7). cbv zeta.
  rewrite P1 in S2. rewrite (main_of ham' ms a' radial' su es psis others t e w' d' T1 S2 S3 S4 S5 T6 T7). cbv zeta.
  rewrite <- P3, <- P2, <- P4, <- P5, <- P6. match goal with |- context [forallb is_ok ?L] => destruct (forallb is_ok L) end; [|discriminate]. destruct (low_energy _ _ _) as [[es1 psis1]|]; [|destruct ranks; discriminate]. cbn [fst snd].
  match goal with |- hd_error (snd ?X) = _ -> hd_error (snd ?Y) = _ -> _ => destruct X as [fx ex] eqn:EX; destruct Y as [fy ey] eqn:EY end. cbn [fst snd]. intros H1 H2.
  apply parts_complete in EX as (f1 & r1 & f2 & r2 & f3 & r3 & f4 & r4 & f5 & r5 & A1 & A2 & A3 & A4 & A5 & A6); [|destruct ex; [discriminate|exact H1]].
  apply parts_complete in EY as (g1 & q1 & g2 & q2 & g3 & q3 & g4 & q4 & g5 & q5 & B1 & B2 & B3 & B4 & B5 & B6); [|destruct ey; [discriminate|exact H2]].
  cbn [fst] in A6, B6. subst fx fy. rewrite A1 in B1. injection B1 as <- _. rewrite A2 in B2. injection B2 as <- _. rewrite A4 in B4. injection B4 as <- _. rewrite A5 in B5. injection B5 as <- _.
  apply nixs_names in A3. apply nixs_names in B3. unfold files_but_radial in *. rewrite !filter_app, A3, B3. reflexivity.
Qed.
(* when the file is written *)
Lemma written ham ms a radial name : (exists z, npz_of ham ms a name = Some z) <-> exists shape es, In (H5 "E" shape es) (fst (prog ham ms a radial)).
Proof.
  split.
  - intros (z & Hz). apply npz_inv in Hz as (su & es & psis & others & t & e & w & d & S1 & S2 & S3 & S4 & S5 & S6 & S7 & S8).
    rewrite (main_of ham ms a radial su es psis others t e w d S1 S2 S3 S4 S5 S6 S7). cbv zeta. exists [length es], es.
    match goal with |- context [forallb is_ok ?L] => destruct (forallb is_ok L) end; [|cbn; auto 6]. destruct (low_energy _ _ _) as [[es1 psis1]|]; cbn [fst]; [apply in_or_app; left|]; cbn; auto 6.
  - intros (shape & es0 & H). unfold data_npz. cbv zeta. unfold main in H. destruct (main_setup ham a) as [su|]; [|destruct H]. cbv zeta in H.
    destruct (eig su a) as [|[[es psis]|] others] eqn:Ee; [destruct H| |destruct H]. destruct (forallb is_ok others) eqn:Eo; [|destruct H]. cbn [andb].
    assert (HP : forall r0, rank0_prints fsqrt fexp k_B argsort a ms radial (nbaths_of (su_nBaths su)) es psis = r0 -> ~ In (H5 "E" shape es0) (fst r0) -> snd r0 <> Ok tt -> False).
    { intros [p r0] E0 Hn Hne. rewrite E0 in H. cbn [fst snd] in *. destruct r0 as [[]|x]; [congruence|]. cbn [forallb is_ok andb fst] in H. contradiction. }
    unfold rank0_prints in HP.
    destruct (printThermalExpValues _ _ _ _ _ _ _ _) as [t|]; [|exfalso; apply (HP _ eq_refl); cbn; [tauto|discriminate]]. cbn [andb is_ok].
    destruct (printExpValues _ _ _ _) as [e|]; [|exfalso; apply (HP _ eq_refl); cbn; [intuition discriminate|discriminate]]. cbn [andb is_ok].
    destruct (print_weights _ _ _) as [w|]; [|exfalso; apply (HP _ eq_refl); cbn; [intuition discriminate|discriminate]]. cbn [andb is_ok].
    destruct (print_density _ _ _ _) as [d|]; [|exfalso; apply (HP _ eq_refl); cbn; [intuition discriminate|discriminate]]. cbn [andb is_ok]. eauto.
Qed.
End N.

Section Again.
Context {F : ofield}.
Add Field Ff' : (f_field F).
Local Open Scope of_scope.
Lemma ordered_snd ls x : NoDup ls -> length x = length ls -> map snd (ordered ls x) = x.
Proof.
  intros Hn Hl. rewrite ordered_eq by auto. clear Hn. revert x Hl. induction ls as [|l ls IH]; intros [|y x] Hl; try discriminate; [reflexivity|]. cbn. f_equal. apply IH. cbn in Hl. lia.
Qed.
Lemma recover fsqrt fexp k_B eigh eigsh argsort ranks ham ms (a : @args F) name z : sound_args a -> k_B * a_T a <> 0 -> data_npz fsqrt fexp k_B eigh eigsh argsort ranks ham ms a name = Some z ->
  again (z_energy_cut z / (k_B * z_T z)) (a_nPrintSlaterWeights a) (a_tolPrintOccupation a) z = a.
Proof.
  intros HS HT Hz. apply npz_inv in Hz as (su & es & psis & others & t & e & w & d & S1 & _ & _ & _ & _ & _ & _ & ->).
  destruct HS as (Hn & _ & _ & HL & _). repeat (inversion_clear HL as [|? ? ? HL']; rename HL' into HL).
  unfold again, saved. cbn [z_ls z_nBaths z_nValBaths z_n0imps z_dnTols z_dnValBaths z_dnConBaths z_Fdd z_Fpp z_Fpd z_Gpd z_xi_2p z_xi_3d z_ctc z_hField z_nPsiMax z_T z_energy_cut z_delta z_deltaRIXS z_deltaNIXS].
  rewrite !ordered_snd by auto. replace (a_energy_cut a * (k_B * a_T a) / (k_B * a_T a)) with (a_energy_cut a) by (revert HT; generalize (k_B * a_T a); intros y Hy; field; exact Hy). destruct a. reflexivity.
Qed.
Lemma operator_fits fsqrt fexp k_B pi gaunt fint eigh eigsh argsort ranks g ms (a : @args F) name z : sound_args a ->
  data_npz fsqrt fexp k_B eigh eigsh argsort ranks (fun nb nv hp => total_hamiltonian fsqrt pi gaunt fint nb hp (g nb nv)) ms a name = Some z ->
  z_n_spin_orbitals z = n_total (nbaths_of (z_nBaths z)) /\ wf_op (Z.to_nat (z_n_spin_orbitals z)) (z_hOp z).
Proof.
  intros HS Hz. apply npz_inv in Hz as (su & es & psis & others & t & e & w & d & S1 & _ & _ & _ & _ & _ & _ & ->). cbn [saved z_n_spin_orbitals z_nBaths z_hOp].
  destruct (setup_nBaths _ _ _ S1) as (Ed & nv & hp & Eh). pose proof (d_shells a HS) as Hsh. rewrite Ed.
  assert (E : n_spin_orbitals (ordered (a_ls a) (a_nBaths a)) = n_total (nbaths_of (ordered (a_ls a) (a_nBaths a)))) by (apply n_spin_orbitals_eq; auto).
  split; [exact E|]. rewrite E. apply total_wf in Eh; [exact Eh|]. apply wf_nb; auto.
Qed.
End Again.
