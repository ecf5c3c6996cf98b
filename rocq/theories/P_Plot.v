(* Properties C77 and C78: what plotSpectra.py and plotRIXS.py show. *)
From Coq Require Import QArith Qcanon Permutation String.
From Verif Require Import M_Prelude M_Scalar M_PSR M_Ladder M_State M_Mpi M_Hamiltonian M_Basis M_Average M_Expect M_Operators M_Main M_Program M_Plot.
From Verif Require Import S_Program S_Output S_Plot L_Scalar L_Plot2 L_Plot3 X_Util X_Ops X_Main X_Program.
Local Open Scope Z_scope.

(* ---- C77 ---- *)
(* After a complete run plotSpectra.py shows the second column of PS.dat, XPS.dat and XAS.dat, the partial columns of NIXS.dat, and
   sums over RIXSthermal: two yields, curves at fixed incoming energy, the map that is in RIXS.bin and the map of every pair of polarisations. *)
Theorem C77_plotSpectra : forall (F : ofield) fsqrt fexp arccos fsin f32 k_B pi gaunt jn sph bicgstab eigh eigsh argsort fuel ord ranks, (1 <= ranks)%nat ->
  forall ms hamiltonian (a : @args F) radial psqrt ppi, (0 < a_delta a)%F -> (0 < a_deltaNIXS a)%F -> (0 < a_deltaRIXS a)%F ->
  (2 <= length (m_wIn ms))%nat -> (2 <= length (m_wLoss ms))%nat ->
  let oc := main fsqrt fexp arccos fsin f32 k_B pi gaunt jn sph bicgstab eigh eigsh argsort fuel ord ranks hamiltonian ms a radial in
  nth_error (snd oc) 0 = Some (Ok tt) ->
  let nIn := length (m_epsilonsRIXSin ms) in let nOut := length (m_epsilonsRIXSout ms) in (nIn = 1 /\ nOut = 1 \/ 3 <= nIn /\ 2 <= nOut)%nat ->
  exists figs, plot_spectra psqrt ppi (h5_file (fst oc)) = (figs, Ok tt) /\ plotted psqrt f32 ppi ms (fst oc) figs.
Proof. exact (@plots_ok). Qed.
(* get_spectra.py and get_spectra_using_CF.py *)
Theorem C77_pickle : forall (F : ofield) fsqrt fexp arccos fsin f32 k_B pi fint gaunt jn sph bicgstab eigh eigsh argsort fuel ord ranks, (1 <= ranks)%nat ->
  forall h0 (a : @args F) radial psqrt ppi, (0 < a_delta a)%F -> (0 < a_deltaNIXS a)%F -> (0 < a_deltaRIXS a)%F ->
  let oc := main_pickle fsqrt fexp arccos fsin f32 k_B pi fint gaunt jn sph bicgstab eigh eigsh argsort fuel ord ranks h0 a radial in
  nth_error (snd oc) 0 = Some (Ok tt) ->
  exists figs, plot_spectra psqrt ppi (h5_file (fst oc)) = (figs, Ok tt) /\ plotted psqrt f32 ppi (main_meshes fsqrt) (fst oc) figs.
Proof. exact (@pickle_plots). Qed.
Theorem C77_CF : forall (F : ofield) fsqrt fexp arccos fsin f32 k_B pi fint gaunt jn sph bicgstab eigh eigsh argsort fuel ord ranks, (1 <= ranks)%nat ->
  forall parameters (a : @args F) radial psqrt ppi, (0 < a_delta a)%F -> (0 < a_deltaNIXS a)%F -> (0 < a_deltaRIXS a)%F ->
  let oc := main_CF fsqrt fexp arccos fsin f32 k_B pi fint gaunt jn sph bicgstab eigh eigsh argsort fuel ord ranks parameters a radial in
  nth_error (snd oc) 0 = Some (Ok tt) ->
  exists figs, plot_spectra psqrt ppi (h5_file (fst oc)) = (figs, Ok tt) /\ plotted psqrt f32 ppi (main_meshes fsqrt) (fst oc) figs.
Proof. exact (@CF_plots). Qed.
(* plotRIXS.py shows the numbers of RIXS.bin *)
Theorem C77_plotRIXS : forall (F : ofield) fsqrt fexp arccos fsin f32 k_B pi gaunt jn sph bicgstab eigh eigsh argsort fuel ord ranks, (1 <= ranks)%nat ->
  forall ms hamiltonian (a : @args F) radial, (0 < a_delta a)%F -> (0 < a_deltaNIXS a)%F -> (0 < a_deltaRIXS a)%F ->
  (2 <= length (m_wIn ms))%nat -> (2 <= length (m_wLoss ms))%nat ->
  let oc := main fsqrt fexp arccos fsin f32 k_B pi gaunt jn sph bicgstab eigh eigsh argsort fuel ord ranks hamiltonian ms a radial in
  forall fint, nth_error (snd oc) 0 = Some (Ok tt) -> fint (f32 (fofZ (Z.of_nat (length (m_wIn ms))))) = Z.of_nat (length (m_wIn ms)) ->
  exists x I fig, In (Bin "RIXS.bin" x) (fst oc) /\ x = rixs_table f32 (m_wIn ms) (m_wLoss ms) I /\
    plotRIXS fint x = Ok fig /\ plotted_bin f32 (m_wIn ms) (m_wLoss ms) I fig.
Proof. exact (@bin_ok). Qed.
(* np.argmin(np.abs(wIn - e)) is the point of the mesh nearest to e *)
Theorem C77_nearest : forall (F : ofield) (mesh : list F) e, mesh <> [] -> exists i, argmin (map (fun x => fdist x e) mesh) = Ok i /\ nearest mesh e i.
Proof. exact (@argmin_nearest). Qed.
Print Assumptions C77_plotSpectra. Print Assumptions C77_pickle. Print Assumptions C77_CF. Print Assumptions C77_plotRIXS. Print Assumptions C77_nearest.

(* ---- C78 ---- *)
Notation x_run := (main qsqrt (fun _ => q 1 1) (fun x => x) (fun x => x) (fun x => x) (q 1 1000) (q 22 7) x_gaunt (fun _ x => x) (fun _ _ _ _ => qr 1 1) (fun _ y => y)
  (fun _ _ => Err ValueError) x_eigsh isort 1000 (fun _ _ _ _ x => x) 1 x_hop x_meshes (x_args (q 300 1)) x_radial).
Lemma x_run_complete : nth_error (snd x_run) 0 = Some (Ok tt). Proof. vm_compute. reflexivity. Qed.
Lemma x_deltas : (0 < a_delta (x_args (q 300 1)))%F /\ (0 < a_deltaNIXS (x_args (q 300 1)))%F /\ (0 < a_deltaRIXS (x_args (q 300 1)))%F.
Proof. split; [|split]; vm_compute; reflexivity. Qed.
(* plotSpectra.py shows all figures of any complete run; false for one incoming and two outgoing polarisations *)
Theorem C78_any_refuted : exists (ms : @meshes QcF) hamiltonian (a : @args QcF) radial,
  (0 < a_delta a)%F /\ (0 < a_deltaNIXS a)%F /\ (0 < a_deltaRIXS a)%F /\ (2 <= length (m_wIn ms))%nat /\ (2 <= length (m_wLoss ms))%nat /\
  (1 <= length (m_epsilonsRIXSin ms))%nat /\ (1 <= length (m_epsilonsRIXSout ms))%nat /\
  let oc := main qsqrt (fun _ => q 1 1) (fun x => x) (fun x => x) (fun x => x) (q 1 1000) (q 22 7) x_gaunt (fun _ x => x) (fun _ _ _ _ => qr 1 1) (fun _ y => y)
    (fun _ _ => Err ValueError) x_eigsh isort 1000 (fun _ _ _ _ x => x) 1 hamiltonian ms a radial in
  nth_error (snd oc) 0 = Some (Ok tt) /\ snd (plot_spectra (fun x => x) (q 22 7) (h5_file (fst oc))) <> Ok tt.
Proof.
  exists x_meshes, x_hop, (x_args (q 300 1)), x_radial. destruct x_deltas as (D1 & D2 & D3). do 3 (split; [assumption|]). do 4 (split; [cbn; lia|]).
  split; [exact x_run_complete|]. vm_compute. discriminate.
Qed.
(* The exact condition: with other numbers of polarisations only the five figures with curves are shown *)
Theorem C78_IndexError : forall (F : ofield) fsqrt fexp arccos fsin f32 k_B pi gaunt jn sph bicgstab eigh eigsh argsort fuel ord ranks, (1 <= ranks)%nat ->
  forall ms hamiltonian (a : @args F) radial psqrt ppi, (0 < a_delta a)%F -> (0 < a_deltaNIXS a)%F -> (0 < a_deltaRIXS a)%F ->
  (2 <= length (m_wIn ms))%nat -> (2 <= length (m_wLoss ms))%nat ->
  let oc := main fsqrt fexp arccos fsin f32 k_B pi gaunt jn sph bicgstab eigh eigsh argsort fuel ord ranks hamiltonian ms a radial in
  nth_error (snd oc) 0 = Some (Ok tt) ->
  let nIn := length (m_epsilonsRIXSin ms) in let nOut := length (m_epsilonsRIXSout ms) in (1 <= nIn)%nat -> (1 <= nOut)%nat -> ~ (nIn = 1 /\ nOut = 1 \/ 3 <= nIn /\ 2 <= nOut)%nat ->
  exists figs, length figs = 5%nat /\ Forall (fun g => exists p, g = Lines p) figs /\ plot_spectra psqrt ppi (h5_file (fst oc)) = (figs, Err IndexError).
Proof. exact (@plots_fail). Qed.
Print Assumptions C78_any_refuted. Print Assumptions C78_IndexError.

(* ---- examples ---- *)
(* the example run with three incoming and two outgoing polarisations *)
Definition x_meshes32 : @meshes QcF := mkMeshes [q 0 1; q 1 1] [[q 0 1; q 0 1; q 1 1]] [q 0 1; q 1 1] [q 1 2; q 3 2]
  [[q 0 1; q 0 1; q 1 1]; [q 1 1; q 0 1; q 0 1]; [q 0 1; q 1 1; q 0 1]] [[q 0 1; q 0 1; q 1 1]; [q 1 1; q 0 1; q 0 1]] [(q 1 1, q 1 1, q 1 1)].
Definition x_main32 := main qsqrt (fun _ => q 1 1) (fun x => x) (fun x => x) (fun x => x) (q 1 1000) (q 22 7) x_gaunt (fun _ x => x) (fun _ _ _ _ => qr 1 1) (fun _ y => y)
  (fun _ _ => Err ValueError) x_eigsh isort 1000 (fun _ _ _ _ x => x) 2 x_hop x_meshes32 (x_args (q 300 1)) x_radial.
Definition panels (g : figure QcF) : list nat := match g with Lines ps => map (@length _) ps | Image d _ => [length d; length (hd [] d)] | Images d _ => [length d; length (hd [] d)] end.
Example C77_ex : nth_error (snd x_main32) 0 = Some (Ok tt) /\
  map panels (fst (plot_spectra (fun x => x) (q 22 7) (h5_file (fst x_main32)))) = [[1]; [1]; [3]; [1]; [9; 5]; [2; 2]; [3; 2]]%nat /\
  snd (plot_spectra (fun x => x) (q 22 7) (h5_file (fst x_main32))) = Ok tt.
Proof. split; [vm_compute; reflexivity|]. split; vm_compute; reflexivity. Qed.
Example C77_ex_nearest : argmin (map (fun x => fdist x (q 1 1)) [q 0 1; q 3 2; q 1 2; q 5 1]) = Ok 1%nat.
Proof. vm_compute. reflexivity. Qed.
Example C77_ex_bin : exists fig, plotRIXS (fun _ => 2) (rixs_table (fun x => x) [q 1 2; q 3 2] [q 0 1; q 1 1; q 2 1] (fun l k => q (Z.of_nat (l + k)) 1)) = Ok fig /\ panels fig = [3; 2]%nat.
Proof. eexists. split; [reflexivity|]. reflexivity. Qed.
Example C78_ex : nth_error (snd x_run) 0 = Some (Ok tt) /\ length (m_epsilonsRIXSin x_meshes) = 1%nat /\ length (m_epsilonsRIXSout x_meshes) = 2%nat /\
  length (fst (plot_spectra (fun x => x) (q 22 7) (h5_file (fst x_run)))) = 5%nat.
Proof. split; [exact x_run_complete|]. split; [reflexivity|]. split; [reflexivity|]. vm_compute. reflexivity. Qed.
