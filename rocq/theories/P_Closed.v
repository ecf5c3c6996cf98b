(* Properties of closed and empty shells: C96. *)
From Coq Require Import QArith Qcanon.
From Verif Require Import M_Prelude M_Scalar M_PSR M_Ladder M_State M_Mpi M_Hamiltonian M_Basis M_Expect M_Operators M_Lanczos M_Average M_Spectra M_Simulate M_Program.
From Verif Require Import S_Fock S_Ops S_Basis S_Expect S_Operators S_Thermal S_Closed.
From Verif Require Import L_Scalar L_Fock L_Operators L_Index L_Closed L_Closed2 X_Util X_Ops X_Symmetry P_Spectra P_Free.
Local Open Scope Z_scope.

(* ---- C96: closed and empty shells ---- *)
(* If no process of the operators leads anywhere, all ranks get zeros; nothing is divided by the norm of the empty state.  The Hamiltonian, the broadening, the size of the Krylov space, the cut-off and the fuel are arbitrary. *)
Theorem C96_no_final_state : forall (F : ofield) (fsqrt : F -> F) n fuel (hOp : op_t F) w delta rs ks swm psis es, length psis = length es ->
  (forall psi, In psi psis -> forall k, In k (dkeys psi) -> valid_key n k) -> forall fexp, exp_laws fexp -> forall k_B T, (k_B * T)%F <> 0%F -> es <> [] ->
  forall ord R tOps, (forall op, In op tOps -> wf_op n op) -> (forall op psi, In op tOps -> In psi psis -> blocked n op psi) ->
  absorption fsqrt fexp k_B fuel (Z.of_nat n) hOp rs ks swm ord R psis es T w delta tOps = repeat (Ok (zero_file w (length tOps))) R.
Proof. exact (@absorption_zero). Qed.
(* XAS.dat when the 3d shell is full or the 2p shell is empty in all states *)
Theorem C96_XAS : forall (F : ofield) (fsqrt fexp : F -> F) pi gaunt nb, exp_laws fexp -> wf_nbaths nb -> forall k_B T fuel (hOp : op_t F) rs ks swm psis es, (k_B * T)%F <> 0%F -> es <> [] -> length psis = length es ->
  (forall psi, In psi psis -> forall k, In k (dkeys psi) -> valid_key (n_orb nb) k) -> forall ord R w d eps ops, dkeys nb = [KInt 1; KInt 2] -> getDipoleOperators fsqrt pi gaunt nb eps = Ok ops ->
  (forall psi, In psi psis -> shell_all nb 2 true psi) \/ (forall psi, In psi psis -> shell_all nb 1 false psi) ->
  absorption fsqrt fexp k_B fuel (Z.of_nat (n_orb nb)) hOp rs ks swm ord R psis es T w d ops = repeat (Ok (zero_file w (length ops))) R.
Proof. exact (@xas_zero). Qed.
(* NIXS.dat when the 3d shell is empty in all states *)
Theorem C96_NIXS : forall (F : ofield) (fsqrt fexp : F -> F) pi gaunt nb, exp_laws fexp -> wf_nbaths nb -> forall k_B T fuel (hOp : op_t F) rs ks swm psis es, (k_B * T)%F <> 0%F -> es <> [] -> length psis = length es ->
  (forall psi, In psi psis -> forall k, In k (dkeys psi) -> valid_key (n_orb nb) k) -> forall ord R w d arccos fsin jn sph qs radial ops, In 2 (angs nb) ->
  getNIXSOperators fsqrt arccos fsin pi gaunt jn sph nb qs 2 2 radial = Ok ops -> (forall psi, In psi psis -> shell_all nb 2 false psi) ->
  absorption fsqrt fexp k_B fuel (Z.of_nat (n_orb nb)) hOp rs ks swm ord R psis es T w d ops = repeat (Ok (zero_file w (length ops))) R.
Proof. exact (@nixs_zero). Qed.
(* PS.dat: removal alone for a full shell, addition alone for an empty one, with the same errors if there are any *)
Theorem C96_PS_closed : forall (F : ofield) (fsqrt fexp : F -> F) nb, wf_nbaths nb -> forall k_B T fuel (hOp : op_t F) rs ks swm psis es, es <> [] -> length psis = length es ->
  (forall psi, In psi psis -> forall k, In k (dkeys psi) -> valid_key (n_orb nb) k) -> forall ord R w d l ps ips, In l (angs nb) -> d <> 0%F ->
  getPhotoEmissionOperators nb l = Ok ps -> getInversePhotoEmissionOperators nb l = Ok ips -> (forall psi, In psi psis -> shell_all nb l true psi) ->
  photoemission fsqrt fexp k_B fuel (Z.of_nat (n_orb nb)) hOp rs ks swm ord R psis es T w d ps ips = emission fsqrt fexp k_B fuel (Z.of_nat (n_orb nb)) hOp rs ks swm ord R psis es T w d ps.
Proof. exact (@ps_closed). Qed.
Theorem C96_PS_empty : forall (F : ofield) (fsqrt fexp : F -> F) nb, wf_nbaths nb -> forall k_B T fuel (hOp : op_t F) rs ks swm psis es, es <> [] -> length psis = length es ->
  (forall psi, In psi psis -> forall k, In k (dkeys psi) -> valid_key (n_orb nb) k) -> forall ord R w d l ps ips, In l (angs nb) -> d <> 0%F ->
  getPhotoEmissionOperators nb l = Ok ps -> getInversePhotoEmissionOperators nb l = Ok ips -> (forall psi, In psi psis -> shell_all nb l false psi) ->
  photoemission fsqrt fexp k_B fuel (Z.of_nat (n_orb nb)) hOp rs ks swm ord R psis es T w d ps ips = absorption fsqrt fexp k_B fuel (Z.of_nat (n_orb nb)) hOp rs ks swm ord R psis es T w d ips.
Proof. exact (@ps_empty). Qed.
(* XPS.dat when the 2p shell is empty in all states (l = 1), and the addition part of PS.dat when the shell is full *)
Theorem C96_XPS : forall (F : ofield) (fsqrt fexp : F -> F) nb, exp_laws fexp -> wf_nbaths nb -> forall k_B T fuel (hOp : op_t F) rs ks swm psis es, (k_B * T)%F <> 0%F -> es <> [] -> length psis = length es ->
  (forall psi, In psi psis -> forall k, In k (dkeys psi) -> valid_key (n_orb nb) k) -> forall ord R w d l ps, In l (angs nb) -> getPhotoEmissionOperators nb l = Ok ps -> (forall psi, In psi psis -> shell_all nb l false psi) ->
  emission fsqrt fexp k_B fuel (Z.of_nat (n_orb nb)) hOp rs ks swm ord R psis es T w d ps = repeat (Ok (zero_file w (length ps))) R.
Proof. exact (@xps_zero). Qed.
Theorem C96_IPS : forall (F : ofield) (fsqrt fexp : F -> F) nb, exp_laws fexp -> wf_nbaths nb -> forall k_B T fuel (hOp : op_t F) rs ks swm psis es, (k_B * T)%F <> 0%F -> es <> [] -> length psis = length es ->
  (forall psi, In psi psis -> forall k, In k (dkeys psi) -> valid_key (n_orb nb) k) -> forall ord R w d l ps, In l (angs nb) -> getInversePhotoEmissionOperators nb l = Ok ps -> (forall psi, In psi psis -> shell_all nb l true psi) ->
  absorption fsqrt fexp k_B fuel (Z.of_nat (n_orb nb)) hOp rs ks swm ord R psis es T w d ps = repeat (Ok (zero_file w (length ps))) R.
Proof. exact (@ips_zero). Qed.
Print Assumptions C96_no_final_state.
Print Assumptions C96_XAS.
Print Assumptions C96_NIXS.
Print Assumptions C96_PS_closed.
Print Assumptions C96_PS_empty.
Print Assumptions C96_XPS.
Print Assumptions C96_IPS.

(* ---- examples ---- *)
(* 2p and 3d without bath: d10 absorbs nothing, d9 does *)
Definition cl_psi (c : config) : psi_t QcF := [(key c, c1)].
Definition cl_xas (c : config) : list (res (list (list QcF))) := match getDipoleOperators qsqrt (q 3 1) toy_gaunt (pd_baths 0) [[q 0 1; q 0 1; q 1 1]] with
  | Ok ops => absorption qsqrt one_exp (q 1 1) 3 16 [] None 5 (q 0 1) (fun _ _ _ l => l) 2 [cl_psi c] [q 0 1] (q 1 1) [q 1 1] (q 1 1) ops | Err e => [Err e] end.
Example C96_run : forallb (fun r => is_cols r [[q 1 1]; [q 0 1]; [q 0 1]]) (cl_xas (repeat true 16)) = true /\ length (cl_xas (repeat true 16)) = 2%nat /\
  is_cols (nth 0 (cl_xas (repeat true 13 ++ false :: repeat true 2)) (Err OutOfFuel)) [[q 1 1]; [q 8 1]; [q 8 1]] = true.
Proof. vm_compute. auto. Qed.
Example C96_hypotheses : wf_nbaths (pd_baths 0) /\ dkeys (pd_baths 0) = [KInt 1; KInt 2] /\ shell_all (pd_baths 0) 2 true (cl_psi (repeat true 16)) /\ shell_all (pd_baths 0) 2 false (cl_psi (repeat true 6 ++ repeat false 10)) /\
  ~ shell_all (pd_baths 0) 2 true (cl_psi (repeat true 15 ++ [false])) /\ forall k, In k (dkeys (cl_psi (repeat true 16))) -> valid_key (n_orb (pd_baths 0)) k.
Proof.
  assert (K : forall c c', length c = length c' -> In (key c) (dkeys (cl_psi c')) -> c = c') by (intros c c' L [E|[]]; symmetry; apply key_inj; auto).
  assert (D : forall x, in_shell 2 x -> In x (S_Operators.shell_list 2)).
  { intros x (s & m & -> & Hs & Hm). unfold S_Operators.shell_list. apply in_flat_map. exists s. split; [cbn; lia|]. apply in_map. unfold mrange. apply zrange2_In. lia. }
  split; [apply pd_wf; lia|]. split; [reflexivity|]. split; [|split; [|split]].
  - intros c x Hc Hk Hx. apply K in Hk; [|exact Hc]. subst c. apply D in Hx. cbn in Hx. repeat (destruct Hx as [<-|Hx]; [reflexivity|]). destruct Hx.
  - intros c x Hc Hk Hx. apply K in Hk; [|exact Hc]. subst c. apply D in Hx. cbn in Hx. repeat (destruct Hx as [<-|Hx]; [reflexivity|]). destruct Hx.
  - intros H. specialize (H (repeat true 15 ++ [false]) (SImp 2 1 2) eq_refl (or_introl eq_refl)). assert (S : in_shell 2 (SImp 2 1 2)) by (exists 1, 2; split; [reflexivity|lia]). specialize (H S). vm_compute in H. discriminate H.
  - intros k [<-|[]]. exists (repeat true 16). auto.
Qed.
(* no electron can be removed from the empty 2p shell; the file has the mesh, the sum and six columns *)
Definition cl_xps (c : config) : list (res (list (list QcF))) := match getPhotoEmissionOperators (pd_baths 0) 1 with
  | Ok ops => emission qsqrt one_exp (q 1 1) 3 16 [] None 5 (q 0 1) (fun _ _ _ l => l) 2 [cl_psi c] [q 0 1] (q 1 1) [q 1 1] (q 1 1) ops | Err e => [Err e] end.
Example C96_run_XPS : forallb (fun r => is_cols r ([q 1 1] :: repeat [q 0 1] 7)) (cl_xps (repeat false 6 ++ repeat true 10)) = true /\ length (cl_xps (repeat false 6 ++ repeat true 10)) = 2%nat /\
  is_cols (nth 0 (cl_xps (true :: repeat false 15)) (Err OutOfFuel)) ([q 1 1] :: repeat [q 0 1] 7) = false.
Proof. vm_compute. auto. Qed.
