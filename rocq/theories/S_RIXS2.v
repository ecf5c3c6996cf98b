(* Specification of one row of the map of resonant inelastic scattering when small amplitudes are left out *)
From Verif Require Import M_Prelude M_Scalar M_PSR M_State S_Fock S_Ham S_Green S_Thermal S_Moments S_RIXS S_Spectrum L_Sum.

Section SRIXS2.
Context {F : ofield}.
Local Open Scope of_scope.

(* each configuration of |psi> has at least the part swm of the weight of |psi> *)
Definition no_tiny (n : nat) (swm : F) (psi : psi_t F) : Prop := forall t, length t = n ->
  amp psi t = c0 \/ swm * ftotal (map (fun s => cabs2 (amp psi s)) (allcfg n)) <= cabs2 (amp psi t).
(* |psi1> = tIn|psi>, |psi2> = (wIn + e + i delta1 - h)^-1 |psi1>, |psi3> = tOut|psi2>, both images apart from small elements and
   amplitudes; v is <psi3| (w + e + i delta2 - h)^-1 |psi3> on the mesh w, from at most ks Lanczos vectors. *)
Definition rixs_row (n : nat) (op : op_t F) (rs : option restrictions_t) (h : config -> config -> cx F) (w : list F) (delta1 delta2 : F) (ks : Z) (swm : F)
  (tIn tOut : op_t F) (psi : psi_t F) (e wIn : F) (v : list (cx F)) : Prop :=
  exists psi1 psi2 psi3, cut_image n tIn rs swm psi psi1 /\ fock_solves n (mkC (wIn + e) delta1) h (amp psi2) psi1 /\
    cut_image n tOut rs swm psi2 psi3 /\ valid_psi n psi3 /\
    (no_tiny n swm psi3 -> truncated_green n op rs h w delta2 ks e psi3 v).
End SRIXS2.
