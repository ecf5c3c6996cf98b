(* Specification of a written spectrum: Boltzmann means over the eigenstates of -Im of Green's functions. *)
From Verif Require Import M_Prelude M_Scalar M_PSR M_State S_Fock S_Ham S_Green S_Thermal S_Moments L_Sum.

Section Spectrum.
Context {F : ofield}.
Local Open Scope of_scope.

(* the mean of f over the states with the energies es *)
Definition boltzmann_mean (fexp : F -> F) (kT : F) (es : list F) (f : nat -> F) : F :=
  ftotal (map (fun i => probability fexp kT es (nth i es 0) * f i) (seq 0 (length es))).
(* The columns of a file: the mesh, the total, and for each of the nT operators the mean of the intensities; I i t k is the
   intensity for eigenstate i, operator t and point k of the mesh. *)
Definition mean_file (fexp : F -> F) (kT : F) (mesh es : list F) (nT : nat) (I : nat -> nat -> nat -> F) (cols : list (list F)) : Prop :=
  exists total parts, cols = mesh :: total :: parts /\ length parts = nT /\ length total = length mesh /\
    (forall t, (t < nT)%nat -> length (nth t parts []) = length mesh /\
       forall k, (k < length mesh)%nat -> nth k (nth t parts []) 0 = boltzmann_mean fexp kT es (fun i => I i t k)) /\
    forall k, nth k total 0 = ftotal (map (fun c => nth k c 0) parts).

(* y is x, or x is small and y is zero *)
Definition kept (swm : F) (x y : cx F) : Prop := y = x \/ (cabs2 x < swm /\ y = c0).
(* |psi'> = op|psi> in the allowed configurations, apart from small matrix elements and small amplitudes *)
Definition cut_image (n : nat) (op : op_t F) (rs : option restrictions_t) (swm : F) (psi psi' : psi_t F) : Prop :=
  exists elem : config -> config -> cx F,
    (forall t s, length t = n -> length s = n -> kept swm (opelem op t s) (elem t s)) /\
    forall t, length t = n ->
      (allowed_opt rs t -> kept swm (csum (fun s => cmul (elem t s) (amp psi s)) (allcfg n)) (amp psi' t)) /\
      (~ allowed_opt rs t -> amp psi' t = c0).
(* g i t is <psi|T+ (w + e + i delta - h)^-1 T|psi> on the mesh w for eigenstate i and operator t, up to the two approximations:
   small elements and amplitudes are left out, and at most ks Lanczos vectors are used *)
Definition green_table (n : nat) (op : op_t F) (rs : option restrictions_t) (h : config -> config -> cx F) (w : list F) (delta : F) (ks : Z) (swm : F)
  (tOps : list (op_t F)) (psis : list (psi_t F)) (es : list F) (g : nat -> nat -> list (cx F)) : Prop :=
  forall i t e tOp, nth_error es i = Some e -> nth_error tOps t = Some tOp ->
    exists psi psiR, nth_error psis i = Some psi /\ valid_psi n psiR /\ cut_image n tOp rs swm psi psiR /\
      truncated_green n op rs h w delta ks e psiR (g i t).
End Spectrum.
