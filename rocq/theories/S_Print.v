(* Specification of the thermal expectation values printed for the eigenstates. *)
From Verif Require Import M_Prelude M_Scalar M_PSR M_State M_Basis S_Fock S_Basis S_Expect S_Thermal.
Local Open Scope Z_scope.

Section P.
Context {F : ofield}.
Variable fsqrt fexp : F -> F.

(* the eigenstates less than cut above the first one *)
Definition selected (e0 cut : F) (es : list F) (psis : list (psi_t F)) : list (F * psi_t F) :=
  filter (fun ep => (fst ep - e0 <? cut)%F) (combine es psis).
(* Boltzmann mean of a quantity over a list of eigenstates *)
Definition boltz_mean (kT : F) (l : list (F * psi_t F)) (f : F * psi_t F -> cx F) : cx F :=
  ctotal (map (fun ep => cmul (creal (probability fexp kT (map fst l) (fst ep))) (f ep)) l).

(* |op psi|^2 *)
Definition op_norm2 (n : nat) (op : op_t F) (psi : psi_t F) : F := fsum (fun t => cabs2 (op_vec n op psi t)) (allcfg n).
(* <J^2> for Hermitian Jz and adjoint J+, J- *)
Definition square_ev (n : nat) (jz jp jm : op_t F) (psi : psi_t F) : cx F :=
  creal (op_norm2 n jz psi + fhalf * (op_norm2 n jp psi + op_norm2 n jm psi))%F.

Variable nb : nbaths_t.
Variable u : list (list (cx F)).     (* spherical to cubic harmonics *)
Let mean_of (l : list (@term F)) (ep : F * psi_t F) : cx F := ev (n_orb nb) (one_body nb l) (snd ep).
Let cubic (s : Z) (is : list nat) (ep : F * psi_t F) : cx F := csum (fun i => mean_of (cub_terms 2 u s i) ep) is.
(* E-E0, N, the occupations of eg and t2g with spin down and up, Lz, Sz, L^2, S^2 *)
Definition observables (e0 : F) : list (F * psi_t F -> cx F) :=
  [ (fun ep => creal (fst ep - e0)%F); mean_of (N_terms 2);
    cubic 0 [0; 1]%nat; cubic 1 [0; 1]%nat; cubic 0 [2; 3; 4]%nat; cubic 1 [2; 3; 4]%nat;
    mean_of (Lz_terms 2); mean_of (Sz_terms 2);
    (fun ep => square_ev (n_orb nb) (one_body nb (Lz_terms 2)) (one_body nb (Lp_terms fsqrt 2)) (one_body nb (Lm_terms fsqrt 2)) (snd ep));
    (fun ep => square_ev (n_orb nb) (one_body nb (Sz_terms 2)) (one_body nb (Sp_terms 2)) (one_body nb (Sm_terms 2)) (snd ep)) ].
End P.
