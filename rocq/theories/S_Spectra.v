(* Hypotheses on the arguments of getSpectra. *)
From Coq Require Import Permutation.
From Verif Require Import M_Prelude M_Scalar M_PSR M_State S_Fock S_Ham S_Green.

(* the operators and states have n spin-orbitals *)
Definition spectra_input {F : ofield} (n : nat) (op : op_t F) (rs : option restrictions_t) (tOps : list (op_t F)) (psis : list (psi_t F)) : Prop :=
  wf_op n op /\ wf_restr rs /\ Forall (wf_op n) tOps /\ Forall (valid_psi n) psis.
(* no element of the operator into an allowed configuration is cut off *)
Definition no_small {F : ofield} (n : nat) (op : op_t F) (swm : F) (rs : option restrictions_t) : Prop :=
  forall s t, length s = n -> length t = n -> allowed_opt rs t -> opelem op t s = c0 \/ (swm <= cabs2 (opelem op t s))%F.
(* the columns of a written spectrum: the mesh, then nT + 1 columns of intensities *)
Definition written_spectrum {F : ofield} (mesh : list F) (nT : nat) (cols : list (list F)) : Prop :=
  exists rest, cols = mesh :: rest /\ length rest = S nT /\ Forall (Forall (fun x => (0 <= x)%F)) rest.
