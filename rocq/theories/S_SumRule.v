(* Specification of the sum rules of x-ray absorption. *)
From Verif Require Import M_Prelude M_Scalar M_PSR M_State M_Basis M_Expect M_Operators S_Fock S_Ops S_Basis S_Expect S_Operators S_Symmetry S_TimeReversal S_Dichroism S_Sector.
Local Open Scope Z_scope.

Section S.
Context {F : ofield}.
(* all orbitals of the shell l are occupied wherever v has an amplitude *)
Definition full_shell (nb : nbaths_t) (l : Z) (v : config -> cx F) : Prop :=
  forall t, length t = n_orb nb -> v t <> c0 -> in_shell_l nb l t = 2 * (2 * l + 1).
(* the integral over all frequencies of the spectrum of the transition T, up to the factor -pi: <Tv|Tv> *)
Definition weight (n : nat) (T : (config -> cx F) -> config -> cx F) (v : config -> cx F) : cx F := vdot n (T v) (T v).
(* <v| sum_x w_x c_x^+ c_x |v> of a one-particle operator *)
Definition mean (nb : nbaths_t) (l : list (@term F)) (v : config -> cx F) : cx F := vdot (n_orb nb) v (opv (n_orb nb) (one_body nb l) v).
(* sum (l^2 - m^2) n_m *)
Definition Q_terms (l : Z) : list (@term F) := map (fun sm => ((orb l sm, orb l sm), cofZ (l * l - snd sm * snd sm))) (sites l).
(* the restrictions allow every configuration of D|psi> *)
Definition unrestricted (n : nat) (rs : option restrictions_t) (D : op_t F) (psi : psi_t F) : Prop :=
  forall t, length t = n -> opv n D (amp psi) t <> c0 -> allowed_opt rs t.
End S.
