(* Specification of sectors: state vectors with a definite number of electrons, in the system or in one shell, and operators that change it. *)
From Verif Require Import M_Prelude M_Scalar M_PSR M_State M_Basis M_Operators M_Program S_Fock S_Basis S_Expect S_Operators S_Spectrum S_Green.
Local Open Scope Z_scope.

Section S.
Context {F : ofield}.
(* the number of electrons in the impurity orbitals of shell l: what each orbital contributes *)
Definition q_shell (l : Z) (x : spinorb) : Z := match x with SImp l' _ _ => if l' =? l then 1 else 0 | SBath _ _ => 0 end.
(* the electrons of the configuration c in shell l *)
Definition in_shell_l (nb : nbaths_t) (l : Z) (c : config) : Z := charge (at_index nb (q_shell l)) c.
(* every configuration with an amplitude carries the quantum number q *)
Definition in_sector (n : nat) (w : Z -> Z) (q : Z) (v : config -> cx F) : Prop := forall t, length t = n -> v t <> c0 -> charge w t = q.
(* every process adds d *)
Definition shifts {A} (w : A -> Z) (d : Z) (op : gop A F) : Prop := forall p, In p (dkeys op) -> pcharge w p = d.
(* v has N electrons, Nc of them in the 2p shell *)
Definition sector (nb : nbaths_t) (N Nc : Z) (v : config -> cx F) : Prop :=
  forall t, length t = n_orb nb -> v t <> c0 -> electrons t = N /\ in_shell_l nb 1 t = Nc.
(* the transition operators of the program and how they change the number of electrons and the number of 2p electrons *)
Section Transitions.
Variables fsqrt arccos fsin : F -> F.
Variable pi : F.
Variable gaunt : Z -> Z -> Z -> Z -> Z -> Z -> F.
Variable jn : Z -> F -> F.
Variable sph : Z -> Z -> F -> F -> cx F.
Variable nb : nbaths_t.
Inductive transition_ops : list (op_t F) -> Z -> Z -> Prop :=
| T_PS ops : getPhotoEmissionOperators nb 2 = Ok ops -> transition_ops ops (-1) 0
| T_IPS ops : getInversePhotoEmissionOperators nb 2 = Ok ops -> transition_ops ops 1 0
| T_XPS ops : getPhotoEmissionOperators nb 1 = Ok ops -> transition_ops ops (-1) (-1)
| T_NIXS qs radial ops : getNIXSOperators fsqrt arccos fsin pi gaunt jn sph nb qs 2 2 radial = Ok ops -> transition_ops ops 0 0
| T_XAS eps ops : getDipoleOperators fsqrt pi gaunt nb eps = Ok ops -> transition_ops ops 0 (-1)
| T_RIXS_out eps ops : getDaggeredDipoleOperators fsqrt pi gaunt nb eps = Ok ops -> transition_ops ops 0 1.
End Transitions.
End S.
