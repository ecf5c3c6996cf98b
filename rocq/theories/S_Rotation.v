(* Specification of rotations: the generators, closed multiplets, matrices and restrictions that have the symmetry. *)
From Verif Require Import M_Prelude M_Scalar M_PSR M_State M_Basis M_Expect M_Operators S_Fock S_Ham S_Basis S_Expect S_Operators S_Symmetry S_Levels.
Local Open Scope Z_scope.

Section S.
Context {F : ofield}.
(* J_z, J_+ and J_- of the orbitals O: Hermitian, and in the shells 1 and 2 either L + S or L; what they do in the baths is left open *)
Definition rotation (fsqrt : F -> F) (nb : nbaths_t) (O : list spinorb) (M : component -> spinorb -> spinorb -> cx F) : Prop :=
  NoDup O /\ Forall (coord_ok nb) O /\
  (forall x y, In x O -> In y O -> M Cz x y = cconj (M Cz y x) /\ M Cminus x y = cconj (M Cplus y x)) /\
  ((forall c l, In l [1; 2] -> acts_in O (M c) l (total_ang fsqrt l c)) \/ (forall c l, In l [1; 2] -> acts_in O (M c) l (on_m (ang fsqrt l c)))).
(* a generator takes every state to a combination of the states with the same energy *)
Definition multiplets (n : nat) (es : list F) (psis : list (psi_t F)) (G : op_t F) : Prop :=
  forall i, (i < length es)%nat -> in_level n es psis (nth i es 0%F) (opv n G (amp (nth i psis []))).
(* h G = G h *)
Definition commutes (n : nat) (h : config -> config -> cx F) (G : op_t F) : Prop :=
  forall t s, length t = n -> length s = n -> csum (fun w => h t w * opelem G w s)%C (allcfg n) = csum (fun w => opelem G t w * h w s)%C (allcfg n).
(* G connects no allowed configuration with a forbidden one *)
Definition keeps (n : nat) (rs : option restrictions_t) (G : op_t F) : Prop :=
  forall t s, length t = n -> length s = n -> opelem G t s <> c0 -> (allowed_opt rs t <-> allowed_opt rs s).
(* e.e *)
Definition length2 (e : list F) : F := (nth 0 e 0 * nth 0 e 0 + nth 1 e 0 * nth 1 e 0 + nth 2 e 0 * nth 2 e 0)%F.
End S.
