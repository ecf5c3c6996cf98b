(* Specification for getGreen in mode dict, where nothing is cut off. *)
From Verif Require Import M_Prelude M_Scalar M_PSR M_State S_Fock S_Ham S_Green.

Section SDict.
Context {F : ofield}.
(* the operator followed by the projection onto the allowed configurations *)
Definition projected_op (n : nat) (op : op_t F) (rs : option restrictions_t) (h : config -> config -> cx F) : Prop :=
  forall t s, length t = n -> length s = n ->
    (allowed_opt rs t -> h t s = opelem op t s) /\ (~ allowed_opt rs t -> h t s = c0).
(* cs: allowed configurations, without repetition, that contain those of psi and to which the operator leads *)
Definition closed_configs (n : nat) (op : op_t F) (rs : option restrictions_t) (psi : psi_t F) (cs : list config) : Prop :=
  NoDup cs /\ (forall c, In c cs -> length c = n /\ allowed_opt rs c) /\
  (forall c, length c = n -> In (key c) (dkeys psi) -> In c cs) /\
  forall s t, In s cs -> length t = n -> allowed_opt rs t -> opelem op t s <> c0 -> In t cs.
(* the matrix of op between the configurations cs, and psi as a vector *)
Definition op_matrix (op : op_t F) (cs : list config) (i j : nat) : cx F := opelem op (nth i cs []) (nth j cs []).
Definition psi_vector (psi : psi_t F) (cs : list config) (i : nat) : cx F := amp psi (nth i cs []).
(* every entry of h_dict is the projected action of op on a product state *)
Definition hdict_full (n : nat) (op : op_t F) (rs : option restrictions_t) (h : dict pybytes (psi_t F)) : Prop :=
  forall k col, dget h k = Some col -> exists c, length c = n /\ k = key c /\ valid_psi n col /\
    forall t, length t = n -> (In (key t) (dkeys col) -> allowed_opt rs t) /\ (allowed_opt rs t -> amp col t = opelem op t c).
(* no matrix element is so small that it would be cut *)
Definition no_small (n : nat) (op : op_t F) : Prop :=
  forall t s, length t = n -> length s = n -> opelem op t s = c0 \/ (eps12 <= cabs2 (opelem op t s))%F.
End SDict.
(* every exception becomes AttributeError *)
Definition class_attr {A} (r : res A) : res A := match r with Ok x => Ok x | Err _ => Err AttributeError end.
