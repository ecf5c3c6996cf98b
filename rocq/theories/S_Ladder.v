(* Specification of creating / removing an electron, independent of the representation. *)
From Verif Require Import M_Prelude M_PSR S_Occ S_Routes.
Local Open Scope Z_scope.

(* (v', amp) is a correct answer of "create at orbital i" on a state with occupation f:
   Pauli-blocked gives amplitude 0, otherwise the new state has orbital i occupied in
   addition and the amplitude is the fermionic sign. *)
Definition create_answer (k : kind) (n : nat) (f : occ) (i : nat) (v' : pval) (amp : Z) : Prop :=
  if f i then amp = 0
  else amp = fermi_sign f i /\ rep k n (occ_set f i true) v'.

Definition remove_answer (k : kind) (n : nat) (f : occ) (i : nat) (v' : pval) (amp : Z) : Prop :=
  if f i then amp = fermi_sign f i /\ rep k n (occ_set f i false) v'
  else amp = 0.

From Verif Require Import M_Ladder.

(* The API function creating/removing an electron, selected by the representation. *)
Definition create_any (n i : Z) (v : pval) : res (pval * Z) :=
  match v with
  | VStr s => rmap (fun r => (VStr (fst r), snd r)) (create_ustr i s)
  | VTuple t => rmap (fun r => (VTuple (fst r), snd r)) (create_utuple i t)
  | VInt s => rmap (fun r => (VInt (fst r), snd r)) (create_uint n i s)
  | VBits s => rmap (fun r => (VBits (fst r), snd r)) (create_ubitarray i s)
  | VBytes s => rmap (fun r => (VBytes (fst r), snd r)) (create_ubytes n i s)
  end.
Definition remove_any (n i : Z) (v : pval) : res (pval * Z) :=
  match v with
  | VStr s => rmap (fun r => (VStr (fst r), snd r)) (remove_ustr i s)
  | VTuple t => rmap (fun r => (VTuple (fst r), snd r)) (remove_utuple i t)
  | VInt s => rmap (fun r => (VInt (fst r), snd r)) (remove_uint n i s)
  | VBits s => rmap (fun r => (VBits (fst r), snd r)) (remove_ubitarray i s)
  | VBytes s => rmap (fun r => (VBytes (fst r), snd r)) (remove_ubytes n i s)
  end.
