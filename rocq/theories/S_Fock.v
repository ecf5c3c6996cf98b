(* Specification of fermionic Fock space on n orbitals, independent of the model.
   A configuration is the list of n occupation numbers; a state vector assigns a complex
   amplitude to every configuration. *)
From Verif Require Import M_Prelude M_Scalar M_PSR M_State.
From Verif Require Export L_Sum.
Local Open Scope Z_scope.

Definition config := list bool.

(* all 2^n configurations *)
Fixpoint allcfg (n : nat) : list config :=
  match n with
  | O => [[]]
  | S n' => map (cons false) (allcfg n') ++ map (cons true) (allcfg n')
  end.

(* number of electrons / sign from the electrons below orbital i *)
Fixpoint nelec (c : config) : nat :=
  match c with [] => 0%nat | true :: c' => S (nelec c') | false :: c' => nelec c' end.
Definition jw_sign (i : nat) (c : config) : Z :=
  if Nat.even (nelec (firstn i c)) then 1 else -1.
Definition upd (c : config) (i : nat) (v : bool) : config := firstn i c ++ v :: skipn (S i) c.

(* c_i^dagger and c_i on a configuration: None is the zero vector. *)
Definition cre (i : nat) (c : config) : option (config * Z) :=
  match nth_error c i with Some false => Some (upd c i true, jw_sign i c) | _ => None end.
Definition ann (i : nat) (c : config) : option (config * Z) :=
  match nth_error c i with Some true => Some (upd c i false, jw_sign i c) | _ => None end.

(* one ladder operator (orbital, label) and a product of them (rightmost acts first) *)
Definition lad (l : ladder) (c : config) : option (config * Z) :=
  if Ascii.eqb (snd l) lab_c then cre (Z.to_nat (fst l)) c else ann (Z.to_nat (fst l)) c.
Fixpoint proc_act (p : process) (c : config) : option (config * Z) :=
  match p with
  | [] => Some (c, 1)
  | l :: p' =>
      match proc_act p' c with
      | None => None
      | Some (c', s') =>
          match lad l c' with
          | None => None
          | Some (c'', s) => Some (c'', s * s')
          end
      end
  end.

(* <t| p |s> *)
Definition pelem (p : process) (t s : config) : Z :=
  match proc_act p s with
  | Some (t', sg) => if list_eqb t t' then sg else 0
  | None => 0
  end.

Section Fock.
Context {F : ofield}.

(* <t| op |s> *)
Definition opelem (op : op_t F) (t s : config) : cx F :=
  csum (fun ph => snd ph * cofZ (pelem (fst ph) t s))%C op.

(* The dictionary key of a configuration (its bytes representation, see C01-C03). *)
Definition key (c : config) : pybytes := bitarray2bytes c.

(* amplitude of a configuration in a multi-configurational state *)
Definition amp (psi : psi_t F) (c : config) : cx F :=
  match dget psi (key c) with Some a => a | None => c0 end.

(* the state vector op|psi> *)
Definition op_vec (n : nat) (op : op_t F) (psi : psi_t F) (t : config) : cx F :=
  csum (fun s => opelem op t s * amp psi s)%C (allcfg n).

(* <phi|psi> *)
Definition vinner (n : nat) (phi psi : psi_t F) : cx F :=
  csum (fun s => cconj (amp phi s) * amp psi s)%C (allcfg n).

(* dictionary of an n-orbital system: keys are keys of configurations, no repetitions *)
Definition valid_key (n : nat) (k : pybytes) : Prop := exists c, length c = n /\ k = key c.
Definition valid_psi (n : nat) (psi : psi_t F) : Prop :=
  NoDup (dkeys psi) /\ forall k, In k (dkeys psi) -> valid_key n k.

Definition wf_ladder (n : nat) (l : ladder) : Prop :=
  0 <= fst l < Z.of_nat n /\ (snd l = "a"%char \/ snd l = "c"%char).
Definition wf_op (n : nat) (op : op_t F) : Prop :=
  NoDup (dkeys op) /\ Forall (fun ph => Forall (wf_ladder n) (fst ph)) op.

(* occupation restriction: number of electrons in a set of orbitals within [lo, hi] *)
Definition occupied (c : config) (k : Z) : bool := (0 <=? k) && nth (Z.to_nat k) c false.
Definition allowed (rs : restrictions_t) (c : config) : Prop :=
  Forall (fun r => fst (snd r) <= Z.of_nat (length (filter (occupied c) (fst r))) <= snd (snd r)) rs.
Definition allowed_opt (rs : option restrictions_t) (c : config) : Prop :=
  match rs with None => True | Some r => allowed r c end.
Definition wf_restr (rs : option restrictions_t) : Prop :=
  match rs with None => True | Some r => Forall (fun x => NoDup (fst x)) r end.
End Fock.
