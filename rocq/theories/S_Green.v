(* Specification of resolvents and tridiagonal matrices.  Vectors and matrices of size N are
   functions of the indices below N. *)
From Verif Require Import M_Prelude M_Scalar M_PSR M_State S_Fock S_Ham L_Sum.

Section Green.
Context {F : ofield}.
Local Open Scope cx_scope.

(* <x|y> and M x *)
Definition ip (N : nat) (x y : nat -> cx F) : cx F := csum (fun m => cconj (x m) * y m) (seq 0 N).
Definition mv (N : nat) (M : nat -> nat -> cx F) (x : nat -> cx F) (i : nat) : cx F :=
  csum (fun j => M i j * x j) (seq 0 N).

(* (z - M) x = y *)
Definition solves (N : nat) (z : cx F) (M : nat -> nat -> cx F) (x y : nat -> cx F) : Prop :=
  forall i, (i < N)%nat -> z * x i - mv N M x i = y i.
(* g = <y| (z - M)^-1 |y>: the equation (z - M) x = y has exactly one solution, and <y|x> = g *)
Definition resolvent (N : nat) (z : cx F) (M : nat -> nat -> cx F) (y : nat -> cx F) (g : cx F) : Prop :=
  exists x, solves N z M x y /\ ip N y x = g /\
    forall x', solves N z M x' y -> forall i, (i < N)%nat -> x' i = x i.

(* real symmetric tridiagonal matrix with diagonal alpha and off-diagonal beta *)
Definition tridiag (alpha beta : list F) (i j : nat) : cx F :=
  if Nat.eqb i j then creal (nth i alpha 0%F)
  else if Nat.eqb j (S i) then creal (nth i beta 0%F)
  else if Nat.eqb i (S j) then creal (nth j beta 0%F)
  else c0.
Definition unit0 (i : nat) : cx F := if Nat.eqb i 0 then c1 else c0.

Definition orthonormal (N k : nat) (V : nat -> nat -> cx F) : Prop :=
  forall i j, (i < k)%nat -> (j < k)%nat -> ip N (V i) (V j) = if Nat.eqb i j then c1 else c0.

(* x is a combination of W_0 .. W_{d-1}; this span contains M W_a *)
Definition in_span (N d : nat) (W : nat -> nat -> cx F) (x : nat -> cx F) : Prop :=
  exists c : nat -> cx F, forall m, (m < N)%nat -> x m = csum (fun a => c a * W a m) (seq 0 d).
Definition invariant (N : nat) (M : nat -> nat -> cx F) (d : nat) (W : nat -> nat -> cx F) : Prop :=
  forall a, (a < d)%nat -> in_span N d W (mv N M (W a)).
(* (p_0 + p_1 M + p_2 M^2 + ...) y *)
Fixpoint papply (N : nat) (M : nat -> nat -> cx F) (y : nat -> cx F) (p : list (cx F)) (m : nat) : cx F :=
  match p with [] => c0 | c :: p' => c * y m + mv N M (papply N M y p') m end.

(* al, be are the elements of M between orthonormal combinations of psi0, M psi0, M^2 psi0, ... *)
Definition tridiagonalises (N : nat) (M : nat -> nat -> cx F) (psi0 : nat -> cx F) (ks : Z) (al be : list F) : Prop :=
  Z.of_nat (length al) = Z.min ks (Z.of_nat N) /\ length al = S (length be) /\ Forall (fun b => (0 < b)%F) be /\
  exists V, orthonormal N (length al) V /\ (forall m, V 0%nat m = psi0 m) /\
    (forall i j, (i < length al)%nat -> (j < length al)%nat -> ip N (V i) (mv N M (V j)) = tridiag al be i j) /\
    (forall i, (i < length al)%nat -> exists p, length p = S i /\ forall m, (m < N)%nat -> V i m = papply N M psi0 p m).

(* the denominators of the continued fraction 1/(z - a0 - b0^2/(z - a1 - b1^2/(z - a2 - ...))) *)
Fixpoint cf_den (z : cx F) (alpha beta : list F) : cx F :=
  match alpha, beta with
  | a :: alpha', b :: beta' => z - creal a - creal (b * b)%F * (c1 / cf_den z alpha' beta')
  | a :: _, [] => z - creal a
  | [], _ => c1
  end.

(* what is used of the square root *)
Definition sqrt_laws (fsqrt : F -> F) : Prop :=
  forall x, (0 <= x)%F -> (0 <= fsqrt x)%F /\ (fsqrt x * fsqrt x = x)%F.

Definition vf (v : list (cx F)) (i : nat) : cx F := nth i v c0.

(* amplitude of the i-th basis state *)
Definition amp_at (basis : list pybytes) (psi : psi_t F) (i : nat) : cx F :=
  match nth_error basis i with
  | Some k => match dget psi k with Some a => a | None => c0 end
  | None => c0
  end.
(* the restricted operator on the whole Fock space: elements to forbidden configurations and
   elements with squared modulus below 1e-12 are absent *)
Definition restricted_op (n : nat) (op : op_t F) (rs : option restrictions_t) (h : config -> config -> cx F) : Prop :=
  forall t s, length t = n -> length s = n ->
    (linked n op rs s t -> h t s = opelem op t s) /\ (~ linked n op rs s t -> h t s = c0).
(* (z - h) x = |psi> and <psi|x> = g, with exactly one such x: g = <psi| (z - h)^-1 |psi> *)
Definition fock_solves (n : nat) (z : cx F) (h : config -> config -> cx F) (x : config -> cx F) (psi : psi_t F) : Prop :=
  forall t, length t = n -> z * x t - csum (fun s => h t s * x s) (allcfg n) = amp psi t.
Definition fock_green (n : nat) (z : cx F) (h : config -> config -> cx F) (psi : psi_t F) (g : cx F) : Prop :=
  exists x, fock_solves n z h x psi /\ csum (fun t => cconj (amp psi t) * x t) (allcfg n) = g /\
    forall x', fock_solves n z h x' psi -> forall t, length t = n -> x' t = x t.
End Green.

(* a Hermitian operator and a normalised state of allowed configurations *)
Definition green_input {F : ofield} (n : nat) (op : op_t F) (rs : option restrictions_t) (psi : psi_t F) : Prop :=
  wf_op n op /\ wf_restr rs /\ assert_hermitian op = Ok tt /\ valid_psi n psi /\ norm2 psi = 1%F /\
  forall c, length c = n -> In (key c) (dkeys psi) -> allowed_opt rs c.
