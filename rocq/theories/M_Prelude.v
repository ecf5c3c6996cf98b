(* Conventions shared by all model files: Python exceptions as values, Python
   sequence indexing, and insertion-ordered dictionaries. *)
From Coq Require Export List Arith ZArith NArith Bool Lia Ascii.
Export ListNotations.

(* The Python exception classes the modelled code can raise, plus the two
   situations in which the code does not return at all. *)
Inductive exc : Type :=
| IndexError | KeyError | ValueError | AssertionError | TypeError
| UnboundLocalError | AttributeError | ZeroDivisionError | GenericException
| Deadlock      (* some MPI ranks wait for ever in a collective call *)
| OutOfFuel.    (* artefact of the model: a loop needed more steps than allowed *)

Inductive res (A : Type) : Type :=
| Ok (a : A)
| Err (e : exc).
Arguments Ok {A} a.
Arguments Err {A} e.

Definition bind {A B} (x : res A) (f : A -> res B) : res B :=
  match x with Ok a => f a | Err e => Err e end.

Notation "'do' x <- e1 ; e2" := (bind e1 (fun x => e2))
  (at level 200, x pattern, e1 at level 100, e2 at level 200, right associativity).

Definition rmap {A B} (f : A -> B) (x : res A) : res B :=
  match x with Ok a => Ok (f a) | Err e => Err e end.

(* A Python "for" loop whose body may raise. *)
Fixpoint fold_res {A S} (f : S -> A -> res S) (l : list A) (s : S) : res S :=
  match l with
  | [] => Ok s
  | a :: l' => do s' <- f s a; fold_res f l' s'
  end.

(* [f(x) for x in l] where f may raise. *)
Fixpoint map_res {A B} (f : A -> res B) (l : list A) : res (list B) :=
  match l with
  | [] => Ok []
  | a :: l' => do b <- f a; do bs <- map_res f l'; Ok (b :: bs)
  end.

(* Decidable equality with a computable test. *)
Class EqB (A : Type) := { eqb : A -> A -> bool; eqb_spec : forall x y, reflect (x = y) (eqb x y) }.

#[export] Instance EqB_Z : EqB Z := { eqb := Z.eqb; eqb_spec := Z.eqb_spec }.
#[export] Instance EqB_N : EqB N := { eqb := N.eqb; eqb_spec := N.eqb_spec }.
#[export] Instance EqB_nat : EqB nat := { eqb := Nat.eqb; eqb_spec := Nat.eqb_spec }.
#[export] Instance EqB_bool : EqB bool := { eqb := Bool.eqb; eqb_spec := Bool.eqb_spec }.
#[export] Instance EqB_ascii : EqB ascii := { eqb := Ascii.eqb; eqb_spec := Ascii.eqb_spec }.

Definition pair_eqb {A B} `{EqB A} `{EqB B} (p q : A * B) : bool :=
  eqb (fst p) (fst q) && eqb (snd p) (snd q).
Lemma pair_eqb_spec {A B} `{EqB A} `{EqB B} (p q : A * B) : reflect (p = q) (pair_eqb p q).
Proof.
  destruct p as [a b], q as [a' b']; unfold pair_eqb; simpl.
  destruct (eqb_spec a a'), (eqb_spec b b'); simpl; constructor; congruence.
Qed.
#[export] Instance EqB_pair {A B} `{EqB A} `{EqB B} : EqB (A * B) :=
  { eqb := pair_eqb; eqb_spec := pair_eqb_spec }.

Fixpoint list_eqb {A} `{EqB A} (l m : list A) : bool :=
  match l, m with
  | [], [] => true
  | a :: l', b :: m' => eqb a b && list_eqb l' m'
  | _, _ => false
  end.
Lemma list_eqb_spec {A} `{EqB A} (l m : list A) : reflect (l = m) (list_eqb l m).
Proof.
  revert m; induction l as [|a l IH]; intros [|b m]; simpl; try (constructor; congruence).
  destruct (eqb_spec a b); simpl; [|constructor; congruence].
  destruct (IH m); constructor; congruence.
Qed.
#[export] Instance EqB_list {A} `{EqB A} : EqB (list A) :=
  { eqb := list_eqb; eqb_spec := list_eqb_spec }.

(* Membership test "x in l". *)
Definition inb {A} `{EqB A} (x : A) (l : list A) : bool := existsb (eqb x) l.

(* ---- Python sequences ---- *)

(* l[i] : negative indices count from the end, out of range raises IndexError. *)
Definition py_index (len : nat) (i : Z) : option nat :=
  let n := Z.of_nat len in
  if ((0 <=? i) && (i <? n))%Z then Some (Z.to_nat i)
  else if ((- n <=? i) && (i <? 0))%Z then Some (Z.to_nat (i + n))
  else None.

Definition py_nth {A} (l : list A) (i : Z) : res A :=
  match py_index (length l) i with
  | Some k => match nth_error l k with Some a => Ok a | None => Err IndexError end
  | None => Err IndexError
  end.

(* list update at a natural position (in range). *)
Fixpoint set_nth {A} (l : list A) (k : nat) (x : A) : list A :=
  match l, k with
  | [], _ => []
  | _ :: l', O => x :: l'
  | a :: l', S k' => a :: set_nth l' k' x
  end.

(* l[i] = x *)
Definition py_set {A} (l : list A) (i : Z) (x : A) : res (list A) :=
  match py_index (length l) i with
  | Some k => Ok (set_nth l k x)
  | None => Err IndexError
  end.

(* Slice bound: negative values count from the end, everything is clipped. *)
Definition py_bound (len : nat) (i : Z) : nat :=
  let n := Z.of_nat len in
  if (i <? 0)%Z then Z.to_nat (i + n) else Nat.min (Z.to_nat i) len.

(* l[:i] and l[i:] *)
Definition py_take {A} (l : list A) (i : Z) : list A := firstn (py_bound (length l) i) l.
Definition py_drop {A} (l : list A) (i : Z) : list A := skipn (py_bound (length l) i) l.

(* range(n) *)
Definition zrange (n : Z) : list Z := map Z.of_nat (seq 0 (Z.to_nat n)).
(* range(a, b) *)
Definition zrange2 (a b : Z) : list Z := map (fun k => a + Z.of_nat k)%Z (seq 0 (Z.to_nat (b - a))).

(* enumerate(l) *)
Definition enumerate {A} (l : list A) : list (nat * A) := combine (seq 0 (length l)) l.

(* ---- dictionaries: association lists in insertion order, unique keys ---- *)

Definition dict (K V : Type) := list (K * V).

Section Dict.
Context {K V : Type} `{EqB K}.

Fixpoint dget (d : dict K V) (k : K) : option V :=
  match d with
  | [] => None
  | (k', v) :: d' => if eqb k k' then Some v else dget d' k
  end.

(* k in d *)
Definition dmem (d : dict K V) (k : K) : bool :=
  match dget d k with Some _ => true | None => false end.

(* d[k] *)
Definition dgetitem (d : dict K V) (k : K) : res V :=
  match dget d k with Some v => Ok v | None => Err KeyError end.

(* d[k] = v *)
Fixpoint dset (d : dict K V) (k : K) (v : V) : dict K V :=
  match d with
  | [] => [(k, v)]
  | (k', v') :: d' => if eqb k k' then (k', v) :: d' else (k', v') :: dset d' k v
  end.

(* d.pop(k) / del d[k] for a present key *)
Fixpoint dpop (d : dict K V) (k : K) : dict K V :=
  match d with
  | [] => []
  | (k', v') :: d' => if eqb k k' then d' else (k', v') :: dpop d' k
  end.

Definition dkeys (d : dict K V) : list K := map fst d.

(* d.update(e) *)
Definition dupdate (d e : dict K V) : dict K V :=
  fold_left (fun acc kv => dset acc (fst kv) (snd kv)) e d.

End Dict.
