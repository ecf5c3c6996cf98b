(* Model of the Lanczos recursion and of the Green's function:
   get_tridiagonal_krylov_vectors (impurityModel/ed/finite.py) and getGreen (spectra.py). *)
From Verif Require Import M_Prelude M_Scalar M_PSR M_Ladder M_State M_Mpi M_Hamiltonian.
Local Open Scope Z_scope.

Section Lanczos.
Context {F : ofield}.
Variable fsqrt : F -> F.      (* math.sqrt *)

(* numpy vectors of length n are lists *)
Definition vec := list (cx F).
(* h.dot(v) for an (n, n) matrix *)
Definition mdot (n : nat) (h : mat F) (v : vec) : vec :=
  map (fun i => fold_left (fun s j => s + h i j * nth j v c0)%C (seq 0 n) c0) (seq 0 n).
(* np.dot(np.conj(x), y) *)
Definition vdotc (x y : vec) : cx F :=
  fold_left (fun s p => s + cconj (fst p) * snd p)%C (combine x y) c0.
(* np.sum(np.abs(w) ** 2) *)
Definition vnorm2 (w : vec) : F := fold_left (fun s x => (s + cabs2 x)%F) w 0%F.
(* x - y, a * x, x / b *)
Definition vsub (x y : vec) : vec := map (fun p => fst p - snd p)%C (combine x y).
Definition vplus (x y : vec) : vec := map (fun p => fst p + snd p)%C (combine x y).
Definition vmul (a : F) (x : vec) : vec := map (fun z => creal a * z)%C x.
Definition vdiv (x : vec) (b : F) : vec := map (fun z => z / creal b)%C x.

(* finite.py:1973-1988: k passes through the loop.  dot is h.dot; v0 is v[0, :].
   Returns alpha[j:] and beta[j-1:]. *)
Fixpoint krylov_loop (k : nat) (dot : vec -> vec) (v0 w : vec) : res (list F * list F) :=
  match k with
  | O => Ok ([], [])
  | S k' =>
      let b := fsqrt (vnorm2 w) in
      if feqb b 0%F then Err ValueError else
      let v1 := vdiv w b in
      let wp := dot v1 in
      let a := re (vdotc wp v1) in
      let w' := vsub (vsub wp (vmul a v1)) (vmul b v0) in
      do r <- krylov_loop k' dot v1 w'; Ok (a :: fst r, b :: snd r)
  end.
(* finite.py:1921-1925, 1968-1988: serial part.  np.zeros of a negative size raises. *)
Definition krylov (dot : vec -> vec) (psi0 : vec) (krylovSize : Z) : res (list F * list F) :=
  let ks := Z.min krylovSize (Z.of_nat (length psi0)) in
  if ks <? 1 then Err ValueError else
  let wp := dot psi0 in
  let a := re (vdotc wp psi0) in
  let w := vsub wp (vmul a psi0) in
  do r <- krylov_loop (Z.to_nat (ks - 1)) dot psi0 w; Ok (a :: fst r, snd r).

(* finite.py:1897-1995 with h_local=False ("dense" only changes the storage of h) *)
Definition get_tridiagonal_krylov_vectors (h : mat F) (psi0 : vec) (krylovSize : Z) : res (list F * list F) :=
  krylov (mdot (length psi0) h) psi0 krylovSize.

(* comm.Reduce(wp_local, wp): the sum over the ranks, on rank 0 *)
Definition reduce_dot (hs : list (mat F)) (n : nat) (v : vec) : vec :=
  fold_left (fun acc h => vplus acc (mdot n h v)) hs (repeat c0 n).
(* finite.py:1897-1995 with h_local=True, on all ranks: hs are the local matrices, psi0 and
   krylovSize are the same on every rank.  Only rank 0 fills alpha and beta; the other ranks
   take part in the collectives and return the zeros they allocated.  If rank 0 raises, the
   others wait in Bcast (finite.py:1955).  With krylovSize = 1 there is no Bcast. *)
Definition get_tridiagonal_krylov_vectors_local (hs : list (mat F)) (psi0 : vec) (krylovSize : Z)
  : list (res (list F * list F)) :=
  let ks := Z.min krylovSize (Z.of_nat (length psi0)) in
  if ks <? 1 then map (fun _ => Err ValueError) hs else
  match hs with
  | [] => []
  | _ :: others =>
      match krylov (reduce_dot hs (length psi0)) psi0 krylovSize with
      | Ok r => Ok r :: map (fun _ => Ok (repeat 0%F (Z.to_nat ks), repeat 0%F (Z.to_nat (ks - 1)))) others
      | Err e => Err e :: map (fun _ => Err Deadlock) others
      end
  end.

(* spectra.py:677-680: the continued fraction at one mesh point z = omega + 1j*delta + e.
   1.0 / 0 (numpy: inf or nan) does not occur for delta <> 0, see C33. *)
Fixpoint cont_frac (z : cx F) (alpha beta : list F) : cx F :=
  match alpha, beta with
  | [], _ => c0
  | [a], _ => (c1 / (z - creal a))%C
  | a :: alpha', b :: beta' => (c1 / (z - creal a - creal (b * b)%F * cont_frac z alpha' beta'))%C
  | a :: alpha', [] => c0
  end.
Definition green_mesh (omega : list F) (delta e : F) (ab : list F * list F) : vec :=
  map (fun w => cont_frac (mkC (w + e)%F delta) (fst ab) (snd ab)) omega.

(* spectra.py:652-655: psi as a vector *)
Definition psi_vec (idx : dict pybytes nat) (psi : psi_t F) : res vec :=
  fold_res (fun v sa => do i <- dgetitem idx (fst sa);
                        if Nat.ltb i (length v) then Ok (set_nth v i (snd sa)) else Err IndexError)
    psi (repeat c0 (length idx)).

Inductive gmode := GDict | GDense | GSparse | GOther.

(* ---- mode == "dict" (spectra.py:604-633) ---- *)
(* applyOp with h_dict: new h_dict and the result *)
Definition apply_h (n : Z) (hOp : op_t F) (swm : F) (rs : option restrictions_t) (v : psi_t F) (h : hdict_t F)
  : hdict_t F * res (psi_t F) :=
  match applyOp n hOp v swm rs (Some h) with
  | (Some h', r) => (h', r)
  | (None, r) => (h, r)
  end.
(* if beta == 0, v[j] is still the number 0.0: applyOp raises AttributeError *)
Fixpoint dict_loop (k : nat) (n : Z) (hOp : op_t F) (swm : F) (rs : option restrictions_t)
  (v0 w : psi_t F) (h : hdict_t F) : hdict_t F * res (list F * list F) :=
  match k with
  | O => (h, Ok ([], []))
  | S k' =>
      let b := fsqrt (norm2 w) in
      if feqb b 0%F then (h, Err AttributeError) else
      let v1 : psi_t F := map (fun sa => (fst sa, creal (1 / b)%F * snd sa)%C) w in
      match apply_h n hOp swm rs v1 h with
      | (h', Err e) => (h', Err e)
      | (h', Ok wp) =>
          let a := re (inner wp v1) in
          let w' := add (add wp v1 (creal (- a)%F)) v0 (creal (- b)%F) in
          let (h'', r) := dict_loop k' n hOp swm rs v1 w' h' in
          (h'', do r <- r; Ok (a :: fst r, b :: snd r))
      end
  end.
(* krylovSize is not reduced here; a negative size raises in np.zeros, 0 in v[0] = psi *)
Definition dict_krylov (n : Z) (hOp : op_t F) (swm : F) (rs : option restrictions_t)
  (psi : psi_t F) (krylovSize : Z) (h : hdict_t F) : hdict_t F * res (list F * list F) :=
  if krylovSize <? 0 then (h, Err ValueError) else
  if krylovSize =? 0 then (h, Err IndexError) else
  match apply_h n hOp swm rs psi h with
  | (h', Err e) => (h', Err e)
  | (h', Ok wp) =>
      let a := re (inner wp psi) in
      let w := add wp psi (creal (- a)%F) in
      let (h'', r) := dict_loop (Z.to_nat (krylovSize - 1)) n hOp swm rs psi w h' in
      (h'', do r <- r; Ok (a :: fst r, snd r))
  end.

(* ---- getGreen (spectra.py:551-681) on all ranks ---- *)
(* All arguments but h_dict are the same on every rank; per rank: h_dict after the call and g. *)
Definition getGreen (fuel : nat) (ord : nat -> set_order) (n : Z) (e : F) (psi : psi_t F) (hOp : op_t F)
  (omega : list F) (delta : F) (krylovSize : Z) (swm : F) (rs : option restrictions_t)
  (h_dicts : list (hdict_t F)) (mode : gmode) (pm : pmode) : list (hdict_t F * res vec) :=
  match psi with
  | [] => map (fun h => (h, Ok (repeat c0 (length omega)))) h_dicts
  | _ =>
    match mode with
    | GDict =>
        match pm with
        | Serial => map (fun h => let (h', r) := dict_krylov n hOp swm rs psi krylovSize h in
                                  (h', rmap (green_mesh omega delta e) r)) h_dicts
        | _ => map (fun h => (h, Err AssertionError)) h_dicts
        end
    | GOther => map (fun h => (h, Err GenericException)) h_dicts
    | GDense | GSparse =>
        let h_local := match pm with HBuild => true | _ => false end in
        let ebh := expand_basis_and_hamiltonian fuel n hOp rs ord pm h_local (dkeys psi) h_dicts in
        if h_local then
          (* the ranks meet in the collectives of get_tridiagonal_krylov_vectors *)
          let starts := map (fun x => do (h, idx) <- snd x; do psi0 <- psi_vec idx psi; Ok (h, psi0)) ebh in
          match starts with
          | Ok (_, psi0) :: _ =>
              if forallb is_ok starts then
                combine (map fst ebh)
                  (map (rmap (green_mesh omega delta e))
                     (get_tridiagonal_krylov_vectors_local (map fst (oks starts)) psi0 krylovSize))
              else map (fun xs => (fst (fst xs), match snd xs with Ok _ => Err Deadlock | Err e => Err e end)) (combine ebh starts)
          | _ => map (fun xs => (fst (fst xs), match snd xs with Ok _ => Err Deadlock | Err e => Err e end)) (combine ebh starts)
          end
        else
          map (fun x => (fst x, do (h, idx) <- snd x; do psi0 <- psi_vec idx psi;
                                rmap (green_mesh omega delta e) (get_tridiagonal_krylov_vectors h psi0 krylovSize))) ebh
    end
  end.
End Lanczos.
Arguments vec : clear implicits.
