(* Specification of angular momenta and density matrices of a shell: one-particle operators
   sum_{xy} v_xy c_x^+ c_y as lists of terms, and their expectation values in Fock space. *)
From Verif Require Import M_Prelude M_Scalar M_PSR M_State M_Basis S_Fock S_Basis.
Local Open Scope Z_scope.

(* all keys are single angular momenta *)
Definition int_keys (nb : nbaths_t) : Prop := Forall (fun kn => exists l, fst kn = KInt l) nb.
(* a system of n spin-orbitals with a shell of angular momentum l *)
Definition has_shell (nb : nbaths_t) (l : Z) : Prop := wf_nbaths nb /\ int_keys nb /\ In l (angs nb).
Definition n_orb (nb : nbaths_t) : nat := Z.to_nat (n_total nb).

(* (s, m) of a shell *)
Definition sites (l : Z) : list (Z * Z) := list_prod [0; 1] (map (fun k => Z.of_nat k - l) (seq 0 (Z.to_nat (2 * l + 1)))).
Definition orb (l : Z) (sm : Z * Z) : spinorb := SImp l (fst sm) (snd sm).
(* the orbital x belongs to shell l *)
Definition in_shell (l : Z) (x : spinorb) : Prop := exists s m, x = SImp l s m /\ (s = 0 \/ s = 1) /\ - l <= m <= l.

(* c_x^+ c_y *)
Definition hop (nb : nbaths_t) (x y : spinorb) : process :=
  [(coord_index nb x, "c"%char); (coord_index nb y, "a"%char)].

Section E.
Context {F : ofield}.
Variable fsqrt : F -> F.
(* v c_x^+ c_y *)
Definition term := ((spinorb * spinorb) * cx F)%type.
Definition one_body (nb : nbaths_t) (l : list term) : op_t F :=
  map (fun xyv => (hop nb (fst (fst xyv)) (snd (fst xyv)), snd xyv)) l.

(* Textbook operators of a shell (in units of hbar). *)
Definition N_terms (l : Z) : list term := map (fun sm => ((orb l sm, orb l sm), c1)) (sites l).
Definition Lz_terms (l : Z) : list term := map (fun sm => ((orb l sm, orb l sm), cofZ (snd sm))) (sites l).
Definition Sz_terms (l : Z) : list term :=
  map (fun sm => ((orb l sm, orb l sm), creal (if fst sm =? 1 then fhalf else - fhalf)%F)) (sites l).
(* L+- |l,m> = sqrt(l(l+1) - m(m+-1)) |l,m+-1> *)
Definition ladder_coef (l m m' : Z) : cx F := creal (fsqrt (fofZ (l * (l + 1) - m * m'))).
Definition Lp_terms (l : Z) : list term :=
  map (fun sm => ((SImp l (fst sm) (snd sm + 1), orb l sm), ladder_coef l (snd sm) (snd sm + 1)))
    (filter (fun sm => snd sm <? l) (sites l)).
Definition Lm_terms (l : Z) : list term :=
  map (fun sm => ((SImp l (fst sm) (snd sm - 1), orb l sm), ladder_coef l (snd sm) (snd sm - 1)))
    (filter (fun sm => - l <? snd sm) (sites l)).
(* S+ |down> = |up>, S- |up> = |down> *)
Definition Sp_terms (l : Z) : list term :=
  map (fun sm => ((SImp l 1 (snd sm), orb l sm), c1)) (filter (fun sm => fst sm =? 0) (sites l)).
Definition Sm_terms (l : Z) : list term :=
  map (fun sm => ((SImp l 0 (snd sm), orb l sm), c1)) (filter (fun sm => fst sm =? 1) (sites l)).

(* <psi| op |psi> *)
Definition ev (n : nat) (op : op_t F) (psi : psi_t F) : cx F :=
  csum (fun t => cconj (amp psi t) * op_vec n op psi t)%C (allcfg n).
(* <psi| c_y^+ c_x |psi> *)
Definition rho (nb : nbaths_t) (psi : psi_t F) (x y : spinorb) : cx F :=
  ev (n_orb nb) (one_body nb [((y, x), c1)]) psi.

(* psi' is the state op|psi> *)
Definition is_op (n : nat) (op : op_t F) (psi psi' : psi_t F) : Prop :=
  valid_psi n psi' /\ forall t, length t = n -> amp psi' t = op_vec n op psi t.

(* entry of a dictionary of matrix elements, 0 if absent *)
Definition dval {K} `{EqB K} (d : dict K (cx F)) (k : K) : cx F := match dget d k with Some v => v | None => c0 end.

(* square matrices as functions *)
Definition delta {A} `{EqB A} (a b : A) : cx F := if eqb a b then c1 else c0.
Definition at_m (u : list (list (cx F))) (i j : nat) : cx F := nth j (nth i u []) c0.
Definition is_square (n : nat) (u : list (list (cx F))) : Prop := length u = n /\ Forall (fun row => length row = n) u.
(* u u^+ = u^+ u = 1 *)
Definition unitary (n : nat) (u : list (list (cx F))) : Prop :=
  is_square n u /\
  (forall i j, (i < n)%nat -> (j < n)%nat ->
     csum (fun k => cconj (at_m u k i) * at_m u k j)%C (seq 0 n) = delta i j) /\
  (forall i j, (i < n)%nat -> (j < n)%nat ->
     csum (fun k => at_m u i k * cconj (at_m u j k))%C (seq 0 n) = delta i j).
(* column i describes a real function: conj(Y_lm) = (-1)^m Y_l,-m *)
Definition real_harmonics (l : nat) (u : list (list (cx F))) : Prop :=
  forall k i, (k < 2 * l + 1)%nat -> (i < 2 * l + 1)%nat ->
    cconj (at_m u k i) = (cofZ ((-1) ^ Z.of_nat (k + l)) * at_m u (2 * l - k) i)%C.

(* c_i^+ c_j of the cubic harmonics i with spin s and j with spin t: c_i^+ = sum_k u_ki c_k^+ *)
Definition cub_hop (l : Z) (u : list (list (cx F))) (s : Z) (i : nat) (t : Z) (j : nat) : list term :=
  flat_map (fun k => map (fun m =>
     ((SImp l s (Z.of_nat k - l), SImp l t (Z.of_nat m - l)), (at_m u k i * cconj (at_m u m j))%C))
     (seq 0 (Z.to_nat (2 * l + 1)))) (seq 0 (Z.to_nat (2 * l + 1))).
(* number operator of the cubic harmonic i with spin s *)
Definition cub_terms (l : Z) (u : list (list (cx F))) (s : Z) (i : nat) : list term := cub_hop l u s i s i.

(* [f, g] psi = c h psi for functions on states *)
Definition commutes_to (n : nat) (f g h : psi_t F -> res (psi_t F)) (c : cx F) (psi : psi_t F) : Prop :=
  exists q qp p pq r, g psi = Ok q /\ f q = Ok qp /\ f psi = Ok p /\ g p = Ok pq /\ h psi = Ok r /\
    forall t, length t = n -> (amp qp t - amp pq t)%C = (c * amp r t)%C.
End E.
