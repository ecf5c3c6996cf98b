(* Specification of spin-orbital indices and of the restricted basis. *)
From Verif Require Import M_Prelude M_PSR M_Basis S_Fock.
Local Open Scope Z_scope.

Definition zsum (l : list Z) : Z := fold_right Z.add 0 l.
(* number of spin-orbitals of a shell *)
Definition shell_size (l : Z) : Z := 2 * (2 * l + 1).
Definition angs (nb : nbaths_t) : list Z := flat_map key_angs (dkeys nb).
Definition n_imp (nb : nbaths_t) : Z := zsum (map shell_size (angs nb)).
Definition n_total (nb : nbaths_t) : Z := n_imp nb + zsum (map snd nb).

(* number of spin-orbitals of the shells before l *)
Fixpoint imp_offset (ls : list Z) (l : Z) : Z :=
  match ls with [] => 0 | a :: ls' => if a =? l then 0 else shell_size a + imp_offset ls' l end.
(* number of bath states before those of key k *)
Fixpoint bath_offset (nb : list (bkey * Z)) (k : bkey) : Z :=
  match nb with [] => 0 | (k', n) :: nb' => if eqb k' k then 0 else n + bath_offset nb' k end.

(* spin-orbitals of the system *)
Definition coord_ok (nb : nbaths_t) (x : spinorb) : Prop :=
  match x with
  | SImp l s m => In l (angs nb) /\ (s = 0 \/ s = 1) /\ - l <= m <= l
  | SBath k b => exists n, In (k, n) nb /\ 0 <= b < n
  end.
Definition coord_index (nb : nbaths_t) (x : spinorb) : Z :=
  match x with
  | SImp l s m => imp_offset (angs nb) l + s * (2 * l + 1) + (m + l)
  | SBath k b => n_imp nb + bath_offset nb k + b
  end.
Definition wf_nbaths (nb : nbaths_t) : Prop :=
  NoDup (dkeys nb) /\ Forall (fun l => 0 <= l) (angs nb) /\ Forall (fun kn => 0 <= snd kn) nb.

(* ---- the restricted basis ---- *)
Section Par.
(* nBaths, valBaths, dnValBaths, dnConBaths, dnTol, n0imp *)
Variables d val dnV dnC tol n0 : zdict.
Let nb := nbaths_of d.

(* a dictionary of shells: distinct keys, l >= 0, no negative bath number *)
Definition wf_shells : Prop := NoDup (dkeys d) /\ Forall (fun kn => 0 <= fst kn /\ 0 <= snd kn) d.
(* the spin-orbitals of shell l: impurity, valence bath, conduction bath *)
Definition imp_idx (l : Z) : list Z := zrange2 (imp_offset (map fst d) l) (imp_offset (map fst d) l + shell_size l).
Definition bath_start (l : Z) : Z := n_imp nb + bath_offset nb (KInt l).
Definition val_idx (l v : Z) : list Z := zrange2 (bath_start l) (bath_start l + v).
Definition con_idx (l v nB : Z) : list Z := zrange2 (bath_start l + v) (bath_start l + nB).

Record shell_par := mk_par { p_val : Z; p_dv : Z; p_dc : Z; p_tol : Z; p_n0 : Z }.
Definition shell_params (l : Z) (p : shell_par) : Prop :=
  dget val l = Some (p_val p) /\ dget dnV l = Some (p_dv p) /\ dget dnC l = Some (p_dc p) /\
  dget tol l = Some (p_tol p) /\ dget n0 l = Some (p_n0 p).
(* the parameters of shell l, when present *)
Definition par (l : Z) : shell_par :=
  let get e := match dget e l with Some v => v | None => 0 end in
  mk_par (get val) (get dnV) (get dnC) (get tol) (get n0).
Definition complete : Prop := forall l, In l (dkeys d) -> exists p, shell_params l p.

(* dv electrons moved out of the valence bath, dc into the conduction bath *)
Definition moves (p : shell_par) (dv dc : Z) : Prop := 0 <= dv <= p_dv p /\ 0 <= dc <= p_dc p /\ Z.abs (dv - dc) <= p_tol p.

(* number of occupied orbitals of c among idx *)
Definition occ_in (c : config) (idx : list Z) : Z := Z.of_nat (length (filter (occupied c) idx)).

Definition admitted (c : config) : Prop :=
  forall l nB, In (l, nB) d -> exists p dv dc, shell_params l p /\ moves p dv dc /\
    occ_in c (imp_idx l) = p_n0 p + dv - dc /\
    occ_in c (val_idx l (p_val p)) = p_val p - dv /\
    occ_in c (con_idx l (p_val p) nB) = dc.

(* every admitted number of moved electrons fits *)
Definition feasible : Prop :=
  forall l nB, In (l, nB) d -> exists p, shell_params l p /\ p_val p <= nB /\
    forall dv dc, moves p dv dc ->
      dv <= p_val p /\ dc <= nB - p_val p /\ 0 <= p_n0 p + dv - dc <= shell_size l.
(* no electrons are taken from an empty valence bath *)
Definition no_empty_valence : Prop :=
  forall l p, In l (dkeys d) -> shell_params l p -> p_val p = 0 -> p_dv p <= 0.

(* number of configurations *)
Fixpoint binom (n k : nat) : nat :=
  match k, n with
  | O, _ => 1
  | S _, O => 0
  | S k', S n' => binom n' k' + binom n' k
  end.
Definition n_choices (l nB : Z) (p : shell_par) : nat :=
  list_sum (flat_map (fun dv => map (fun dc =>
     if Z.abs (dv - dc) <=? p_tol p
     then (binom (Z.to_nat (shell_size l)) (Z.to_nat (p_n0 p + dv - dc)) *
           binom (Z.to_nat (p_val p)) (Z.to_nat (p_val p - dv)) * binom (Z.to_nat (nB - p_val p)) (Z.to_nat dc))%nat
     else 0%nat) (zrange (p_dc p + 1))) (zrange (p_dv p + 1))).
End Par.
Definition electrons (c : config) : Z := Z.of_nat (length (filter (fun b => b) c)).
