(* Model of the expectation values of impurityModel/ed/finite.py: angular momenta, density
   matrices and occupations of cubic harmonics. *)
From Verif Require Import M_Prelude M_Scalar M_PSR M_State M_Basis.
Local Open Scope Z_scope.

Lemma spinorb_eqb_ok x y : reflect (x = y) (spinorb_eqb x y).
Proof.
  destruct x as [l s m|k b], y as [l' s' m'|k' b']; simpl; try (constructor; congruence).
  - destruct (Z.eqb_spec l l'), (Z.eqb_spec s s'), (Z.eqb_spec m m'); simpl; constructor; congruence.
  - destruct (bkey_eqb_spec k k'), (Z.eqb_spec b b'); simpl; constructor; congruence.
Qed.
#[export] Instance EqB_spinorb : EqB spinorb := { eqb := spinorb_eqb; eqb_spec := spinorb_eqb_ok }.

(* "sum(2 * (2 * ang + 1) + nBath for ang, nBath in nBaths.items())", the first statement of all
   these functions, e.g. finite.py:856.  A tuple of angular momenta as key: tuple + int. *)
Definition total_orbitals (nBaths : nbaths_t) : res Z :=
  fold_res (fun acc kn =>
    match fst kn with
    | KInt ang => Ok (acc + (2 * (2 * ang + 1) + snd kn))
    | KTup _ => Err TypeError
    end) nBaths 0.

(* range(-l, l + 1) *)
Definition mrange (l : Z) : list Z := zrange2 (- l) (l + 1).

Section Expect.
Context {F : ofield}.
(* numpy/math sqrt *)
Variable fsqrt : F -> F.
Local Open Scope of_scope.

(* finite.py:843-866 *)
Definition getLz3d (nBaths : nbaths_t) (psi : psi_t F) : res F :=
  do n <- total_orbitals nBaths;
  fold_res (fun Lz sa =>
    do tmp <- fold_res (fun tmp i =>
      do spinOrb <- i2c nBaths i;
      Ok (match spinOrb with
          | SImp l s m => if (l =? 2)%Z then (tmp + m)%Z else tmp
          | SBath _ _ => tmp
          end)) (bytes2tuple (fst sa) n) 0%Z;
    Ok (Lz + fofZ tmp * cabs2 (snd sa))) psi 0.

(* finite.py:869-892 *)
Definition getSz3d (nBaths : nbaths_t) (psi : psi_t F) : res F :=
  do n <- total_orbitals nBaths;
  fold_res (fun Sz sa =>
    do tmp <- fold_res (fun tmp i =>
      do spinOrb <- i2c nBaths i;
      Ok (match spinOrb with
          | SImp l s m => if (l =? 2)%Z then tmp + (if (s =? 0)%Z then - fhalf else fhalf) else tmp
          | SBath _ _ => tmp
          end)) (bytes2tuple (fst sa) n) 0;
    Ok (Sz + tmp * cabs2 (snd sa))) psi 0.

(* "psiP = c(n, i, a(n, j, psi)); addToFirst(psiNew, psiP, v)" with i = c2i(x), j = c2i(y) *)
Definition hop_add (nBaths : nbaths_t) (n : Z) (psi psiNew : psi_t F) (x y : spinorb) (v : cx F) : res (psi_t F) :=
  do i <- c2i nBaths x;
  do j <- c2i nBaths y;
  do psiP <- op_a n j psi;
  do psiP <- op_c n i psiP;
  Ok (addToFirst psiNew psiP v).

(* finite.py:1115-1142 *)
Definition applySz3d (nBaths : nbaths_t) (psi : psi_t F) : res (psi_t F) :=
  do n <- total_orbitals nBaths;
  fold_res (fun psiNew s =>
    fold_res (fun psiNew m =>
      hop_add nBaths n psi psiNew (SImp 2 s m) (SImp 2 s m) (creal (if (s =? 1)%Z then fhalf else - fhalf)))
      (mrange 2) psiNew) (zrange 2) [].

(* finite.py:1145-1172 *)
Definition applyLz3d (nBaths : nbaths_t) (psi : psi_t F) : res (psi_t F) :=
  do n <- total_orbitals nBaths;
  fold_res (fun psiNew s =>
    fold_res (fun psiNew m =>
      hop_add nBaths n psi psiNew (SImp 2 s m) (SImp 2 s m) (cofZ m)) (mrange 2) psiNew) (zrange 2) [].

(* finite.py:1175-1204 *)
Definition applySplus3d (nBaths : nbaths_t) (psi : psi_t F) : res (psi_t F) :=
  do n <- total_orbitals nBaths;
  fold_res (fun psiNew m => hop_add nBaths n psi psiNew (SImp 2 1 m) (SImp 2 0 m) c1) (mrange 2) [].

(* finite.py:1207-1235 *)
Definition applyLplus3d (nBaths : nbaths_t) (psi : psi_t F) : res (psi_t F) :=
  do n <- total_orbitals nBaths;
  fold_res (fun psiNew s =>
    fold_res (fun psiNew m =>
      hop_add nBaths n psi psiNew (SImp 2 s (m + 1)) (SImp 2 s m)
        (creal (fsqrt (fofZ ((2 - m) * (2 + m + 1)))))) (zrange2 (-2) 2) psiNew) (zrange 2) [].

(* finite.py:1238-1267 *)
Definition applySminus3d (nBaths : nbaths_t) (psi : psi_t F) : res (psi_t F) :=
  do n <- total_orbitals nBaths;
  fold_res (fun psiNew m => hop_add nBaths n psi psiNew (SImp 2 0 m) (SImp 2 1 m) c1) (mrange 2) [].

(* finite.py:1270-1298 *)
Definition applyLminus3d (nBaths : nbaths_t) (psi : psi_t F) : res (psi_t F) :=
  do n <- total_orbitals nBaths;
  fold_res (fun psiNew s =>
    fold_res (fun psiNew m =>
      hop_add nBaths n psi psiNew (SImp 2 s (m - 1)) (SImp 2 s m)
        (creal (fsqrt (fofZ ((2 + m) * (2 - m + 1)))))) (zrange2 (-2 + 1) (2 + 1)) psiNew) (zrange 2) [].

(* finite.py:895-913.  norm2 is real, so the warning is never printed. *)
Definition getSsqr3d (nBaths : nbaths_t) (psi : psi_t F) : res F :=
  do psi1 <- applySz3d nBaths psi;
  do psi2 <- applySplus3d nBaths psi;
  do psi3 <- applySminus3d nBaths psi;
  Ok (norm2 psi1 + fhalf * (norm2 psi2 + norm2 psi3)).

(* finite.py:916-934 *)
Definition getLsqr3d (nBaths : nbaths_t) (psi : psi_t F) : res F :=
  do psi1 <- applyLz3d nBaths psi;
  do psi2 <- applyLplus3d nBaths psi;
  do psi3 <- applyLminus3d nBaths psi;
  Ok (norm2 psi1 + fhalf * (norm2 psi2 + norm2 psi3)).

(* finite.py:937-964 *)
Definition getTraceDensityMatrix (nBaths : nbaths_t) (psi : psi_t F) (l : Z) : res F :=
  do n_spin_orbitals <- total_orbitals nBaths;
  fold_res (fun n sa =>
    let s := bytes2str (fst sa) n_spin_orbitals in
    do nState <- fold_res (fun nState spin =>
      fold_res (fun nState m =>
        do i <- c2i nBaths (SImp l spin m);
        do ch <- py_nth s i;
        Ok (if Ascii.eqb ch ch1 then nState + 1 else nState)%Z) (mrange l) nState) (zrange 2) 0%Z;
    Ok (n + fofZ nState * cabs2 (snd sa))) psi 0.

Definition dm_t := dict (spinorb * spinorb) (cx F).

(* finite.py:967-1012 *)
Definition getDensityMatrix (nBaths : nbaths_t) (psi : psi_t F) (l : Z) : res dm_t :=
  do n <- total_orbitals nBaths;
  fold_res (fun d si => fold_res (fun d sj => fold_res (fun d mi => fold_res (fun d mj =>
    do i <- c2i nBaths (SImp l si mi);
    do j <- c2i nBaths (SImp l sj mj);
    do psi_new <- op_a n i psi;
    do psi_new <- op_c n j psi_new;
    let tmp := inner psi psi_new in
    Ok (if negb (ceqb tmp c0) then dset d (SImp l si mi, SImp l sj mj) tmp else d))
    (mrange l) d) (mrange l) d) (zrange 2) d) (zrange 2) [].

(* ---- numpy matrices as lists of rows ---- *)
Definition mat := list (list (cx F)).
Definition zeros (n m : nat) : mat := repeat (repeat c0 m) n.
(* u[i, j] = v *)
Definition mset (u : mat) (i j : Z) (v : cx F) : res mat :=
  do row <- py_nth u i;
  do row' <- py_set row j v;
  py_set u i row'.
(* u[i, j] *)
Definition mget (u : mat) (i j : Z) : res (cx F) := do row <- py_nth u i; py_nth row j.
Fixpoint msets (u : mat) (l : list (Z * Z * cx F)) : res mat :=
  match l with
  | [] => Ok u
  | ((i, j), v) :: l' => do u' <- mset u i j v; msets u' l'
  end.

Definition at_ij (i j : Z) (v : cx F) : Z * Z * cx F := ((i, j), v).

(* np.sqrt(2) *)
Definition sqrt2 : cx F := creal (fsqrt (fofZ 2)).

(* finite.py:220-268.  For any other l the name u is unbound.
   U[0:n, 0:m] = u; U[n:, m:] = u are written row by row. *)
Definition get_spherical_2_cubic_matrix (spinpol : bool) (l : Z) : res mat :=
  do u <- (if (l =? 1)%Z then
             msets (zeros 3 3)
               [at_ij 0 0 (cI / sqrt2); at_ij 2 0 (cI / sqrt2); at_ij 0 1 (c1 / sqrt2); at_ij 2 1 (- c1 / sqrt2);
                at_ij 1 2 (c1)]
           else if (l =? 2)%Z then
             msets (zeros 5 5)
               [at_ij 2 0 (c1); at_ij 0 1 (c1 / sqrt2); at_ij (-1) 1 (c1 / sqrt2); at_ij 1 2 (- cI / sqrt2);
                at_ij (-2) 2 (- cI / sqrt2); at_ij 1 3 (c1 / sqrt2); at_ij (-2) 3 (- c1 / sqrt2);
                at_ij 0 4 (cI / sqrt2); at_ij (-1) 4 (- cI / sqrt2)]
           else Err UnboundLocalError);
  if spinpol then
    let m := match u with row :: _ => length row | [] => 0%nat end in
    Ok (map (fun row => row ++ repeat c0 m) u ++ map (fun row => repeat c0 m ++ row) u)
  else Ok u.

Definition cubkey := ((Z * Z) * (Z * Z))%type.

(* finite.py:1015-1060 *)
Definition getDensityMatrixCubic (nBaths : nbaths_t) (psi : psi_t F) : res (dict cubkey (cx F)) :=
  do nSph <- getDensityMatrix nBaths psi 2;
  do u <- get_spherical_2_cubic_matrix false 2;
  fold_res (fun d i => fold_res (fun d j => fold_res (fun d si => fold_res (fun d sj =>
    fold_res (fun d kmk => fold_res (fun d mmm =>
      let k := Z.of_nat (fst kmk) in let mk := snd kmk in
      let m := Z.of_nat (fst mmm) in let mm := snd mmm in
      match dget nSph (SImp 2 si mm, SImp 2 sj mk) with
      | Some v =>
          do umi <- mget u m i;
          do ukj <- mget u k j;
          let tmp := (cconj umi * v * ukj)%C in
          Ok (if negb (ceqb tmp c0) then dadd d ((si, i), (sj, j)) tmp else d)
      | None => Ok d
      end) (enumerate (mrange 2)) d) (enumerate (mrange 2)) d)
    (zrange 2) d) (zrange 2) d) (zrange 5) d) (zrange 5) [].

(* an entry of the returned list: a real number, or a complex one (with a warning printed) *)
Definition real_or_complex := (F + cx F)%type.
Definition fabs (x : F) : F := if fltb x 0 then - x else x.
(* 1e-12 *)
Definition occ_tol : F := 1 / fofZ 1000000000000.
(* finite.py:1107-1111 *)
Definition take_real (v : cx F) : real_or_complex := if fltb (fabs (im v)) occ_tol then inl (re v) else inr v.

(* finite.py:1063-1112 *)
Definition getEgT2gOccupation (nBaths : nbaths_t) (psi : psi_t F) : res (list real_or_complex) :=
  do n <- total_orbitals nBaths;
  do u <- get_spherical_2_cubic_matrix false 2;
  do occs <- fold_res (fun acc i => fold_res (fun acc jmj => fold_res (fun acc kmk => fold_res (fun acc s =>
    let '(eg_dn, eg_up, t2g_dn, t2g_up) := acc in
    do jj <- c2i nBaths (SImp 2 s (snd jmj));
    do kk <- c2i nBaths (SImp 2 s (snd kmk));
    do psi_new <- op_a n kk psi;
    do psi_new <- op_c n jj psi_new;
    do uji <- mget u (Z.of_nat (fst jmj)) i;
    do uki <- mget u (Z.of_nat (fst kmk)) i;
    let v := (uji * cconj uki * inner psi psi_new)%C in
    Ok (if (i <? 2)%Z then
          if (s =? 0)%Z then (eg_dn + v, eg_up, t2g_dn, t2g_up)%C else (eg_dn, eg_up + v, t2g_dn, t2g_up)%C
        else
          if (s =? 0)%Z then (eg_dn, eg_up, t2g_dn + v, t2g_up)%C else (eg_dn, eg_up, t2g_dn, t2g_up + v)%C))
    (zrange 2) acc) (enumerate (mrange 2)) acc) (enumerate (mrange 2)) acc) (zrange 5) (c0, c0, c0, c0);
  let '(eg_dn, eg_up, t2g_dn, t2g_up) := occs in
  Ok (map take_real [eg_dn; eg_up; t2g_dn; t2g_up]).
End Expect.
