(* Model of the spin-orbital indexing and of get_basis (impurityModel/ed/finite.py). *)
From Verif Require Import M_Prelude M_PSR.
Local Open Scope Z_scope.

(* A key of nBaths: an angular momentum or a tuple of angular momenta (finite.py:737-744). *)
Inductive bkey := KInt (l : Z) | KTup (ls : list Z).
Definition bkey_eqb (a b : bkey) : bool :=
  match a, b with KInt x, KInt y => x =? y | KTup x, KTup y => eqb x y | _, _ => false end.
Lemma bkey_eqb_spec a b : reflect (a = b) (bkey_eqb a b).
Proof.
  destruct a as [x|x], b as [y|y]; simpl; try (constructor; congruence).
  - destruct (Z.eqb_spec x y); constructor; congruence.
  - destruct (list_eqb_spec x y); constructor; congruence.
Qed.
#[export] Instance EqB_bkey : EqB bkey := { eqb := bkey_eqb; eqb_spec := bkey_eqb_spec }.

(* (l, s, m), or (l, b) / ((l_a, l_b, ...), b)   (finite.py:745-746) *)
Inductive spinorb := SImp (l s m : Z) | SBath (k : bkey) (b : Z).
Definition spinorb_eqb (x y : spinorb) : bool :=
  match x, y with
  | SImp l s m, SImp l' s' m' => (l =? l') && (s =? s') && (m =? m')
  | SBath k b, SBath k' b' => eqb k k' && (b =? b')
  | _, _ => false
  end.

Definition nbaths_t := dict bkey Z.

(* the angular momenta of a key: lp itself or "for lp_int in lp" *)
Definition key_angs (k : bkey) : list Z := match k with KInt l => [l] | KTup ls => ls end.

(* (l, s, m) in the order of the loops "for sp in range(2): for mp in range(-l, l+1)" *)
Definition shell_coords (l : Z) : list spinorb :=
  flat_map (fun s => map (fun m => SImp l s m) (zrange2 (- l) (l + 1))) (zrange 2).

(* "for x in coords: if x == spinOrb: return i; i += 1" *)
Fixpoint count_until (coords : list spinorb) (x : spinorb) (i : Z) : Z + Z :=
  match coords with
  | [] => inr i
  | y :: coords' => if spinorb_eqb y x then inl i else count_until coords' x (i + 1)
  end.

(* finite.py:731-780.  The nested loops are written as one loop over the coordinates. *)
Definition c2i (nBaths : nbaths_t) (x : spinorb) : res Z :=
  match count_until (flat_map (fun lp => flat_map shell_coords (key_angs lp)) (dkeys nBaths)) x 0 with
  | inl i => Ok i
  | inr i =>
      match count_until (flat_map (fun kn => map (SBath (fst kn)) (zrange (snd kn))) nBaths) x i with
      | inl i => Ok i
      | inr _ => Err GenericException
      end
  end.

(* finite.py:813-818, 823-829: "if k == i: return ...; k += 1" *)
Fixpoint coord_at (coords : list spinorb) (i k : Z) : spinorb + Z :=
  match coords with
  | [] => inr k
  | y :: coords' => if k =? i then inl y else coord_at coords' i (k + 1)
  end.
(* finite.py:808-829: loop over the angular momenta; the result is a coordinate or the final k *)
Fixpoint i2c_imp (angs : list Z) (i k : Z) : spinorb + Z :=
  match angs with
  | [] => inr k
  | l :: angs' =>
      let after := if i - k <? 2 * (2 * l + 1) then coord_at (shell_coords l) i k else inr k in
      match after with
      | inl x => inl x
      | inr k' => i2c_imp angs' i (k' + 2 * (2 * l + 1))
      end
  end.
(* finite.py:832-838 *)
Fixpoint i2c_bath (nb : list (bkey * Z)) (i k : Z) : res spinorb :=
  match nb with
  | [] => Err GenericException
  | (lp, nBath) :: nb' =>
      let b := i - k in
      if b <? nBath then Ok (SBath lp b) else i2c_bath nb' i (k + nBath)
  end.
(* finite.py:783-840 *)
Definition i2c (nBaths : nbaths_t) (i : Z) : res spinorb :=
  match i2c_imp (flat_map key_angs (dkeys nBaths)) i 0 with
  | inl x => Ok x
  | inr k => i2c_bath nBaths i k
  end.

(* ---- get_basis ---- *)

(* itertools.combinations(l, r) *)
Fixpoint combs {A} (l : list A) (r : nat) : list (list A) :=
  match r with
  | O => [[]]
  | S r' => match l with
            | [] => []
            | x :: l' => map (cons x) (combs l' r') ++ combs l' r
            end
  end.
Definition combinations {A} (l : list A) (r : Z) : res (list (list A)) :=
  if r <? 0 then Err ValueError else Ok (combs l (Z.to_nat r)).

(* itertools.product(ls0, ls1, ...) *)
Fixpoint product {A} (ls : list (list A)) : list (list A) :=
  match ls with
  | [] => [[]]
  | l :: ls' => flat_map (fun a => map (cons a) (product ls')) l
  end.

(* sorted(...) of integers *)
Fixpoint zinsert (x : Z) (l : list Z) : list Z :=
  match l with
  | [] => [x]
  | y :: l' => if y <? x then y :: zinsert x l' else x :: l
  end.
Definition zsorted (l : list Z) : list Z := fold_right zinsert [] l.

Definition assert_that (b : bool) : res unit := if b then Ok tt else Err AssertionError.

(* Simplified: the parameter dictionaries have integer keys (with a tuple as key the sum in
   line 361 raises TypeError). *)
Definition zdict := dict Z Z.
Definition nbaths_of (d : zdict) : nbaths_t := map (fun kv => (KInt (fst kv), snd kv)) d.

(* finite.py:325-359: the configurations of one partition (nImp, nVal, nCon) *)
Definition partition_basis (nBaths : zdict) (l nB val nImp nVal nCon : Z) : res (list (list Z)) :=
  do indices <- map_res (c2i (nbaths_of nBaths)) (shell_coords l);
  do basisImp <- combinations indices nImp;
  do basisVal <- (if val =? 0 then Ok [[]] else
     do indices <- map_res (fun b => c2i (nbaths_of nBaths) (SBath (KInt l) b)) (zrange val);
     combinations indices nVal);
  do basisCon <- (if nB - val =? 0 then Ok [[]] else
     do indices <- map_res (fun b => c2i (nbaths_of nBaths) (SBath (KInt l) b)) (zrange2 val nB);
     combinations indices nCon);
  Ok (flat_map (fun bImp => flat_map (fun bVal => map (fun bCon => bImp ++ bVal ++ bCon) basisCon) basisVal) basisImp).

(* finite.py:311-359: basisL[l] *)
Definition shell_basis (nBaths valBaths dnValBaths dnConBaths dnTol n0imp : zdict) (l nB : Z) : res (list (list Z)) :=
  do dv <- dgetitem dnValBaths l;
  fold_res (fun acc dnVal =>
    do dc <- dgetitem dnConBaths l;
    fold_res (fun acc dnCon =>
      do tol <- dgetitem dnTol l;
      let deltaNimp := dnVal - dnCon in
      if Z.abs deltaNimp <=? tol then
        do n0 <- dgetitem n0imp l;
        do val <- dgetitem valBaths l;
        let nImp := n0 + deltaNimp in
        let nVal := val - dnVal in
        let nCon := dnCon in
        do _ <- assert_that (nVal <=? val);
        do _ <- assert_that (nCon <=? nB - val);
        do _ <- assert_that (nImp <=? 2 * (2 * l + 1));
        do new <- partition_basis nBaths l nB val nImp nVal nCon;
        Ok (acc ++ new)
      else Ok acc) (zrange (dc + 1)) acc) (zrange (dv + 1)) [].

(* finite.py:361 *)
Definition n_spin_orbitals (nBaths : zdict) : Z :=
  fold_left (fun acc kv => acc + (2 * (2 * fst kv + 1) + snd kv)) nBaths 0.

(* finite.py:294-374 (printing left out) *)
Definition get_basis (nBaths valBaths dnValBaths dnConBaths dnTol n0imp : zdict) : res (list pybytes) :=
  do _ <- fold_res (fun _ kv => do v <- dgetitem valBaths (fst kv); assert_that (v <=? snd kv)) nBaths tt;
  do basisL <- map_res (fun kv => shell_basis nBaths valBaths dnValBaths dnConBaths dnTol n0imp (fst kv) (snd kv)) nBaths;
  map_res (fun configuration => tuple2bytes (zsorted (concat configuration)) (n_spin_orbitals nBaths)) (product basisL).
