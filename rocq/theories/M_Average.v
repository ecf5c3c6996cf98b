(* Model of impurityModel/ed/average.py. *)
From Verif Require Import M_Prelude M_Scalar.

Section Average.
Context {F : ofield}.
Variable fexp : F -> F.     (* np.exp *)
Local Open Scope of_scope.

(* np.min *)
Definition fmin (x y : F) : F := if y <? x then y else x.
Definition np_min (l : list F) : res F :=
  match l with [] => Err ValueError | x :: l' => Ok (fold_left fmin l' x) end.

(* an observable is an array; arrays are flattened to lists *)
Definition vadd (x y : list (cx F)) : list (cx F) := map (fun p => cadd (fst p) (snd p)) (combine x y).
Definition vscale (w : F) (x : list (cx F)) : list (cx F) := map (cmul (creal w)) x.

(* np.shape(observable)[0]: raises for rows of different shape *)
Definition np_shape0 (obs : list (list (cx F))) : res nat :=
  match obs with
  | [] => Ok 0%nat
  | o :: obs' => if forallb (fun o' => Nat.eqb (length o') (length o)) obs' then Ok (length obs) else Err ValueError
  end.

(* average.py:11-45.  T <> 0.  The unused weights and e_average are left out.  o_average starts as
   the scalar 0, which is broadcast: here zeros of the shape of an observable. *)
Definition thermal_average (k_B : F) (energies : list F) (obs : list (list (cx F))) (T : F) : res (list (cx F)) :=
  do n <- np_shape0 obs;
  if negb (Nat.eqb (length energies) n) then Err ValueError else
  do shift <- np_min energies;
  let st := fold_left (fun st eo =>
      let weight := fexp (- (fst eo - shift) / (k_B * T)) in
      (fst st + weight, vadd (snd st) (vscale weight (snd eo))))
    (combine energies obs) (0, repeat c0 (length (hd [] obs))) in
  let z := fst st in
  Ok (map (fun x => cdiv x (creal z)) (snd st)).
End Average.
