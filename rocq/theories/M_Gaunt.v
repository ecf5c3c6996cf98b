(* Model of printGaunt of impurityModel/ed/finite.py. *)
From Verif Require Import M_Prelude M_Scalar M_State M_Basis M_Operators.
Local Open Scope Z_scope.

Section Gaunt.
Context {F : ofield}.
Variable fsqrt : F -> F.
Variable pi : F.
Variable gaunt : Z -> Z -> Z -> Z -> Z -> Z -> F.
(* a printed line: "k=...", numbers (finite.py:555 rounds them to two digits, here the numbers themselves), nothing *)
Inductive gline := GHead (k : Z) | GRow (v : list F) | GBlank.
(* finite.py:537-559.  All ranks calculate the numbers, rank 0 prints. *)
Definition printGaunt (rank l lp : Z) : list gline :=
  flat_map (fun k =>
    (if rank =? 0 then [GHead k] else []) ++
    flat_map (fun m =>
      let s := map (fun mp => gauntC fsqrt pi gaunt k l m lp mp) (zrange2 (- lp) (lp + 1)) in
      if rank =? 0 then [GRow s] else []) (zrange2 (- l) (l + 1)) ++
    (if rank =? 0 then [GBlank] else [])) (zrange (l + lp + 1)).
End Gaunt.
Arguments GHead {F} _. Arguments GRow {F} _. Arguments GBlank {F}.
