(* Specification of the spinless Coulomb operator and of the printed table of Gaunt coefficients. *)
From Verif Require Import M_Prelude M_Scalar M_State M_Basis M_Operators M_Gaunt S_Operators.
Local Open Scope Z_scope.

(* the lines of the table: for every k the heading, one row for every m, an empty line *)
Definition gaunt_table {F : ofield} (ck : Z -> Z -> Z -> Z -> Z -> F) (l lp : Z) (lines : list (@gline F)) : Prop :=
  let line i := nth_error lines (Z.to_nat i) in let w := 2 * l + 3 in
  Z.of_nat (length lines) = (l + lp + 1) * w /\
  forall k m mp, 0 <= k <= l + lp -> - l <= m <= l -> - lp <= mp <= lp ->
    line (k * w) = Some (GHead k) /\ line (k * w + 2 * l + 2) = Some GBlank /\
    exists row, line (k * w + 1 + (l + m)) = Some (GRow row) /\ Z.of_nat (length row) = 2 * lp + 1 /\
      nth_error row (Z.to_nat (lp + mp)) = Some (ck k l m lp mp).
