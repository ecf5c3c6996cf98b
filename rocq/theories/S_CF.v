(* Specification of the file with the crystal-field parameters. *)
From Coq Require Import String.
From Verif Require Import M_Prelude M_Scalar M_Operators.
Local Open Scope Z_scope.

(* The parameters of the crystal-field file: name, default value (numerator, denominator) for Ni in NiO, and what is read. *)
Definition cf_defaults : list (string * (Z * Z) * (forall F : ofield, @cf_params F -> F)) :=
  [ ("e_imp", (-131796, 100000), @e_imp); ("e_deltaO_imp", (60422, 100000), @e_deltaO_imp);
    ("e_val_eg", (-44, 10), @e_val_eg); ("e_val_t2g", (-65, 10), @e_val_t2g); ("e_con_eg", (3, 1), @e_con_eg); ("e_con_t2g", (2, 1), @e_con_t2g);
    ("v_val_eg", (1883, 1000), @v_val_eg); ("v_val_t2g", (1395, 1000), @v_val_t2g); ("v_con_eg", (6, 10), @v_con_eg); ("v_con_t2g", (4, 10), @v_con_t2g) ]%string.
