(* Specification: the files of a run, and the arguments as they stand in data.npz. *)
From Coq Require Import String.
From Verif Require Import M_Prelude M_Scalar M_Basis M_State M_Program M_Npz.

Section S.
Context {F : ofield}.
Definition is_file (o : output F) : bool := match o with H5 _ _ _ | Text _ _ | Bin _ _ => true | _ => false end.
(* the datasets and files that are not printed *)
Definition files (os : list (output F)) : list (output F) := filter is_file os.
(* those that have nothing to do with the radial function *)
Definition radial_names : list string := ["NIXS"; "NIXSthermal"; "NIXS.dat"; "r"; "RiNIXS"; "RjNIXS"]%string.
Definition non_radial (o : output F) : bool :=
  match o with H5 n _ _ | Text n _ | Bin n _ => negb (existsb (String.eqb n) radial_names) | _ => false end.
Definition files_but_radial (os : list (output F)) : list (output F) := filter non_radial os.
(* the arguments of a new run: the numbers of the file, an energy cut, and the two arguments that only concern printing *)
Definition again (cut : F) (nPrint : Z) (tol : F) (z : npz) : @args F :=
  mkArgs (z_ls z) (map snd (z_nBaths z)) (map snd (z_nValBaths z)) (map snd (z_n0imps z)) (map snd (z_dnTols z)) (map snd (z_dnValBaths z)) (map snd (z_dnConBaths z))
    (z_Fdd z) (z_Fpp z) (z_Fpd z) (z_Gpd z) (z_xi_2p z) (z_xi_3d z) (z_ctc z) (z_hField z) (z_nPsiMax z) nPrint tol (z_T z) cut (z_delta z) (z_deltaRIXS z) (z_deltaNIXS z).
End S.
