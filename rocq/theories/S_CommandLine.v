(* Specification of the command line: two file names, then options with their values. *)
From Coq Require Import String Ascii.
From Verif Require Import M_Prelude M_Scalar M_Basis M_State M_Operators M_Program.
Local Open Scope string_scope.

(* strings that can be values: they do not start with a minus sign, or they are a negative decimal number *)
Definition decimal_digits (s : string) : Prop := Forall (fun c => In c (list_ascii_of_string "0123456789")) (list_ascii_of_string s).
Definition value_like (s : string) : Prop :=
  (forall t, s <> "-" ++ t) \/
  (exists t, s = "-" ++ t /\ t <> "" /\ decimal_digits t) \/
  (exists t u, s = "-" ++ t ++ "." ++ u /\ decimal_digits t /\ u <> "" /\ decimal_digits u).

(* the documented options with integer and decimal, one or several values *)
Definition opts_ints : list string := ["ls"; "nBaths"; "nValBaths"; "n0imps"; "dnTols"; "dnValBaths"; "dnConBaths"].
Definition opts_floats : list string := ["Fdd"; "Fpp"; "Fpd"; "Gpd"; "hField"].
Definition opts_int : list string := ["nPsiMax"; "nPrintSlaterWeights"].
Definition opts_float : list string :=
  ["xi_2p"; "xi_3d"; "chargeTransferCorrection"; "tolPrintOccupation"; "T"; "energy_cut"; "delta"; "deltaRIXS"; "deltaNIXS"].
Definition group : Type := string * list string.
Definition group_ok (g : group) : Prop :=
  Forall value_like (snd g) /\
  ((In (fst g) (opts_ints ++ opts_floats) /\ snd g <> []) \/ (In (fst g) (opts_int ++ opts_float) /\ length (snd g) = 1%nat)).
Definition command_line (h0 radial : string) (gs : list group) : list string :=
  h0 :: radial :: flat_map (fun g => ("--" ++ fst g) :: snd g) gs.
(* the values given last *)
Definition given (gs : list group) (name : string) : option (list string) :=
  match find (fun g : group => String.eqb (fst g) name) (rev gs) with Some g => Some (snd g) | None => None end.

Section Spec.
Context {F : ofield}.
Variable py_int : string -> option Z.
Variable py_float : string -> option F.
Definition convertible (g : group) : Prop :=
  (In (fst g) (opts_ints ++ opts_int) /\ Forall (fun v => py_int v <> None) (snd g)) \/
  (In (fst g) (opts_floats ++ opts_float) /\ Forall (fun v => py_float v <> None) (snd g)).
(* x is what was given last, or the default *)
Definition is_list {A} (conv : string -> option A) (gs : list group) (name : string) (default x : list A) : Prop :=
  match given gs name with None => x = default | Some vs => map conv vs = map Some x end.
Definition is_one {A} (conv : string -> option A) (gs : list group) (name : string) (default x : A) : Prop :=
  match given gs name with None => x = default | Some vs => map conv vs = [Some x] end.
Definition arguments_of (gs : list group) (a : @args F) : Prop :=
  let Z_list := is_list py_int gs in let F_list := is_list py_float gs in let Z_one := is_one py_int gs in let F_one := is_one py_float gs in
  let dec (n d : Z) : F := (fofZ n / fofZ d)%F in
  Z_list "ls" [1; 2]%Z (a_ls a) /\ Z_list "nBaths" [0; 10]%Z (a_nBaths a) /\ Z_list "nValBaths" [0; 10]%Z (a_nValBaths a) /\
  Z_list "n0imps" [6; 8]%Z (a_n0imps a) /\ Z_list "dnTols" [0; 2]%Z (a_dnTols a) /\ Z_list "dnValBaths" [0; 2]%Z (a_dnValBaths a) /\
  Z_list "dnConBaths" [0; 0]%Z (a_dnConBaths a) /\
  F_list "Fdd" [dec 75 10; 0%F; dec 99 10; 0%F; dec 66 10]%Z (a_Fdd a) /\ F_list "Fpp" [0; 0; 0]%F (a_Fpp a) /\
  F_list "Fpd" [dec 89 10; 0%F; dec 68 10]%Z (a_Fpd a) /\ F_list "Gpd" [0%F; fofZ 5; 0%F; dec 28 10]%Z (a_Gpd a) /\
  F_one "xi_2p" (dec 11629 1000)%Z (a_xi_2p a) /\ F_one "xi_3d" (dec 96 1000)%Z (a_xi_3d a) /\
  F_one "chargeTransferCorrection" (dec 15 10)%Z (a_ctc a) /\ F_list "hField" [0%F; 0%F; dec 1 10000]%Z (a_hField a) /\
  Z_one "nPsiMax" 5%Z (a_nPsiMax a) /\ Z_one "nPrintSlaterWeights" 3%Z (a_nPrintSlaterWeights a) /\
  F_one "tolPrintOccupation" (dec 5 10)%Z (a_tolPrintOccupation a) /\ F_one "T" (fofZ 300) (a_T a) /\ F_one "energy_cut" (fofZ 10) (a_energy_cut a) /\
  F_one "delta" (dec 2 10)%Z (a_delta a) /\ F_one "deltaRIXS" (dec 50 1000)%Z (a_deltaRIXS a) /\ F_one "deltaNIXS" (dec 100 1000)%Z (a_deltaNIXS a).
End Spec.
(* a string with a minus sign that is neither an option, nor an abbreviation of one, nor a negative number, nor contains a space *)
Fixpoint before_eq (s : string) : string := match s with EmptyString => "" | String c s' => if Ascii.eqb c "=" then "" else String c (before_eq s') end.
Definition all_opts : list string := "-h" :: "--help" :: map (fun o => "--" ++ o) (opts_ints ++ opts_floats ++ opts_int ++ opts_float).
Definition unknown_option (s : string) : Prop :=
  (exists t, s = "-" ++ t /\ t <> "") /\ ~ value_like s /\ ~ In " "%char (list_ascii_of_string s) /\
  (forall o t, In o all_opts -> o <> before_eq s ++ t) /\ (forall t, s <> "-h" ++ t).
(* the parameters that the Hamiltonian has to be built from; the occupations by shell *)
Definition parameters_of {F : ofield} (a : @args F) (hp : @ham_params F) : Prop :=
  hp_Fdd hp = a_Fdd a /\ hp_Fpp hp = a_Fpp a /\ hp_Fpd hp = a_Fpd a /\ hp_Gpd hp = a_Gpd a /\
  hp_xi_2p hp = a_xi_2p a /\ hp_xi_3d hp = a_xi_3d a /\ hp_ctc hp = a_ctc a /\ a_hField a = [hp_hx hp; hp_hy hp; hp_hz hp] /\
  forall l, dget (hp_n0imps hp) l = match find (fun ln => Z.eqb (fst ln) l) (rev (combine (a_ls a) (a_n0imps a))) with Some ln => Some (snd ln) | None => None end.
