(* Properties of the command line: C80. *)
From Coq Require Import QArith Qcanon String Ascii.
From Verif Require Import M_Prelude M_Scalar M_Basis M_State M_Operators M_Program M_CommandLine S_Output S_CommandLine L_CommandLine X_Util.
Local Open Scope string_scope.

(* ---- C80: from the command line to the parameters of the calculation ---- *)
(* Two file names and options with numbers: the arguments of main are the numbers given last or the documented defaults. *)
Theorem C80_parse : forall (F : ofield) py_int (py_float : string -> option F) h0 radial gs,
  value_like h0 -> value_like radial -> Forall group_ok gs -> Forall (convertible py_int py_float) gs ->
  exists a, parse_args py_int py_float (command_line h0 radial gs) = Some (h0, radial, a) /\ arguments_of py_int py_float gs a.
Proof. exact (@parse_ok). Qed.
(* Everything else is rejected: something that is not a number, a missing or a third file name, an unknown option, a call for help. *)
Theorem C80_not_a_number : forall (F : ofield) py_int (py_float : string -> option F) h0 radial gs,
  value_like h0 -> value_like radial -> Forall group_ok gs -> ~ Forall (convertible py_int py_float) gs ->
  parse_args py_int py_float (command_line h0 radial gs) = None.
Proof. exact (@parse_bad). Qed.
Theorem C80_files : forall (F : ofield) py_int (py_float : string -> option F) vs gs,
  Forall value_like vs -> Forall group_ok gs -> length vs <> 2%nat ->
  parse_args py_int py_float (vs ++ flat_map (fun g => ("--" ++ fst g)%string :: snd g) gs)%list = None.
Proof. exact (@parse_files). Qed.
Theorem C80_unknown : forall (F : ofield) py_int (py_float : string -> option F) argv s, In s argv -> unknown_option s -> parse_args py_int py_float argv = None.
Proof. exact (@parse_unknown_option). Qed.
Theorem C80_help : forall (F : ofield) py_int (py_float : string -> option F) argv s, In s argv -> s = "-h" \/ s = "--help" -> parse_args py_int py_float argv = None.
Proof. exact (@parse_help). Qed.
(* The programs: main runs with these arguments if they pass the checks; otherwise every rank ends with an exception and nothing is written. *)
Theorem C80_get_spectra : forall (F : ofield) py_int (py_float : string -> option F) R mainh pickles tables h0 radial gs,
  value_like h0 -> value_like radial -> Forall group_ok gs -> Forall (convertible py_int py_float) gs ->
  exists a, arguments_of py_int py_float gs a /\
    (accepted a -> get_spectra py_int py_float R mainh pickles tables (command_line h0 radial gs) = Some (mainh (pickles h0) a (tables radial))) /\
    (~ accepted a -> get_spectra py_int py_float R mainh pickles tables (command_line h0 radial gs) = Some ([], repeat (Err AssertionError) R)).
Proof. exact (@program_ok). Qed.
Theorem C80_get_spectra_CF : forall (F : ofield) py_int (py_float : string -> option F) R mainCF jsons tables h0 radial gs,
  value_like h0 -> value_like radial -> Forall group_ok gs -> Forall (convertible py_int py_float) gs ->
  exists a, arguments_of py_int py_float gs a /\
    (accepted_CF a -> get_spectra_using_CF py_int py_float R mainCF jsons tables (command_line h0 radial gs) = Some (mainCF (jsons h0) a (tables radial))) /\
    (~ accepted_CF a -> exists e, get_spectra_using_CF py_int py_float R mainCF jsons tables (command_line h0 radial gs) = Some ([], repeat (Err e) R)).
Proof. exact (@program_CF_ok). Qed.
(* The Hamiltonian of the run is built from them. *)
Theorem C80_hamiltonian : forall (F : ofield) hamiltonian (a : @args F) su, main_setup hamiltonian a = Ok su ->
  exists hp, hamiltonian (nbaths_of (ordered (a_ls a) (a_nBaths a))) (nbaths_of (ordered (a_ls a) (a_nValBaths a))) hp = Ok (su_hOp su) /\ parameters_of a hp.
Proof. exact (@setup_params). Qed.
Print Assumptions C80_parse. Print Assumptions C80_not_a_number. Print Assumptions C80_files. Print Assumptions C80_unknown. Print Assumptions C80_help.
Print Assumptions C80_get_spectra. Print Assumptions C80_get_spectra_CF. Print Assumptions C80_hamiltonian.

(* numbers with digits and at most one decimal point *)
Definition digit (c : ascii) : Z := Z.of_N (N_of_ascii c) - 48.
Fixpoint number (s : string) (n : Z) (den : positive) (dot : bool) : option QcF :=
  match s with
  | EmptyString => Some (q n den)
  | String c s' => if Ascii.eqb c "." then (if dot then None else number s' n den true) else
                   if is_digit c then number s' (10 * n + digit c)%Z (if dot then 10 * den else den)%positive dot else None
  end.
Definition x_float (s : string) : option QcF := match s with String "-" s' => option_map (fun x : QcF => fopp x) (number s' 0 1 false) | EmptyString => None | _ => number s 0 1 false end.
Fixpoint whole (s : string) (n : Z) : option Z := match s with EmptyString => Some n | String c s' => if is_digit c then whole s' (10 * n + digit c)%Z else None end.
Definition x_int (s : string) : option Z := match s with String "-" s' => option_map Z.opp (whole s' 0%Z) | EmptyString => None | _ => whole s 0%Z end.
(* scripts/run_Co_CoO_CF.sh, and a field along -x *)
Definition co_groups : list group :=
  [("n0imps", ["6"; "7"]); ("Fdd", ["7"; "0"; "9.6"; "0"; "6.4"]); ("Fpd", ["8"; "0"; "6.4"]); ("Gpd", ["0"; "4.6"; "0"; "2.6"]);
   ("xi_2p", ["9.859"]); ("xi_3d", ["0.079"]); ("nPsiMax", ["13"]); ("hField", ["-.5"; "0"; "0"]); ("nPsiMax", ["14"])].
Lemma no_minus s : String.prefix "-" s = false -> value_like s.
Proof. intros H. left. intros t ->. destruct t; discriminate H. Qed.
Lemma co_ok : Forall group_ok co_groups.
Proof.
  assert (V : Forall (fun g : group => Forall value_like (snd g)) co_groups).
  { repeat (apply Forall_cons || apply Forall_nil || (cbn [snd]; apply Forall_cons) || (apply no_minus; reflexivity)).
    right. right. exists "", "5". split; [reflexivity|]. split; [constructor|]. split; [discriminate|]. repeat constructor; cbn; tauto. }
  apply Forall_forall. intros g Hg. rewrite Forall_forall in V. split; [apply V; auto|].
  cbn in Hg. repeat (destruct Hg as [<-|Hg]; [cbn; (left; split; [tauto|discriminate]) || (right; split; [tauto|reflexivity])|]). destruct Hg.
Qed.
Lemma co_convertible : Forall (convertible x_int x_float) co_groups.
Proof.
  assert (B : forallb (fun g => (existsb (String.eqb (fst g)) (opts_ints ++ opts_int) && forallb (fun v => match x_int v with Some _ => true | None => false end) (snd g)) ||
     (existsb (String.eqb (fst g)) (opts_floats ++ opts_float) && forallb (fun v => match x_float v with Some _ => true | None => false end) (snd g))) co_groups = true) by (vm_compute; reflexivity).
  assert (M : forall (o : string) l, existsb (String.eqb o) l = true -> In o l).
  { intros o l Ho. apply existsb_exists in Ho as (x & Hx & Ex). apply String.eqb_eq in Ex. congruence. }
  assert (S : forall A (f : string -> option A) l, forallb (fun v => match f v with Some _ => true | None => false end) l = true -> Forall (fun v => f v <> None) l).
  { intros A f l H. apply Forall_forall. intros v Hv. rewrite forallb_forall in H. specialize (H v Hv). destruct (f v); congruence. }
  rewrite forallb_forall in B. apply Forall_forall. intros g Hg. specialize (B g Hg). apply orb_true_iff in B as [B|B]; apply andb_true_iff in B as [B1 B2]; [left|right]; auto.
Qed.
Example C80_ex : Forall group_ok co_groups /\ Forall (convertible x_int x_float) co_groups /\ value_like "h0_CoO_CF.json" /\ value_like "Co3d.dat" /\
  match parse_args x_int x_float (command_line "h0_CoO_CF.json" "Co3d.dat" co_groups) with
  | Some (h0, radial, a) => eqb h0 "h0_CoO_CF.json" && eqb (a_n0imps a) [6; 7]%Z && eqb (a_nBaths a) [0; 10]%Z && eqb (a_nPsiMax a) 14%Z &&
      vec_eqb (map creal (a_Fdd a)) (map creal [q 7 1; q 0 1; q 48 5; q 0 1; q 32 5]) && vec_eqb (map creal (a_hField a)) (map creal [q (-1) 2; q 0 1; q 0 1]) &&
      vec_eqb [creal (a_xi_2p a); creal (a_delta a)] [creal (q 9859 1000); creal (q 1 5)]
  | None => false end = true.
Proof.
  split; [apply co_ok|]. split; [apply co_convertible|]. split; [apply no_minus; reflexivity|]. split; [apply no_minus; reflexivity|]. vm_compute. reflexivity.
Qed.
(* wrong command lines *)
Example C80_ex_wrong : unknown_option "--nBath=3x" -> False.
Proof. intros (_ & _ & _ & H & _). apply (H "--nBaths" "s"); [cbn; tauto|reflexivity]. Qed.
Example C80_ex_unknown : unknown_option "--Fdp" /\ parse_args x_int x_float (command_line "a" "b" [("xi_3d", ["x"])]) = None /\ parse_args x_int x_float ["a"; "--T"; "10"; "b"] <> None /\
  (* abbreviations *) parse_args x_int x_float ["a"; "b"; "--nB"; "0"; "20"] <> None /\ parse_args x_int x_float ["a"; "b"; "--n"; "0"] = None /\
  (* an option with several values takes the file names *) parse_args x_int x_float ["--ls"; "1"; "2"; "a"; "b"] = None.
Proof.
  split; [|repeat split; try reflexivity; discriminate]. split; [exists "-Fdp"; split; [reflexivity|discriminate]|]. split; [|split; [|split]].
  - intros [H|[(t & E & _ & H)|(t & u & E & H & _)]].
    + elim (H "-Fdp"). reflexivity.
    + injection E as <-. inversion H as [|c l Hc _]. cbn in Hc. repeat (destruct Hc as [Hc|Hc]; [discriminate Hc|]). destruct Hc.
    + injection E as E. destruct t as [|c t]; [discriminate E|]. injection E as <- _. inversion H as [|c l Hc _]. cbn in Hc. repeat (destruct Hc as [Hc|Hc]; [discriminate Hc|]). destruct Hc.
  - cbn. intros H. repeat (destruct H as [H|H]; [discriminate H|]). destruct H.
  - intros o t Ho. cbn in Ho. cbn [before_eq Ascii.eqb Bool.eqb]. repeat (destruct Ho as [<-|Ho]; [discriminate|]). destruct Ho.
  - intros t. discriminate.
Qed.
(* the setup of the example of C65 *)
Example C80_hamiltonian_ex : exists a : @args QcF, parameters_of a (mkHP (a_Fdd a) [] [] [] (q 1 1) (q 2 1) [(1, 6); (2, 8)]%Z (q 0 1) (q 1 1) (q 2 1) (q 3 1)) /\ a_hField a = [q 1 1; q 2 1; q 3 1].
Proof.
  exists (mkArgs [1; 2]%Z [] [] [6; 8]%Z [] [] [] [q 1 1] [] [] [] (q 1 1) (q 2 1) (q 0 1) [q 1 1; q 2 1; q 3 1] 1 1 (q 0 1) (q 0 1) (q 0 1) (q 0 1) (q 0 1) (q 0 1)).
  split; [|reflexivity]. unfold parameters_of. cbn [a_Fdd a_Fpp a_Fpd a_Gpd a_xi_2p a_xi_3d a_ctc a_hField a_ls a_n0imps hp_Fdd hp_Fpp hp_Fpd hp_Gpd hp_xi_2p hp_xi_3d hp_ctc hp_hx hp_hy hp_hz hp_n0imps].
  repeat (split; [reflexivity|]). intros l. cbn [combine rev app find fst snd dget]. cbn [eqb EqB_Z].
  destruct (Z.eqb_spec 1 l), (Z.eqb_spec 2 l), (Z.eqb_spec l 1), (Z.eqb_spec l 2); try reflexivity; try lia.
Qed.
