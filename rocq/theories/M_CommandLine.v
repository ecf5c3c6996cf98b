(* The command line of the two programs: get_spectra.py:428-618 and get_spectra_using_CF.py:630-826.
   argparse is modelled as far as the two parsers use it: two positional arguments, options with one value (nargs=None) or with
   one or more values (nargs="+"), abbreviations, --option=value, negative numbers as values, -h.  Simplified: the separator "--" is
   taken as an error; all ways in which argparse ends the program (usage, help) are one result. *)
From Coq Require Import String Ascii.
From Verif Require Import M_Prelude M_Scalar M_Basis M_State M_Operators M_Program.
Local Open Scope string_scope.

(* argparse: '^-\d+$|^-\d*\.\d+$' *)
Definition is_digit (c : ascii) : bool := (48 <=? N_of_ascii c)%N && (N_of_ascii c <=? 57)%N.
Fixpoint all_digits (s : string) : bool := match s with EmptyString => true | String c s' => is_digit c && all_digits s' end.
Fixpoint digits_dot_digits (s : string) : bool :=
  match s with
  | EmptyString => false
  | String c s' => if eqb c "."%char then negb (eqb s' "") && all_digits s' else is_digit c && digits_dot_digits s'
  end.
Definition negative_number (s : string) : bool :=
  match s with String c s' => eqb c "-"%char && ((negb (eqb s' "") && all_digits s') || digits_dot_digits s') | EmptyString => false end.
(* s.split('=', 1) *)
Fixpoint split_eq (s : string) : option (string * string) :=
  match s with
  | EmptyString => None
  | String c s' => if eqb c "="%char then Some ("", s') else match split_eq s' with Some (a, b) => Some (String c a, b) | None => None end
  end.
Fixpoint has_space (s : string) : bool := match s with EmptyString => false | String c s' => eqb c " "%char || has_space s' end.

Section CommandLine.
Context {F : ofield}.
(* int(s) and float(s); None is a ValueError *)
Variable py_int : string -> option Z.
Variable py_float : string -> option F.

Inductive okind := OInt (multi : bool) | OFloat (multi : bool).
Inductive ovalue := VInt (z : Z) | VInts (l : list Z) | VFloat (x : F) | VFloats (l : list F).
Local Open Scope of_scope.
Local Notation d a b := (dec (F := F) a b).
(* get_spectra.py:441-574, get_spectra_using_CF.py:643-776: name, type and nargs, default *)
Definition the_options : list (string * (okind * ovalue)) :=
  [ ("ls", (OInt true, VInts [1; 2]%Z)); ("nBaths", (OInt true, VInts [0; 10]%Z)); ("nValBaths", (OInt true, VInts [0; 10]%Z));
    ("n0imps", (OInt true, VInts [6; 8]%Z)); ("dnTols", (OInt true, VInts [0; 2]%Z)); ("dnValBaths", (OInt true, VInts [0; 2]%Z));
    ("dnConBaths", (OInt true, VInts [0; 0]%Z));
    ("Fdd", (OFloat true, VFloats [d 75 10; 0; d 99 10; 0; d 66 10])); ("Fpp", (OFloat true, VFloats [0; 0; 0]));
    ("Fpd", (OFloat true, VFloats [d 89 10; 0; d 68 10])); ("Gpd", (OFloat true, VFloats [0; fofZ 5; 0; d 28 10]));
    ("xi_2p", (OFloat false, VFloat (d 11629 1000))); ("xi_3d", (OFloat false, VFloat (d 96 1000)));
    ("chargeTransferCorrection", (OFloat false, VFloat (d 15 10))); ("hField", (OFloat true, VFloats [0; 0; d 1 10000]));
    ("nPsiMax", (OInt false, VInt 5)); ("nPrintSlaterWeights", (OInt false, VInt 3)); ("tolPrintOccupation", (OFloat false, VFloat (d 5 10)));
    ("T", (OFloat false, VFloat (fofZ 300))); ("energy_cut", (OFloat false, VFloat (fofZ 10))); ("delta", (OFloat false, VFloat (d 2 10)));
    ("deltaRIXS", (OFloat false, VFloat (d 50 1000))); ("deltaNIXS", (OFloat false, VFloat (d 100 1000))) ].
Definition option_strings : list string := "-h" :: "--help" :: map (fun o => "--" ++ fst o) the_options.

(* argparse _parse_optional: a value, an option with or without =value, or something unknown; None: the program ends *)
Inductive item := Value (s : string) | Option (s : string) (explicit : option string) | Unknown.
Definition with_prefix (s : string) : list string := filter (String.prefix s) option_strings.
(* _get_option_tuples *)
Definition matching (s : string) : list item :=
  if String.prefix "--" s then
    match split_eq s with
    | Some (o, v) => map (fun x => Option x (Some v)) (with_prefix o)
    | None => map (fun x => Option x None) (with_prefix s)
    end
  else if String.prefix "-h" s then [Unknown]          (* -hfoo: ignored explicit argument *)
  else [].
Definition classify (s : string) : option item :=
  if eqb s "--" then None else
  if negb (String.prefix "-" s) then Some (Value s) else
  if existsb (eqb s) option_strings then Some (Option s None) else
  if eqb s "-" then Some (Value s) else
  match (match split_eq s with Some (o, v) => if existsb (eqb o) option_strings then Some (Option o (Some v)) else None | None => None end) with
  | Some i => Some i
  | None =>
    match matching s with
    | _ :: _ :: _ => None                               (* ambiguous option *)
    | [i] => Some i
    | [] => if negative_number s || has_space s then Some (Value s) else Some Unknown
    end
  end.
Fixpoint map_opt {A B} (f : A -> option B) (l : list A) : option (list B) :=
  match l with [] => Some [] | x :: l' => match f x, map_opt f l' with Some y, Some ys => Some (y :: ys) | _, _ => None end end.
(* the values before the first option, and every option with the values that follow it *)
Definition grouped (l : list item) : list string * list (item * list string) :=
  fold_right (fun i acc => match i with Value s => (s :: fst acc, snd acc) | _ => ([], (i, fst acc) :: snd acc) end) ([], []) l.
(* _get_values *)
Definition convert (k : okind) (vs : list string) : option ovalue :=
  match k, vs with
  | OInt false, [v] => option_map VInt (py_int v)
  | OFloat false, [v] => option_map VFloat (py_float v)
  | OInt true, _ :: _ => option_map VInts (map_opt py_int vs)
  | OFloat true, _ :: _ => option_map VFloats (map_opt py_float vs)
  | _, _ => None
  end.
Definition multi (k : okind) : bool := match k with OInt m => m | OFloat m => m end.
Definition namespace := dict string ovalue.
Definition defaults : namespace := map (fun o => (fst o, snd (snd o))) the_options.
(* consume_optional: the new namespace and the values that are left for the positional arguments *)
Definition consume (ns : namespace) (g : item * list string) : option (namespace * list string) :=
  match g with
  | (Option o ex, vs) =>
    match find (fun t => eqb o ("--" ++ fst t)) the_options with
    | None => None                                       (* help *)
    | Some (name, (k, _)) =>
      let '(mine, rest) := match ex with Some v => ([v], vs) | None => if multi k then (vs, []) else (firstn 1 vs, skipn 1 vs) end in
      match convert k mine with Some x => Some (dset ns name x, rest) | None => None end
    end
  | _ => None                                            (* unrecognized arguments *)
  end.
Fixpoint consume_all (ns : namespace) (gs : list (item * list string)) : option (namespace * list string) :=
  match gs with
  | [] => Some (ns, [])
  | g :: gs' => match consume ns g with
                | Some (ns', rest) => match consume_all ns' gs' with Some (ns'', rest') => Some (ns'', (rest ++ rest')%list) | None => None end
                | None => None end
  end.
Definition get_int (ns : namespace) (k : string) : Z := match dget ns k with Some (VInt z) => z | _ => 0%Z end.
Definition get_ints (ns : namespace) (k : string) : list Z := match dget ns k with Some (VInts l) => l | _ => [] end.
Definition get_float (ns : namespace) (k : string) : F := match dget ns k with Some (VFloat x) => x | _ => 0 end.
Definition get_floats (ns : namespace) (k : string) : list F := match dget ns k with Some (VFloats l) => l | _ => [] end.
(* the arguments of main, get_spectra.py:592-618 and get_spectra_using_CF.py:800-826.  The getters have the type of the option;
   an attribute that does not exist would be an AttributeError, which does not occur. *)
Definition main_args (ns : namespace) : @args F :=
  mkArgs (get_ints ns "ls") (get_ints ns "nBaths") (get_ints ns "nValBaths") (get_ints ns "n0imps") (get_ints ns "dnTols")
    (get_ints ns "dnValBaths") (get_ints ns "dnConBaths")
    (get_floats ns "Fdd") (get_floats ns "Fpp") (get_floats ns "Fpd") (get_floats ns "Gpd") (get_float ns "xi_2p") (get_float ns "xi_3d")
    (get_float ns "chargeTransferCorrection") (get_floats ns "hField") (get_int ns "nPsiMax") (get_int ns "nPrintSlaterWeights")
    (get_float ns "tolPrintOccupation") (get_float ns "T") (get_float ns "energy_cut") (get_float ns "delta") (get_float ns "deltaRIXS")
    (get_float ns "deltaNIXS").
(* parser.parse_args(): the two file names and the arguments, None if argparse ends the program *)
Definition parse_args (argv : list string) : option (string * string * @args F) :=
  match map_opt classify argv with
  | None => None
  | Some items =>
    let '(vs, gs) := grouped items in
    match consume_all defaults gs with
    | Some (ns, rest) => match (vs ++ rest)%list with [h0; radial] => Some (h0, radial, main_args ns) | _ => None end
    | None => None
    end
  end.
End CommandLine.

(* The programs.  The contents of the files are given; None: argparse ends the program on all ranks. *)
Section Programs.
Context {F : ofield}.
Variable py_int : string -> option Z.
Variable py_float : string -> option F.
(* get_spectra.py:426-618 *)
Definition get_spectra (ranks : nat) (main_h0 : sop_t F -> @args F -> list (F * F) -> outcome F)
  (pickles : string -> sop_t F) (tables : string -> list (F * F)) (argv : list string) : option (outcome F) :=
  match parse_args py_int py_float argv with
  | Some (h0, radial, a) => Some (script ranks (sanity_checks a) (main_h0 (pickles h0) a (tables radial)))
  | None => None
  end.
(* get_spectra_using_CF.py:630-826 *)
Definition get_spectra_using_CF (ranks : nat) (main_CF : dict string F -> @args F -> list (F * F) -> outcome F)
  (jsons : string -> dict string F) (tables : string -> list (F * F)) (argv : list string) : option (outcome F) :=
  match parse_args py_int py_float argv with
  | Some (h0, radial, a) => Some (script ranks (sanity_checks_CF a) (main_CF (jsons h0) a (tables radial)))
  | None => None
  end.
End Programs.
