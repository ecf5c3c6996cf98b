(* Model of impurityModel/ed/create.py and impurityModel/ed/remove.py.
   Amplitudes are the Python integers -1, 0, 1. *)
From Verif Require Import M_Prelude M_PSR.
Local Open Scope Z_scope.

(* bisect.bisect_left(a, x) of the standard library: binary search, lo and hi bounds. *)
Fixpoint bisect_left_loop (fuel : nat) (a : pytuple) (x : Z) (lo hi : nat) : res nat :=
  if Nat.ltb lo hi then
    match fuel with
    | O => Err OutOfFuel
    | S fuel' =>
        let mid := Nat.div (lo + hi) 2 in
        match nth_error a mid with
        | None => Err IndexError
        | Some v => if v <? x then bisect_left_loop fuel' a x (S mid) hi
                    else bisect_left_loop fuel' a x lo mid
        end
    end
  else Ok lo.
Definition bisect_left (a : pytuple) (x : Z) : res nat :=
  bisect_left_loop (length a) a x 0 (length a).

(* remove.py:17-25 *)
Definition binary_search (a : pytuple) (x : Z) : res Z :=
  do i <- bisect_left a x;
  Ok (match nth_error a i with
      | Some v => if v =? x then Z.of_nat i else -1
      | None => -1
      end).

(* create.py:17-26 *)
Definition binary_search_bigger (a : pytuple) (x : Z) : res Z :=
  do i <- bisect_left a x;
  Ok (match nth_error a i with
      | Some v => if v =? x then -1 else Z.of_nat i
      | None => Z.of_nat i
      end).

(* "1 if k % 2 == 0 else -1", used by all create/remove functions *)
Definition sign_of_count (k : Z) : Z := if k mod 2 =? 0 then 1 else -1.

(* remove.py:28-54 *)
Definition remove_utuple (i : Z) (state : pytuple) : res (pytuple * Z) :=
  do j <- binary_search state i;
  if negb (j =? -1) then
    Ok (py_take state j ++ py_drop state (j + 1), sign_of_count j)
  else Ok ([], 0).

(* create.py:29-55 *)
Definition create_utuple (i : Z) (state : pytuple) : res (pytuple * Z) :=
  do j <- binary_search_bigger state i;
  if negb (j =? -1) then
    Ok (py_take state j ++ [i] ++ py_drop state j, sign_of_count j)
  else Ok ([], 0).

(* int.bit_count(): number of ones of the absolute value *)
Fixpoint pos_bit_count (p : positive) : Z :=
  match p with xH => 1 | xO q => pos_bit_count q | xI q => 1 + pos_bit_count q end.
Definition bit_count (z : Z) : Z :=
  match z with Z0 => 0 | Zpos p => pos_bit_count p | Zneg p => pos_bit_count p end.

(* 1 << k and x >> k raise ValueError for a negative shift *)
Definition py_shl1 (k : Z) : res Z := if k <? 0 then Err ValueError else Ok (Z.shiftl 1 k).
Definition py_shr (x k : Z) : res Z := if k <? 0 then Err ValueError else Ok (Z.shiftr x k).

(* remove.py:57-92 *)
Definition remove_uint (n i state : Z) : res (Z * Z) :=
  let i_right := n - 1 - i in
  do m <- py_shl1 i_right;
  if negb (Z.land state m =? 0) then
    do m' <- py_shl1 i_right;
    let state_new := Z.land state (Z.lnot m') in
    do tmp <- py_shr state (i_right + 1);
    Ok (state_new, sign_of_count (bit_count tmp))
  else Ok (-1, 0).

(* create.py:58-92 *)
Definition create_uint (n i state : Z) : res (Z * Z) :=
  let i_right := n - 1 - i in
  do m <- py_shl1 i_right;
  if negb (Z.land state m =? 0) then Ok (-1, 0)
  else
    do m' <- py_shl1 i_right;
    let state_new := Z.lor state m' in
    do tmp <- py_shr state (i_right + 1);
    Ok (state_new, sign_of_count (bit_count tmp)).

(* s.count("1") and bits.count() *)
Definition str_count1 (s : pystr) : Z := Z.of_nat (length (filter (fun c => Ascii.eqb c ch1) s)).
Definition bits_count (b : bitarray) : Z := Z.of_nat (length (filter (fun x : bool => x) b)).

(* remove.py:95-121 *)
Definition remove_ustr (i : Z) (state : pystr) : res (pystr * Z) :=
  do c <- py_nth state i;
  if Ascii.eqb c ch0 then Ok ([], 0)
  else if Ascii.eqb c ch1 then
    Ok (py_take state i ++ [ch0] ++ py_drop state (i + 1),
        sign_of_count (str_count1 (py_take state i)))
  else Err GenericException.

(* create.py:95-121 *)
Definition create_ustr (i : Z) (state : pystr) : res (pystr * Z) :=
  do c <- py_nth state i;
  if Ascii.eqb c ch1 then Ok ([], 0)
  else if Ascii.eqb c ch0 then
    Ok (py_take state i ++ [ch1] ++ py_drop state (i + 1),
        sign_of_count (str_count1 (py_take state i)))
  else Err GenericException.

(* remove.py:124-147.  The bitarray is mutated in place: the model returns the bitarray
   after the call together with the amplitude. *)
Definition remove_ubitarray (i : Z) (state : bitarray) : res (bitarray * Z) :=
  do b <- py_nth state i;
  if b : bool then
    do state' <- py_set state i false;
    Ok (state', sign_of_count (bits_count (py_take state' i)))
  else Ok (state, 0).

(* create.py:124-148 *)
Definition create_ubitarray (i : Z) (state : bitarray) : res (bitarray * Z) :=
  do b <- py_nth state i;
  if b : bool then Ok (state, 0)
  else
    do state' <- py_set state i true;
    Ok (state', sign_of_count (bits_count (py_take state' i))).

(* remove.py:150-177 *)
Definition remove_ubytes (n i : Z) (state : pybytes) : res (pybytes * Z) :=
  let bits := bytes2bitarray state n in
  do (bits', amp) <- remove_ubitarray i bits;
  Ok (bitarray2bytes bits', amp).

(* create.py:151-179 *)
Definition create_ubytes (n i : Z) (state : pybytes) : res (pybytes * Z) :=
  let bits := bytes2bitarray state n in
  do (bits', amp) <- create_ubitarray i bits;
  Ok (bitarray2bytes bits', amp).
