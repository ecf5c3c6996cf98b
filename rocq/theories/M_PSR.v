(* Model of impurityModel/ed/product_state_representation.py.
   str is a list of characters, tuple a list of integers, int a Z, bitarray a list of
   booleans, bytes a list of numbers below 256. *)
From Verif Require Import M_Prelude.
Local Open Scope Z_scope.

Definition pystr := list ascii.
Definition pytuple := list Z.
Definition bitarray := list bool.
Definition pybytes := list N.

Definition ch0 : ascii := "0"%char.
Definition ch1 : ascii := "1"%char.

(* the digits in int(s, 2): single underscores are allowed between digits *)
Fixpoint parse_bin (s : pystr) (acc : Z) : res Z :=
  match s with
  | [] => Ok acc
  | c :: s' =>
      if Ascii.eqb c ch0 then parse_bin s' (2 * acc)
      else if Ascii.eqb c ch1 then parse_bin s' (2 * acc + 1)
      else if Ascii.eqb c "_"%char then
        match s' with
        | d :: _ => if Ascii.eqb d ch0 || Ascii.eqb d ch1 then parse_bin s' acc else Err ValueError
        | [] => Err ValueError
        end
      else Err ValueError
  end.
(* white space in int(s, 2): blank, tab, newline, vertical tab, form feed, carriage return *)
Definition is_space (c : ascii) : bool :=
  let k := Ascii.N_of_ascii c in (N.eqb k 32 || (N.leb 9 k && N.leb k 13))%bool.
Fixpoint lstrip (s : pystr) : pystr :=
  match s with c :: s' => if is_space c then lstrip s' else s | [] => [] end.
Definition split_sign (s : pystr) : bool * pystr :=
  match s with
  | c :: s' => if Ascii.eqb c "-"%char then (true, s') else if Ascii.eqb c "+"%char then (false, s') else (false, s)
  | [] => (false, [])
  end.
(* the prefix 0b or 0B, after which one underscore is allowed *)
Definition drop_prefix (s : pystr) : pystr :=
  match s with
  | c :: d :: s' =>
      if Ascii.eqb c ch0 && (Ascii.eqb d "b"%char || Ascii.eqb d "B"%char) then
        match s' with u :: s'' => if Ascii.eqb u "_"%char then s'' else s' | [] => [] end
      else s
  | _ => s
  end.
(* int(s, 2): white space around, a sign, a prefix, digits.
   Simplified: only ASCII strings (Python also knows other digits and spaces). *)
Definition py_int2 (s : pystr) : res Z :=
  let ns := split_sign (rev (lstrip (rev (lstrip s)))) in
  let d := drop_prefix (snd ns) in
  match d with
  | [] => Err ValueError
  | c :: _ => if Ascii.eqb c "_"%char then Err ValueError else do v <- parse_bin d 0; Ok (if fst ns then - v else v)
  end.

(* product_state_representation.py:35-44 *)
Definition str2int (s : pystr) : res Z := py_int2 s.

(* Binary digits of a positive number, most significant first. *)
Fixpoint pos_digits (p : positive) : pystr :=
  match p with
  | xH => [ch1]
  | xO q => pos_digits q ++ [ch0]
  | xI q => pos_digits q ++ [ch1]
  end.

(* Python's bin(i): "0b..." or "-0b...". *)
Definition py_bin (i : Z) : pystr :=
  match i with
  | Z0 => [ch0; "b"%char; ch0]
  | Zpos p => ch0 :: "b"%char :: pos_digits p
  | Zneg p => "-"%char :: ch0 :: "b"%char :: pos_digits p
  end.

(* product_state_representation.py:47-61.  "0" * k is empty for k <= 0. *)
Definition int2str (i : Z) (n : Z) : pystr :=
  let s := skipn 2 (py_bin i) in
  repeat ch0 (Z.to_nat (n - Z.of_nat (length s))) ++ s.

(* product_state_representation.py:64-74 *)
Definition str2tuple (s : pystr) : pytuple :=
  map (fun pc => Z.of_nat (fst pc)) (filter (fun pc => Ascii.eqb (snd pc) ch1) (enumerate s)).

(* product_state_representation.py:77-95 *)
Definition tuple2str (t : pytuple) (n : Z) : pystr :=
  fold_left (fun s i => s ++ [if inb i t then ch1 else ch0]) (zrange n) [].

(* product_state_representation.py:98-110 *)
Definition tuple2int (t : pytuple) (n : Z) : res Z := str2int (tuple2str t n).

(* product_state_representation.py:113-125 *)
Definition int2tuple (i : Z) (n : Z) : pytuple := str2tuple (int2str i n).

(* bitarray(s) for a string: only the characters 0 and 1 are accepted.
   Simplified: newer bitarray versions also skip white space and underscores. *)
Fixpoint bitarray_of_str (s : pystr) : res bitarray :=
  match s with
  | [] => Ok []
  | c :: s' =>
      if Ascii.eqb c ch0 then do b <- bitarray_of_str s'; Ok (false :: b)
      else if Ascii.eqb c ch1 then do b <- bitarray_of_str s'; Ok (true :: b)
      else Err ValueError
  end.

(* bits.to01() *)
Definition to01 (b : bitarray) : pystr := map (fun x : bool => if x then ch1 else ch0) b.

(* Big-endian packing of (at most) 8 bits into one byte; missing bits are zero. *)
Definition byte_of_bits (b : bitarray) : N :=
  fold_left (fun acc k => (2 * acc + if nth k b false then 1 else 0)%N) (seq 0 8) 0%N.

(* bits.tobytes() for the default (big-endian) bitarray; structural on the length. *)
Fixpoint tobytes_len (len : nat) (b : bitarray) : pybytes :=
  match len with
  | O => []
  | S len' => match b with
              | [] => []
              | _ => byte_of_bits b :: tobytes_len len' (skipn 8 b)
              end
  end.
Definition tobytes (b : bitarray) : pybytes := tobytes_len (length b) b.

(* The 8 bits of one byte, most significant first. *)
Definition bits_of_byte (x : N) : bitarray :=
  map (fun k => N.testbit x (N.of_nat (7 - k))) (seq 0 8).

(* product_state_representation.py:131-141 *)
Definition bitarray2bytes (b : bitarray) : pybytes := tobytes b.

(* product_state_representation.py:144-161 *)
Definition bytes2bitarray (x : pybytes) (n : Z) : bitarray :=
  py_take (flat_map bits_of_byte x) n.

(* product_state_representation.py:164-176 *)
Definition int2bitarray (i : Z) (n : Z) : res bitarray := bitarray_of_str (int2str i n).

(* product_state_representation.py:179-189 *)
Definition bitarray2int (b : bitarray) : res Z := str2int (to01 b).

(* product_state_representation.py:192-202 *)
Definition bitarray2str (b : bitarray) : pystr := to01 b.

(* product_state_representation.py:205-215 *)
Definition str2bitarray (s : pystr) : res bitarray := bitarray_of_str s.

(* product_state_representation.py:218-230 *)
Definition tuple2bitarray (t : pytuple) (n : Z) : res bitarray := bitarray_of_str (tuple2str t n).

(* product_state_representation.py:233-243 *)
Definition bitarray2tuple (b : bitarray) : pytuple := str2tuple (bitarray2str b).

(* product_state_representation.py:246-258 *)
Definition tuple2bytes (t : pytuple) (n : Z) : res pybytes :=
  do b <- tuple2bitarray t n; Ok (tobytes b).

(* product_state_representation.py:261-273 *)
Definition bytes2tuple (x : pybytes) (n : Z) : pytuple := bitarray2tuple (bytes2bitarray x n).

(* product_state_representation.py:276-286 *)
Definition str2bytes (s : pystr) : res pybytes :=
  do b <- str2bitarray s; Ok (bitarray2bytes b).

(* product_state_representation.py:289-301 *)
Definition bytes2str (x : pybytes) (n : Z) : pystr := bitarray2str (bytes2bitarray x n).

(* product_state_representation.py:304-316 *)
Definition int2bytes (i : Z) (n : Z) : res pybytes :=
  do b <- int2bitarray i n; Ok (bitarray2bytes b).

(* product_state_representation.py:319-331 *)
Definition bytes2int (x : pybytes) (n : Z) : res Z := bitarray2int (bytes2bitarray x n).

(* x < y for bytes objects: lexicographic comparison (used by sorted(), finite.py:1749 and 1793). *)
Fixpoint bytes_ltb (x y : pybytes) : bool :=
  match x, y with
  | _, [] => false
  | [], _ :: _ => true
  | a :: x', b :: y' => if (a <? b)%N then true else if (b <? a)%N then false else bytes_ltb x' y'
  end.
