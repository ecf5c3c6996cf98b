(* Properties C01 - C07: product-state representations, create and remove. *)
From Coq Require Import String.
From Verif Require Import M_Prelude M_PSR M_Ladder S_Occ S_Routes S_Ladder L_PSR L_PSR2 L_Ladder L_Ladder2.
Local Open Scope Z_scope.
Definition S_ := list_ascii_of_string.

(* C01: any route through the converters that ends in the representation it started from
   returns the start value, for every product state of every system with n >= 1. *)
Theorem C01_round_trip : forall n f v k ks, (1 <= n)%nat -> rep k n f v -> last ks k = k ->
  follow (Z.of_nat n) v ks = Ok v.
Proof. exact round_trip. Qed.
Print Assumptions C01_round_trip.
(* every product state has a representation of every kind *)
Theorem C01_representable : forall n f k, exists v, rep k n f v.
Proof. exact rep_exists. Qed.
Print Assumptions C01_representable.
Example C01_example :
  rep KTuple 11 (fun k => inb k [2; 5; 9]%nat) (VTuple [2; 5; 9]) /\
  follow 11 (VTuple [2; 5; 9]) [KBytes; KInt; KStr; KBits; KTuple] = Ok (VTuple [2; 5; 9]).
Proof. split; [apply rep_tuple_iff|]; vm_compute; reflexivity. Qed.

(* C02: every route is defined, two routes with the same end give the same value, and that value
   represents the same occupation. *)
Theorem C02_routes_commute : forall n f v k ks ks', (1 <= n)%nat -> rep k n f v ->
  last ks k = last ks' k ->
  exists w, follow (Z.of_nat n) v ks = Ok w /\ follow (Z.of_nat n) v ks' = Ok w /\ rep (last ks k) n f w.
Proof. exact routes_commute. Qed.
Print Assumptions C02_routes_commute.
Example C02_example :
  follow 7 (VStr (S_ "0010010")) [KBytes] = Ok (VBytes [36%N]) /\
  follow 7 (VStr (S_ "0010010")) [KTuple; KInt; KBytes] = Ok (VBytes [36%N]) /\
  rep KStr 7 (fun k => inb k [2; 5]%nat) (VStr (S_ "0010010")).
Proof. split; [|split; [|apply rep_str_iff]]; vm_compute; reflexivity. Qed.

(* C03: keys are canonical (one per occupation), collision free, and ordered like integers. *)
Theorem C03_bytes_canonical : forall n f x y, rep_bytes n f x -> rep_bytes n f y -> x = y.
Proof. exact (fun n f x y H1 H2 => f_equal (fun v => match v with VBytes z => z | _ => [] end)
         (rep_unique KBytes n f (VBytes x) (VBytes y) H1 H2)). Qed.
Print Assumptions C03_bytes_canonical.
Theorem C03_bytes_injective : forall n f g x, rep_bytes n f x -> rep_bytes n g x -> same_occ n f g.
Proof. exact (fun n f g x => rep_injective KBytes n f g (VBytes x)). Qed.
Print Assumptions C03_bytes_injective.
Theorem C03_bytes_order : forall n f g x y i j,
  rep_bytes n f x -> rep_bytes n g y -> rep_int n f i -> rep_int n g j -> bytes_ltb x y = (i <? j).
Proof. exact bytes_order_rep. Qed.
Print Assumptions C03_bytes_order.
(* what tuple2bytes produces is such a canonical key: right length, zero padding *)
Theorem C03_bytes_produced : forall n f t, rep_tuple n f t ->
  exists x, tuple2bytes t (Z.of_nat n) = Ok x /\ rep_bytes n f x.
Proof.
  exact (fun n f t H => ex_intro _ _ (conj
    (eq_trans (f_equal2 tuple2bytes (proj1 (rep_tuple_iff n f t) H)
                (f_equal Z.of_nat (eq_sym (obits_length n f)))) (c_tuple2bytes (obits n f)))
    (rep_bytes_tobytes n f))).
Qed.
Print Assumptions C03_bytes_produced.
Example C03_example :
  rep_bytes 10 (fun k => inb k [0; 9]%nat) [128; 64]%N /\ rep_bytes 10 (fun k => inb k [0; 8]%nat) [128; 128]%N /\
  rep_int 10 (fun k => inb k [0; 9]%nat) 513 /\ rep_int 10 (fun k => inb k [0; 8]%nat) 514 /\
  bytes_ltb [128; 64]%N [128; 128]%N = true.
Proof. rewrite !rep_bytes_iff, !rep_int_iff. repeat split; vm_compute; reflexivity. Qed.

(* C04: boundary behaviour *)
Theorem C04_tuple_out_of_range_dropped : forall t n,
  rep_str (Z.to_nat n) (fun k => inb (Z.of_nat k) t) (tuple2str t n).
Proof. exact tuple2str_any. Qed.
Print Assumptions C04_tuple_out_of_range_dropped.
Theorem C04_empty_system_int_raises : forall t n, n <= 0 -> tuple2int t n = Err ValueError.
Proof. exact tuple2int_zero. Qed.
Print Assumptions C04_empty_system_int_raises.
Theorem C04_int_str_any_width : forall i n, 0 <= i -> str2int (int2str i n) = Ok i.
Proof. exact str2int_int2str. Qed.
Print Assumptions C04_int_str_any_width.
Theorem C04_int_too_big : forall i n, 0 <= n -> 2 ^ n <= i -> n < Z.of_nat (List.length (int2str i n)).
Proof. exact int2str_too_big. Qed.
Print Assumptions C04_int_too_big.
(* a negative number: rejected, except that with one zero of padding the string reads 0b... and the sign is lost *)
Theorem C04_int_negative : forall i n, i < 0 -> str2int (int2str i n) = if n =? Z.log2 (- i) + 3 then Ok (- i) else Err ValueError.
Proof. exact str2int_int2str_neg. Qed.
Print Assumptions C04_int_negative.
Theorem C04_int_negative_bits : forall i n, i < 0 -> int2bitarray i n = Err ValueError.
Proof. exact int2bitarray_neg. Qed.
Print Assumptions C04_int_negative_bits.
(* other characters than digits, blanks and underscores are rejected *)
Theorem C04_string_rejected : forall s1 c s2, c <> ch0 -> c <> ch1 -> c <> "_"%char -> is_space c = false -> str2bitarray (s1 ++ c :: s2) = Err ValueError.
Proof. exact (fun s1 c s2 H0 H1 _ _ => bitarray_of_bad s1 c s2 H0 H1). Qed.
Print Assumptions C04_string_rejected.
Example C04_example :
  tuple2str [5; 1; 1; 9; -2] 4 = S_ "0100" /\ int2str 0 0 = S_ "0" /\ int2str 9 3 = S_ "1001" /\
  int2str (-2) 3 = S_ "b10" /\ tuple2int [] 0 = Err ValueError /\
  str2int (S_ "0b101") = Ok 5 /\ str2int (S_ " -1_0 ") = Ok (-2) /\ str2int (S_ "0b_1") = Ok 1 /\ str2int (S_ "0B") = Err ValueError /\ str2int (S_ "1__0") = Err ValueError /\ str2int (S_ "_1") = Err ValueError /\
  str2int (S_ "+-1") = Err ValueError /\ str2int (S_ "1 0") = Err ValueError /\ str2int (int2str (-5) 5) = Ok 5 /\ str2int (int2str (-5) 6) = Err ValueError /\ str2bitarray (S_ "0x1") = Err ValueError.
Proof. vm_compute. repeat split. Qed.

(* C05, C06: the five implementations agree with the specification, hence with each other. *)
Theorem C05_create_correct : forall k n f i v, (i < n)%nat -> rep k n f v ->
  exists w amp, create_any (Z.of_nat n) (Z.of_nat i) v = Ok (w, amp) /\ create_answer k n f i w amp.
Proof. exact create_any_correct. Qed.
Print Assumptions C05_create_correct.
Theorem C05_create_agree : forall k k' n f i v v', (i < n)%nat -> rep k n f v -> rep k' n f v' ->
  exists w w' amp,
    create_any (Z.of_nat n) (Z.of_nat i) v = Ok (w, amp) /\
    create_any (Z.of_nat n) (Z.of_nat i) v' = Ok (w', amp) /\
    (amp <> 0 -> exists g, rep k n g w /\ rep k' n g w').
Proof. exact create_any_agree. Qed.
Print Assumptions C05_create_agree.
Theorem C06_remove_correct : forall k n f i v, (i < n)%nat -> rep k n f v ->
  exists w amp, remove_any (Z.of_nat n) (Z.of_nat i) v = Ok (w, amp) /\ remove_answer k n f i w amp.
Proof. exact remove_any_correct. Qed.
Print Assumptions C06_remove_correct.
Theorem C06_remove_agree : forall k k' n f i v v', (i < n)%nat -> rep k n f v -> rep k' n f v' ->
  exists w w' amp,
    remove_any (Z.of_nat n) (Z.of_nat i) v = Ok (w, amp) /\
    remove_any (Z.of_nat n) (Z.of_nat i) v' = Ok (w', amp) /\
    (amp <> 0 -> exists g, rep k n g w /\ rep k' n g w').
Proof. exact remove_any_agree. Qed.
Print Assumptions C06_remove_agree.
Example C05_C06_example :
  rep KInt 7 (fun k => inb k [2; 5]%nat) (VInt 18) /\
  create_any 7 3 (VInt 18) = Ok (VInt 26, -1) /\ create_any 7 3 (VBytes [36%N]) = Ok (VBytes [52%N], -1) /\
  remove_any 7 5 (VTuple [2; 5]) = Ok (VTuple [2], -1) /\ remove_any 7 5 (VStr (S_ "0010010")) = Ok (VStr (S_ "0010000"), -1) /\
  remove_any 7 4 (VBits [false;false;true;false;false;true;false]) =
    Ok (VBits [false;false;true;false;false;true;false], 0).
Proof. split; [apply rep_int_iff|]; vm_compute; repeat split. Qed.

(* C07: Pauli principle and sign are part of create_answer / remove_answer (C05, C06);
   in addition removing what was created restores the state with total sign +1. *)
Theorem C07_remove_after_create : forall k n f i v w amp, (i < n)%nat -> rep k n f v ->
  create_any (Z.of_nat n) (Z.of_nat i) v = Ok (w, amp) -> amp <> 0 ->
  remove_any (Z.of_nat n) (Z.of_nat i) w = Ok (v, amp) /\ amp * amp = 1.
Proof. exact remove_after_create. Qed.
Print Assumptions C07_remove_after_create.
Theorem C07_create_after_remove : forall k n f i v w amp, (i < n)%nat -> rep k n f v ->
  remove_any (Z.of_nat n) (Z.of_nat i) v = Ok (w, amp) -> amp <> 0 ->
  create_any (Z.of_nat n) (Z.of_nat i) w = Ok (v, amp) /\ amp * amp = 1.
Proof. exact create_after_remove. Qed.
Print Assumptions C07_create_after_remove.
(* an orbital index beyond the system raises, except for tuples which carry no size *)
Theorem C07_out_of_range : forall k n f i v, k <> KTuple -> rep k n f v -> Z.of_nat n <= i ->
  is_err (create_any (Z.of_nat n) i v) /\ is_err (remove_any (Z.of_nat n) i v).
Proof. exact ladder_out_of_range. Qed.
Print Assumptions C07_out_of_range.
Example C07_example :
  create_any 7 3 (VBytes [36%N]) = Ok (VBytes [52%N], -1) /\
  remove_any 7 3 (VBytes [52%N]) = Ok (VBytes [36%N], -1) /\
  create_any 7 7 (VBytes [36%N]) = Err IndexError.
Proof. vm_compute. repeat split. Qed.
