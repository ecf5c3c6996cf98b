(* Properties of create and remove with an orbital index outside the system: C94. *)
From Verif Require Import M_Prelude M_PSR M_Ladder S_Occ S_Routes S_Ladder L_PSR L_PSR2 L_Ladder L_Ladder2 L_Ladder3.
Local Open Scope Z_scope.

(* ---- C94: an orbital index outside the system is rejected ---- *)
(* An index that is too high is rejected, except by the functions for tuples, which do not know the number of orbitals. *)
Theorem C94_too_high_partial : forall k n f i v, k <> KTuple -> rep k n f v -> Z.of_nat n <= i ->
  create_any (Z.of_nat n) i v = Err (match k with KInt => ValueError | _ => IndexError end) /\ remove_any (Z.of_nat n) i v = Err (match k with KInt => ValueError | _ => IndexError end).
Proof. exact ladder_too_high. Qed.
Theorem C94_too_low : forall k n f i v, k <> KTuple -> k <> KInt -> rep k n f v -> i < - Z.of_nat n -> create_any (Z.of_nat n) i v = Err IndexError /\ remove_any (Z.of_nat n) i v = Err IndexError.
Proof. exact ladder_too_low. Qed.
(* An index from -n to -1 counts from the end in strings, bit arrays and bytes, ... *)
Theorem C94_wraps : forall k n f i v, k <> KTuple -> k <> KInt -> rep k n f v -> - Z.of_nat n <= i < 0 -> (k = KStr -> i < -1) ->
  create_any (Z.of_nat n) i v = create_any (Z.of_nat n) (i + Z.of_nat n) v /\ remove_any (Z.of_nat n) i v = remove_any (Z.of_nat n) (i + Z.of_nat n) v.
Proof. exact ladder_wraps. Qed.
(* ... except -1 in a string, where the new string has twice the length. *)
Theorem C94_string_last : forall n f s w a, (0 < n)%nat -> rep_str n f s -> create_ustr (-1) s = Ok (w, a) -> a <> 0 -> length w = (2 * n)%nat.
Proof. exact str_last. Qed.
(* In an integer a negative index occupies a bit beyond the system. *)
Theorem C94_int_negative : forall n f i s, rep_int n f s -> i < 0 -> create_uint (Z.of_nat n) i s = Ok (s + 2 ^ (Z.of_nat n - 1 - i), 1) /\ remove_uint (Z.of_nat n) i s = Ok (-1, 0).
Proof. exact int_negative. Qed.
Theorem C94_tuple : forall n f i t, rep_tuple n f t -> (i < 0 -> create_utuple i t = Ok (i :: t, 1)) /\ (Z.of_nat n <= i -> create_utuple i t = Ok (t ++ [i], sign_of_count (Z.of_nat (length t)))) /\
  (i < 0 \/ Z.of_nat n <= i -> remove_utuple i t = Ok ([], 0)).
Proof. exact tuple_outside. Qed.
(* So the index is not always rejected, and the five representations do not agree: orbital -1 of one empty orbital. *)
Lemma none_bits : rep KBits 1 (fun _ => false) (VBits [false]).
Proof. apply rep_bits_iff. reflexivity. Qed.
Lemma none_int : rep KInt 1 (fun _ => false) (VInt 0).
Proof. apply rep_int_iff. reflexivity. Qed.
Theorem C94_rejected_refuted : exists k n f i v w a, rep k n f v /\ (i < 0 \/ Z.of_nat n <= i) /\ create_any (Z.of_nat n) i v = Ok (w, a) /\ a <> 0 /\ forall g, ~ rep k n g w.
Proof.
  exists KInt, 1%nat, (fun _ => false), (-1), (VInt 0), (VInt 2), 1. split; [exact none_int|]. split; [lia|]. split; [reflexivity|]. split; [lia|].
  intros g H. apply rep_int_iff in H. pose proof (bval_bound (obits 1 g)) as B. rewrite <- H, obits_length in B. cbn in B. lia.
Qed.
Theorem C94_agree_refuted : exists k k' n f i v v' w w' a a', rep k n f v /\ rep k' n f v' /\ create_any (Z.of_nat n) i v = Ok (w, a) /\ create_any (Z.of_nat n) i v' = Ok (w', a') /\
  a <> 0 /\ a' <> 0 /\ (exists g, rep k n g w) /\ ~ exists g, rep k' n g w'.
Proof.
  exists KBits, KInt, 1%nat, (fun _ => false), (-1), (VBits [false]), (VInt 0), (VBits [true]), (VInt 2), 1, 1. split; [exact none_bits|]. split; [exact none_int|]. split; [reflexivity|]. split; [reflexivity|]. split; [lia|]. split; [lia|].
  split; [exists (fun _ => true); apply rep_bits_iff; reflexivity|]. intros [g H]. apply rep_int_iff in H. pose proof (bval_bound (obits 1 g)) as B. rewrite <- H, obits_length in B. cbn in B. lia.
Qed.
Print Assumptions C94_too_high_partial.
Print Assumptions C94_too_low.
Print Assumptions C94_wraps.
Print Assumptions C94_string_last.
Print Assumptions C94_int_negative.
Print Assumptions C94_tuple.
Print Assumptions C94_rejected_refuted.
Print Assumptions C94_agree_refuted.
(* 0100110 with the orbitals 1, 4, 5 of seven occupied *)
Example C94_ex : let s := ["0"; "1"; "0"; "0"; "1"; "1"; "0"]%char in
  create_ustr (-4) s = create_ustr 3 s /\ create_ustr 3 s = Ok (["0"; "1"; "0"; "1"; "1"; "1"; "0"]%char, -1) /\ create_ustr 7 s = Err IndexError /\ create_ustr (-8) s = Err IndexError /\
  create_ustr (-1) s = Ok (["0"; "1"; "0"; "0"; "1"; "1"; "1"]%char ++ s, -1) /\ create_uint 7 (-1) 38 = Ok (38 + 128, 1) /\ create_uint 7 7 38 = Err ValueError /\
  create_utuple (-1) [1; 4; 5] = Ok ([-1; 1; 4; 5], 1) /\ create_utuple 7 [1; 4; 5] = Ok ([1; 4; 5; 7], -1) /\ remove_utuple 7 [1; 4; 5] = Ok ([], 0).
Proof. vm_compute. repeat split. Qed.
