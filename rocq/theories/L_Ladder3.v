(* create and remove with an orbital index outside the system. *)
From Coq Require Import Sorted.
From Verif Require Import M_Prelude M_PSR M_Ladder S_Occ S_Routes S_Ladder L_PSR L_PSR2 L_Ladder L_Ladder2.
Local Open Scope Z_scope.

Lemma py_index_low len i : i < - Z.of_nat len -> py_index len i = None.
Proof.
  intros H. unfold py_index. destruct (Z.leb_spec 0 i); [lia|]. destruct (Z.leb_spec (- Z.of_nat len) i); [lia|]. reflexivity.
Qed.
Lemma py_index_wrap len i : - Z.of_nat len <= i < 0 -> py_index len i = py_index len (i + Z.of_nat len).
Proof.
  intros H. unfold py_index. destruct (Z.leb_spec 0 i); [lia|]. destruct (Z.leb_spec (- Z.of_nat len) i); [|lia]. destruct (Z.ltb_spec i 0); [|lia].
  destruct (Z.leb_spec 0 (i + Z.of_nat len)); [|lia]. destruct (Z.ltb_spec (i + Z.of_nat len) (Z.of_nat len)); [|lia]. reflexivity.
Qed.
Lemma py_bound_wrap len i : - Z.of_nat len <= i < 0 -> py_bound len i = py_bound len (i + Z.of_nat len).
Proof.
  intros H. unfold py_bound. destruct (Z.ltb_spec i 0); [|lia]. destruct (Z.ltb_spec (i + Z.of_nat len) 0); [lia|]. rewrite Nat.min_l by lia. reflexivity.
Qed.
(* the exception of each representation *)
Definition outside_exception (k : kind) : exc := match k with KInt => ValueError | _ => IndexError end.
Lemma bytes_back n f : bytes2bitarray (tobytes (obits n f)) (Z.of_nat n) = obits n f.
Proof. rewrite <- (obits_length n f) at 2. apply bytes2bitarray_tobytes. Qed.
Lemma ladder_too_high k n f i v : k <> KTuple -> rep k n f v -> Z.of_nat n <= i ->
  create_any (Z.of_nat n) i v = Err (outside_exception k) /\ remove_any (Z.of_nat n) i v = Err (outside_exception k).
Proof.
  intros Hk H Hi. destruct k, v; simpl in H; try tauto; try congruence; cbn [create_any remove_any outside_exception].
  - apply rep_str_iff in H. subst s. unfold create_ustr, remove_ustr, py_nth. rewrite to01_length, obits_length, py_index_high by auto. auto.
  - unfold create_uint, remove_uint, py_shl1. destruct (Z.ltb_spec (Z.of_nat n - 1 - i) 0); [|lia]. auto.
  - apply rep_bits_iff in H. subst b. unfold create_ubitarray, remove_ubitarray, py_nth. rewrite obits_length, py_index_high by auto. auto.
  - apply rep_bytes_iff in H. subst x. unfold create_ubytes, remove_ubytes. rewrite bytes_back. unfold create_ubitarray, remove_ubitarray, py_nth. rewrite obits_length, py_index_high by auto. auto.
Qed.
Lemma ladder_too_low k n f i v : k <> KTuple -> k <> KInt -> rep k n f v -> i < - Z.of_nat n ->
  create_any (Z.of_nat n) i v = Err IndexError /\ remove_any (Z.of_nat n) i v = Err IndexError.
Proof.
  intros Hk Hk' H Hi. destruct k, v; simpl in H; try tauto; try congruence; cbn [create_any remove_any].
  - apply rep_str_iff in H. subst s. unfold create_ustr, remove_ustr, py_nth. rewrite to01_length, obits_length, py_index_low by auto. auto.
  - apply rep_bits_iff in H. subst b. unfold create_ubitarray, remove_ubitarray, py_nth. rewrite obits_length, py_index_low by auto. auto.
  - apply rep_bytes_iff in H. subst x. unfold create_ubytes, remove_ubytes. rewrite bytes_back. unfold create_ubitarray, remove_ubitarray, py_nth. rewrite obits_length, py_index_low by auto. auto.
Qed.
Lemma bits_wrap (b : bitarray) i : - Z.of_nat (length b) <= i < 0 -> create_ubitarray i b = create_ubitarray (i + Z.of_nat (length b)) b /\ remove_ubitarray i b = remove_ubitarray (i + Z.of_nat (length b)) b.
Proof.
  intros H. unfold create_ubitarray, remove_ubitarray, py_nth, py_set. rewrite (py_index_wrap (length b) i H).
  assert (L : forall k x, length (set_nth b k x) = length b).
  { clear. intros k x. revert k. induction b as [|a b IH]; intros [|k]; cbn [set_nth length]; auto. }
  destruct (py_index (length b) (i + Z.of_nat (length b))) as [k|]; [|split; reflexivity]. destruct (nth_error b k) as [[]|]; cbn [bind]; split; try reflexivity; unfold py_take; rewrite L, (py_bound_wrap (length b) i H); reflexivity.
Qed.
Lemma ladder_wraps k n f i v : k <> KTuple -> k <> KInt -> rep k n f v -> - Z.of_nat n <= i < 0 -> (k = KStr -> i < -1) ->
  create_any (Z.of_nat n) i v = create_any (Z.of_nat n) (i + Z.of_nat n) v /\ remove_any (Z.of_nat n) i v = remove_any (Z.of_nat n) (i + Z.of_nat n) v.
Proof.
  intros Hk Hk' H Hi Hs. destruct k, v; simpl in H; try tauto; try congruence; cbn [create_any remove_any].
  - apply rep_str_iff in H. subst s. specialize (Hs eq_refl). unfold create_ustr, remove_ustr, py_nth, py_take, py_drop. rewrite to01_length, obits_length.
    rewrite (py_index_wrap n i Hi), (py_bound_wrap n i Hi), (py_bound_wrap n (i + 1)) by lia. replace (i + 1 + Z.of_nat n) with (i + Z.of_nat n + 1) by lia. auto.
  - apply rep_bits_iff in H. subst b. destruct (bits_wrap (obits n f) i) as [E1 E2]; [rewrite obits_length; auto|]. rewrite obits_length in E1, E2. rewrite E1, E2. auto.
  - apply rep_bytes_iff in H. subst x. unfold create_ubytes, remove_ubytes. rewrite bytes_back. destruct (bits_wrap (obits n f) i) as [E1 E2]; [rewrite obits_length; auto|]. rewrite obits_length in E1, E2. rewrite E1, E2. auto.
Qed.
Lemma land_high s r : 0 <= s < 2 ^ r -> 0 <= r -> Z.land s (2 ^ r) = 0.
Proof.
  intros Hs Hr. apply Z.bits_inj'. intros m Hm. rewrite Z.land_spec, Z.pow2_bits_eqb, Z.bits_0 by auto. destruct (Z.eqb_spec r m) as [<-|]; [|apply andb_false_r].
  rewrite andb_true_r. destruct (Z.eq_dec s 0) as [->|Hn]; [apply Z.bits_0|]. apply Z.bits_above_log2; [lia|]. apply Z.log2_lt_pow2; lia.
Qed.
Lemma int_negative n f i s : rep_int n f s -> i < 0 -> create_uint (Z.of_nat n) i s = Ok (s + 2 ^ (Z.of_nat n - 1 - i), 1) /\ remove_uint (Z.of_nat n) i s = Ok (-1, 0).
Proof.
  intros H Hi. apply rep_int_iff in H. pose proof (bval_bound (obits n f)) as B. rewrite obits_length in B. rewrite <- H in B. clear H.
  set (r := Z.of_nat n - 1 - i). assert (Hr : Z.of_nat n <= r) by (unfold r; lia). assert (Hs : 0 <= s < 2 ^ r) by (split; [lia|]; eapply Z.lt_le_trans; [apply B|]; apply Z.pow_le_mono_r; lia).
  unfold create_uint, remove_uint. fold r. unfold py_shl1, py_shr. destruct (Z.ltb_spec r 0); [lia|]. destruct (Z.ltb_spec (r + 1) 0); [lia|]. cbn [bind]. rewrite !Z.shiftl_1_l, land_high by lia. cbn [Z.eqb negb].
  split; [|reflexivity]. rewrite Z.shiftr_div_pow2 by lia. rewrite Z.div_small by (rewrite Z.pow_add_r by lia; lia). unfold sign_of_count, bit_count. cbn. f_equal. f_equal.
  rewrite Z.add_nocarry_lxor by (apply land_high; lia). apply Z.bits_inj'. intros m Hm. rewrite Z.lor_spec, Z.lxor_spec.
  pose proof (f_equal (fun z => Z.testbit z m) (land_high s r Hs ltac:(lia))) as E. cbv beta in E. rewrite Z.land_spec, Z.bits_0 in E. destruct (Z.testbit s m), (Z.testbit (2 ^ r) m); auto; discriminate.
Qed.
Lemma tuple_outside n f i t : rep_tuple n f t -> (i < 0 -> create_utuple i t = Ok (i :: t, 1)) /\ (Z.of_nat n <= i -> create_utuple i t = Ok (t ++ [i], sign_of_count (Z.of_nat (length t)))) /\
  (i < 0 \/ Z.of_nat n <= i -> remove_utuple i t = Ok ([], 0)).
Proof.
  intros H. destruct H as [Hs Hi]. assert (HB : forall x, In x t -> 0 <= x < Z.of_nat n) by (intros x Hx; apply Hi in Hx as (k & Hk & -> & _); lia).
  destruct (bisect_left_correct t i Hs) as (j & Ej & Lj & H1 & H2).
  assert (N : forall p u, nth_error t p = Some u -> In u t) by (intros; eapply nth_error_In; eauto).
  assert (Lo : i < 0 -> j = 0%nat).
  { intros Hn. destruct j as [|j]; [auto|]. exfalso. destruct (nth_error t 0) as [u|] eqn:E; [|apply nth_error_None in E; lia]. specialize (H1 0%nat u ltac:(lia) E). specialize (HB u (N _ _ E)). lia. }
  assert (Hg : Z.of_nat n <= i -> j = length t).
  { intros Hn. destruct (Nat.lt_ge_cases j (length t)) as [L|]; [|lia]. exfalso. destruct (nth_error t j) as [u|] eqn:E; [|apply nth_error_None in E; lia]. specialize (H2 j u ltac:(lia) E). specialize (HB u (N _ _ E)). lia. }
  assert (NE : i < 0 \/ Z.of_nat n <= i -> forall u, nth_error t j = Some u -> (u =? i) = false).
  { intros Ho u E. specialize (HB u (N _ _ E)). apply Z.eqb_neq. lia. }
  unfold create_utuple, remove_utuple, binary_search, binary_search_bigger. rewrite Ej. cbn [bind].
  split; [|split].
  - intros Hn. rewrite (Lo Hn) in *. destruct (nth_error t 0) as [u|] eqn:E; [rewrite (NE (or_introl Hn) u eq_refl)|]; cbn; reflexivity.
  - intros Hn. specialize (Hg Hn). rewrite Hg in *. destruct (nth_error t (length t)) as [u|] eqn:E; [rewrite (NE (or_intror Hn) u eq_refl)|];
      (destruct (Z.eqb_spec (Z.of_nat (length t)) (-1)); [lia|]); cbn [negb]; unfold py_take, py_drop, py_bound; (destruct (Z.ltb_spec (Z.of_nat (length t)) 0); [lia|]); rewrite Nat.min_l, Nat2Z.id, firstn_all, skipn_all by lia; reflexivity.
  - intros Ho. destruct (nth_error t j) as [u|] eqn:E; [rewrite (NE Ho u eq_refl)|]; reflexivity.
Qed.
Lemma str_last n f s w a : (0 < n)%nat -> rep_str n f s -> create_ustr (-1) s = Ok (w, a) -> a <> 0 -> length w = (2 * n)%nat.
Proof.
  intros Hn H. apply rep_str_iff in H. assert (L : length s = n) by (subst s; rewrite to01_length, obits_length; auto). unfold create_ustr. destruct (py_nth s (-1)) as [c|]; [|discriminate]. cbn [bind].
  destruct (Ascii.eqb c ch1); [intros E; injection E as <- <-; congruence|]. destruct (Ascii.eqb c ch0); [|discriminate]. intros E _. injection E as <- _.
  assert (B1 : py_bound n (-1) = (n - 1)%nat) by (unfold py_bound; destruct (Z.ltb_spec (-1) 0); lia). assert (B2 : py_bound n 0 = 0%nat) by reflexivity.
  unfold py_take, py_drop. change (-1 + 1) with 0 in *. rewrite L, B1, B2. rewrite !app_length, firstn_length. cbn [skipn length app]. rewrite ?app_length, L. cbn [length]. lia.
Qed.
