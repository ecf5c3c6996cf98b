(* Order of byte keys, edge cases, and routes through the converters. *)
From Verif Require Import M_Prelude M_PSR S_Occ S_Routes L_PSR.
Local Open Scope Z_scope.

(* ---- uniqueness of representations ---- *)
Lemma rep_unique k n f v w : rep k n f v -> rep k n f w -> v = w.
Proof.
  destruct k, v, w; simpl; try tauto; intros H1 H2; f_equal.
  - apply rep_str_iff in H1, H2. congruence.
  - apply rep_tuple_iff in H1, H2. congruence.
  - apply rep_int_iff in H1, H2. congruence.
  - apply rep_bits_iff in H1, H2. congruence.
  - apply rep_bytes_iff in H1, H2. congruence.
Qed.

Lemma btuple_inj b c : length b = length c -> btuple b = btuple c -> b = c.
Proof.
  intros Hl H. apply to01_inj. rewrite <- !tuple2str_btuple. rewrite Hl, H. reflexivity.
Qed.
Lemma tobytes_inj b c : length b = length c -> tobytes b = tobytes c -> b = c.
Proof.
  intros Hl H. rewrite <- (bytes2bitarray_tobytes b), <- (bytes2bitarray_tobytes c). congruence.
Qed.

Lemma rep_injective k n f g v : rep k n f v -> rep k n g v -> same_occ n f g.
Proof.
  intros H1 H2. apply obits_ext.
  assert (Hl : length (obits n f) = length (obits n g)) by (rewrite !obits_length; auto).
  destruct k, v; simpl in *; try tauto.
  - apply rep_str_iff in H1, H2. apply to01_inj. congruence.
  - apply rep_tuple_iff in H1, H2. apply btuple_inj; congruence.
  - apply rep_int_iff in H1, H2. apply bval_inj; congruence.
  - apply rep_bits_iff in H1, H2. congruence.
  - apply rep_bytes_iff in H1, H2. apply tobytes_inj; congruence.
Qed.

Lemma rep_same k n f g v : same_occ n f g -> rep k n f v -> rep k n g v.
Proof.
  intros Hfg. apply obits_ext in Hfg.
  destruct k, v; simpl; try tauto.
  - rewrite !rep_str_iff. congruence.
  - rewrite !rep_tuple_iff. congruence.
  - rewrite !rep_int_iff. congruence.
  - rewrite !rep_bits_iff. congruence.
  - rewrite !rep_bytes_iff. congruence.
Qed.

(* one converter *)
Lemma convert_correct n f v k k' : (1 <= n)%nat -> rep k n f v ->
  exists w, convert (Z.of_nat n) v k' = Ok w /\ rep k' n f w.
Proof.
  intros Hn H.
  set (b := obits n f).
  assert (Hb : b <> []) by (unfold b; intros E; apply (f_equal (@length bool)) in E; rewrite obits_length in E; simpl in E; lia).
  assert (Hz : Z.of_nat n = Z.of_nat (length b)) by (unfold b; rewrite obits_length; auto).
  assert (R1 : rep KStr n f (VStr (to01 b))) by (apply rep_str_iff; auto).
  assert (R2 : rep KTuple n f (VTuple (btuple b))) by (apply rep_tuple_iff; auto).
  assert (R3 : rep KInt n f (VInt (bval b))) by (apply rep_int_iff; auto).
  assert (R4 : rep KBits n f (VBits b)) by (apply rep_bits_iff; auto).
  assert (R5 : rep KBytes n f (VBytes (tobytes b))) by (apply rep_bytes_iff; auto).
  pose proof (c_str2int b Hb) as C1. pose proof (c_int2str b Hb) as C2.
  pose proof (c_str2tuple b) as C3. pose proof (c_tuple2str b) as C4.
  pose proof (c_tuple2int b Hb) as C5. pose proof (c_int2tuple b Hb) as C6.
  pose proof (c_bitarray2bytes b) as C7. pose proof (c_bytes2bitarray b) as C8.
  pose proof (c_int2bitarray b Hb) as C9. pose proof (c_bitarray2int b Hb) as C10.
  pose proof (c_bitarray2str b) as C11. pose proof (c_str2bitarray b) as C12.
  pose proof (c_tuple2bitarray b) as C13. pose proof (c_bitarray2tuple b) as C14.
  pose proof (c_tuple2bytes b) as C15. pose proof (c_bytes2tuple b) as C16.
  pose proof (c_str2bytes b) as C17. pose proof (c_bytes2str b) as C18.
  pose proof (c_int2bytes b Hb) as C19. pose proof (c_bytes2int b Hb) as C20.
  rewrite <- Hz in *.
  destruct k.
  - pose proof (rep_unique _ _ _ _ _ H R1); subst v.
    destruct k'; cbn [convert]; rewrite ?C1, ?C3, ?C12, ?C17; cbn [rmap]; eauto.
  - pose proof (rep_unique _ _ _ _ _ H R2); subst v.
    destruct k'; cbn [convert]; rewrite ?C4, ?C5, ?C13, ?C15; cbn [rmap]; eauto.
  - pose proof (rep_unique _ _ _ _ _ H R3); subst v.
    destruct k'; cbn [convert]; rewrite ?C2, ?C6, ?C9, ?C19; cbn [rmap]; eauto.
  - pose proof (rep_unique _ _ _ _ _ H R4); subst v.
    destruct k'; cbn [convert]; rewrite ?C7, ?C10, ?C11, ?C14; cbn [rmap]; eauto.
  - pose proof (rep_unique _ _ _ _ _ H R5); subst v.
    destruct k'; cbn [convert]; rewrite ?C8, ?C16, ?C18, ?C20; cbn [rmap]; eauto.
Qed.

Lemma last_cons' {A} (l : list A) : forall x a, last (x :: l) a = last l x.
Proof.
  induction l as [|y l IH]; intros x a; [reflexivity|].
  change (last (x :: y :: l) a) with (last (y :: l) a). rewrite !IH. reflexivity.
Qed.

Lemma follow_correct n f ks : forall v k, (1 <= n)%nat -> rep k n f v ->
  exists w, follow (Z.of_nat n) v ks = Ok w /\ rep (last ks k) n f w.
Proof.
  induction ks as [|k' ks IH]; intros v k Hn H.
  - exists v. split; auto.
  - destruct (convert_correct n f v k k' Hn H) as (w & Hw & Rw).
    cbn [follow]. rewrite Hw. cbn [bind].
    destruct (IH w k' Hn Rw) as (u & Hu & Ru). exists u. split; auto.
    rewrite last_cons'. exact Ru.
Qed.

Lemma routes_commute n f v k ks ks' : (1 <= n)%nat -> rep k n f v -> last ks k = last ks' k ->
  exists w, follow (Z.of_nat n) v ks = Ok w /\ follow (Z.of_nat n) v ks' = Ok w /\ rep (last ks k) n f w.
Proof.
  intros Hn H E.
  destruct (follow_correct n f ks v k Hn H) as (w & Hw & Rw).
  destruct (follow_correct n f ks' v k Hn H) as (w' & Hw' & Rw').
  rewrite <- E in Rw'. rewrite (rep_unique _ _ _ _ _ Rw' Rw) in Hw'. eauto.
Qed.

Lemma round_trip n f v k ks : (1 <= n)%nat -> rep k n f v -> last ks k = k ->
  follow (Z.of_nat n) v ks = Ok v.
Proof.
  intros Hn H E. destruct (follow_correct n f ks v k Hn H) as (w & Hw & Rw).
  rewrite E in Rw. rewrite (rep_unique _ _ _ _ _ Rw H) in Hw. exact Hw.
Qed.

(* every occupation has a representation of each kind *)
Lemma rep_exists n f k : exists v, rep k n f v.
Proof.
  destruct k.
  - exists (VStr (to01 (obits n f))). apply rep_str_iff; auto.
  - exists (VTuple (btuple (obits n f))). apply rep_tuple_iff; auto.
  - exists (VInt (bval (obits n f))). apply rep_int_iff; auto.
  - exists (VBits (obits n f)). apply rep_bits_iff; auto.
  - exists (VBytes (tobytes (obits n f))). apply rep_bytes_iff; auto.
Qed.

(* ---- order of keys ---- *)

Lemma byte_of_bits_val b : Z.of_N (byte_of_bits b) = bval (map (fun k => nth k b false) (seq 0 8)).
Proof.
  unfold byte_of_bits. cbn [seq fold_left map].
  repeat match goal with |- context [nth ?k b false] => destruct (nth k b false) end; vm_compute; reflexivity.
Qed.

Lemma bval_app b c : bval (b ++ c) = bval b * 2 ^ Z.of_nat (length c) + bval c.
Proof.
  unfold bval at 1. unfold bval_acc. rewrite fold_left_app.
  fold (bval_acc b 0). fold (bval_acc c (bval_acc b 0)). rewrite bval_acc_eq. reflexivity.
Qed.

Lemma bval_repeat0 k : bval (repeat false k) = 0.
Proof. induction k as [|k IH]; auto. Qed.

Lemma bytes_order b : forall c, length b = length c ->
  bytes_ltb (tobytes b) (tobytes c) = (bval b <? bval c).
Proof.
  pattern b. apply bits_ind8; clear b; [intros c Hl|intros b Hb IH c Hl].
  - destruct c; [reflexivity|discriminate].
  - assert (Hc : c <> []) by (intros ->; destruct b; simpl in Hl; congruence).
    rewrite (tobytes_nonempty b), (tobytes_nonempty c) by auto. cbn [bytes_ltb].
    rewrite (IH (skipn 8 c)) by (rewrite !skipn_length; lia).
    assert (Hcmp : forall u v : N, (u <? v)%N = (Z.of_N u <? Z.of_N v)) by (intros; destruct (N.ltb_spec u v), (Z.ltb_spec (Z.of_N u) (Z.of_N v)); auto; lia).
    rewrite !Hcmp, !byte_of_bits_val.
    destruct (le_lt_dec 8 (length b)) as [H8|H8].
    + rewrite <- !firstn_map_nth by lia.
      pose proof (bval_app (firstn 8 b) (skipn 8 b)) as E1. rewrite firstn_skipn, skipn_length in E1.
      pose proof (bval_app (firstn 8 c) (skipn 8 c)) as E2. rewrite firstn_skipn, skipn_length, <- Hl in E2.
      rewrite E1, E2.
      pose proof (bval_bound (skipn 8 b)) as B1. pose proof (bval_bound (skipn 8 c)) as B2.
      rewrite skipn_length in B1, B2. rewrite <- Hl in B2.
      set (p := 2 ^ Z.of_nat (length b - 8)) in *.
      set (u := bval (firstn 8 b)) in *. set (v := bval (firstn 8 c)) in *.
      destruct (Z.ltb_spec u v) as [Huv|Huv].
      { symmetry. apply Z.ltb_lt. nia. }
      destruct (Z.ltb_spec v u) as [Hvu|Hvu].
      { symmetry. apply Z.ltb_ge. nia. }
      assert (u = v) by lia. subst u.
      destruct (Z.ltb_spec (bval (skipn 8 b)) (bval (skipn 8 c))),
        (Z.ltb_spec (v * p + bval (skipn 8 b)) (v * p + bval (skipn 8 c))); auto; try lia.
    + rewrite !skipn_all2 by lia.
      assert (P : forall x : bitarray, (length x < 8)%nat ->
         map (fun k => nth k x false) (seq 0 8) = x ++ repeat false (8 - length x)).
      { intros x Hx. do 8 (destruct x as [|? x]; [reflexivity|]). simpl in Hx; lia. }
      rewrite !P by lia. rewrite !bval_app, !bval_repeat0, !repeat_length, <- Hl.
      set (p := 2 ^ Z.of_nat (8 - length b)).
      assert (0 < p) by (apply Z.pow_pos_nonneg; lia).
      change (bval []) with 0. rewrite Z.ltb_irrefl.
      destruct (Z.ltb_spec (bval b * p + 0) (bval c * p + 0)), (Z.ltb_spec (bval c * p + 0) (bval b * p + 0)),
        (Z.ltb_spec (bval b) (bval c)); auto; nia.
Qed.

Lemma bytes_order_rep n f g x y i j :
  rep_bytes n f x -> rep_bytes n g y -> rep_int n f i -> rep_int n g j ->
  bytes_ltb x y = (i <? j).
Proof.
  rewrite !rep_bytes_iff, !rep_int_iff. intros -> -> -> ->.
  apply bytes_order. rewrite !obits_length. reflexivity.
Qed.

(* ---- edge cases ---- *)

Lemma tuple2str_any t n : rep_str (Z.to_nat n) (fun k => inb (Z.of_nat k) t) (tuple2str t n).
Proof. apply rep_str_iff. apply tuple2str_eq. Qed.

Lemma tuple2int_zero t n : n <= 0 -> tuple2int t n = Err ValueError.
Proof.
  intros H. unfold tuple2int. rewrite tuple2str_eq. replace (Z.to_nat n) with 0%nat by lia. reflexivity.
Qed.

Lemma str2int_int2str i n : 0 <= i -> str2int (int2str i n) = Ok i.
Proof.
  intros Hi. rewrite int2str_eq by auto. rewrite str2int_to01.
  - rewrite int_bits_val; auto.
  - unfold int_bits. intros E. apply app_eq_nil in E as [_ E]. destruct i as [|p|p]; try discriminate.
    pose proof (pos_bits_val p) as V. rewrite E in V. discriminate.
Qed.

Lemma int2str_too_big i n : 0 <= n -> 2 ^ n <= i -> n < Z.of_nat (length (int2str i n)).
Proof.
  intros Hn Hi. assert (0 < 2 ^ n) by (apply Z.pow_pos_nonneg; lia).
  rewrite int2str_eq, to01_length by lia.
  pose proof (bval_bound (int_bits i n)) as B. rewrite int_bits_val in B by lia.
  apply (Z.pow_lt_mono_r_iff 2); lia.
Qed.

Lemma parse_bin_bad s1 c s2 acc : c <> ch0 -> c <> ch1 -> c <> "_"%char -> parse_bin (s1 ++ c :: s2) acc = Err ValueError.
Proof.
  intros H0 H1 H2. revert acc. induction s1 as [|d s1 IH]; intros acc; cbn [app parse_bin].
  - destruct (Ascii.eqb_spec c ch0); [congruence|]. destruct (Ascii.eqb_spec c ch1); [congruence|]. destruct (Ascii.eqb_spec c "_"%char); [congruence|]. reflexivity.
  - destruct (Ascii.eqb d ch0); auto. destruct (Ascii.eqb d ch1); auto. destruct (Ascii.eqb d "_"%char); auto.
    destruct (s1 ++ c :: s2) as [|e r]; auto. destruct (_ || _)%bool; auto.
Qed.
Lemma bitarray_of_bad s1 c s2 : c <> ch0 -> c <> ch1 -> bitarray_of_str (s1 ++ c :: s2) = Err ValueError.
Proof.
  intros H0 H1. induction s1 as [|d s1 IH]; cbn [app bitarray_of_str].
  - destruct (Ascii.eqb_spec c ch0); [congruence|]. destruct (Ascii.eqb_spec c ch1); [congruence|]. reflexivity.
  - rewrite IH. destruct (Ascii.eqb d ch0); auto. destruct (Ascii.eqb d ch1); auto.
Qed.
Lemma int2bitarray_neg i n : i < 0 -> int2bitarray i n = Err ValueError.
Proof. intros Hi. unfold int2bitarray, int2str. destruct i as [|p|p]; try lia. cbn [py_bin skipn]. apply bitarray_of_bad; discriminate. Qed.
Lemma str2int_int2str_neg i n : i < 0 -> str2int (int2str i n) = if n =? Z.log2 (- i) + 3 then Ok (- i) else Err ValueError.
Proof.
  intros Hi. unfold int2str. destruct i as [|p|p]; try lia. cbn [py_bin skipn Z.opp length].
  assert (LD : Z.of_nat (length (pos_digits p)) = Z.log2 (Zpos p) + 1).
  { rewrite pos_digits_bits, to01_length. pose proof (pos_bits_len p) as L. pose proof (bval_bound (pos_bits p)) as [_ B]. rewrite pos_bits_val in B.
    assert (P : 1 <= Z.of_nat (length (pos_bits p))). { destruct (length (pos_bits p)) eqn:E; [|lia]. change (2 ^ Z.of_nat 0) with 1 in B. lia. }
    rewrite (Z.log2_unique (Zpos p) (Z.of_nat (length (pos_bits p)) - 1)); [lia|lia|]. split; [exact L|]. replace (Z.succ (Z.of_nat (length (pos_bits p)) - 1)) with (Z.of_nat (length (pos_bits p))) by lia. exact B. }
  rewrite Nat2Z.inj_succ. set (k := Z.to_nat (n - Z.succ (Z.of_nat (length (pos_digits p))))).
  assert (Ek : (n =? Z.log2 (Zpos p) + 3) = Nat.eqb k 1). { unfold k. destruct (Z.eqb_spec n (Z.log2 (Zpos p) + 3)); destruct (Nat.eqb_spec (Z.to_nat (n - Z.succ (Z.of_nat (length (pos_digits p))))) 1); auto; lia. }
  rewrite Ek. clear Ek. clearbody k. clear LD. rewrite pos_digits_bits.
  assert (NB : pos_bits p <> []) by (intros E; pose proof (pos_bits_val p) as V; rewrite E in V; discriminate).
  assert (S : rev (lstrip (rev (lstrip (repeat ch0 k ++ "b"%char :: to01 (pos_bits p))))) = repeat ch0 k ++ "b"%char :: to01 (pos_bits p)).
  { assert (E1 : lstrip (repeat ch0 k ++ "b"%char :: to01 (pos_bits p)) = repeat ch0 k ++ "b"%char :: to01 (pos_bits p)) by (destruct k; reflexivity).
    rewrite E1, rev_app_distr. cbn [rev]. rewrite <- app_assoc.
    destruct (rev (to01 (pos_bits p))) as [|c r] eqn:E. { apply (f_equal (@rev _)) in E. rewrite rev_involutive in E. destruct (pos_bits p); [congruence|discriminate E]. }
    assert (HC : is_space c = false). { assert (I : In c (to01 (pos_bits p))) by (apply in_rev; rewrite E; left; reflexivity). apply in_map_iff in I as (x & <- & _). apply space01. }
    cbn [app lstrip]. rewrite HC. transitivity (rev ((c :: r) ++ "b"%char :: rev (repeat ch0 k))); [reflexivity|]. rewrite <- E, rev_app_distr. cbn [rev]. rewrite !rev_involutive, <- app_assoc. reflexivity. }
  unfold str2int, py_int2. rewrite S. clear S. destruct k as [|[|k]].
  - destruct (pos_bits p) as [|x b]; reflexivity.
  - pose proof (parse_to01 (pos_bits p) 0) as P. fold (bval (pos_bits p)) in P. rewrite pos_bits_val in P.
    assert (E3 : drop_prefix (snd (split_sign (repeat ch0 1 ++ "b"%char :: to01 (pos_bits p)))) = to01 (pos_bits p)) by (destruct (pos_bits p) as [|[|] b]; reflexivity).
    rewrite E3, P. destruct (pos_bits p) as [|[|] b]; [congruence|reflexivity|reflexivity].
  - assert (E3 : drop_prefix (snd (split_sign (repeat ch0 (S (S k)) ++ "b"%char :: to01 (pos_bits p)))) = repeat ch0 (S (S k)) ++ "b"%char :: to01 (pos_bits p)) by reflexivity.
    rewrite E3, parse_bin_bad by discriminate. reflexivity.
Qed.
