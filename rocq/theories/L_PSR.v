(* Proofs about the product-state converters. *)
From Verif Require Import M_Prelude M_PSR S_Occ.
Local Open Scope Z_scope.

Definition obits (n : nat) (f : occ) : bitarray := map f (seq 0 n).

Lemma obits_length n f : length (obits n f) = n.
Proof. unfold obits. rewrite map_length, seq_length. reflexivity. Qed.

Lemma obits_nth_error n f k : (k < n)%nat -> nth_error (obits n f) k = Some (f k).
Proof.
  intros H. unfold obits.
  rewrite (map_nth_error f k (seq 0 n) (d := k)); auto.
  rewrite (nth_error_nth' _ 0%nat) by (rewrite seq_length; lia).
  rewrite seq_nth by lia. reflexivity.
Qed.

Lemma obits_nth n f k d : (k < n)%nat -> nth k (obits n f) d = f k.
Proof.
  intros H. apply nth_error_nth. apply obits_nth_error; auto.
Qed.

Lemma nth_error_ext {A} (l m : list A) :
  length l = length m -> (forall k, (k < length l)%nat -> nth_error l k = nth_error m k) -> l = m.
Proof.
  revert m; induction l as [|a l IH]; intros [|b m] Hl Hn; simpl in *; try lia; auto.
  f_equal.
  - specialize (Hn 0%nat ltac:(lia)). simpl in Hn. congruence.
  - apply IH; [lia|]. intros k Hk. apply (Hn (S k)). lia.
Qed.

Lemma rep_bits_iff n f b : rep_bits n f b <-> b = obits n f.
Proof.
  split.
  - intros [Hl Hn]. apply nth_error_ext; [rewrite obits_length; auto|].
    intros k Hk. rewrite obits_nth_error by lia. apply Hn; lia.
  - intros ->. split; [apply obits_length|]. intros; apply obits_nth_error; auto.
Qed.

Lemma bits_as_obits (b : bitarray) : b = obits (length b) (fun k => nth k b false).
Proof.
  apply nth_error_ext; [rewrite obits_length; auto|].
  intros k Hk. rewrite obits_nth_error by auto.
  rewrite (nth_error_nth' _ false); auto.
Qed.

Lemma obits_ext n f g : same_occ n f g <-> obits n f = obits n g.
Proof.
  split.
  - intros H. apply map_ext_in. intros k Hk. apply in_seq in Hk. apply H; lia.
  - intros H k Hk. rewrite <- (obits_nth n f k false), <- (obits_nth n g k false) by auto. congruence.
Qed.

(* ---- strings ---- *)

Lemma to01_length b : length (to01 b) = length b.
Proof. apply map_length. Qed.

Lemma to01_inj b c : to01 b = to01 c -> b = c.
Proof.
  revert c; induction b as [|x b IH]; intros [|y c]; simpl; intros H; try congruence.
  injection H as H1 H2. f_equal; auto.
  destruct x, y; auto; discriminate.
Qed.

Lemma rep_str_iff n f s : rep_str n f s <-> s = to01 (obits n f).
Proof.
  assert (Hn : forall k, (k < n)%nat ->
     nth_error (to01 (obits n f)) k = Some (if f k then "1"%char else "0"%char)).
  { intros k Hk. unfold to01. erewrite map_nth_error by (apply obits_nth_error; auto). reflexivity. }
  split.
  - intros [Hl H]. apply nth_error_ext; [rewrite to01_length, obits_length; auto|].
    intros k Hk. rewrite Hn by lia. apply H; lia.
  - intros ->. split; [rewrite to01_length, obits_length; auto|]. auto.
Qed.

Lemma bitarray_of_to01 b : bitarray_of_str (to01 b) = Ok b.
Proof.
  induction b as [|x b IH]; simpl; auto. destruct x; simpl; rewrite IH; reflexivity.
Qed.

(* ---- integers ---- *)

Definition bval_acc (b : bitarray) (acc : Z) : Z := fold_left (fun acc x => 2 * acc + Z.b2z x) b acc.
Definition bval (b : bitarray) : Z := bval_acc b 0.

Lemma parse_to01 b acc : parse_bin (to01 b) acc = Ok (bval_acc b acc).
Proof.
  revert acc; induction b as [|x b IH]; intros acc; simpl; auto.
  destruct x; simpl; rewrite IH; unfold bval_acc; simpl; f_equal; f_equal; lia.
Qed.

Lemma space01 x : is_space (if x : bool then ch1 else ch0) = false.
Proof. destruct x; reflexivity. Qed.
Lemma lstrip_to01 b : lstrip (to01 b) = to01 b.
Proof. destruct b as [|x b]; [reflexivity|]. unfold to01. cbn [map lstrip]. rewrite space01. reflexivity. Qed.
Lemma strip_to01 b : rev (lstrip (rev (lstrip (to01 b)))) = to01 b.
Proof. rewrite lstrip_to01. unfold to01. rewrite <- map_rev. change (map _ (rev b)) with (to01 (rev b)). rewrite lstrip_to01. unfold to01. rewrite <- map_rev, rev_involutive. reflexivity. Qed.
Lemma str2int_to01 b : b <> [] -> str2int (to01 b) = Ok (bval b).
Proof.
  intros H. destruct b as [|x b]; [congruence|]. unfold str2int, py_int2. rewrite strip_to01. pose proof (parse_to01 (x :: b) 0) as P. fold (bval (x :: b)) in P.
  assert (E2 : split_sign (to01 (x :: b)) = (false, to01 (x :: b))) by (destruct x; reflexivity).
  assert (E3 : drop_prefix (to01 (x :: b)) = to01 (x :: b)) by (destruct b as [|y b]; [reflexivity|]; destruct x, y; reflexivity).
  rewrite E2. cbn [fst snd]. rewrite E3, P. destruct x; reflexivity.
Qed.

Lemma bval_acc_eq b acc : bval_acc b acc = acc * 2 ^ Z.of_nat (length b) + bval b.
Proof.
  unfold bval. revert acc. induction b as [|x b IH]; intros acc.
  - simpl. lia.
  - change (bval_acc (x :: b) acc) with (bval_acc b (2 * acc + Z.b2z x)).
    change (bval_acc (x :: b) 0) with (bval_acc b (2 * 0 + Z.b2z x)).
    rewrite IH, (IH (2 * 0 + Z.b2z x)).
    cbn [length]. rewrite Nat2Z.inj_succ, Z.pow_succ_r by lia. lia.
Qed.

Lemma bval_cons x b : bval (x :: b) = Z.b2z x * 2 ^ Z.of_nat (length b) + bval b.
Proof.
  unfold bval at 1. change (bval_acc (x :: b) 0) with (bval_acc b (2 * 0 + Z.b2z x)).
  rewrite bval_acc_eq. lia.
Qed.

Lemma bval_snoc b x : bval (b ++ [x]) = 2 * bval b + Z.b2z x.
Proof. unfold bval, bval_acc. rewrite fold_left_app. reflexivity. Qed.

Lemma bval_bound b : 0 <= bval b < 2 ^ Z.of_nat (length b).
Proof.
  induction b as [|x b IH]; [cbv; split; congruence|].
  rewrite bval_cons. cbn [length]. rewrite Nat2Z.inj_succ, Z.pow_succ_r by lia.
  destruct x; simpl Z.b2z; lia.
Qed.

Lemma bval_inj b c : length b = length c -> bval b = bval c -> b = c.
Proof.
  revert c; induction b as [|x b IH]; intros [|y c] Hl Hv; simpl in Hl; try lia; auto.
  rewrite !bval_cons in Hv. injection Hl as Hl.
  pose proof (bval_bound b). pose proof (bval_bound c). rewrite <- Hl in *.
  assert (x = y) by (destruct x, y; simpl Z.b2z in *; auto; lia). subst y.
  f_equal. apply IH; auto. lia.
Qed.

Lemma bval_testbit b m :
  Z.testbit (bval b) m = true <->
  exists k, (k < length b)%nat /\ m = Z.of_nat (length b) - 1 - Z.of_nat k /\ nth k b false = true.
Proof.
  revert m. induction b as [|x b IH] using rev_ind; intros m.
  - simpl. unfold bval, bval_acc; simpl. rewrite Z.bits_0. split; [discriminate|].
    intros (k & H & _); lia.
  - rewrite bval_snoc, app_length. cbn [length].
    destruct (Z.eq_dec m 0) as [->|Hm].
    + rewrite (Z.add_comm (2 * _)), Z.bit0_odd, Z.odd_add_mul_2.
      split.
      * intros H. exists (length b). rewrite app_nth2, Nat.sub_diag by lia.
        destruct x; simpl in *; try discriminate. repeat split; lia.
      * intros (k & Hk & Hm & Hn). assert (k = length b) by lia. subst k.
        rewrite app_nth2, Nat.sub_diag in Hn by lia. simpl in Hn. subst x. reflexivity.
    + destruct (Z_lt_le_dec m 0) as [Hneg|Hpos].
      { rewrite Z.testbit_neg_r by lia. split; [discriminate|]. intros (k & Hk & -> & _). lia. }
      replace m with (Z.succ (m - 1)) at 1 by lia.
      rewrite Z.testbit_succ_r by lia. rewrite IH. split.
      * intros (k & Hk & Hm' & Hn). exists k. rewrite app_nth1 by lia. repeat split; auto; lia.
      * intros (k & Hk & Hm' & Hn).
        assert (k < length b)%nat by lia.
        exists k. rewrite app_nth1 in Hn by lia. repeat split; auto; lia.
Qed.

Lemma rep_int_iff n f i : rep_int n f i <-> i = bval (obits n f).
Proof.
  assert (HB : forall m, Z.testbit (bval (obits n f)) m = true <->
     exists k, (k < n)%nat /\ m = Z.of_nat n - 1 - Z.of_nat k /\ f k = true).
  { intros m. rewrite bval_testbit, obits_length. split.
    - intros (k & Hk & Hm & Hn). rewrite obits_nth in Hn by auto. eauto.
    - intros (k & Hk & Hm & Hn). exists k. rewrite obits_nth by auto. auto. }
  split.
  - intros [Hi H]. apply Z.bits_inj. intros m.
    specialize (H m). specialize (HB m).
    destruct (Z.testbit i m), (Z.testbit (bval (obits n f)) m); auto; intuition congruence.
  - intros ->. split; [apply bval_bound|]. exact HB.
Qed.

Fixpoint pos_bits (p : positive) : bitarray :=
  match p with xH => [true] | xO q => pos_bits q ++ [false] | xI q => pos_bits q ++ [true] end.

Lemma pos_digits_bits p : pos_digits p = to01 (pos_bits p).
Proof.
  induction p as [p IH|p IH|]; simpl; auto; rewrite IH; unfold to01; rewrite map_app; reflexivity.
Qed.

Lemma pos_bits_val p : bval (pos_bits p) = Zpos p.
Proof.
  induction p as [p IH|p IH|]; cbn [pos_bits]; auto; rewrite bval_snoc, IH; simpl; lia.
Qed.

Lemma pos_bits_len p : 2 ^ (Z.of_nat (length (pos_bits p)) - 1) <= Zpos p.
Proof.
  assert (Hl : forall p, (1 <= length (pos_bits p))%nat).
  { induction p0; simpl; rewrite ?app_length; simpl; lia. }
  induction p as [p IH|p IH|]; cbn [pos_bits length]; [| |simpl; lia];
    rewrite app_length; cbn [length]; rewrite Nat2Z.inj_add;
    replace (Z.of_nat (length (pos_bits p)) + Z.of_nat 1 - 1)
      with (Z.succ (Z.of_nat (length (pos_bits p)) - 1)) by lia;
    (rewrite Z.pow_succ_r; [lia|specialize (Hl p); lia]).
Qed.

Lemma bval_repeat_false k b : bval (repeat false k ++ b) = bval b.
Proof. induction k as [|k IH]; auto. Qed.

Lemma to01_repeat k : repeat ch0 k = to01 (repeat false k).
Proof. induction k; simpl; congruence. Qed.

(* int2str on every non-negative integer: the digits, padded to at least n *)
Definition int_bits (i n : Z) : bitarray :=
  let s := match i with Zpos p => pos_bits p | _ => [false] end in
  repeat false (Z.to_nat (n - Z.of_nat (length s))) ++ s.

Lemma int2str_eq i n : 0 <= i -> int2str i n = to01 (int_bits i n).
Proof.
  intros Hi. unfold int2str, int_bits. destruct i as [|p|p]; [| |lia].
  - unfold to01 at 1. rewrite map_app. fold (to01 (repeat false (Z.to_nat (n - Z.of_nat (length [false]))))).
    rewrite <- to01_repeat. reflexivity.
  - cbn [py_bin skipn]. rewrite pos_digits_bits, to01_length.
    unfold to01 at 2. rewrite map_app.
    fold (to01 (repeat false (Z.to_nat (n - Z.of_nat (length (pos_bits p)))))). fold (to01 (pos_bits p)).
    rewrite <- to01_repeat. reflexivity.
Qed.

Lemma int_bits_val i n : 0 <= i -> bval (int_bits i n) = i.
Proof.
  intros Hi. unfold int_bits. rewrite bval_repeat_false. destruct i; [reflexivity|apply pos_bits_val|lia].
Qed.

Lemma int_bits_length i n : 0 <= i < 2 ^ n -> 1 <= n -> Z.of_nat (length (int_bits i n)) = n.
Proof.
  intros Hi Hn. unfold int_bits. rewrite app_length, repeat_length.
  destruct i as [|p|p]; [simpl; lia| |lia].
  pose proof (pos_bits_len p) as Hl.
  assert (Z.of_nat (length (pos_bits p)) - 1 < n).
  { apply (Z.pow_lt_mono_r_iff 2); lia. }
  lia.
Qed.

Lemma int2str_bval b : b <> [] -> int2str (bval b) (Z.of_nat (length b)) = to01 b.
Proof.
  intros Hb. pose proof (bval_bound b) as HB.
  rewrite int2str_eq by lia. f_equal.
  assert (1 <= Z.of_nat (length b)) by (destruct b; simpl; [congruence|lia]).
  apply bval_inj.
  - apply Nat2Z.inj. apply int_bits_length; lia.
  - apply int_bits_val; lia.
Qed.

(* ---- tuples ---- *)

Definition btuple (b : bitarray) : pytuple :=
  map Z.of_nat (filter (fun k => nth k b false) (seq 0 (length b))).

Lemma combine_seq_nth {A} (s : list A) (d : A) st :
  combine (seq st (length s)) s = map (fun k => (k, nth (k - st) s d)) (seq st (length s)).
Proof.
  revert st; induction s as [|a s IH]; intros st; simpl; auto.
  rewrite Nat.sub_diag. f_equal. rewrite IH.
  apply map_ext_in. intros k Hk. apply in_seq in Hk.
  replace (k - st)%nat with (S (k - S st)) by lia. reflexivity.
Qed.

Lemma filter_map_comm {A B} (g : A -> B) (p : B -> bool) l :
  filter p (map g l) = map g (filter (fun a => p (g a)) l).
Proof. induction l as [|a l IH]; simpl; auto. destruct (p (g a)); simpl; rewrite IH; auto. Qed.

Lemma filter_ext_in' {A} (p q : A -> bool) l :
  (forall a, In a l -> p a = q a) -> filter p l = filter q l.
Proof.
  induction l as [|a l IH]; intros H; simpl; auto.
  rewrite (H a) by (left; auto). rewrite IH; auto. intros; apply H; right; auto.
Qed.

Lemma str2tuple_to01 b : str2tuple (to01 b) = btuple b.
Proof.
  unfold str2tuple, enumerate, btuple.
  rewrite (combine_seq_nth _ ch0), filter_map_comm, map_map. cbn [fst snd].
  rewrite to01_length. f_equal.
  apply filter_ext_in'. intros k Hk. apply in_seq in Hk.
  rewrite Nat.sub_0_r. unfold to01.
  change ch0 with ((fun x : bool => if x then ch1 else ch0) false).
  rewrite map_nth. destruct (nth k b false); reflexivity.
Qed.

Lemma fold_left_snoc {A B} (g : A -> B) l acc :
  fold_left (fun s i => s ++ [g i]) l acc = acc ++ map g l.
Proof.
  revert acc; induction l as [|a l IH]; intros acc; simpl; [rewrite app_nil_r; auto|].
  rewrite IH, <- app_assoc. reflexivity.
Qed.

Lemma tuple2str_eq t n :
  tuple2str t n = to01 (map (fun k => inb (Z.of_nat k) t) (seq 0 (Z.to_nat n))).
Proof.
  unfold tuple2str. rewrite (fold_left_snoc (fun i => if inb i t then ch1 else ch0)).
  unfold zrange, to01. rewrite !map_map. reflexivity.
Qed.

Lemma inb_In {A} `{EqB A} (x : A) l : inb x l = true <-> In x l.
Proof.
  unfold inb. rewrite existsb_exists. split.
  - intros (y & Hy & E). destruct (eqb_spec x y); [subst; auto|discriminate].
  - intros Hx. exists x. split; auto. destruct (eqb_spec x x); auto.
Qed.

Lemma inb_false {A} `{EqB A} (x : A) l : inb x l = false <-> ~ In x l.
Proof.
  rewrite <- inb_In. destruct (inb x l); split; congruence.
Qed.

Lemma btuple_In b x :
  In x (btuple b) <-> exists k, (k < length b)%nat /\ x = Z.of_nat k /\ nth k b false = true.
Proof.
  unfold btuple. rewrite in_map_iff. split.
  - intros (k & <- & Hk). apply filter_In in Hk as [Hk Hn]. apply in_seq in Hk.
    exists k. repeat split; auto; lia.
  - intros (k & Hk & -> & Hn). exists k. split; auto. apply filter_In. split; auto.
    apply in_seq; lia.
Qed.

Lemma StronglySorted_filter {A} (R : A -> A -> Prop) p l :
  StronglySorted R l -> StronglySorted R (filter p l).
Proof.
  induction 1 as [|a l Hl IH Ha]; simpl; [constructor|].
  destruct (p a); auto. constructor; auto.
  rewrite Forall_forall in *. intros x Hx. apply filter_In in Hx as [Hx _]. auto.
Qed.

Lemma seq_sorted st n : StronglySorted lt (seq st n).
Proof.
  revert st; induction n as [|n IH]; intros st; simpl; constructor; auto.
  rewrite Forall_forall. intros x Hx. apply in_seq in Hx. lia.
Qed.

Lemma map_of_nat_sorted l : StronglySorted lt l -> StronglySorted Z.lt (map Z.of_nat l).
Proof.
  induction 1 as [|a l Hl IH Ha]; simpl; constructor; auto.
  rewrite Forall_forall in *. intros x Hx. apply in_map_iff in Hx as (k & <- & Hk).
  specialize (Ha k Hk). lia.
Qed.

Lemma btuple_sorted b : StronglySorted Z.lt (btuple b).
Proof. apply map_of_nat_sorted, StronglySorted_filter, seq_sorted. Qed.

Lemma sorted_ext (l m : list Z) :
  StronglySorted Z.lt l -> StronglySorted Z.lt m -> (forall x, In x l <-> In x m) -> l = m.
Proof.
  intros Hl. revert m. induction Hl as [|a l Hl IH Ha]; intros m Hm Hx.
  - destruct m as [|b m]; auto. exfalso. apply (Hx b). left; auto.
  - inversion Hm as [|b m' Hm' Hb]; subst.
    + exfalso. apply (Hx a). left; auto.
    + rewrite Forall_forall in Ha, Hb.
      assert (a = b).
      { destruct (proj1 (Hx a) (or_introl eq_refl)) as [->|Hin]; auto.
        destruct (proj2 (Hx b) (or_introl eq_refl)) as [->|Hin']; auto.
        specialize (Ha _ Hin'). specialize (Hb _ Hin). lia. }
      subst b. f_equal. apply IH; auto. intros x. specialize (Hx x). simpl in Hx.
      split; intros Hi.
      * destruct (proj1 Hx (or_intror Hi)) as [->|]; auto. specialize (Ha _ Hi). lia.
      * destruct (proj2 Hx (or_intror Hi)) as [->|]; auto. specialize (Hb _ Hi). lia.
Qed.

Lemma rep_tuple_iff n f t : rep_tuple n f t <-> t = btuple (obits n f).
Proof.
  assert (HB : forall x, In x (btuple (obits n f)) <->
     exists k, (k < n)%nat /\ x = Z.of_nat k /\ f k = true).
  { intros x. rewrite btuple_In, obits_length. split.
    - intros (k & Hk & Hm & Hn). rewrite obits_nth in Hn by auto. eauto.
    - intros (k & Hk & Hm & Hn). exists k. rewrite obits_nth by auto. auto. }
  split.
  - intros [Hs H]. apply sorted_ext; auto using btuple_sorted.
    intros x. rewrite HB. apply H.
  - intros ->. split; auto using btuple_sorted.
Qed.

Lemma tuple2str_btuple b : tuple2str (btuple b) (Z.of_nat (length b)) = to01 b.
Proof.
  rewrite tuple2str_eq, Nat2Z.id. f_equal.
  transitivity (obits (length b) (fun k => nth k b false)); [|symmetry; apply bits_as_obits].
  unfold obits. apply map_ext_in. intros k Hk. apply in_seq in Hk.
  destruct (nth k b false) eqn:E.
  - apply inb_In. apply btuple_In. exists k. repeat split; auto; lia.
  - apply inb_false. intros Hin. apply btuple_In in Hin as (k' & _ & Hk' & Hn).
    apply Nat2Z.inj in Hk'. subst k'. congruence.
Qed.

(* ---- bytes ---- *)

Lemma byte_of_bits_bound b : (byte_of_bits b < 256)%N.
Proof.
  unfold byte_of_bits. cbn [seq fold_left].
  repeat match goal with |- context [nth ?k b false] => destruct (nth k b false) end; vm_compute; reflexivity.
Qed.

Lemma byte_of_bits_testbit b m : (m < 8)%nat ->
  N.testbit (byte_of_bits b) (N.of_nat (7 - m)) = nth m b false.
Proof.
  intros Hm. unfold byte_of_bits. cbn [seq fold_left].
  do 8 (destruct m as [|m];
    [ repeat match goal with |- context [nth ?k b false] => destruct (nth k b false) end;
      vm_compute; reflexivity | ]).
  lia.
Qed.

Lemma byte_ext x y : (x < 256)%N -> (y < 256)%N ->
  (forall m, (m < 8)%nat -> N.testbit x (N.of_nat (7 - m)) = N.testbit y (N.of_nat (7 - m))) -> x = y.
Proof.
  intros Hx Hy H. apply N.bits_inj. intros m.
  destruct (N.lt_ge_cases m 8) as [Hm|Hm].
  - specialize (H (7 - N.to_nat m)%nat ltac:(lia)).
    replace (N.of_nat (7 - (7 - N.to_nat m))) with m in H by lia. exact H.
  - assert (HH : forall z, (z < 256)%N -> N.testbit z m = false).
    { intros z Hz. destruct (N.eq_dec z 0) as [->|Hz0]; [apply N.bits_0|].
      apply N.bits_above_log2. apply N.log2_lt_pow2; [lia|].
      apply (N.lt_le_trans _ 256); auto. change 256%N with (2 ^ 8)%N. apply N.pow_le_mono_r; lia. }
    rewrite !HH by auto. reflexivity.
Qed.

Lemma tobytes_len_enough b : forall l1 l2, (length b <= l1)%nat -> (length b <= l2)%nat ->
  tobytes_len l1 b = tobytes_len l2 b.
Proof.
  intros l1. revert b. induction l1 as [|l1 IH]; intros b l2 H1 H2.
  - destruct b; simpl in *; [|lia]. destruct l2; reflexivity.
  - destruct b as [|x b]; [destruct l2; reflexivity|].
    destruct l2 as [|l2]; [simpl in H2; lia|].
    cbn [tobytes_len]. f_equal.
    assert (length (skipn 8 (x :: b)) <= length b)%nat by (rewrite skipn_length; simpl; lia).
    simpl in H1, H2. apply IH; lia.
Qed.

Lemma tobytes_nonempty b : b <> [] -> tobytes b = byte_of_bits b :: tobytes (skipn 8 b).
Proof.
  intros Hb. destruct b as [|x b]; [congruence|].
  unfold tobytes at 1. cbn [length tobytes_len]. f_equal. unfold tobytes.
  apply tobytes_len_enough; auto. rewrite skipn_length. simpl. lia.
Qed.

Lemma bits_ind8 (P : bitarray -> Prop) :
  P [] -> (forall b, b <> [] -> P (skipn 8 b) -> P b) -> forall b, P b.
Proof.
  intros H0 HS b. remember (length b) as n eqn:E. revert b E.
  induction n as [n IH] using lt_wf_ind. intros b E.
  destruct b as [|x b]; auto. apply HS; [congruence|].
  eapply IH; [|reflexivity]. rewrite skipn_length. subst n. simpl. lia.
Qed.

Lemma tobytes_length b : (8 * length (tobytes b) < length b + 8 /\ length b <= 8 * length (tobytes b))%nat.
Proof.
  induction b as [|b Hb IH] using bits_ind8; [simpl; lia|].
  rewrite tobytes_nonempty by auto. cbn [length]. rewrite skipn_length in IH.
  assert (1 <= length b)%nat by (destruct b; simpl; [congruence|lia]). lia.
Qed.

Lemma nth_error_skipn {A} (l : list A) n k : nth_error (skipn n l) k = nth_error l (n + k).
Proof.
  revert l; induction n as [|n IH]; intros l; simpl; auto. destruct l as [|a l]; simpl; auto.
  destruct k; auto.
Qed.

Lemma nth_skipn' {A} (l : list A) n k d : nth k (skipn n l) d = nth (n + k) l d.
Proof.
  revert l; induction n as [|n IH]; intros l; simpl; auto. destruct l as [|a l]; simpl; auto.
  destruct k; auto.
Qed.

Lemma tobytes_nth b j y : nth_error (tobytes b) j = Some y -> y = byte_of_bits (skipn (8 * j) b).
Proof.
  revert j. induction b as [|b Hb IH] using bits_ind8; intros j Hj.
  - destruct j; discriminate.
  - rewrite tobytes_nonempty in Hj by auto. destruct j as [|j]; cbn [nth_error] in Hj.
    + injection Hj as <-. reflexivity.
    + apply IH in Hj. subst y. f_equal.
      replace (8 * S j)%nat with (8 + 8 * j)%nat by lia.
      clear. generalize (8 * j)%nat as m. intros m.
      assert (G : forall k (l : bitarray), skipn m (skipn k l) = skipn (k + m) l).
      { induction k as [|k IHk]; intros l; simpl; auto. destruct l; simpl; auto.
        destruct m; auto. }
      apply G.
Qed.

Lemma rep_bytes_tobytes n f : rep_bytes n f (tobytes (obits n f)).
Proof.
  pose proof (tobytes_length (obits n f)) as [H1 H2]. rewrite obits_length in *.
  repeat split; auto.
  - apply tobytes_nth in H. subst y. apply byte_of_bits_bound.
  - apply tobytes_nth in H. subst y. intros m Hm.
    rewrite byte_of_bits_testbit by auto. rewrite nth_skipn'.
    destruct (Nat.ltb_spec (8 * j + m) n) as [Hlt|Hge]; cbn [andb].
    + apply obits_nth; auto.
    + apply nth_overflow. rewrite obits_length. auto.
Qed.

Lemma rep_bytes_iff n f x : rep_bytes n f x <-> x = tobytes (obits n f).
Proof.
  split; [|intros ->; apply rep_bytes_tobytes].
  intros (H1 & H2 & H). destruct (rep_bytes_tobytes n f) as (G1 & G2 & G).
  apply nth_error_ext; [lia|]. intros k Hk.
  assert (Hk' : (k < length (tobytes (obits n f)))%nat) by lia.
  destruct (nth_error x k) as [u|] eqn:Eu; [|apply nth_error_None in Eu; lia].
  destruct (nth_error (tobytes (obits n f)) k) as [v|] eqn:Ev; [|apply nth_error_None in Ev; lia].
  destruct (H _ _ Eu) as [Hu Hu']. destruct (G _ _ Ev) as [Hv Hv'].
  f_equal. apply byte_ext; auto. intros m Hm. rewrite Hu', Hv'; auto.
Qed.

Lemma bits_of_byte_of_bits b : bits_of_byte (byte_of_bits b) = map (fun k => nth k b false) (seq 0 8).
Proof.
  unfold bits_of_byte. apply map_ext_in. intros k Hk. apply in_seq in Hk.
  apply byte_of_bits_testbit. lia.
Qed.

Lemma firstn_map_nth (b : bitarray) k : (k <= length b)%nat ->
  firstn k b = map (fun j => nth j b false) (seq 0 k).
Proof.
  revert b. induction k as [|k IH]; intros b H; [reflexivity|].
  destruct b as [|x b]; [simpl in H; lia|].
  cbn [firstn seq map nth]. f_equal. rewrite <- seq_shift, map_map. cbn [nth].
  apply IH. simpl in H. lia.
Qed.

Lemma frombytes_tobytes b : exists k, flat_map bits_of_byte (tobytes b) = b ++ repeat false k.
Proof.
  induction b as [|b Hb [k IH]] using bits_ind8; [exists 0%nat; reflexivity|].
  rewrite tobytes_nonempty by auto. cbn [flat_map]. rewrite IH, bits_of_byte_of_bits.
  destruct (le_lt_dec 8 (length b)) as [H8|H8].
  - exists k. rewrite <- firstn_map_nth by auto. rewrite app_assoc, firstn_skipn. reflexivity.
  - exists (8 - length b + k)%nat.
    rewrite skipn_all2 by lia. cbn [app].
    rewrite repeat_app, app_assoc. f_equal.
    do 8 (destruct b as [|? b]; [reflexivity|]). simpl in H8. lia.
Qed.

Lemma bytes2bitarray_tobytes b : bytes2bitarray (tobytes b) (Z.of_nat (length b)) = b.
Proof.
  unfold bytes2bitarray, py_take, py_bound.
  destruct (frombytes_tobytes b) as [k ->].
  destruct (Z.ltb_spec (Z.of_nat (length b)) 0); [lia|].
  rewrite Nat2Z.id, app_length, Nat.min_l by lia.
  rewrite firstn_app, Nat.sub_diag, firstn_all. simpl. apply app_nil_r.
Qed.

(* ---- the 20 converters on encodings of one bit list ---- *)
Section Conv.
Context (b : bitarray).
Let n := Z.of_nat (length b).

Lemma c_str2int : b <> [] -> str2int (to01 b) = Ok (bval b).
Proof. apply str2int_to01. Qed.
Lemma c_int2str : b <> [] -> int2str (bval b) n = to01 b.
Proof. apply int2str_bval. Qed.
Lemma c_str2tuple : str2tuple (to01 b) = btuple b.
Proof. apply str2tuple_to01. Qed.
Lemma c_tuple2str : tuple2str (btuple b) n = to01 b.
Proof. apply tuple2str_btuple. Qed.
Lemma c_tuple2int : b <> [] -> tuple2int (btuple b) n = Ok (bval b).
Proof. intros. unfold tuple2int. rewrite c_tuple2str. auto using c_str2int. Qed.
Lemma c_int2tuple : b <> [] -> int2tuple (bval b) n = btuple b.
Proof. intros. unfold int2tuple. rewrite c_int2str by auto. apply c_str2tuple. Qed.
Lemma c_bitarray2bytes : bitarray2bytes b = tobytes b.
Proof. reflexivity. Qed.
Lemma c_bytes2bitarray : bytes2bitarray (tobytes b) n = b.
Proof. apply bytes2bitarray_tobytes. Qed.
Lemma c_int2bitarray : b <> [] -> int2bitarray (bval b) n = Ok b.
Proof. intros. unfold int2bitarray. rewrite c_int2str by auto. apply bitarray_of_to01. Qed.
Lemma c_bitarray2int : b <> [] -> bitarray2int b = Ok (bval b).
Proof. apply c_str2int. Qed.
Lemma c_bitarray2str : bitarray2str b = to01 b.
Proof. reflexivity. Qed.
Lemma c_str2bitarray : str2bitarray (to01 b) = Ok b.
Proof. apply bitarray_of_to01. Qed.
Lemma c_tuple2bitarray : tuple2bitarray (btuple b) n = Ok b.
Proof. unfold tuple2bitarray. rewrite c_tuple2str. apply bitarray_of_to01. Qed.
Lemma c_bitarray2tuple : bitarray2tuple b = btuple b.
Proof. apply c_str2tuple. Qed.
Lemma c_tuple2bytes : tuple2bytes (btuple b) n = Ok (tobytes b).
Proof. unfold tuple2bytes. rewrite c_tuple2bitarray. reflexivity. Qed.
Lemma c_bytes2tuple : bytes2tuple (tobytes b) n = btuple b.
Proof. unfold bytes2tuple. rewrite c_bytes2bitarray. apply c_bitarray2tuple. Qed.
Lemma c_str2bytes : str2bytes (to01 b) = Ok (tobytes b).
Proof. unfold str2bytes. rewrite c_str2bitarray. reflexivity. Qed.
Lemma c_bytes2str : bytes2str (tobytes b) n = to01 b.
Proof. unfold bytes2str. rewrite c_bytes2bitarray. reflexivity. Qed.
Lemma c_int2bytes : b <> [] -> int2bytes (bval b) n = Ok (tobytes b).
Proof. intros. unfold int2bytes. rewrite c_int2bitarray by auto. reflexivity. Qed.
Lemma c_bytes2int : b <> [] -> bytes2int (tobytes b) n = Ok (bval b).
Proof. intros. unfold bytes2int. rewrite c_bytes2bitarray. auto using c_bitarray2int. Qed.
End Conv.
