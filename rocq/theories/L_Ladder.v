(* Proofs about create.py and remove.py. *)
From Verif Require Import M_Prelude M_PSR M_Ladder S_Occ S_Routes S_Ladder L_PSR L_PSR2.
Local Open Scope Z_scope.

(* ---- python indexing with a valid non-negative index ---- *)
Lemma py_index_nat len i : (i < len)%nat -> py_index len (Z.of_nat i) = Some i.
Proof.
  intros H. unfold py_index.
  destruct (Z.leb_spec 0 (Z.of_nat i)); [|lia].
  destruct (Z.ltb_spec (Z.of_nat i) (Z.of_nat len)); [|lia]. simpl. rewrite Nat2Z.id. reflexivity.
Qed.
Lemma py_nth_nat {A} (l : list A) i d : (i < length l)%nat -> py_nth l (Z.of_nat i) = Ok (nth i l d).
Proof.
  intros H. unfold py_nth. rewrite py_index_nat by auto. rewrite (nth_error_nth' _ d) by auto. reflexivity.
Qed.
Lemma py_set_nat {A} (l : list A) i x : (i < length l)%nat -> py_set l (Z.of_nat i) x = Ok (set_nth l i x).
Proof. intros H. unfold py_set. rewrite py_index_nat by auto. reflexivity. Qed.
Lemma py_take_nat {A} (l : list A) i : (i <= length l)%nat -> py_take l (Z.of_nat i) = firstn i l.
Proof.
  intros H. unfold py_take, py_bound. destruct (Z.ltb_spec (Z.of_nat i) 0); [lia|].
  rewrite Nat2Z.id, Nat.min_l by lia. reflexivity.
Qed.
Lemma py_drop_nat {A} (l : list A) i : (i <= length l)%nat -> py_drop l (Z.of_nat i) = skipn i l.
Proof.
  intros H. unfold py_drop, py_bound. destruct (Z.ltb_spec (Z.of_nat i) 0); [lia|].
  rewrite Nat2Z.id, Nat.min_l by lia. reflexivity.
Qed.

Lemma set_nth_length {A} (l : list A) i x : length (set_nth l i x) = length l.
Proof. revert i; induction l as [|a l IH]; intros [|i]; simpl; auto. Qed.
Lemma set_nth_app {A} (l : list A) i x : (i < length l)%nat ->
  set_nth l i x = firstn i l ++ [x] ++ skipn (S i) l.
Proof.
  revert i; induction l as [|a l IH]; intros [|i] H; simpl in *; try lia; auto.
  rewrite IH by lia. reflexivity.
Qed.
Lemma nth_set_nth {A} (l : list A) i x k d : (i < length l)%nat ->
  nth k (set_nth l i x) d = if Nat.eqb k i then x else nth k l d.
Proof.
  revert i k; induction l as [|a l IH]; intros [|i] [|k] H; simpl in *; try lia; auto.
  apply IH; lia.
Qed.
Lemma firstn_set_nth {A} (l : list A) i x : firstn i (set_nth l i x) = firstn i l.
Proof. revert i; induction l as [|a l IH]; intros [|i]; simpl; auto. rewrite IH; auto. Qed.

Lemma obits_set n f i v : (i < n)%nat -> obits n (occ_set f i v) = set_nth (obits n f) i v.
Proof.
  intros Hi. apply nth_error_ext; rewrite ?set_nth_length, !obits_length; auto.
  intros k Hk.
  rewrite !(nth_error_nth' _ false) by (rewrite ?set_nth_length, obits_length; auto).
  rewrite nth_set_nth by (rewrite obits_length; auto). rewrite !obits_nth by auto. reflexivity.
Qed.

(* ---- signs ---- *)
Definition bcount (b : bitarray) : nat := length (filter (fun x : bool => x) b).

Lemma sign_of_count_nat k : sign_of_count (Z.of_nat k) = if Nat.even k then 1 else -1.
Proof.
  unfold sign_of_count. rewrite Zmod_even. destruct (Nat.even k) eqn:E.
  - apply Nat.even_spec in E as [m ->]. rewrite Nat2Z.inj_mul.
    change (Z.of_nat 2) with 2. rewrite Z.even_mul. reflexivity.
  - assert (Ho : Nat.odd k = true) by (unfold Nat.odd; rewrite E; reflexivity).
    apply Nat.odd_spec in Ho as [m ->].
    rewrite Nat2Z.inj_add, Nat2Z.inj_mul. change (Z.of_nat 2) with 2. change (Z.of_nat 1) with 1.
    rewrite Z.add_comm, Z.even_add_mul_2. reflexivity.
Qed.

Lemma filter_map_length {A B} (g : A -> B) p l :
  length (filter p (map g l)) = length (filter (fun a => p (g a)) l).
Proof. rewrite filter_map_comm, map_length. reflexivity. Qed.

Lemma firstn_obits n f i : (i <= n)%nat -> firstn i (obits n f) = obits i f.
Proof.
  intros H. unfold obits. rewrite firstn_map. f_equal.
  replace n with (i + (n - i))%nat by lia. rewrite seq_app, firstn_app, seq_length, Nat.sub_diag.
  rewrite firstn_all2 by (rewrite seq_length; lia). simpl. apply app_nil_r.
Qed.

Lemma bcount_below n f i : (i <= n)%nat -> bcount (firstn i (obits n f)) = electrons_below f i.
Proof.
  intros H. rewrite firstn_obits by auto. unfold bcount, obits, electrons_below.
  rewrite filter_map_length. reflexivity.
Qed.

Lemma sign_below n f i : (i <= n)%nat ->
  sign_of_count (bits_count (firstn i (obits n f))) = fermi_sign f i.
Proof.
  intros H. unfold bits_count. fold (bcount (firstn i (obits n f))).
  rewrite sign_of_count_nat, bcount_below by auto. reflexivity.
Qed.

(* ---- bitarray and bytes ---- *)
Section Bits.
Context (n : nat) (f : occ) (i : nat) (Hi : (i < n)%nat).
Let b := obits n f.
Let Hlen : length b = n := obits_length n f.

Lemma create_ubitarray_eq :
  create_ubitarray (Z.of_nat i) b =
  Ok (if f i then (b, 0) else (obits n (occ_set f i true), fermi_sign f i)).
Proof.
  unfold create_ubitarray. rewrite (py_nth_nat _ _ false) by (rewrite Hlen; auto). cbn [bind].
  unfold b at 1. rewrite obits_nth by auto. destruct (f i) eqn:E; [reflexivity|].
  rewrite py_set_nat by (rewrite Hlen; auto). cbn [bind].
  rewrite py_take_nat by (rewrite set_nth_length, Hlen; lia).
  rewrite firstn_set_nth. unfold b. rewrite sign_below by lia.
  rewrite obits_set by auto. reflexivity.
Qed.

Lemma remove_ubitarray_eq :
  remove_ubitarray (Z.of_nat i) b =
  Ok (if f i then (obits n (occ_set f i false), fermi_sign f i) else (b, 0)).
Proof.
  unfold remove_ubitarray. rewrite (py_nth_nat _ _ false) by (rewrite Hlen; auto). cbn [bind].
  unfold b at 1. rewrite obits_nth by auto. destruct (f i) eqn:E; [|reflexivity].
  rewrite py_set_nat by (rewrite Hlen; auto). cbn [bind].
  rewrite py_take_nat by (rewrite set_nth_length, Hlen; lia).
  rewrite firstn_set_nth. unfold b. rewrite sign_below by lia.
  rewrite obits_set by auto. reflexivity.
Qed.

Lemma create_ubytes_eq :
  create_ubytes (Z.of_nat n) (Z.of_nat i) (tobytes b) =
  Ok (if f i then (tobytes b, 0) else (tobytes (obits n (occ_set f i true)), fermi_sign f i)).
Proof.
  unfold create_ubytes. rewrite <- Hlen at 1. rewrite bytes2bitarray_tobytes.
  rewrite create_ubitarray_eq. cbn [bind]. destruct (f i); reflexivity.
Qed.

Lemma remove_ubytes_eq :
  remove_ubytes (Z.of_nat n) (Z.of_nat i) (tobytes b) =
  Ok (if f i then (tobytes (obits n (occ_set f i false)), fermi_sign f i) else (tobytes b, 0)).
Proof.
  unfold remove_ubytes. rewrite <- Hlen at 1. rewrite bytes2bitarray_tobytes.
  rewrite remove_ubitarray_eq. cbn [bind]. destruct (f i); reflexivity.
Qed.

(* ---- str ---- *)
Lemma str_count1_to01 (c : bitarray) : str_count1 (to01 c) = bits_count c.
Proof.
  unfold str_count1, bits_count, to01. rewrite filter_map_length. f_equal. f_equal.
  apply filter_ext_in'. intros [|] _; reflexivity.
Qed.

Lemma to01_set v : to01 (firstn i b) ++ [if v : bool then ch1 else ch0] ++ to01 (skipn (S i) b)
  = to01 (obits n (occ_set f i v)).
Proof.
  rewrite obits_set by auto. rewrite set_nth_app by (fold b; rewrite Hlen; auto).
  unfold to01. rewrite !map_app. reflexivity.
Qed.

Lemma nth_to01 : py_nth (to01 b) (Z.of_nat i) = Ok (if f i then ch1 else ch0).
Proof.
  rewrite (py_nth_nat _ _ ch0) by (rewrite to01_length, Hlen; auto). f_equal.
  unfold to01. change ch0 with ((fun x : bool => if x then ch1 else ch0) false) at 2.
  rewrite map_nth. unfold b. rewrite obits_nth by auto. reflexivity.
Qed.

Lemma take_to01 : py_take (to01 b) (Z.of_nat i) = to01 (firstn i b).
Proof. rewrite py_take_nat by (rewrite to01_length, Hlen; lia). apply firstn_map. Qed.
Lemma drop_to01 : py_drop (to01 b) (Z.of_nat i + 1) = to01 (skipn (S i) b).
Proof.
  replace (Z.of_nat i + 1) with (Z.of_nat (S i)) by lia.
  rewrite py_drop_nat by (rewrite to01_length, Hlen; lia). apply skipn_map.
Qed.

Lemma create_ustr_eq :
  create_ustr (Z.of_nat i) (to01 b) =
  Ok (if f i then ([], 0) else (to01 (obits n (occ_set f i true)), fermi_sign f i)).
Proof.
  unfold create_ustr. rewrite nth_to01. cbn [bind]. rewrite take_to01, drop_to01.
  rewrite str_count1_to01.
  assert (Hsign : sign_of_count (bits_count (firstn i b)) = fermi_sign f i) by (apply sign_below; lia).
  rewrite Hsign.
  rewrite <- to01_set. destruct (f i); reflexivity.
Qed.
Lemma remove_ustr_eq :
  remove_ustr (Z.of_nat i) (to01 b) =
  Ok (if f i then (to01 (obits n (occ_set f i false)), fermi_sign f i) else ([], 0)).
Proof.
  unfold remove_ustr. rewrite nth_to01. cbn [bind]. rewrite take_to01, drop_to01.
  rewrite str_count1_to01.
  assert (Hsign : sign_of_count (bits_count (firstn i b)) = fermi_sign f i) by (apply sign_below; lia).
  rewrite Hsign.
  rewrite <- to01_set. destruct (f i); reflexivity.
Qed.
End Bits.

(* ---- int ---- *)
Lemma bit_count_double z x : 0 <= z -> bit_count (2 * z + Z.b2z x) = bit_count z + Z.b2z x.
Proof.
  intros Hz. destruct z as [|p|p]; [destruct x; reflexivity| |lia]. destruct x.
  - change (2 * Z.pos p + Z.b2z true) with (Zpos (xI p)). cbn [bit_count pos_bit_count Z.b2z]. lia.
  - change (2 * Z.pos p + Z.b2z false) with (Zpos (xO p)). cbn [bit_count pos_bit_count Z.b2z]. lia.
Qed.

Lemma bit_count_bval b : bit_count (bval b) = bits_count b.
Proof.
  induction b as [|x b IH] using rev_ind; [reflexivity|].
  rewrite bval_snoc, bit_count_double by apply bval_bound.
  rewrite IH. unfold bits_count. rewrite filter_app, app_length. destruct x; simpl; lia.
Qed.

Lemma shiftr_bval b k : (k <= length b)%nat ->
  Z.shiftr (bval b) (Z.of_nat (length b - k)) = bval (firstn k b).
Proof.
  intros H. rewrite Z.shiftr_div_pow2 by lia.
  rewrite <- (firstn_skipn k b) at 1. rewrite bval_app, skipn_length.
  pose proof (bval_bound (skipn k b)) as B. rewrite skipn_length in B.
  rewrite Z.div_add_l by lia. rewrite Z.div_small by lia. lia.
Qed.

Section Int.
Context (n : nat) (f : occ) (i : nat) (Hi : (i < n)%nat).
Let b := obits n f.
Let Hlen : length b = n := obits_length n f.
Let ir := Z.of_nat n - 1 - Z.of_nat i.

Lemma shl1_ok : py_shl1 ir = Ok (Z.shiftl 1 ir).
Proof. unfold py_shl1. destruct (Z.ltb_spec ir 0); auto. unfold ir in *; lia. Qed.
Lemma shr_ok x : py_shr x (ir + 1) = Ok (Z.shiftr x (ir + 1)).
Proof. unfold py_shr. destruct (Z.ltb_spec (ir + 1) 0); auto. unfold ir in *; lia. Qed.

Lemma testbit_one m : 0 <= m -> Z.testbit (Z.shiftl 1 ir) m = (m =? ir).
Proof.
  intros Hm. assert (0 <= ir) by (unfold ir; lia).
  rewrite Z.shiftl_1_l, Z.eqb_sym. apply Z.pow2_bits_eqb. auto.
Qed.

Lemma testbit_ir : Z.testbit (bval b) ir = f i.
Proof.
  pose proof (proj2 (rep_int_iff n f _) eq_refl) as [_ H]. fold b in H. specialize (H ir).
  destruct (f i) eqn:E.
  - apply H. exists i. auto.
  - destruct (Z.testbit (bval b) ir); auto. destruct (proj1 H eq_refl) as (k & Hk & Hm & Hf).
    assert (k = i) by (unfold ir in Hm; lia). subst k. congruence.
Qed.

Lemma land_test : negb (Z.land (bval b) (Z.shiftl 1 ir) =? 0) = f i.
Proof.
  assert (Hir : 0 <= ir) by (unfold ir; lia).
  rewrite <- testbit_ir.
  assert (E : Z.land (bval b) (Z.shiftl 1 ir) = if Z.testbit (bval b) ir then Z.shiftl 1 ir else 0).
  { apply Z.bits_inj'. intros m Hm. rewrite Z.land_spec, testbit_one by auto.
    destruct (Z.eqb_spec m ir) as [->|Hne].
    - destruct (Z.testbit (bval b) ir); [rewrite testbit_one, Z.eqb_refl by auto|rewrite Z.bits_0]; auto.
    - rewrite andb_false_r. destruct (Z.testbit (bval b) ir); [rewrite testbit_one by auto|rewrite Z.bits_0]; auto.
      destruct (Z.eqb_spec m ir); congruence. }
  rewrite E. destruct (Z.testbit (bval b) ir); [|reflexivity].
  assert (0 < Z.shiftl 1 ir) by (rewrite Z.shiftl_1_l; apply Z.pow_pos_nonneg; lia).
  destruct (Z.eqb_spec (Z.shiftl 1 ir) 0); auto. lia.
Qed.

Lemma sign_int : sign_of_count (bit_count (Z.shiftr (bval b) (ir + 1))) = fermi_sign f i.
Proof.
  replace (ir + 1) with (Z.of_nat (length b - i)) by (rewrite Hlen; unfold ir; lia).
  rewrite shiftr_bval by (rewrite Hlen; lia). rewrite bit_count_bval.
  unfold b. apply sign_below. lia.
Qed.

Lemma set_bit v :
  (if v : bool then Z.lor (bval b) (Z.shiftl 1 ir) else Z.land (bval b) (Z.lnot (Z.shiftl 1 ir)))
  = bval (obits n (occ_set f i v)).
Proof.
  assert (Hir : 0 <= ir) by (unfold ir; lia).
  apply rep_int_iff.
  pose proof (proj2 (rep_int_iff n f _) eq_refl) as [_ H]. fold b in H.
  pose proof (bval_bound b) as [HB _].
  split.
  { destruct v.
    - apply Z.lor_nonneg. split; auto. apply Z.shiftl_nonneg. lia.
    - apply Z.land_nonneg. auto. }
  intros m. specialize (H m).
  destruct (Z_lt_le_dec m 0) as [Hneg|Hm].
  { rewrite Z.testbit_neg_r by lia. split; [discriminate|]. intros (k & Hk & -> & _). lia. }
  assert (E : Z.testbit (if v then Z.lor (bval b) (Z.shiftl 1 ir) else Z.land (bval b) (Z.lnot (Z.shiftl 1 ir))) m
              = if m =? ir then v else Z.testbit (bval b) m).
  { destruct v.
    - rewrite Z.lor_spec, testbit_one by auto. destruct (m =? ir); [apply orb_true_r|apply orb_false_r].
    - rewrite Z.land_spec, Z.lnot_spec, testbit_one by auto.
      destruct (m =? ir); simpl; [apply andb_false_r|apply andb_true_r]. }
  rewrite E. unfold occ_set. destruct (Z.eqb_spec m ir) as [->|Hne].
  - split.
    + intros ->. exists i. rewrite Nat.eqb_refl. auto.
    + intros (k & Hk & Hm' & Hf). assert (k = i) by (unfold ir in Hm'; lia). subst k.
      rewrite Nat.eqb_refl in Hf. auto.
  - rewrite H. split; intros (k & Hk & Hm' & Hf); exists k; repeat split; auto;
      destruct (Nat.eqb_spec k i) as [->|]; auto; exfalso; apply Hne; unfold ir; lia.
Qed.

Lemma create_uint_eq :
  create_uint (Z.of_nat n) (Z.of_nat i) (bval b) =
  Ok (if f i then (-1, 0) else (bval (obits n (occ_set f i true)), fermi_sign f i)).
Proof.
  unfold create_uint. fold ir. rewrite shl1_ok. cbn [bind]. rewrite land_test.
  destruct (f i); [reflexivity|]. rewrite shr_ok. cbn [bind]. rewrite sign_int.
  rewrite <- set_bit. reflexivity.
Qed.
Lemma remove_uint_eq :
  remove_uint (Z.of_nat n) (Z.of_nat i) (bval b) =
  Ok (if f i then (bval (obits n (occ_set f i false)), fermi_sign f i) else (-1, 0)).
Proof.
  unfold remove_uint. fold ir. rewrite shl1_ok. cbn [bind]. rewrite land_test.
  destruct (f i); [|reflexivity]. rewrite shr_ok. cbn [bind]. rewrite sign_int.
  rewrite <- set_bit. reflexivity.
Qed.
End Int.

(* ---- tuple ---- *)
Lemma nth_error_sorted (a : list Z) p q u v :
  StronglySorted Z.lt a -> (p < q)%nat -> nth_error a p = Some u -> nth_error a q = Some v -> u < v.
Proof.
  intros Hs. revert p q. induction Hs as [|x l Hl IH Hx]; intros p q Hpq Hp Hq; [destruct p; discriminate|].
  destruct q as [|q]; [lia|]. simpl in Hq. destruct p as [|p]; simpl in Hp.
  - injection Hp as <-. rewrite Forall_forall in Hx. apply Hx. eapply nth_error_In; eauto.
  - eapply IH; [|eauto|eauto]. lia.
Qed.

Lemma bisect_loop_correct a x (Hs : StronglySorted Z.lt a) : forall fuel lo hi,
  (hi - lo <= fuel)%nat -> (lo <= hi <= length a)%nat ->
  (forall p u, (p < lo)%nat -> nth_error a p = Some u -> u < x) ->
  (forall p u, (hi <= p)%nat -> nth_error a p = Some u -> x <= u) ->
  exists j, bisect_left_loop fuel a x lo hi = Ok j /\ (j <= length a)%nat /\
    (forall p u, (p < j)%nat -> nth_error a p = Some u -> u < x) /\
    (forall p u, (j <= p)%nat -> nth_error a p = Some u -> x <= u).
Proof.
  induction fuel as [|fuel IH]; intros lo hi Hf Hb Hlo Hhi; cbn [bisect_left_loop];
    destruct (Nat.ltb_spec lo hi) as [Hlt|Hge].
  - lia.
  - exists lo. repeat split; auto; try lia. intros p u Hp. apply Hhi. lia.
  - set (mid := Nat.div (lo + hi) 2).
    assert (Hmid : (lo <= mid < hi)%nat).
    { unfold mid. split; [apply Nat.div_le_lower_bound; lia|apply Nat.div_lt_upper_bound; lia]. }
    destruct (nth_error a mid) as [v|] eqn:Ev; [|apply nth_error_None in Ev; lia].
    destruct (Z.ltb_spec v x) as [Hv|Hv].
    + apply IH; try lia; auto. intros p u Hp Hu.
      destruct (Nat.eq_dec p mid) as [->|]; [rewrite Ev in Hu; injection Hu as <-; auto|].
      assert (u < v) by (eapply (nth_error_sorted a p mid); eauto; lia). lia.
    + apply IH; try lia; auto. intros p u Hp Hu.
      destruct (Nat.eq_dec p mid) as [->|]; [rewrite Ev in Hu; injection Hu as <-; auto|].
      assert (v < u) by (eapply (nth_error_sorted a mid p); eauto; lia). lia.
  - exists lo. repeat split; auto; try lia. intros p u Hp. apply Hhi. lia.
Qed.

Lemma bisect_left_correct a x : StronglySorted Z.lt a ->
  exists j, bisect_left a x = Ok j /\ (j <= length a)%nat /\
    (forall p u, (p < j)%nat -> nth_error a p = Some u -> u < x) /\
    (forall p u, (j <= p)%nat -> nth_error a p = Some u -> x <= u).
Proof.
  intros Hs. apply bisect_loop_correct; auto; try lia.
  intros p u Hp Hu.
  assert (nth_error a p <> None) by congruence. apply nth_error_Some in H. lia.
Qed.

Lemma filter_none {A} (p : A -> bool) l : (forall a, In a l -> p a = false) -> filter p l = [].
Proof.
  induction l as [|a l IH]; intros H; simpl; auto. rewrite H by (left; auto). apply IH. intros; apply H; right; auto.
Qed.
Lemma filter_all {A} (p : A -> bool) l : (forall a, In a l -> p a = true) -> filter p l = l.
Proof.
  induction l as [|a l IH]; intros H; simpl; auto. rewrite H by (left; auto). f_equal. apply IH. intros; apply H; right; auto.
Qed.

Section Tuple.
Context (n : nat) (f : occ) (i : nat) (Hi : (i < n)%nat).
Let b := obits n f.
Let t := btuple b.
Let Hlen : length b = n := obits_length n f.
Let x := Z.of_nat i.

(* elements below i / at i / above i *)
Definition lowpart := map Z.of_nat (filter f (seq 0 i)).
Definition highpart := map Z.of_nat (filter f (seq (S i) (n - S i))).

Lemma btuple_obits m g : btuple (obits m g) = map Z.of_nat (filter g (seq 0 m)).
Proof.
  unfold btuple. rewrite obits_length. f_equal. apply filter_ext_in'. intros k Hk.
  apply in_seq in Hk. apply obits_nth. lia.
Qed.

Lemma btuple_split g : btuple (obits n g) =
  map Z.of_nat (filter g (seq 0 i)) ++ (if g i then [x] else []) ++
  map Z.of_nat (filter g (seq (S i) (n - S i))).
Proof.
  rewrite btuple_obits. replace n with (i + (1 + (n - S i)))%nat at 1 by lia.
  rewrite !seq_app. rewrite !filter_app, !map_app. f_equal.
  replace (0 + i)%nat with i by lia. replace (i + 1)%nat with (S i) by lia.
  simpl. destruct (g i); reflexivity.
Qed.

Lemma lowpart_length : length lowpart = electrons_below f i.
Proof. unfold lowpart, electrons_below. apply map_length. Qed.

Lemma lowpart_lt u : In u lowpart -> u < x.
Proof.
  unfold lowpart. intros H. apply in_map_iff in H as (k & <- & Hk).
  apply filter_In in Hk as [Hk _]. apply in_seq in Hk. unfold x. lia.
Qed.
Lemma highpart_gt u : In u highpart -> x < u.
Proof.
  unfold highpart. intros H. apply in_map_iff in H as (k & <- & Hk).
  apply filter_In in Hk as [Hk _]. apply in_seq in Hk. unfold x. lia.
Qed.

Lemma t_split : t = lowpart ++ (if f i then [x] else []) ++ highpart.
Proof. apply btuple_split. Qed.

Lemma bisect_t : bisect_left t x = Ok (length lowpart).
Proof.
  destruct (bisect_left_correct t x (btuple_sorted b)) as (j & Hj & Hjl & H1 & H2).
  rewrite Hj. f_equal. rewrite t_split in *.
  set (rest := (if f i then [x] else []) ++ highpart) in *.
  assert (Hrest : forall u, In u rest -> x <= u).
  { intros u Hu. apply in_app_or in Hu as [Hu|Hu].
    - destruct (f i); [destruct Hu as [<-|[]]; lia|destruct Hu].
    - apply highpart_gt in Hu. lia. }
  destruct (lt_eq_lt_dec j (length lowpart)) as [[Hlt|Heq]|Hgt]; auto; exfalso.
  - destruct (nth_error lowpart j) as [u|] eqn:Eu; [|apply nth_error_None in Eu; lia].
    specialize (H2 j u (le_n j)). rewrite nth_error_app1 in H2 by lia. specialize (H2 Eu).
    apply nth_error_In in Eu. apply lowpart_lt in Eu. lia.
  - rewrite app_length in Hjl.
    destruct (nth_error rest 0) as [u|] eqn:Eu; [|apply nth_error_None in Eu; lia].
    specialize (H1 (length lowpart) u Hgt). rewrite nth_error_app2, Nat.sub_diag in H1 by lia.
    specialize (H1 Eu). apply nth_error_In in Eu. apply Hrest in Eu. lia.
Qed.

Lemma nth_t : nth_error t (length lowpart) =
  if f i then Some x else match highpart with [] => None | u :: _ => Some u end.
Proof.
  rewrite t_split, nth_error_app2, Nat.sub_diag by lia.
  destruct (f i); [reflexivity|]. cbn [app]. destruct highpart; reflexivity.
Qed.

Lemma occ_set_low v : filter (occ_set f i v) (seq 0 i) = filter f (seq 0 i).
Proof.
  apply filter_ext_in'. intros k Hk. apply in_seq in Hk. unfold occ_set.
  destruct (Nat.eqb_spec k i); [lia|reflexivity].
Qed.
Lemma occ_set_high v : filter (occ_set f i v) (seq (S i) (n - S i)) = filter f (seq (S i) (n - S i)).
Proof.
  apply filter_ext_in'. intros k Hk. apply in_seq in Hk. unfold occ_set.
  destruct (Nat.eqb_spec k i); [lia|reflexivity].
Qed.

Lemma set_tuple v : btuple (obits n (occ_set f i v)) = lowpart ++ (if v : bool then [x] else []) ++ highpart.
Proof.
  rewrite btuple_split, occ_set_low, occ_set_high. unfold occ_set at 1. rewrite Nat.eqb_refl. reflexivity.
Qed.

Lemma create_utuple_eq :
  create_utuple x t =
  Ok (if f i then ([], 0) else (btuple (obits n (occ_set f i true)), fermi_sign f i)).
Proof.
  unfold create_utuple, binary_search_bigger. rewrite bisect_t. cbn [bind]. rewrite nth_t.
  destruct (f i) eqn:E.
  - rewrite Z.eqb_refl. reflexivity.
  - assert (Hj : match match highpart with [] => None | u :: _ => Some u end with
                 | Some v => if v =? x then -1 else Z.of_nat (length lowpart)
                 | None => Z.of_nat (length lowpart) end = Z.of_nat (length lowpart)).
    { destruct highpart as [|u r] eqn:Eh; auto.
      assert (x < u) by (apply highpart_gt; rewrite Eh; left; auto).
      destruct (Z.eqb_spec u x); auto; lia. }
    rewrite Hj.
    destruct (Z.eqb_spec (Z.of_nat (length lowpart)) (-1)); [lia|]. cbn [negb].
    rewrite set_tuple.
    assert (Ht : t = lowpart ++ highpart) by (rewrite t_split, E; reflexivity).
    rewrite py_take_nat, py_drop_nat by (rewrite Ht, app_length; lia).
    rewrite Ht, firstn_app, Nat.sub_diag, firstn_all, skipn_app, Nat.sub_diag, skipn_all.
    simpl firstn. rewrite app_nil_r. cbn [app skipn].
    rewrite sign_of_count_nat, lowpart_length. reflexivity.
Qed.

Lemma remove_utuple_eq :
  remove_utuple x t =
  Ok (if f i then (btuple (obits n (occ_set f i false)), fermi_sign f i) else ([], 0)).
Proof.
  unfold remove_utuple, binary_search. rewrite bisect_t. cbn [bind]. rewrite nth_t.
  destruct (f i) eqn:E.
  - rewrite Z.eqb_refl.
    destruct (Z.eqb_spec (Z.of_nat (length lowpart)) (-1)); [lia|]. cbn [negb].
    rewrite set_tuple.
    assert (Ht : t = lowpart ++ [x] ++ highpart) by (rewrite t_split, E; reflexivity).
    replace (Z.of_nat (length lowpart) + 1) with (Z.of_nat (S (length lowpart))) by lia.
    rewrite py_take_nat, py_drop_nat by (rewrite Ht, !app_length; simpl; lia).
    rewrite Ht, firstn_app, Nat.sub_diag, firstn_all, skipn_app.
    rewrite skipn_all2 by lia. replace (S (length lowpart) - length lowpart)%nat with 1%nat by lia.
    simpl firstn. rewrite app_nil_r. cbn [app skipn].
    rewrite sign_of_count_nat, lowpart_length. reflexivity.
  - assert (Hj : match match highpart with [] => None | u :: _ => Some u end with
                 | Some v => if v =? x then Z.of_nat (length lowpart) else -1
                 | None => -1 end = -1).
    { destruct highpart as [|u r] eqn:Eh; auto.
      assert (x < u) by (apply highpart_gt; rewrite Eh; left; auto).
      destruct (Z.eqb_spec u x); auto; lia. }
    rewrite Hj. reflexivity.
Qed.
End Tuple.
