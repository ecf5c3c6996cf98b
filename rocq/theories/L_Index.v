(* c2i and i2c. *)
From Verif Require Import M_Prelude M_PSR M_Basis S_Fock S_Basis.
From Verif Require Import L_Dict.
Local Open Scope Z_scope.

Lemma spinorb_eqb_spec x y : reflect (x = y) (spinorb_eqb x y).
Proof.
  destruct x as [l s m|k b], y as [l' s' m'|k' b']; simpl; try (constructor; congruence).
  - destruct (Z.eqb_spec l l'), (Z.eqb_spec s s'), (Z.eqb_spec m m'); simpl; constructor; congruence.
  - destruct (bkey_eqb_spec k k'), (Z.eqb_spec b b'); simpl; constructor; congruence.
Qed.

Lemma count_until_app l1 l2 x : forall i, count_until (l1 ++ l2) x i =
  match count_until l1 x i with inl k => inl k | inr k => count_until l2 x k end.
Proof. induction l1 as [|y l1 IH]; intros i; simpl; auto. destruct (spinorb_eqb y x); auto. Qed.
Lemma count_until_notin l x : ~ In x l -> forall i, count_until l x i = inr (i + Z.of_nat (length l)).
Proof.
  induction l as [|y l IH]; intros Hn i; cbn [count_until length]; [f_equal; lia|].
  destruct (spinorb_eqb_spec y x) as [->|]; [exfalso; apply Hn; left; auto|].
  rewrite IH by (intros H; apply Hn; right; auto). f_equal. lia.
Qed.
Lemma count_until_seq (f : nat -> spinorb) n : (forall a b, f a = f b -> a = b) -> forall z k i, (z <= k < z + n)%nat ->
  count_until (map f (seq z n)) (f k) i = inl (i + Z.of_nat (k - z)).
Proof.
  intros Hf. induction n as [|n IH]; intros z k i Hk; [lia|]. cbn [seq map count_until].
  destruct (spinorb_eqb_spec (f z) (f k)) as [E|E].
  - apply Hf in E. subst. f_equal. lia.
  - assert (z <> k) by congruence. rewrite IH by lia. f_equal. lia.
Qed.
Lemma coord_at_app l1 l2 i : forall k, coord_at (l1 ++ l2) i k =
  match coord_at l1 i k with inl x => inl x | inr k => coord_at l2 i k end.
Proof. induction l1 as [|y l1 IH]; intros k; simpl; auto. destruct (k =? i); auto. Qed.
Lemma coord_at_nth l i : forall k, k <= i < k + Z.of_nat (length l) ->
  exists x, coord_at l i k = inl x /\ nth_error l (Z.to_nat (i - k)) = Some x.
Proof.
  induction l as [|y l IH]; intros k Hk; cbn [length] in Hk; [lia|]. cbn [coord_at].
  destruct (Z.eqb_spec k i) as [->|]; [rewrite Z.sub_diag; exists y; auto|].
  destruct (IH (k + 1)) as (x & E & Hx); [lia|]. exists x. split; auto.
  replace (Z.to_nat (i - k)) with (S (Z.to_nat (i - (k + 1)))) by lia. auto.
Qed.
Lemma coord_at_out l i : forall k, i < k \/ k + Z.of_nat (length l) <= i -> coord_at l i k = inr (k + Z.of_nat (length l)).
Proof.
  induction l as [|y l IH]; intros k Hk; cbn [length] in *; cbn [coord_at]; [f_equal; lia|].
  destruct (Z.eqb_spec k i); [lia|]. rewrite IH by lia. f_equal. lia.
Qed.

(* ---- a shell ---- *)
Lemma zrange2_length a b : length (zrange2 a b) = Z.to_nat (b - a).
Proof. unfold zrange2. rewrite map_length, seq_length. auto. Qed.
Lemma zrange2_In a b x : In x (zrange2 a b) <-> a <= x < b.
Proof.
  unfold zrange2. rewrite in_map_iff. split.
  - intros (k & <- & Hk). apply in_seq in Hk. lia.
  - intros H. exists (Z.to_nat (x - a)). split; [lia|]. apply in_seq. lia.
Qed.
Lemma zrange_In n x : In x (zrange n) <-> 0 <= x < n.
Proof.
  unfold zrange. rewrite in_map_iff. split.
  - intros (k & <- & Hk). apply in_seq in Hk. lia.
  - intros H. exists (Z.to_nat x). split; [lia|]. apply in_seq. lia.
Qed.
Lemma zrange_length n : length (zrange n) = Z.to_nat n.
Proof. unfold zrange. rewrite map_length, seq_length. auto. Qed.
Lemma zrange2_NoDup a b : NoDup (zrange2 a b).
Proof. unfold zrange2. apply FinFun.Injective_map_NoDup; [intros x y; lia|apply seq_NoDup]. Qed.
Lemma zrange_NoDup n : NoDup (zrange n).
Proof. unfold zrange. apply FinFun.Injective_map_NoDup; [intros x y; lia|apply seq_NoDup]. Qed.

Lemma shell_coords_eq l : shell_coords l = map (SImp l 0) (zrange2 (- l) (l + 1)) ++ map (SImp l 1) (zrange2 (- l) (l + 1)).
Proof. unfold shell_coords. change (zrange 2) with [0; 1]. cbn [flat_map]. rewrite app_nil_r. reflexivity. Qed.
Lemma shell_coords_length l : 0 <= l -> Z.of_nat (length (shell_coords l)) = shell_size l.
Proof. intros Hl. rewrite shell_coords_eq, app_length, !map_length, zrange2_length. unfold shell_size. lia. Qed.
Lemma shell_coords_In l x : In x (shell_coords l) <-> exists s m, x = SImp l s m /\ (s = 0 \/ s = 1) /\ - l <= m <= l.
Proof.
  rewrite shell_coords_eq, in_app_iff, !in_map_iff. split.
  - intros [(m & <- & Hm)|(m & <- & Hm)]; apply zrange2_In in Hm; eexists _, m; split; eauto; split; auto; lia.
  - intros (s & m & -> & [->| ->] & Hm); [left|right]; exists m; split; auto; apply zrange2_In; lia.
Qed.
Lemma shell_count l s m i : (s = 0 \/ s = 1) -> - l <= m <= l ->
  count_until (shell_coords l) (SImp l s m) i = inl (i + s * (2 * l + 1) + (m + l)).
Proof.
  intros Hs Hm. rewrite shell_coords_eq, count_until_app. unfold zrange2. rewrite !map_map.
  replace m with (- l + Z.of_nat (Z.to_nat (m + l))) by lia.
  destruct Hs as [->| ->].
  - rewrite (count_until_seq (fun k => SImp l 0 (- l + Z.of_nat k))) by (try lia; intros a b [= E]; lia). f_equal. lia.
  - rewrite count_until_notin.
    + rewrite (count_until_seq (fun k => SImp l 1 (- l + Z.of_nat k))) by (try lia; intros a b [= E]; lia).
      rewrite map_length, seq_length. f_equal. lia.
    + rewrite in_map_iff. intros (k & E & _). congruence.
Qed.
Lemma shell_nth l j : 0 <= j < shell_size l -> 0 <= l ->
  nth_error (shell_coords l) (Z.to_nat j) = Some (SImp l (j / (2 * l + 1)) (j mod (2 * l + 1) - l)).
Proof.
  intros Hj Hl. unfold shell_size in Hj. rewrite shell_coords_eq.
  assert (HE : forall s k, (k < Z.to_nat (2 * l + 1))%nat -> nth_error (map (SImp l s) (zrange2 (- l) (l + 1))) k = Some (SImp l s (- l + Z.of_nat k))).
  { intros s k Hk. unfold zrange2. rewrite map_map. erewrite map_nth_error; [reflexivity|].
    rewrite (nth_error_nth' _ 0%nat) by (rewrite seq_length; lia). rewrite seq_nth by lia. reflexivity. }
  destruct (Z_lt_dec j (2 * l + 1)) as [Hlt|Hge].
  - rewrite nth_error_app1 by (rewrite map_length, zrange2_length; lia). rewrite HE by lia.
    rewrite Z.div_small, Z.mod_small by lia. do 2 f_equal. lia.
  - rewrite nth_error_app2 by (rewrite map_length, zrange2_length; lia). rewrite map_length, zrange2_length.
    rewrite HE by lia.
    assert (Hd : j / (2 * l + 1) = 1) by (symmetry; apply (Z.div_unique j (2 * l + 1) 1 (j - (2 * l + 1))); lia).
    assert (Hmod : j mod (2 * l + 1) = j - (2 * l + 1)) by (rewrite Z.mod_eq, Hd; lia).
    rewrite Hd, Hmod. do 2 f_equal. lia.
Qed.

(* ---- impurity part ---- *)
Definition imp_coords (ls : list Z) := flat_map shell_coords ls.
Lemma imp_coords_length ls : Forall (fun l => 0 <= l) ls -> Z.of_nat (length (imp_coords ls)) = zsum (map shell_size ls).
Proof.
  induction 1 as [|l ls Hl HF IH]; [reflexivity|]. unfold imp_coords in *. cbn [flat_map map zsum fold_right].
  rewrite app_length, Nat2Z.inj_add, shell_coords_length, IH by auto. reflexivity.
Qed.
Lemma imp_coords_In ls x : In x (imp_coords ls) <-> exists l s m, x = SImp l s m /\ In l ls /\ (s = 0 \/ s = 1) /\ - l <= m <= l.
Proof.
  unfold imp_coords. rewrite in_flat_map. split.
  - intros (l & Hl & Hx). apply shell_coords_In in Hx as (s & m & -> & H). exists l, s, m. tauto.
  - intros (l & s & m & -> & Hl & H). exists l. split; auto. apply shell_coords_In. eauto.
Qed.
Lemma imp_count ls l s m : Forall (fun l => 0 <= l) ls -> In l ls -> (s = 0 \/ s = 1) -> - l <= m <= l ->
  forall i, count_until (imp_coords ls) (SImp l s m) i = inl (i + imp_offset ls l + s * (2 * l + 1) + (m + l)).
Proof.
  induction 1 as [|a ls Ha HF IH]; intros Hl Hs Hm i; [destruct Hl|]. unfold imp_coords. cbn [flat_map imp_offset].
  rewrite count_until_app. destruct (Z.eqb_spec a l) as [->|Hne].
  - rewrite shell_count by auto. f_equal. lia.
  - rewrite count_until_notin by (intros Hx; apply shell_coords_In in Hx as (s' & m' & [= ->] & _); congruence).
    fold (imp_coords ls). destruct Hl as [|Hl]; [congruence|]. rewrite IH by auto. rewrite shell_coords_length by auto. f_equal. lia.
Qed.
Lemma i2c_imp_ok ls l s m : Forall (fun l => 0 <= l) ls -> In l ls -> (s = 0 \/ s = 1) -> - l <= m <= l -> forall k,
  i2c_imp ls (k + imp_offset ls l + s * (2 * l + 1) + (m + l)) k = inl (SImp l s m).
Proof.
  induction 1 as [|a ls Ha HF IH]; intros Hl Hs Hm k; [destruct Hl|]. cbn [i2c_imp imp_offset].
  fold (shell_size a). destruct (Z.eqb_spec a l) as [->|Hne].
  - replace (k + 0 + s * (2 * l + 1) + (m + l) - k) with (s * (2 * l + 1) + (m + l)) by lia.
    set (j := s * (2 * l + 1) + (m + l)). assert (Hj : 0 <= j < shell_size l) by (unfold j, shell_size; destruct Hs as [->| ->]; lia).
    destruct (Z.ltb_spec j (shell_size l)); [|lia].
    destruct (coord_at_nth (shell_coords l) (k + 0 + s * (2 * l + 1) + (m + l)) k) as (x & E & Hx).
    { rewrite shell_coords_length by auto. unfold j in Hj. lia. }
    rewrite E. f_equal. replace (k + 0 + s * (2 * l + 1) + (m + l) - k) with j in Hx by (unfold j; lia).
    rewrite shell_nth in Hx by auto. apply (f_equal (fun o => match o with Some y => y | None => SImp 0 0 0 end)) in Hx. cbv beta iota in Hx. rewrite <- Hx.
    assert (Hd : j / (2 * l + 1) = s) by (symmetry; apply (Z.div_unique j (2 * l + 1) s (m + l)); unfold j; lia).
    assert (Hmd : j mod (2 * l + 1) = m + l) by (rewrite Z.mod_eq, Hd by lia; unfold j; lia).
    rewrite Hd, Hmd. f_equal. lia.
  - destruct Hl as [|Hl]; [congruence|].
    assert (0 <= imp_offset ls l) by (clear -HF; induction HF as [|b ls Hb HF IH]; cbn [imp_offset]; [lia|]; destruct (b =? l); unfold shell_size; lia).
    assert (0 <= s * (2 * l + 1) + (m + l)) by (destruct Hs as [->| ->]; lia).
    destruct (Z.ltb_spec (k + (shell_size a + imp_offset ls l) + s * (2 * l + 1) + (m + l) - k) (shell_size a)); [lia|].
    replace (k + (shell_size a + imp_offset ls l) + s * (2 * l + 1) + (m + l)) with ((k + shell_size a) + imp_offset ls l + s * (2 * l + 1) + (m + l)) by lia.
    apply IH; auto.
Qed.
Lemma i2c_imp_inv ls : Forall (fun l => 0 <= l) ls -> forall i k, k <= i < k + zsum (map shell_size ls) ->
  exists l s m, i2c_imp ls i k = inl (SImp l s m) /\ In l ls /\ (s = 0 \/ s = 1) /\ - l <= m <= l /\
    (NoDup ls -> i = k + imp_offset ls l + s * (2 * l + 1) + (m + l)).
Proof.
  induction 1 as [|a ls Ha HF IH]; intros i k Hi; cbn [map zsum fold_right] in Hi; [lia|]. cbn [i2c_imp]. fold (shell_size a).
  destruct (Z.ltb_spec (i - k) (shell_size a)).
  - destruct (coord_at_nth (shell_coords a) i k) as (x & E & Hx); [rewrite shell_coords_length by auto; lia|].
    rewrite E. rewrite shell_nth in Hx by lia. apply (f_equal (fun o => match o with Some y => y | None => SImp 0 0 0 end)) in Hx. cbv beta iota in Hx. rewrite <- Hx.
    pose proof (Z.div_mod (i - k) (2 * a + 1) ltac:(lia)) as D. pose proof (Z.mod_pos_bound (i - k) (2 * a + 1) ltac:(lia)) as B.
    assert (Hq : (i - k) / (2 * a + 1) = 0 \/ (i - k) / (2 * a + 1) = 1).
    { assert (0 <= (i - k) / (2 * a + 1)) by (apply Z.div_pos; lia).
      assert ((i - k) / (2 * a + 1) < 2) by (apply Z.div_lt_upper_bound; unfold shell_size in *; lia). lia. }
    exists a, ((i - k) / (2 * a + 1)), ((i - k) mod (2 * a + 1) - a). split; [reflexivity|]. split; [left; auto|]. split; [auto|]. split; [lia|].
    intros _. cbn [imp_offset]. rewrite Z.eqb_refl. lia.
  - destruct (IH i (k + shell_size a)) as (l & s & m & E & Hl & Hs & Hm & Hx); [fold (zsum (map shell_size ls)) in Hi; lia|].
    exists l, s, m. split; [auto|]. split; [right; auto|]. split; [auto|]. split; [auto|].
    intros Hn. apply NoDup_cons_iff in Hn as [Hni Hn]. cbn [imp_offset]. destruct (Z.eqb_spec a l) as [->|]; [contradiction|].
    rewrite (Hx Hn) at 1. lia.
Qed.
Lemma zsum_shell_nonneg ls : Forall (fun l => 0 <= l) ls -> 0 <= zsum (map shell_size ls).
Proof. induction 1 as [|a ls Ha HF IH]; cbn [map zsum fold_right]; [lia|]. fold (zsum (map shell_size ls)). unfold shell_size in *. lia. Qed.
Lemma i2c_imp_ge ls : Forall (fun l => 0 <= l) ls -> forall i k, k + zsum (map shell_size ls) <= i ->
  i2c_imp ls i k = inr (k + zsum (map shell_size ls)).
Proof.
  induction 1 as [|a ls Ha HF IH]; intros i k Hi; cbn [map zsum fold_right] in *; cbn [i2c_imp]; [f_equal; lia|].
  fold (shell_size a). fold (zsum (map shell_size ls)) in *.
  assert (0 <= zsum (map shell_size ls)) by (apply zsum_shell_nonneg; auto).
  destruct (Z.ltb_spec (i - k) (shell_size a)); [lia|]. rewrite IH by lia. f_equal. lia.
Qed.
Lemma i2c_imp_neg ls : Forall (fun l => 0 <= l) ls -> forall i k, i < k -> exists k', i2c_imp ls i k = inr k' /\ k <= k'.
Proof.
  induction 1 as [|a ls Ha HF IH]; intros i k Hi; cbn [i2c_imp]; [exists k; split; auto; lia|]. fold (shell_size a).
  destruct (Z.ltb_spec (i - k) (shell_size a)).
  - rewrite coord_at_out by lia. rewrite shell_coords_length by auto.
    destruct (IH i (k + shell_size a + shell_size a)) as (k' & E & Hk); [unfold shell_size; lia|].
    exists k'. split; [exact E|]. unfold shell_size in *; lia.
  - destruct (IH i (k + shell_size a)) as (k' & E & Hk); [unfold shell_size; lia|]. exists k'. split; [exact E|]. unfold shell_size in *; lia.
Qed.

(* ---- bath part ---- *)
Definition bath_coords (nb : nbaths_t) := flat_map (fun kn => map (SBath (fst kn)) (zrange (snd kn))) nb.
Lemma bath_coords_In nb x : In x (bath_coords nb) <-> exists k b n, x = SBath k b /\ In (k, n) nb /\ 0 <= b < n.
Proof.
  unfold bath_coords. rewrite in_flat_map. split.
  - intros ([k n] & Hk & Hx). cbn [fst snd] in Hx. apply in_map_iff in Hx as (b & <- & Hb). apply zrange_In in Hb. exists k, b, n. auto.
  - intros (k & b & n & -> & Hk & Hb). exists (k, n). split; auto. cbn [fst snd]. apply in_map_iff. exists b. split; auto. apply zrange_In. auto.
Qed.
Lemma bath_count nb k b n : NoDup (dkeys nb) -> Forall (fun kn => 0 <= snd kn) nb -> In (k, n) nb -> 0 <= b < n ->
  forall i, count_until (bath_coords nb) (SBath k b) i = inl (i + bath_offset nb k + b).
Proof.
  intros Hn HF. induction HF as [|[k' n'] nb Hn' HF IH]; intros Hk Hb i; [destruct Hk|]. cbn [dkeys map fst] in Hn.
  apply NoDup_cons_iff in Hn as [Hni Hn]. unfold bath_coords. cbn [flat_map fst snd bath_offset]. cbn [snd] in Hn'. rewrite count_until_app.
  destruct (eqb_spec k' k) as [->|Hne].
  - assert (n' = n). { destruct Hk as [[= ->]|Hk]; auto. exfalso. apply Hni. apply in_map_iff. exists (k, n). auto. }
    subst n'. unfold zrange. rewrite map_map. replace b with (Z.of_nat (Z.to_nat b)) by lia.
    rewrite (count_until_seq (fun k0 => SBath k (Z.of_nat k0))) by (try lia; intros a c [= E]; lia). f_equal. lia.
  - rewrite count_until_notin by (rewrite in_map_iff; intros (b' & E & _); congruence).
    fold (bath_coords nb). destruct Hk as [[= -> ->]|Hk]; [congruence|]. rewrite IH by auto. rewrite map_length, zrange_length. f_equal. lia.
Qed.
Lemma bath_offset_nonneg nb k : Forall (fun kn => 0 <= snd kn) nb -> 0 <= bath_offset nb k.
Proof. induction 1 as [|[k' n] nb Hn HF IH]; cbn [bath_offset]; [lia|]. cbn [snd] in Hn. destruct (eqb k' k); lia. Qed.
Lemma zsum_snd_nonneg (nb : nbaths_t) : Forall (fun kn => 0 <= snd kn) nb -> 0 <= zsum (map snd nb).
Proof. induction 1; cbn [map zsum fold_right]; [lia|]. fold (zsum (map snd l)). lia. Qed.
Lemma bath_offset_lt nb k n : Forall (fun kn => 0 <= snd kn) nb -> NoDup (dkeys nb) -> In (k, n) nb ->
  bath_offset nb k + n <= zsum (map snd nb).
Proof.
  intros HF. induction HF as [|[k' n'] nb Hn' HF IH]; intros Hn Hk; [destruct Hk|]. cbn [dkeys map fst] in Hn.
  apply NoDup_cons_iff in Hn as [Hni Hn]. cbn [bath_offset map zsum fold_right snd] in *. fold (zsum (map snd nb)).
  pose proof (zsum_snd_nonneg nb HF). destruct (eqb_spec k' k) as [->|Hne].
  - destruct Hk as [[= ->]|Hk]; [lia|]. exfalso. apply Hni. apply in_map_iff. exists (k, n). auto.
  - destruct Hk as [[= -> ->]|Hk]; [congruence|]. specialize (IH Hn Hk). lia.
Qed.
Lemma i2c_bath_ok nb k b n : Forall (fun kn => 0 <= snd kn) nb -> NoDup (dkeys nb) -> In (k, n) nb -> 0 <= b < n ->
  forall z, i2c_bath nb (z + bath_offset nb k + b) z = Ok (SBath k b).
Proof.
  intros HF. induction HF as [|[k' n'] nb Hn' HF IH]; intros Hn Hk Hb z; [destruct Hk|]. cbn [dkeys map fst] in Hn.
  apply NoDup_cons_iff in Hn as [Hni Hn]. cbn [bath_offset i2c_bath snd] in *.
  pose proof (bath_offset_nonneg nb k HF). destruct (eqb_spec k' k) as [->|Hne].
  - assert (n' = n). { destruct Hk as [[= ->]|Hk]; auto. exfalso. apply Hni. apply in_map_iff. exists (k, n). auto. }
    destruct (Z.ltb_spec (z + 0 + b - z) n'); [|lia]. do 2 f_equal. lia.
  - destruct Hk as [[= -> ->]|Hk]; [congruence|]. destruct (Z.ltb_spec (z + (n' + bath_offset nb k) + b - z) n'); [lia|].
    replace (z + (n' + bath_offset nb k) + b) with ((z + n') + bath_offset nb k + b) by lia. apply IH; auto.
Qed.
Lemma i2c_bath_inv nb : Forall (fun kn => 0 <= snd kn) nb -> NoDup (dkeys nb) -> forall i z, z <= i < z + zsum (map snd nb) ->
  exists k b n, i2c_bath nb i z = Ok (SBath k b) /\ In (k, n) nb /\ 0 <= b < n /\ i = z + bath_offset nb k + b.
Proof.
  intros HF. induction HF as [|[k' n'] nb Hn' HF IH]; intros Hn i z Hi; cbn [map zsum fold_right snd] in *; [lia|]. cbn [dkeys map fst] in Hn.
  apply NoDup_cons_iff in Hn as [Hni Hn]. fold (zsum (map snd nb)) in *. cbn [i2c_bath]. destruct (Z.ltb_spec (i - z) n').
  - exists k', (i - z), n'. split; [auto|]. split; [left; auto|]. split; [lia|]. cbn [bath_offset]. rewrite eqb_refl. lia.
  - destruct (IH Hn i (z + n')) as (k & b & n & E & Hk & Hb & Hi'); [lia|]. exists k, b, n. split; [auto|]. split; [right; auto|]. split; [auto|].
    cbn [bath_offset]. destruct (eqb_spec k' k) as [->|]; [|lia]. exfalso. apply Hni. apply in_map_iff. exists (k, n). auto.
Qed.
Lemma i2c_bath_ge nb : Forall (fun kn => 0 <= snd kn) nb -> forall i z, z + zsum (map snd nb) <= i -> i2c_bath nb i z = Err GenericException.
Proof.
  induction 1 as [|[k n] nb Hn HF IH]; intros i z Hi; cbn [i2c_bath]; auto. cbn [map zsum fold_right snd] in *. fold (zsum (map snd nb)) in *.
  pose proof (zsum_snd_nonneg nb HF). destruct (Z.ltb_spec (i - z) n); [lia|]. apply IH. lia.
Qed.

(* ---- together ---- *)
Lemma angs_eq nb : flat_map (fun lp => flat_map shell_coords (key_angs lp)) (dkeys nb) = imp_coords (angs nb).
Proof.
  unfold imp_coords, angs. induction (dkeys nb) as [|k l IH]; [reflexivity|]. cbn [flat_map]. rewrite flat_map_app, IH. reflexivity.
Qed.
Lemma c2i_ok nb x : wf_nbaths nb -> coord_ok nb x -> c2i nb x = Ok (coord_index nb x).
Proof.
  intros (Hn & Ha & Hb) Hx. unfold c2i. rewrite angs_eq. destruct x as [l s m|k b]; cbn [coord_ok coord_index] in *.
  - destruct Hx as (Hl & Hs & Hm). rewrite imp_count by auto. f_equal.
  - destruct Hx as (n & Hk & Hbb). rewrite count_until_notin.
    + fold (bath_coords nb). rewrite (bath_count nb k b n) by auto. rewrite imp_coords_length by auto. f_equal.
    + intros Hx. apply imp_coords_In in Hx as (l & s & m & [=] & _).
Qed.
Lemma c2i_err nb x : ~ coord_ok nb x -> c2i nb x = Err GenericException.
Proof.
  intros Hx. unfold c2i. rewrite angs_eq. rewrite count_until_notin.
  - fold (bath_coords nb). rewrite count_until_notin; auto. intros H. apply bath_coords_In in H as (k & b & n & -> & H). apply Hx. exists n. auto.
  - intros H. apply imp_coords_In in H as (l & s & m & -> & H). apply Hx. exact H.
Qed.
Lemma coord_index_range nb x : wf_nbaths nb -> coord_ok nb x ->
  match x with SImp _ _ _ => 0 <= coord_index nb x < n_imp nb | SBath _ _ => n_imp nb <= coord_index nb x < n_total nb end.
Proof.
  intros (Hn & Ha & Hb) Hx. destruct x as [l s m|k b]; cbn [coord_ok coord_index] in *.
  - destruct Hx as (Hl & Hs & Hm). unfold n_imp. clear -Ha Hl Hs Hm.
    assert (Hoff : 0 <= imp_offset (angs nb) l /\ imp_offset (angs nb) l + shell_size l <= zsum (map shell_size (angs nb))).
    { revert Hl. induction Ha as [|a ls Ha HF IH]; intros Hl; [destruct Hl|]. cbn [imp_offset map zsum fold_right].
      fold (zsum (map shell_size ls)).
      assert (0 <= zsum (map shell_size ls)) by (apply zsum_shell_nonneg; auto).
      destruct (Z.eqb_spec a l) as [->|]; [lia|]. destruct Hl as [|Hl]; [congruence|]. specialize (IH Hl). unfold shell_size in *. lia. }
    unfold shell_size in Hoff at 1. destruct Hs as [->| ->]; lia.
  - destruct Hx as (n & Hk & Hbb). pose proof (bath_offset_nonneg nb k Hb). pose proof (bath_offset_lt nb k n Hb Hn Hk). unfold n_total. lia.
Qed.
Lemma n_imp_nonneg nb : wf_nbaths nb -> 0 <= n_imp nb.
Proof.
  intros (_ & Ha & _). apply zsum_shell_nonneg; auto.
Qed.
Lemma i2c_index nb x : wf_nbaths nb -> coord_ok nb x -> i2c nb (coord_index nb x) = Ok x.
Proof.
  intros Hw Hx. pose proof (coord_index_range nb x Hw Hx) as HR. destruct Hw as (Hn & Ha & Hb). unfold i2c. fold (angs nb).
  destruct x as [l s m|k b]; cbn [coord_ok coord_index] in *.
  - destruct Hx as (Hl & Hs & Hm).
    pose proof (i2c_imp_ok (angs nb) l s m Ha Hl Hs Hm 0) as E. rewrite Z.add_0_l in E. rewrite E. reflexivity.
  - destruct Hx as (n & Hk & Hbb). rewrite i2c_imp_ge by (auto; unfold n_imp in *; lia). fold (n_imp nb). rewrite Z.add_0_l.
    apply (i2c_bath_ok nb k b n); auto.
Qed.
Lemma i2c_total nb i : wf_nbaths nb -> 0 <= i < n_total nb ->
  exists x, i2c nb i = Ok x /\ coord_ok nb x /\ (NoDup (angs nb) -> coord_index nb x = i).
Proof.
  intros (Hn & Ha & Hb) Hi. unfold i2c. fold (angs nb). destruct (Z_lt_dec i (n_imp nb)) as [Hlt|Hge].
  - destruct (i2c_imp_inv (angs nb) Ha i 0) as (l & s & m & E & Hl & Hs & Hm & Hx); [unfold n_imp in *; lia|].
    rewrite E. exists (SImp l s m). split; [auto|]. split; [cbn; auto|]. intros Hd. specialize (Hx Hd). cbn [coord_index]. lia.
  - rewrite i2c_imp_ge by (auto; unfold n_imp in *; lia). fold (n_imp nb). rewrite Z.add_0_l.
    destruct (i2c_bath_inv nb Hb Hn i (n_imp nb)) as (k & b & n & E & Hk & Hbb & Hii); [unfold n_total in Hi; lia|].
    exists (SBath k b). split; [auto|]. split; [exists n; auto|]. intros _. cbn [coord_index]. lia.
Qed.
Lemma i2c_beyond nb i : wf_nbaths nb -> n_total nb <= i -> i2c nb i = Err GenericException.
Proof.
  intros (Hn & Ha & Hb) Hi. pose proof (zsum_snd_nonneg nb Hb). unfold i2c. fold (angs nb). unfold n_total, n_imp in *.
  rewrite i2c_imp_ge by (auto; lia). apply i2c_bath_ge; auto; lia.
Qed.
Lemma i2c_negative nb i : wf_nbaths nb -> nb <> [] -> i < 0 -> exists k b, i2c nb i = Ok (SBath k b) /\ b < 0.
Proof.
  intros (Hn & Ha & Hb) Hne Hi. unfold i2c. fold (angs nb). destruct (i2c_imp_neg (angs nb) Ha i 0 Hi) as (k' & E & Hk). rewrite E.
  destruct nb as [|[k n] nb]; [congruence|]. apply Forall_inv in Hb. cbn [snd] in Hb. cbn [i2c_bath].
  destruct (Z.ltb_spec (i - k') n); [|lia]. exists k, (i - k'). split; auto. lia.
Qed.
Lemma coord_index_inj nb x y : wf_nbaths nb -> coord_ok nb x -> coord_ok nb y -> coord_index nb x = coord_index nb y -> x = y.
Proof. intros Hw Hx Hy E. pose proof (i2c_index nb x Hw Hx) as H1. rewrite E, (i2c_index nb y Hw Hy) in H1. congruence. Qed.
Lemma c2i_P nb x : wf_nbaths nb -> coord_ok nb x ->
  c2i nb x = Ok (coord_index nb x) /\ 0 <= coord_index nb x < n_total nb /\
  (match x with SImp _ _ _ => coord_index nb x < n_imp nb | SBath _ _ => n_imp nb <= coord_index nb x end).
Proof.
  intros Hw Hx. split; [apply c2i_ok; auto|]. pose proof (coord_index_range nb x Hw Hx) as R. pose proof (n_imp_nonneg nb Hw).
  pose proof (zsum_snd_nonneg nb (proj2 (proj2 Hw))). unfold n_total in *. destruct x; lia.
Qed.
Lemma i2c_bijection nb i : wf_nbaths nb -> NoDup (angs nb) -> 0 <= i < n_total nb ->
  exists x, i2c nb i = Ok x /\ coord_ok nb x /\ c2i nb x = Ok i /\ forall y, coord_ok nb y -> c2i nb y = Ok i -> y = x.
Proof.
  intros Hw Hn Hi. destruct (i2c_total nb i Hw Hi) as (x & E & Hx & Hxi). specialize (Hxi Hn). exists x. split; [auto|]. split; [auto|]. split.
  - rewrite c2i_ok by auto. congruence.
  - intros y Hy Ey. rewrite c2i_ok in Ey by auto. injection Ey as Ey. apply (coord_index_inj nb); auto. congruence.
Qed.
