(* a, c, inner, add, norm2, daggerOp, addOps and get_job_tasks. *)
From Coq Require Import Permutation Ring Field.
From Verif Require Import M_Prelude M_Scalar M_PSR M_Ladder M_State S_Occ S_Routes S_Fock.
From Verif Require Import L_Scalar L_Sum L_Dict L_PSR L_PSR2 L_Ladder L_Ladder2 L_Fock.
Local Open Scope Z_scope.

(* ---- configurations ---- *)
Definition flip (v : bool) (i : nat) (c : config) : option (config * Z) :=
  match nth_error c i with
  | Some b => if Bool.eqb b v then None else Some (upd c i v, jw_sign i c)
  | None => None
  end.
Lemma cre_flip i c : cre i c = flip true i c.
Proof. unfold cre, flip. destruct (nth_error c i) as [[|]|]; reflexivity. Qed.
Lemma ann_flip i c : ann i c = flip false i c.
Proof. unfold ann, flip. destruct (nth_error c i) as [[|]|]; reflexivity. Qed.

Lemma upd_lt {c : config} {i b} : nth_error c i = Some b -> (i < length c)%nat.
Proof. intros E. apply nth_error_Some. congruence. Qed.
Lemma firstn_upd_ge c i v k : (i < length c)%nat -> (k <= i)%nat -> firstn k (upd c i v) = firstn k c.
Proof.
  intros Hi Hk. unfold upd. rewrite firstn_app.
  rewrite firstn_firstn, Nat.min_l by auto.
  rewrite firstn_length, Nat.min_l by lia. replace (k - i)%nat with 0%nat by lia. simpl. rewrite app_nil_r. auto.
Qed.
Lemma upd_inv c i b v : nth_error c i = Some b -> upd (upd c i v) i b = c.
Proof.
  intros E. pose proof (upd_lt E) as Hi.
  apply nth_error_ext.
  - rewrite !upd_length; auto. rewrite upd_length; auto.
  - intros k _. destruct (Nat.eq_dec k i) as [->|Hk].
    + rewrite nth_error_upd_same; auto. rewrite upd_length; auto.
    + rewrite !nth_error_upd_other; auto. rewrite upd_length; auto.
Qed.
Lemma upd_comm c i j v w : i <> j -> (i < length c)%nat -> (j < length c)%nat ->
  upd (upd c i v) j w = upd (upd c j w) i v.
Proof.
  intros Hij Hi Hj. apply nth_error_ext.
  - rewrite !upd_length; auto; rewrite upd_length; auto.
  - intros k _. destruct (Nat.eq_dec k i) as [->|Hki]; [|destruct (Nat.eq_dec k j) as [->|Hkj]].
    + rewrite nth_error_upd_other, !nth_error_upd_same; auto; rewrite upd_length; auto.
    + rewrite nth_error_upd_same, nth_error_upd_other, nth_error_upd_same; auto; rewrite upd_length; auto.
    + rewrite !nth_error_upd_other; auto; rewrite upd_length; auto.
Qed.
Lemma jw_sign_upd_ge c i v k : (i < length c)%nat -> (k <= i)%nat -> jw_sign k (upd c i v) = jw_sign k c.
Proof. intros Hi Hk. unfold jw_sign. rewrite firstn_upd_ge; auto. Qed.
Lemma jw_sign_upd_lt c i b v k : nth_error c i = Some b -> b <> v -> (i < k)%nat -> (k <= length c)%nat ->
  jw_sign k (upd c i v) = - jw_sign k c.
Proof.
  intros E Hb Hk Hl. pose proof (upd_lt E) as Hi. unfold jw_sign, upd.
  assert (Ec : c = firstn i c ++ b :: skipn (S i) c).
  { clear -E. revert i E. induction c as [|a c IH]; intros [|i]; simpl; intros E; try discriminate.
    - injection E as ->; auto.
    - f_equal. apply IH; auto. }
  rewrite Ec at 3. rewrite !firstn_app, !firstn_length, Nat.min_l by lia.
  replace (k - i)%nat with (S (k - i - 1)) by lia. cbn [firstn].
  rewrite !nelec_app. rewrite !firstn_firstn.
  set (x := nelec _). set (y := firstn _ (skipn _ _)).
  destruct b, v; try congruence; cbn [nelec]; rewrite Nat.add_succ_r, Nat.even_succ, <- Nat.negb_even;
    destruct (Nat.even _); reflexivity.
Qed.

(* flip v i and flip (negb v) i are inverse partial maps with the same sign *)
Lemma flip_inv v i c d s : flip v i c = Some (d, s) -> flip (negb v) i d = Some (c, s).
Proof.
  unfold flip. destruct (nth_error c i) as [b|] eqn:E; [|discriminate].
  destruct (Bool.eqb_spec b v) as [|Hb]; [discriminate|]. intros [= <- <-].
  rewrite nth_error_upd_same by (eapply upd_lt; eauto).
  destruct (Bool.eqb_spec v (negb v)) as [Ev|_]; [destruct v; discriminate|].
  assert (Eb : negb v = b) by (destruct b, v; try reflexivity; congruence). rewrite Eb.
  rewrite (upd_inv c i b v) by auto. rewrite jw_sign_upd_ge by (auto; eapply upd_lt; eauto). reflexivity.
Qed.
Lemma cre_ann i c d s : cre i c = Some (d, s) <-> ann i d = Some (c, s).
Proof.
  rewrite cre_flip, ann_flip. split; intros E; apply flip_inv in E; exact E.
Qed.

Definition comp (f g : config -> option (config * Z)) (t : config) : option (config * Z) :=
  match f t with
  | Some (s, a) => match g s with Some (u, b) => Some (u, a * b) | None => None end
  | None => None
  end.
Definition oneg (o : option (config * Z)) : option (config * Z) :=
  match o with Some (u, b) => Some (u, - b) | None => None end.
Lemma flip_anticomm_lt v w i j t : (i < j)%nat ->
  comp (flip v i) (flip w j) t = oneg (comp (flip w j) (flip v i) t).
Proof.
  intros Hij. unfold comp, flip.
  destruct (nth_error t i) as [b|] eqn:Ei.
  2:{ destruct (nth_error t j) as [b'|] eqn:Ej; auto.
      apply nth_error_None in Ei. pose proof (upd_lt Ej). lia. }
  destruct (nth_error t j) as [b'|] eqn:Ej.
  2:{ destruct (Bool.eqb b v); auto. rewrite nth_error_upd_other, Ej; auto; [eapply upd_lt; eauto|lia]. }
  pose proof (upd_lt Ei) as Hi. pose proof (upd_lt Ej) as Hj.
  destruct (Bool.eqb_spec b v) as [Eb|Hb].
  - destruct (Bool.eqb b' w); auto. rewrite nth_error_upd_other, Ei by (auto; lia).
    destruct (Bool.eqb_spec b v); [auto|congruence].
  - rewrite nth_error_upd_other, Ej by (auto; lia).
    destruct (Bool.eqb_spec b' w) as [Eb'|Hb']; [auto|].
    rewrite nth_error_upd_other, Ei by (auto; lia).
    destruct (Bool.eqb_spec b v); [congruence|]. cbn [oneg].
    rewrite (jw_sign_upd_lt t i b v j) by (auto; lia).
    rewrite (jw_sign_upd_ge t j w i) by lia. rewrite upd_comm by (auto; lia).
    f_equal. f_equal. ring.
Qed.
Lemma oneg_oneg o : oneg (oneg o) = o.
Proof. destruct o as [[u b]|]; simpl; auto. rewrite Z.opp_involutive. auto. Qed.
Lemma flip_anticomm v w i j t : i <> j ->
  comp (flip v i) (flip w j) t = oneg (comp (flip w j) (flip v i) t).
Proof.
  intros Hij. destruct (lt_dec i j) as [H|H].
  - apply flip_anticomm_lt; auto.
  - rewrite (flip_anticomm_lt w v j i) by lia. rewrite oneg_oneg. auto.
Qed.
Lemma flip_twice v i t : comp (flip v i) (flip v i) t = None.
Proof.
  unfold comp. destruct (flip v i t) as [[s a]|] eqn:E; auto.
  unfold flip in E. destruct (nth_error t i) as [b|] eqn:Ei; [|discriminate].
  destruct (Bool.eqb b v); [discriminate|]. injection E as <- <-.
  unfold flip. rewrite nth_error_upd_same by (eapply upd_lt; eauto). rewrite Bool.eqb_reflx. auto.
Qed.
Lemma flip_sign v i c d s : flip v i c = Some (d, s) -> s * s = 1.
Proof.
  unfold flip. destruct (nth_error c i) as [b|]; [|discriminate]. destruct (Bool.eqb b v); [discriminate|].
  intros [= <- <-]. apply jw_sign_sq.
Qed.
(* exactly one of the two orders survives and gives back t *)
Lemma flip_pair v i t b : nth_error t i = Some b ->
  comp (flip v i) (flip (negb v) i) t = (if Bool.eqb b v then None else Some (t, 1)).
Proof.
  intros E. unfold comp. destruct (flip v i t) as [[s a]|] eqn:Ef.
  - rewrite (flip_inv _ _ _ _ _ Ef). pose proof (flip_sign _ _ _ _ _ Ef) as Hs.
    unfold flip in Ef. rewrite E in Ef. destruct (Bool.eqb b v); [discriminate|]. rewrite Hs. reflexivity.
  - unfold flip in Ef. rewrite E in Ef. destruct (Bool.eqb b v); [auto|discriminate].
Qed.

Lemma remove_ubytes_key c i : (i < length c)%nat ->
  remove_ubytes (Z.of_nat (length c)) (Z.of_nat i) (key c) =
  Ok (match ann i c with Some (d, s) => (key d, s) | None => (key c, 0) end).
Proof.
  intros Hi. pose proof (remove_ubytes_eq (length c) (fun k => nth k c false) i Hi) as E.
  rewrite <- bits_as_obits, obits_upd, <- jw_sign_fermi in E by (auto; lia).
  unfold key, bitarray2bytes. rewrite E. f_equal. unfold ann. rewrite (nth_error_nth' _ false) by auto.
  destruct (nth i c false); reflexivity.
Qed.
Lemma create_ubytes_key c i : (i < length c)%nat ->
  create_ubytes (Z.of_nat (length c)) (Z.of_nat i) (key c) =
  Ok (match cre i c with Some (d, s) => (key d, s) | None => (key c, 0) end).
Proof.
  intros Hi. pose proof (create_ubytes_eq (length c) (fun k => nth k c false) i Hi) as E.
  rewrite <- bits_as_obits, obits_upd, <- jw_sign_fermi in E by (auto; lia).
  unfold key, bitarray2bytes. rewrite E. f_equal. unfold cre. rewrite (nth_error_nth' _ false) by auto.
  destruct (nth i c false); reflexivity.
Qed.

Section St.
Context {F : ofield}.
Add Field Ff : (f_field F).
Add Ring Cring : (@c_ring F).
Implicit Types psi phi : psi_t F.

Lemma valid_nil n : valid_psi n ([] : psi_t F).
Proof. split; [constructor|intros k []]. Qed.
Lemma valid_cons_inv n k a psi : valid_psi n ((k, a) :: psi) ->
  valid_key n k /\ ~ In k (dkeys psi) /\ valid_psi n psi.
Proof.
  intros [Hn Hv]. simpl in Hn. apply NoDup_cons_iff in Hn as [Hk Hn].
  split; [apply Hv; left; auto|]. split; auto. split; auto. intros k' Hk'. apply Hv. right; auto.
Qed.
Lemma valid_dset n psi k a : valid_psi n psi -> valid_key n k -> valid_psi n (dset psi k a).
Proof.
  intros [Hn Hv] Hk. split; [apply NoDup_dset; auto|].
  intros k' Hk'. apply in_dkeys_dset in Hk' as [->|Hk']; auto.
Qed.
Lemma valid_dadd n psi k a : valid_psi n psi -> valid_key n k -> valid_psi n (dadd psi k a).
Proof. intros Hp Hk. unfold dadd. destruct (dget psi k); apply valid_dset; auto. Qed.

(* generic one-body action *)
Definition body (act : pybytes -> res (pybytes * Z)) (ret : psi_t F) (sa : pybytes * cx F) : res (psi_t F) :=
  do (state_new, sign) <- act (fst sa);
  Ok (if negb (sign =? 0) then dset ret state_new (snd sa * cofZ sign)%C else ret).

Lemma body_correct n (act : pybytes -> res (pybytes * Z)) (f g : config -> option (config * Z)) :
  (forall c, length c = n -> act (key c) = Ok (match f c with Some (d, s) => (key d, s) | None => (key c, 0) end)) ->
  (forall c d s, length c = n -> f c = Some (d, s) -> length d = n /\ s <> 0 /\ g d = Some (c, s)) ->
  (forall c d s, length c = n -> g c = Some (d, s) -> length d = n /\ f d = Some (c, s)) ->
  forall psi ret, valid_psi n psi -> valid_psi n ret ->
  exists ret', fold_res (body act) psi ret = Ok ret' /\ valid_psi n ret' /\
    forall t, length t = n -> dget ret' (key t) =
      match g t with
      | Some (s, sg) => match dget psi (key s) with Some a => Some (a * cofZ sg)%C | None => dget ret (key t) end
      | None => dget ret (key t)
      end.
Proof.
  intros Hact Hf Hg. induction psi as [|[k0 a0] psi IH]; intros ret Hv Hr.
  - exists ret. split; [reflexivity|]. split; auto. intros t Ht. simpl. destruct (g t) as [[s sg]|]; auto.
  - apply valid_cons_inv in Hv as ((c0' & Hc0 & Hk0) & Hni & Hv).
    assert (Eb : body act ret (k0, a0) =
      Ok (match f c0' with Some (d, s) => dset ret (key d) (a0 * cofZ s)%C | None => ret end)).
    { unfold body. simpl fst; simpl snd. rewrite Hk0, Hact by auto.
      destruct (f c0') as [[d s]|] eqn:Ef; cbn [bind]; [|reflexivity].
      destruct (Hf _ _ _ Hc0 Ef) as (_ & Hs & _). destruct (Z.eqb_spec s 0); [congruence|reflexivity]. }
    cbn [fold_res]. rewrite Eb. cbn [bind].
    assert (Hr' : valid_psi n (match f c0' with Some (d, s) => dset ret (key d) (a0 * cofZ s)%C | None => ret end)).
    { destruct (f c0') as [[d s]|] eqn:Ef; auto. apply valid_dset; auto.
      destruct (Hf _ _ _ Hc0 Ef) as (Hd & _). exists d; auto. }
    destruct (IH _ Hv Hr') as (ret' & E & Hvr & Hget).
    exists ret'. split; [exact E|]. split; auto. intros t Ht. rewrite Hget by auto.
    destruct (g t) as [[s sg]|] eqn:Eg.
    + destruct (Hg _ _ _ Ht Eg) as (Hs & Efs).
      rewrite dget_cons. destruct (eqb_spec (key s) k0) as [Ek|Ek].
      * assert (s = c0') by (apply key_inj; congruence). subst s. rewrite Efs.
        assert (En : dget psi (key c0') = None) by (apply dget_None; congruence). rewrite En.
        rewrite dget_dset_same. reflexivity.
      * destruct (dget psi (key s)); auto.
        destruct (f c0') as [[d s']|] eqn:Ef; auto. apply dget_dset_other.
        intros Ekt. destruct (Hf _ _ _ Hc0 Ef) as (Hd & _ & Egd).
        assert (t = d) by (apply key_inj; congruence). subst d. congruence.
    + destruct (f c0') as [[d s']|] eqn:Ef; auto. apply dget_dset_other.
      intros Ekt. destruct (Hf _ _ _ Hc0 Ef) as (Hd & _ & Egd).
      assert (t = d) by (apply key_inj; congruence). subst d. congruence.
Qed.

(* amplitude of f|psi> at t when g is the inverse of f *)
Definition vpull (g : config -> option (config * Z)) (v : config -> cx F) (t : config) : cx F :=
  match g t with Some (s, sg) => (v s * cofZ sg)%C | None => c0 end.

Lemma flip_len v i c d s : flip v i c = Some (d, s) -> length d = length c.
Proof.
  unfold flip. destruct (nth_error c i) as [b|] eqn:E; [|discriminate]. destruct (Bool.eqb b v); [discriminate|].
  intros [= <- <-]. apply upd_length. eapply upd_lt; eauto.
Qed.

Lemma op_a_get n i psi : (i < n)%nat -> valid_psi n psi ->
  exists psi', op_a (Z.of_nat n) (Z.of_nat i) psi = Ok psi' /\ valid_psi n psi' /\
    forall t, length t = n -> dget psi' (key t) =
      match cre i t with
      | Some (s, sg) => match dget psi (key s) with Some a => Some (a * cofZ sg)%C | None => None end
      | None => None
      end.
Proof.
  intros Hi Hv.
  destruct (body_correct n (remove_ubytes (Z.of_nat n) (Z.of_nat i)) (ann i) (cre i)) with (psi := psi) (ret := [] : psi_t F)
    as (psi' & E & Hv' & Hg); auto using valid_nil.
  - intros c <-. apply remove_ubytes_key; auto.
  - intros c d s Hc E. split; [apply ann_length in E; congruence|]. split.
    + rewrite ann_flip in E. apply flip_sign in E. intros ->. discriminate.
    + apply cre_ann; auto.
  - intros c d s Hc E. split; [apply cre_length in E; congruence|]. apply cre_ann; auto.
  - exists psi'. split; [exact E|]. split; auto.
Qed.
Lemma op_c_get n i psi : (i < n)%nat -> valid_psi n psi ->
  exists psi', op_c (Z.of_nat n) (Z.of_nat i) psi = Ok psi' /\ valid_psi n psi' /\
    forall t, length t = n -> dget psi' (key t) =
      match ann i t with
      | Some (s, sg) => match dget psi (key s) with Some a => Some (a * cofZ sg)%C | None => None end
      | None => None
      end.
Proof.
  intros Hi Hv.
  destruct (body_correct n (create_ubytes (Z.of_nat n) (Z.of_nat i)) (cre i) (ann i)) with (psi := psi) (ret := [] : psi_t F)
    as (psi' & E & Hv' & Hg); auto using valid_nil.
  - intros c <-. apply create_ubytes_key; auto.
  - intros c d s Hc E. split; [apply cre_length in E; congruence|]. split.
    + rewrite cre_flip in E. apply flip_sign in E. intros ->. discriminate.
    + apply cre_ann; auto.
  - intros c d s Hc E. split; [apply ann_length in E; congruence|]. apply cre_ann; auto.
  - exists psi'. split; [exact E|]. split; auto.
Qed.

(* b = true: create, b = false: annihilate *)
Definition op_ac (b : bool) (n i : Z) (psi : psi_t F) := if b then op_c n i psi else op_a n i psi.
Lemma op_ac_get b n i psi : (i < n)%nat -> valid_psi n psi ->
  exists psi', op_ac b (Z.of_nat n) (Z.of_nat i) psi = Ok psi' /\ valid_psi n psi' /\
    forall t, length t = n -> amp psi' t = vpull (flip (negb b) i) (amp psi) t.
Proof.
  intros Hi Hv. destruct b; simpl.
  - destruct (op_c_get n i psi Hi Hv) as (p & E & Hp & Hg). exists p. split; [|split]; auto.
    intros t Ht. unfold amp at 1, vpull. rewrite Hg by auto. rewrite ann_flip.
    destruct (flip false i t) as [[s sg]|]; auto. unfold amp. destruct (dget psi (key s)); auto. ring.
  - destruct (op_a_get n i psi Hi Hv) as (p & E & Hp & Hg). exists p. split; [|split]; auto.
    intros t Ht. unfold amp at 1, vpull. rewrite Hg by auto. rewrite cre_flip.
    destruct (flip true i t) as [[s sg]|]; auto. unfold amp. destruct (dget psi (key s)); auto. ring.
Qed.
Lemma vpull_vpull f g v t : vpull f (vpull g v) t = vpull (comp f g) v t.
Proof.
  unfold vpull, comp. destruct (f t) as [[s a]|]; auto.
  destruct (g s) as [[u b]|]; [rewrite cofZ_mul; ring|ring].
Qed.
Lemma op_ac_two b1 b2 n i j psi : (i < n)%nat -> (j < n)%nat -> valid_psi n psi ->
  exists p1 p2, op_ac b2 (Z.of_nat n) (Z.of_nat j) psi = Ok p1 /\
    op_ac b1 (Z.of_nat n) (Z.of_nat i) p1 = Ok p2 /\ valid_psi n p1 /\ valid_psi n p2 /\
    forall t, length t = n -> amp p2 t = vpull (comp (flip (negb b1) i) (flip (negb b2) j)) (amp psi) t.
Proof.
  intros Hi Hj Hv. destruct (op_ac_get b2 n j psi Hj Hv) as (p1 & E1 & Hv1 & H1).
  destruct (op_ac_get b1 n i p1 Hi Hv1) as (p2 & E2 & Hv2 & H2).
  exists p1, p2. repeat (split; auto). intros t Ht. rewrite H2 by auto.
  rewrite <- vpull_vpull. unfold vpull at 1 2. destruct (flip (negb b1) i t) as [[s a]|] eqn:E; auto.
  rewrite H1; auto. apply flip_len in E. congruence.
Qed.

Lemma anticommute b1 b2 n i j psi : (i < n)%nat -> (j < n)%nat -> valid_psi n psi ->
  exists p1 p2 q1 q2,
    op_ac b2 (Z.of_nat n) (Z.of_nat j) psi = Ok p1 /\ op_ac b1 (Z.of_nat n) (Z.of_nat i) p1 = Ok p2 /\
    op_ac b1 (Z.of_nat n) (Z.of_nat i) psi = Ok q1 /\ op_ac b2 (Z.of_nat n) (Z.of_nat j) q1 = Ok q2 /\
    forall t, length t = n -> (amp p2 t + amp q2 t)%C =
      if Nat.eqb i j && negb (Bool.eqb b1 b2) then amp psi t else c0.
Proof.
  intros Hi Hj Hv. destruct (op_ac_two b1 b2 n i j psi Hi Hj Hv) as (p1 & p2 & E1 & E2 & _ & _ & Hp).
  destruct (op_ac_two b2 b1 n j i psi Hj Hi Hv) as (q1 & q2 & G1 & G2 & _ & _ & Hq).
  exists p1, p2, q1, q2. repeat (split; auto). intros t Ht. rewrite Hp, Hq by auto.
  unfold vpull. destruct (Nat.eqb_spec i j) as [<-|Hij]; simpl.
  - destruct (Bool.eqb_spec b1 b2) as [<-|Hb]; simpl.
    + rewrite flip_twice. ring.
    + assert (En : negb b2 = negb (negb b1)) by (destruct b1, b2; try reflexivity; congruence).
      rewrite En.
      destruct (nth_error t i) as [b|] eqn:E; [|apply nth_error_None in E; lia].
      rewrite (flip_pair (negb b1) i t b E).
      replace (flip (negb b1) i) with (flip (negb (negb (negb b1))) i) by (rewrite Bool.negb_involutive; auto).
      rewrite (flip_pair (negb (negb b1)) i t b E).
      destruct b, b1; simpl; rewrite ?cofZ_1; ring.
  - rewrite (flip_anticomm (negb b1) (negb b2) i j t Hij).
    destruct (comp (flip (negb b2) j) (flip (negb b1) i) t) as [[u s]|]; simpl; [|ring].
    replace (cofZ (- s)) with (- @cofZ F s)%C; [ring|].
    replace (- s) with (-1 * s) by lia. rewrite cofZ_mul, cofZ_m1. ring.
Qed.

(* ---- inner ---- *)
Lemma inner_csum phi psi : inner phi psi =
  csum (fun kb => match dget phi (fst kb) with Some x => cconj x | None => c0 end * snd kb)%C psi.
Proof.
  unfold inner.
  assert (G : forall acc, fold_left (fun acc sb =>
      match dget phi (fst sb) with Some x => (acc + cconj x * snd sb)%C | None => acc end) psi acc =
    (acc + csum (fun kb => match dget phi (fst kb) with Some x => cconj x | None => c0 end * snd kb)%C psi)%C).
  { induction psi as [|[k a] psi IH]; intros acc; simpl; [ring|]. rewrite IH.
    destruct (dget phi k); ring. }
  rewrite G. ring.
Qed.
Lemma inner_vinner n phi psi : valid_psi n psi -> inner phi psi = vinner n phi psi.
Proof.
  intros Hv. rewrite inner_csum.
  rewrite (csum_psi n psi (fun k => match dget phi k with Some x => cconj x | None => c0 end)) by auto.
  apply csum_ext. intros s _. unfold amp. destruct (dget phi (key s)); auto. rewrite cconj_0. auto.
Qed.
Lemma norm2_fsum psi : norm2 psi = fsum (fun ka => cabs2 (snd ka)) psi.
Proof. unfold norm2. rewrite fold_left_fsum. ring. Qed.
Lemma vinner_conj n phi psi : vinner n psi phi = cconj (vinner n phi psi).
Proof.
  unfold vinner. rewrite <- csum_conj. apply csum_ext. intros s _. rewrite cconj_mul, cconj_conj. ring.
Qed.
Lemma vinner_self n psi : vinner n psi psi = creal (fsum (fun s => cabs2 (amp psi s)) (allcfg n)).
Proof.
  unfold vinner. rewrite <- csum_creal_fsum. apply csum_ext. intros s _. apply cmul_conj.
Qed.
Lemma norm2_inner psi : NoDup (dkeys psi) -> creal (norm2 psi) = inner psi psi.
Proof.
  intros Hn. rewrite norm2_fsum, <- csum_creal_fsum, inner_csum. apply csum_ext. intros [k a] Hi. simpl.
  rewrite (In_dget psi k a) by auto. symmetry. apply cmul_conj.
Qed.
Lemma inner_zero n psi : valid_psi n psi -> inner psi psi = c0 -> forall s, length s = n -> amp psi s = c0.
Proof.
  intros Hv E s Hs. rewrite (inner_vinner n) in E by auto. rewrite vinner_self in E.
  rewrite <- creal_0 in E. apply creal_inj in E.
  apply cabs2_zero. apply (fsum_zero_inv (fun s => cabs2 (amp psi s)) (allcfg n)); auto.
  - intros a _. apply cabs2_nonneg.
  - apply allcfg_In; auto.
Qed.

(* ---- add ---- *)
Lemma amp_dadd psi k v c : amp (dadd psi k v) c = (amp psi c + (if eqb (key c) k then v else c0))%C.
Proof.
  unfold amp. rewrite dget_dadd. destruct (eqb_spec (key c) k) as [->|].
  - destruct (dget psi k); ring.
  - destruct (dget psi (key c)); ring.
Qed.
Lemma add_addToFirst psi1 psi2 mul : add psi1 psi2 mul = addToFirst psi1 psi2 mul.
Proof.
  unfold add, addToFirst. revert psi1; induction psi2 as [|[k a] psi2 IH]; intros psi1; simpl; auto.
  replace (mul * a)%C with (a * mul)%C by ring. apply IH.
Qed.
Lemma addToFirst_foldadd psi1 psi2 mul :
  addToFirst psi1 psi2 mul = foldadd (map (fun ka => (fst ka, snd ka * mul)%C) psi2) psi1.
Proof.
  unfold addToFirst, foldadd. revert psi1; induction psi2 as [|[k a] psi2 IH]; intros psi1; simpl; auto.
Qed.
Lemma addToFirst_get psi1 psi2 mul k : NoDup (dkeys psi2) ->
  dget (addToFirst psi1 psi2 mul) k =
  match dget psi1 k, dget psi2 k with
  | Some x, Some y => Some (x + y * mul)%C
  | Some x, None => Some x
  | None, Some y => Some (y * mul)%C
  | None, None => None
  end.
Proof.
  intros Hn. rewrite addToFirst_foldadd, dget_foldadd.
  assert (Ek : ksum (map (fun ka => (fst ka, snd ka * mul)%C) psi2) k =
               match dget psi2 k with Some y => (y * mul)%C | None => c0 end).
  { unfold ksum. rewrite csum_map. cbn [fst snd]. destruct (dget psi2 k) as [y|] eqn:E.
    - rewrite (csum_single _ psi2 (k, y)).
      + cbn [fst snd]. rewrite eqb_refl. auto.
      + apply NoDup_map_inv with (f := fst). exact Hn.
      + apply dget_In; auto.
      + intros [k' y'] Hi Hne. cbn [fst snd]. destruct (eqb_spec k k') as [<-|]; auto.
        rewrite (In_dget psi2 k y') in E by auto. congruence.
    - apply csum_zero. intros [k' y'] Hi. cbn [fst snd]. destruct (eqb_spec k k') as [<-|]; auto.
      apply dget_None in E. exfalso. apply E. apply (in_map fst) in Hi. exact Hi. }
  rewrite Ek.
  assert (Em : map fst (map (fun ka => (fst ka, (snd ka * mul)%C)) psi2) = dkeys psi2)
    by (rewrite map_map; reflexivity).
  rewrite Em. destruct (dget psi2 k) as [y|] eqn:E.
  - assert (Hi : inb k (dkeys psi2) = true) by (apply inb_In, dget_Some_key; eauto). rewrite Hi.
    destruct (dget psi1 k); auto.
  - apply dget_None in E. apply inb_false in E. rewrite E. destruct (dget psi1 k); auto. f_equal. ring.
Qed.
Lemma addToFirst_amp psi1 psi2 mul c : NoDup (dkeys psi2) ->
  amp (addToFirst psi1 psi2 mul) c = (amp psi1 c + mul * amp psi2 c)%C.
Proof.
  intros Hn. unfold amp. rewrite addToFirst_get by auto.
  destruct (dget psi1 (key c)), (dget psi2 (key c)); ring.
Qed.
Lemma dkeys_dadd psi k v : dkeys (dadd psi k v) = if inb k (dkeys psi) then dkeys psi else dkeys psi ++ [k].
Proof.
  unfold dadd. destruct (inb k (dkeys psi)) eqn:E.
  - apply inb_In in E. destruct (dget psi k); apply dkeys_dset_in; auto.
  - apply inb_false in E. destruct (dget psi k); apply dkeys_dset_notin; auto.
Qed.
Lemma addToFirst_keys psi2 : forall psi1 mul, NoDup (dkeys psi2) ->
  dkeys (addToFirst psi1 psi2 mul) = dkeys psi1 ++ filter (fun k => negb (inb k (dkeys psi1))) (dkeys psi2).
Proof.
  induction psi2 as [|[k a] psi2 IH]; intros psi1 mul Hn.
  - simpl. rewrite app_nil_r. auto.
  - simpl in Hn. apply NoDup_cons_iff in Hn as [Hk Hn].
    change (addToFirst psi1 ((k, a) :: psi2) mul) with (addToFirst (dadd psi1 k (a * mul)%C) psi2 mul).
    rewrite IH by auto. rewrite dkeys_dadd. simpl dkeys at 5.
    change (dkeys ((k, a) :: psi2)) with (k :: dkeys psi2). cbn [filter].
    destruct (inb k (dkeys psi1)) eqn:E; cbn [negb]; auto.
    rewrite <- app_assoc. cbn [app]. f_equal. f_equal. apply filter_ext_in'.
    intros x Hx. f_equal. unfold inb. rewrite existsb_app. cbn [existsb].
    rewrite (eqb_neq x k); [rewrite !Bool.orb_false_r; auto|]. intros ->. auto.
Qed.

Lemma valid_addToFirst n psi1 psi2 mul : valid_psi n psi1 -> valid_psi n psi2 -> valid_psi n (addToFirst psi1 psi2 mul).
Proof.
  intros [H1 V1] [H2 V2]. split.
  - rewrite addToFirst_foldadd. apply NoDup_foldadd; auto.
  - rewrite addToFirst_keys by auto. intros k Hk. apply in_app_or in Hk as [Hk|Hk]; auto.
    apply filter_In in Hk as [Hk _]. auto.
Qed.

Lemma inner_linear n phi psi1 psi2 mul : valid_psi n psi1 -> valid_psi n psi2 ->
  inner phi (add psi1 psi2 mul) = (inner phi psi1 + mul * inner phi psi2)%C.
Proof.
  intros H1 H2. rewrite add_addToFirst.
  rewrite !(inner_vinner n) by (auto using valid_addToFirst). unfold vinner.
  rewrite <- csum_mul_l, <- csum_add. apply csum_ext. intros s _.
  rewrite addToFirst_amp by apply H2. ring.
Qed.
Lemma inner_conj_sym n phi psi : valid_psi n phi -> valid_psi n psi -> inner psi phi = cconj (inner phi psi).
Proof. intros H1 H2. rewrite !(inner_vinner n) by auto. apply vinner_conj. Qed.
Lemma inner_antilinear n phi psi1 psi2 mul : valid_psi n phi -> valid_psi n psi1 -> valid_psi n psi2 ->
  inner (add psi1 psi2 mul) phi = (inner psi1 phi + cconj mul * inner psi2 phi)%C.
Proof.
  intros H0 H1 H2. rewrite (inner_conj_sym n phi) by (auto; rewrite add_addToFirst; apply valid_addToFirst; auto).
  rewrite (inner_linear n) by auto. rewrite cconj_add, cconj_mul.
  rewrite <- !(inner_conj_sym n) by auto. reflexivity.
Qed.
Lemma inner_nonneg psi : NoDup (dkeys psi) -> exists x : F, inner psi psi = creal x /\ (0 <= x)%F.
Proof.
  intros Hn. exists (norm2 psi). split; [symmetry; apply norm2_inner; auto|].
  rewrite norm2_fsum. apply fsum_nonneg. intros a _. apply cabs2_nonneg.
Qed.
(* entries with zero amplitude do not matter *)
Lemma inner_zero_keys n phi phi' psi psi' :
  valid_psi n psi -> valid_psi n psi' ->
  (forall s, length s = n -> amp phi s = amp phi' s) -> (forall s, length s = n -> amp psi s = amp psi' s) ->
  inner phi psi = inner phi' psi'.
Proof.
  intros H1 H2 Hphi Hpsi. rewrite !(inner_vinner n) by auto. apply csum_ext. intros s Hs.
  apply allcfg_In in Hs. rewrite Hphi, Hpsi by auto. reflexivity.
Qed.

(* ---- adjoint of a and c ---- *)
Definition delem (g : config -> option (config * Z)) (t s : config) : Z :=
  match g t with Some (s', sg) => if list_eqb s s' then sg else 0 | None => 0 end.
Lemma vpull_sum n g v t : (forall s sg, g t = Some (s, sg) -> length s = n) ->
  vpull g v t = csum (fun s => cofZ (delem g t s) * v s)%C (allcfg n).
Proof.
  intros Hl. unfold vpull, delem. destruct (g t) as [[s' sg]|].
  - rewrite (csum_single _ (allcfg n) s').
    + destruct (list_eqb_spec s' s'); [ring|congruence].
    + apply allcfg_NoDup.
    + apply allcfg_In. eapply Hl; eauto.
    + intros b _ Hb. destruct (list_eqb_spec b s'); [congruence|]. rewrite cofZ_0. ring.
  - symmetry. apply csum_zero. intros a _. rewrite cofZ_0. ring.
Qed.
Lemma delem_inv v i t s : delem (flip v i) t s = delem (flip (negb v) i) s t.
Proof.
  unfold delem. destruct (flip v i t) as [[s' sg]|] eqn:E.
  - destruct (list_eqb_spec s s') as [->|Hs].
    + rewrite (flip_inv _ _ _ _ _ E). destruct (list_eqb_spec t t); congruence.
    + destruct (flip (negb v) i s) as [[t' sg']|] eqn:E'; auto.
      destruct (list_eqb_spec t t') as [<-|]; auto. apply flip_inv in E'. rewrite Bool.negb_involutive in E'. congruence.
  - destruct (flip (negb v) i s) as [[t' sg']|] eqn:E'; auto.
    destruct (list_eqb_spec t t') as [<-|]; auto. apply flip_inv in E'. rewrite Bool.negb_involutive in E'. congruence.
Qed.
Lemma adjoint_ac b n i phi psi : (i < n)%nat -> valid_psi n phi -> valid_psi n psi ->
  exists psi' phi', op_ac b (Z.of_nat n) (Z.of_nat i) psi = Ok psi' /\
    op_ac (negb b) (Z.of_nat n) (Z.of_nat i) phi = Ok phi' /\ inner phi psi' = inner phi' psi.
Proof.
  intros Hi Hphi Hpsi. destruct (op_ac_get b n i psi Hi Hpsi) as (psi' & E & Hv & Hg).
  destruct (op_ac_get (negb b) n i phi Hi Hphi) as (phi' & E' & Hv' & Hg').
  exists psi', phi'. split; auto. split; auto. rewrite !(inner_vinner n) by auto. unfold vinner.
  transitivity (csum (fun t => csum (fun s => cconj (amp phi t) * (cofZ (delem (flip (negb b) i) t s) * amp psi s))%C
    (allcfg n)) (allcfg n)).
  - apply csum_ext. intros t Ht. apply allcfg_In in Ht. rewrite csum_mul_l. f_equal.
    rewrite Hg by auto. apply vpull_sum. intros s sg Es. apply flip_len in Es. congruence.
  - rewrite csum_swap. apply csum_ext. intros s Hs. apply allcfg_In in Hs.
    rewrite Hg' by auto. rewrite (vpull_sum n).
    2:{ intros t sg Es. apply flip_len in Es. congruence. }
    rewrite <- csum_conj, <- csum_mul_r. apply csum_ext. intros t _.
    rewrite cconj_mul, cconj_cofZ, (delem_inv (negb b)). ring.
Qed.

(* ---- vacuum and normal order ---- *)
Lemma nth_error_repeat {A} (x : A) n i : (i < n)%nat -> nth_error (repeat x n) i = Some x.
Proof. revert i; induction n; intros [|i] Hi; simpl; auto; try lia. apply IHn; lia. Qed.
Lemma annihilate_vacuum n i (v : cx F) : (i < n)%nat ->
  op_a (Z.of_nat n) (Z.of_nat i) [(key (repeat false n), v)] = Ok [].
Proof.
  intros Hi. unfold op_a. cbn [fold_res fst snd].
  pose proof (remove_ubytes_key (repeat false n) i) as E. rewrite repeat_length in E. rewrite E by auto.
  unfold ann. rewrite nth_error_repeat by auto. reflexivity.
Qed.

Definition orbitals (c : config) : list nat := filter (fun i => nth i c false) (seq 0 (length c)).
(* the configuration with only the orbitals >= k of c *)
Definition upper (k : nat) (c : config) : config := repeat false (Nat.min k (length c)) ++ skipn k c.
Lemma upper_length k c : length (upper k c) = length c.
Proof. unfold upper. rewrite app_length, repeat_length, skipn_length. lia. Qed.
Lemma nelec_repeat n : nelec (repeat false n) = 0%nat.
Proof. induction n; auto. Qed.
Lemma upper_step k c b : nth_error c k = Some b ->
  upper k c = (if b then upd (upper (S k) c) k true else upper (S k) c) /\
  nth_error (upper (S k) c) k = Some false /\ jw_sign k (upper (S k) c) = 1.
Proof.
  intros E. pose proof (upd_lt E) as Hk.
  assert (Ec : skipn k c = b :: skipn (S k) c).
  { clear -E. revert k E. induction c as [|a c IH]; intros [|k]; simpl; intros E; try discriminate.
    - injection E as ->; auto.
    - apply IH; auto. }
  assert (Eu : upper (S k) c = repeat false k ++ false :: skipn (S k) c).
  { unfold upper. rewrite Nat.min_l by lia. generalize (skipn (S k) c). intros l.
    rewrite <- (Nat.add_1_r k), repeat_app, <- app_assoc. reflexivity. }
  split; [|split].
  - unfold upper at 1. rewrite Nat.min_l by lia. rewrite Ec, Eu. destruct b; auto.
    unfold upd. rewrite firstn_app, repeat_length, Nat.sub_diag. simpl firstn at 2. rewrite app_nil_r.
    rewrite firstn_all2 by (rewrite repeat_length; auto). f_equal.
    rewrite skipn_app, repeat_length. rewrite (skipn_all2 (repeat false k)) by (rewrite repeat_length; lia).
    replace (S k - k)%nat with 1%nat by lia. reflexivity.
  - rewrite Eu. rewrite nth_error_app2; rewrite repeat_length; auto. rewrite Nat.sub_diag. reflexivity.
  - unfold jw_sign. rewrite Eu. rewrite firstn_app, repeat_length, Nat.sub_diag, firstn_all2 by (rewrite repeat_length; auto).
    rewrite app_nil_r, nelec_repeat. reflexivity.
Qed.
Lemma normal_order_gen n c : length c = n -> forall m, (m <= n)%nat ->
  fold_res (fun psi i => op_c (Z.of_nat n) (Z.of_nat i) psi)
    (rev (filter (fun i => nth i c false) (seq (n - m) m))) [(key (repeat false n), c1)]
  = Ok [(key (upper (n - m) c), c1)] :> res (psi_t F).
Proof.
  intros Hc. induction m as [|m IH]; intros Hm.
  - simpl. unfold upper. rewrite Nat.sub_0_r, Nat.min_l, skipn_all2 by lia. rewrite app_nil_r. auto.
  - cbn [seq]. replace (S (n - S m)) with (n - m)%nat by lia. cbn [filter].
    destruct (nth_error c (n - S m)) as [b|] eqn:E; [|apply nth_error_None in E; lia].
    rewrite (nth_error_nth _ _ _ E). destruct (upper_step _ _ _ E) as (Eu & En & Es).
    replace (S (n - S m)) with (n - m)%nat in * by lia.
    destruct b.
    + cbn [rev].
      assert (G : forall (l : list nat) (s : psi_t F) f x s', fold_res f l s = Ok s' -> fold_res f (l ++ [x]) s = do r <- f s' x; Ok r).
      { clear. induction l as [|y l IH]; intros s f x s'; simpl.
        - intros [= ->]. destruct (f s' (x : nat)); auto.
        - destruct (f s y); simpl; [apply IH|discriminate]. }
      rewrite (G _ _ _ _ _ (IH ltac:(lia))). unfold op_c. cbn [fold_res fst snd].
      pose proof (create_ubytes_key (upper (n - m) c) (n - S m)) as Ecr. rewrite upper_length, Hc in Ecr.
      rewrite Ecr by lia. unfold cre. rewrite En. rewrite Es. cbn [bind dset]. rewrite <- Eu.
      simpl. do 3 f_equal. rewrite cofZ_1. ring.
    + rewrite IH by lia. rewrite Eu. auto.
Qed.
Lemma normal_order n c : length c = n ->
  fold_res (fun psi i => op_c (Z.of_nat n) (Z.of_nat i) psi) (rev (orbitals c)) [(key (repeat false n), c1)]
  = Ok [(key c, c1)] :> res (psi_t F).
Proof.
  intros Hc. unfold orbitals. rewrite Hc. pose proof (normal_order_gen n c Hc n (le_n n)) as E.
  rewrite Nat.sub_diag in E. exact E.
Qed.
End St.
