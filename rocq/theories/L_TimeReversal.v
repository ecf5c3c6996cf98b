(* A permutation of the orbitals with signs acts on Fock space. *)
From Coq Require Import Permutation Ring Field.
From Verif Require Import M_Prelude M_Scalar M_PSR M_State S_Fock S_Ops S_TimeReversal.
From Verif Require Import L_Scalar L_Sum L_Dict L_PSR2 L_Fock L_State L_Ops L_Expect L_Operators4.
Local Open Scope Z_scope.

Definition scale (z : Z) (o : option (config * Z)) : option (config * Z) := match o with Some (c, a) => Some (c, z * a) | None => None end.
Lemma scale_scale a b o : scale a (scale b o) = scale (a * b) o.
Proof. destruct o as [[c x]|]; cbn; auto. do 2 f_equal. lia. Qed.
Lemma scale_1 o : scale 1 o = o.
Proof. destruct o as [[c x]|]; cbn [scale]; auto. do 2 f_equal. lia. Qed.
Lemma sq1 a : a * a = 1 -> a = 1 \/ a = -1.
Proof. intros H. assert (-1 <= a <= 1) by nia. assert (a = -1 \/ a = 0 \/ a = 1) as [->|[-> | ->]] by lia; auto; discriminate. Qed.
Lemma sq_mul a b : a * a = 1 -> b * b = 1 -> a * b * (a * b) = 1.
Proof. intros H K. destruct (sq1 _ H) as [-> | ->], (sq1 _ K) as [-> | ->]; reflexivity. Qed.
Definition push (b : bool) (i : nat) (o : option (config * Z)) : option (config * Z) :=
  match o with Some (c, a) => scale a (flip b i c) | None => None end.
Lemma push_scale b i z o : push b i (scale z o) = scale z (push b i o).
Proof. destruct o as [[c a]|]; cbn [push scale]; auto. rewrite scale_scale. reflexivity. Qed.
Lemma push_swap b b' i j o : i <> j -> push b i (push b' j o) = scale (-1) (push b' j (push b i o)).
Proof.
  intros H. destruct o as [[c a]|]; auto. cbn [push]. rewrite !push_scale, scale_scale.
  assert (E : push b i (flip b' j c) = scale (-1) (push b' j (flip b i c))).
  { pose proof (flip_anticomm b' b j i c (not_eq_sym H)) as E. unfold comp in E. unfold push.
    destruct (flip b' j c) as [[d x]|], (flip b i c) as [[d' x']|]; cbn [oneg scale] in *.
    - destruct (flip b i d) as [[e y]|], (flip b' j d') as [[e' y']|]; cbn [scale] in *; try discriminate E; auto.
    - destruct (flip b i d) as [[e y]|]; cbn [scale] in *; [discriminate E|auto].
    - destruct (flip b' j d') as [[e y]|]; cbn [scale] in *; [discriminate E|auto].
    - auto. }
  rewrite E, scale_scale. f_equal. lia.
Qed.

Section K.
Variable n : nat.
Definition ket (L : list nat) : option (config * Z) := fold_right (push true) (Some (repeat false n, 1)) L.
Lemma ket_cons i L : ket (i :: L) = push true i (ket L). Proof. reflexivity. Qed.
Lemma ket_proc L : proc_act (map (fun i => (Z.of_nat i, lab_c)) L) (repeat false n) = ket L.
Proof.
  induction L as [|i L IH]; auto. cbn [map proc_act]. rewrite IH, ket_cons. unfold push. destruct (ket L) as [[c a]|]; auto.
  rewrite lad_flip by (right; reflexivity). cbn [fst snd]. rewrite Nat2Z.id. change (Ascii.eqb lab_c "c") with true.
  destruct (flip true i c) as [[d s]|]; cbn [scale]; auto. do 2 f_equal. lia.
Qed.
Lemma ket_perm L L' : Permutation L L' -> NoDup L -> exists e, e * e = 1 /\
  forall f : nat -> nat, (forall a b, In a L -> In b L -> f a = f b -> a = b) -> ket (map f L) = scale e (ket (map f L')).
Proof.
  intros P. induction P as [|x L L' P IH|x y L|L L' L'' P1 IH1 P2 IH2]; intros HN.
  - exists 1. split; auto.
  - apply NoDup_cons_iff in HN as [Hx HN]. destruct (IH HN) as (e & He & H). exists e. split; auto. intros f Hf.
    cbn [map]. rewrite !ket_cons, (H f). { apply push_scale. } intros a b Ha Hb. apply Hf; right; auto.
  - exists (-1). split; auto. intros f Hf. cbn [map]. rewrite !ket_cons. apply push_swap. intros E.
    apply NoDup_cons_iff in HN as [Hy HN]. apply Hy. left. symmetry. apply Hf; cbn; auto.
  - destruct (IH1 HN) as (e & He & H). destruct IH2 as (e' & He' & H'). { eapply Permutation_NoDup; eauto. }
    exists (e * e'). split. { nia. } intros f Hf. rewrite (H f Hf), (H' f), scale_scale; auto.
    intros a b Ha Hb. apply Hf; apply (Permutation_in _ (Permutation_sym P1)); auto.
Qed.
Lemma flip_bits i c d s : flip true i c = Some (d, s) -> length d = length c /\ (i < length c)%nat /\ s * s = 1 /\ nth i c false = false /\
  forall j, nth j d false = Nat.eqb j i || nth j c false.
Proof.
  intros E. pose proof (flip_len _ _ _ _ _ E) as Hl. pose proof (flip_sign _ _ _ _ _ E) as Hs. unfold flip in E.
  destruct (nth_error c i) as [b|] eqn:Ei; [|discriminate E]. pose proof (upd_lt Ei) as Hi. destruct b; [discriminate E|]. cbn in E. injection E as <- _.
  split; auto. split; auto. split; auto. split. { apply nth_error_nth; auto. }
  intros j. destruct (Nat.eqb_spec j i) as [->|Hj]; cbn [orb].
  - apply nth_error_nth. apply nth_error_upd_same; auto.
  - destruct (nth_error c j) as [b|] eqn:Ej.
    + rewrite (nth_error_nth _ _ _ Ej). apply nth_error_nth. rewrite nth_error_upd_other; auto.
    + rewrite !nth_overflow; auto; [|rewrite Hl]; apply nth_error_None; auto.
Qed.
Lemma ket_bits L c a : ket L = Some (c, a) -> length c = n /\ a * a = 1 /\ NoDup L /\ (forall i, In i L -> (i < n)%nat) /\ forall i, nth i c false = true <-> In i L.
Proof.
  revert c a. induction L as [|i L IH]; intros c a E.
  - injection E as <- <-. split; [apply repeat_length|]. split; auto. split; [constructor|]. split; [intros _ []|]. intros i. split; [|intros []].
    intros E. exfalso. assert (X : nth i (repeat false n) false = false).
    { clear. revert i. induction n as [|m IH]; intros [|i]; cbn; auto. } congruence.
  - rewrite ket_cons in E. unfold push in E. destruct (ket L) as [[c' a']|]; [|discriminate E].
    destruct (IH _ _ eq_refl) as (Hl & Ha & HN & Hr & Hb). destruct (flip true i c') as [[d s]|] eqn:Ef; [|discriminate E].
    cbn in E. injection E as <- <-. apply flip_bits in Ef as (Hl' & Hi & Hs & H0 & Hb').
    split; [congruence|]. split; [nia|]. split.
    { constructor; auto. intros H. apply Hb in H. congruence. }
    split. { intros j [<-|Hj]; [lia|auto]. }
    intros j. rewrite Hb', Bool.orb_true_iff, Nat.eqb_eq, Hb. cbn. intuition auto.
Qed.
Lemma ket_some L : NoDup L -> (forall i, In i L -> (i < n)%nat) -> exists c a, ket L = Some (c, a).
Proof.
  induction L as [|i L IH]; intros HN Hr.
  - exists (repeat false n), 1. reflexivity.
  - apply NoDup_cons_iff in HN as [Hi HN]. destruct (IH HN) as (c & a & E). { intros j Hj. apply Hr. right. auto. }
    rewrite ket_cons, E. unfold push. destruct (ket_bits _ _ _ E) as (Hl & _ & _ & _ & Hb). unfold flip.
    assert (Hin : (i < length c)%nat) by (rewrite Hl; apply Hr; left; auto).
    destruct (nth_error c i) as [b|] eqn:Ei.
    + destruct b. { exfalso. apply Hi, Hb. apply nth_error_nth. auto. } cbn. eauto.
    + apply nth_error_None in Ei. lia.
Qed.
Lemma occ_In c i : In i (occupied c) <-> nth i c false = true.
Proof.
  unfold occupied. rewrite filter_In, in_seq. split; [tauto|]. intros H. split; auto.
  destruct (le_lt_dec (length c) i) as [Hl|Hl]; [|lia]. rewrite nth_overflow in H by auto. discriminate H.
Qed.
Lemma occ_NoDup c : NoDup (occupied c). Proof. apply NoDup_filter, seq_NoDup. Qed.
Lemma nelec_repeat m : nelec (repeat false m) = 0%nat. Proof. induction m; auto. Qed.
Lemma ket_occ_from c k m : length c = n -> (k + m = n)%nat -> ket (filter (fun i => nth i c false) (seq k m)) = Some (repeat false k ++ skipn k c, 1).
Proof.
  intros Hl. revert k. induction m as [|m IH]; intros k Hk.
  - replace k with n by lia. rewrite skipn_all2 by lia. rewrite app_nil_r. reflexivity.
  - cbn [seq filter]. specialize (IH (S k) ltac:(lia)).
    assert (Es : skipn k c = nth k c false :: skipn (S k) c).
    { assert (Hk' : (k < length c)%nat) by lia. clear -Hk'. revert k Hk'. induction c as [|b c IH]; intros [|k] H; cbn in *; try lia; auto. apply IH. lia. }
    rewrite Es. assert (Er : repeat false (S k) = repeat false k ++ [false]) by (rewrite <- repeat_cons; reflexivity).
    rewrite Er, <- app_assoc in IH. cbn [app] in IH.
    destruct (nth k c false) eqn:Eb; [|exact IH]. rewrite ket_cons, IH. unfold push, flip.
    rewrite nth_error_app2, repeat_length, Nat.sub_diag by (rewrite repeat_length; lia). cbn [nth_error Bool.eqb scale]. do 2 f_equal.
    + unfold upd. rewrite firstn_app, repeat_length, Nat.sub_diag. cbn [firstn]. rewrite app_nil_r, firstn_all2 by (rewrite repeat_length; lia).
      f_equal. f_equal. change (skipn (S k) (repeat false k ++ false :: skipn (S k) c) = skipn (S k) c).
      rewrite skipn_app, repeat_length. replace (S k - k)%nat with 1%nat by lia. rewrite skipn_all2 by (rewrite repeat_length; lia). reflexivity.
    + unfold jw_sign. rewrite firstn_app, repeat_length, Nat.sub_diag. cbn [firstn]. rewrite app_nil_r, firstn_all2 by (rewrite repeat_length; lia).
      rewrite nelec_repeat. reflexivity.
Qed.
Lemma ket_occ c : length c = n -> ket (occupied c) = Some (c, 1).
Proof. intros H. unfold occupied. rewrite H. apply (ket_occ_from c 0 n); auto. Qed.

Variable tau : nat -> nat.
Variable sig : nat -> Z.
Hypothesis tau_lt : forall i, (i < n)%nat -> (tau i < n)%nat.
Hypothesis tau_inv : forall i, (i < n)%nat -> tau (tau i) = i.
Hypothesis sig_1 : forall i, (i < n)%nat -> sig i * sig i = 1.
Hypothesis sig_tau : forall i, (i < n)%nat -> sig (tau i) = - sig i.
Definition sigs (L : list nat) : Z := zprod (map sig L).
Definition gam (c : config) : option (config * Z) := scale (sigs (occupied c)) (ket (map tau (occupied c))).
Lemma zprod_perm L L' : Permutation L L' -> zprod L = zprod L'.
Proof. intros P. induction P; cbn [zprod fold_right] in *; try lia; fold (zprod l) (zprod l') in *; nia. Qed.
Lemma sigs_sq L : (forall i, In i L -> (i < n)%nat) -> sigs L * sigs L = 1.
Proof.
  induction L as [|i L IH]; intros H; auto. unfold sigs in *. cbn [map zprod fold_right]. fold (zprod (map sig L)).
  pose proof (sig_1 i (H i (or_introl eq_refl))). pose proof (IH (fun j Hj => H j (or_intror Hj))). nia.
Qed.
Lemma tau_inj L : (forall i, In i L -> (i < n)%nat) -> forall a b, In a L -> In b L -> tau a = tau b -> a = b.
Proof. intros H a b Ha Hb E. rewrite <- (tau_inv a), <- (tau_inv b), E; auto. Qed.
Lemma occ_lt c : length c = n -> forall i, In i (occupied c) -> (i < n)%nat.
Proof. intros H i Hi. unfold occupied in Hi. apply filter_In in Hi as [Hi _]. apply in_seq in Hi. lia. Qed.
Lemma gam_ket L c a : ket L = Some (c, a) -> scale (sigs L) (ket (map tau L)) = scale a (gam c).
Proof.
  intros E. destruct (ket_bits _ _ _ E) as (Hl & Ha & HN & Hr & Hb).
  assert (P : Permutation L (occupied c)).
  { apply NoDup_Permutation; auto. { apply occ_NoDup. } intros i. rewrite occ_In. symmetry. apply Hb. }
  destruct (ket_perm _ _ P HN) as (e & He & H).
  pose proof (H (fun i => i) ltac:(auto)) as H1. rewrite !map_id, E, ket_occ in H1 by auto. cbn [scale] in H1. injection H1 as H1.
  rewrite (H tau) by (apply tau_inj; auto). unfold gam. rewrite !scale_scale. f_equal.
  unfold sigs. rewrite (zprod_perm _ _ (Permutation_map sig P)). lia.
Qed.
Lemma gam_some c : length c = n -> exists d a, gam c = Some (d, a) /\ length d = n /\ a * a = 1 /\ forall i, (i < n)%nat -> nth i d false = nth (tau i) c false.
Proof.
  intros Hl. destruct (ket_some (map tau (occupied c))) as (d & a & E).
  - apply NoDup_map_on; [|apply occ_NoDup]. apply tau_inj, occ_lt; auto.
  - intros i Hi. apply in_map_iff in Hi as (j & <- & Hj). apply tau_lt. apply (occ_lt c Hl); auto.
  - unfold gam. rewrite E. cbn [scale]. exists d, (sigs (occupied c) * a). destruct (ket_bits _ _ _ E) as (Hd & Ha & _ & _ & Hb).
    split; auto. split; auto. split. { apply sq_mul; auto. apply sigs_sq, occ_lt. exact Hl. }
    intros i Hi. apply Bool.eq_iff_eq_true. rewrite Hb, in_map_iff. split.
    + intros (j & <- & Hj). rewrite tau_inv by (apply (occ_lt c Hl); auto). apply occ_In; auto.
    + intros H. exists (tau i). split; auto. apply occ_In; auto.
Qed.
Lemma gam_cre i c : (i < n)%nat -> length c = n -> comp (flip true i) gam c = scale (sig i) (comp gam (flip true (tau i)) c).
Proof.
  intros Hi Hl. unfold comp. destruct (flip true i c) as [[d s]|] eqn:Ef.
  - assert (E : ket (i :: occupied c) = Some (d, s)). { rewrite ket_cons, ket_occ by auto. cbn [push]. rewrite Ef. cbn [scale]. do 2 f_equal. lia. }
    apply gam_ket in E. cbn [map] in E. rewrite ket_cons in E.
    change (sigs (i :: occupied c)) with (sig i * sigs (occupied c)) in E.
    transitivity (scale s (gam d)). { unfold scale. destruct (gam d) as [[u b]|]; auto. }
    rewrite <- E. rewrite <- scale_scale, <- push_scale. fold (gam c). f_equal.
  - destruct (gam_some c Hl) as (d & a & E & Hd & _ & Hb). rewrite E. unfold flip in *.
    assert (Ei : nth i c false = true).
    { destruct (nth_error c i) as [b|] eqn:Ei. { rewrite (nth_error_nth _ _ _ Ei). destruct b; [auto|discriminate Ef]. } apply nth_error_None in Ei. lia. }
    destruct (nth_error d (tau i)) as [b|] eqn:Et; [|reflexivity].
    specialize (Hb (tau i) (tau_lt i Hi)). rewrite tau_inv, (nth_error_nth _ _ _ Et) in Hb by auto. rewrite Hb, Ei. reflexivity.
Qed.
Lemma gam_ann i c : (i < n)%nat -> length c = n -> comp (flip false i) gam c = scale (sig i) (comp gam (flip false (tau i)) c).
Proof.
  intros Hi Hl. unfold comp. destruct (flip false i c) as [[d s]|] eqn:Ef.
  - pose proof (flip_inv _ _ _ _ _ Ef) as E. cbn [negb] in E. pose proof (flip_len _ _ _ _ _ Ef) as Hd.
    pose proof (gam_cre i d Hi ltac:(lia)) as G. unfold comp in G. rewrite E in G.
    destruct (gam_some c Hl) as (c' & a & Ec & _ & Ha & _). rewrite Ec in *.
    destruct (gam_some d ltac:(lia)) as (d' & b & Ed & _ & Hb & _). rewrite Ed in *.
    destruct (flip true (tau i) d') as [[c'' s']|] eqn:E'; [|discriminate G]. cbn [scale] in G. injection G as <- G.
    pose proof (flip_inv _ _ _ _ _ E') as E''. cbn [negb] in E''. rewrite E''. cbn [scale]. do 2 f_equal.
    pose proof (sig_1 i Hi) as H1. pose proof (flip_sign _ _ _ _ _ E') as H2. pose proof (flip_sign _ _ _ _ _ Ef) as H3.
    generalize dependent (sig i); intros z G H1. destruct (sq1 _ H1) as [-> | ->], (sq1 _ H2) as [-> | ->], (sq1 _ H3) as [-> | ->], (sq1 _ Ha) as [-> | ->], (sq1 _ Hb) as [-> | ->]; lia.
  - destruct (gam_some c Hl) as (d & a & E & Hd & _ & Hb). rewrite E. unfold flip in *.
    assert (Ei : nth i c false = false).
    { destruct (nth_error c i) as [b|] eqn:Ei. { rewrite (nth_error_nth _ _ _ Ei). destruct b; [discriminate Ef|auto]. } apply nth_error_None in Ei. lia. }
    destruct (nth_error d (tau i)) as [b|] eqn:Et; [|reflexivity].
    specialize (Hb (tau i) (tau_lt i Hi)). rewrite tau_inv, (nth_error_nth _ _ _ Et) in Hb by auto. rewrite Hb, Ei. reflexivity.
Qed.
(* (-1)^N *)
Definition par (c : config) : Z := if Nat.even (nelec c) then 1 else -1.
Lemma par_sq c : par c * par c = 1. Proof. unfold par. destruct (Nat.even _); auto. Qed.
Lemma nelec_occ c : nelec c = length (occupied c).
Proof.
  unfold occupied. assert (H : forall k, nelec c = length (filter (fun i => nth (i - k) c false) (seq k (length c)))).
  { induction c as [|b c IH]; intros k; auto. cbn [length seq filter]. rewrite Nat.sub_diag.
    rewrite (filter_ext_in _ (fun i => nth (i - S k) c false)).
    - cbn [nth]. destruct b; cbn [nelec length]; rewrite (IH (S k)); reflexivity.
    - intros i Hi. apply in_seq in Hi. replace (i - k)%nat with (S (i - S k)) by lia. reflexivity. }
  rewrite (H 0%nat). f_equal. apply filter_ext. intros i. rewrite Nat.sub_0_r. reflexivity.
Qed.
Lemma par_flip b i c d s : flip b i c = Some (d, s) -> par d = - par c.
Proof.
  assert (H : forall c d s, flip true i c = Some (d, s) -> par d = - par c).
  { clear. intros c d s E. unfold flip in E. destruct (nth_error c i) as [b|] eqn:Ei; [|discriminate E]. destruct b; [discriminate E|]. cbn in E. injection E as <- _.
    unfold par. assert (X : nelec (upd c i true) = S (nelec c)).
    { clear -Ei. revert i Ei. induction c as [|b c IH]; intros [|i] E; try discriminate E.
      - injection E as ->. reflexivity.
      - cbn in E. specialize (IH _ E). unfold upd in *. change (skipn (S (S i)) (b :: c)) with (skipn (S i) c). change (firstn (S i) (b :: c)) with (b :: firstn i c). destruct b; cbn [app nelec]; rewrite IH; reflexivity. }
    rewrite X, Nat.even_succ, <- Nat.negb_even. destruct (Nat.even _); reflexivity. }
  intros E. destruct b; [eapply H; eauto|]. apply flip_inv in E. apply H in E. lia.
Qed.
Lemma sigs_tau L : (forall i, In i L -> (i < n)%nat) -> sigs L * sigs (map tau L) = if Nat.even (length L) then 1 else -1.
Proof.
  induction L as [|i L IH]; intros H; auto. unfold sigs in *. cbn [map zprod fold_right length]. fold (zprod (map sig L)) (zprod (map sig (map tau L))).
  rewrite sig_tau by (apply H; left; auto). pose proof (sig_1 i (H i (or_introl eq_refl))) as H1. specialize (IH (fun j Hj => H j (or_intror Hj))).
  rewrite Nat.even_succ, <- Nat.negb_even. destruct (Nat.even (length L)); cbn [negb]; nia.
Qed.
Lemma gam_gam c d a : length c = n -> gam c = Some (d, a) -> gam d = Some (c, a * par c).
Proof.
  intros Hl E. unfold gam in E. destruct (ket (map tau (occupied c))) as [[d' b]|] eqn:Ek; [|discriminate E]. cbn [scale] in E. injection E as -> Ea.
  pose proof (gam_ket _ _ _ Ek) as G. rewrite map_map in G.
  rewrite (map_ext_in (fun x => tau (tau x)) (fun i => i)) in G by (intros i Hi; apply tau_inv; apply (occ_lt c Hl); auto). rewrite map_id, ket_occ in G by auto.
  destruct (ket_bits _ _ _ Ek) as (_ & Hb & _). pose proof (sigs_tau _ (occ_lt c Hl)) as HS. rewrite <- nelec_occ in HS. fold (par c) in HS.
  pose proof (sigs_sq _ (occ_lt c Hl)) as H1.
  assert (H2 : sigs (map tau (occupied c)) * sigs (map tau (occupied c)) = 1).
  { apply sigs_sq. intros i Hi. apply in_map_iff in Hi as (j & <- & Hj). apply tau_lt. apply (occ_lt c Hl); auto. }
  destruct (gam d) as [[u x]|]; [|discriminate G]. cbn [scale] in G. injection G as <- G. do 2 f_equal. subst a.
  assert (x = b * sigs (map tau (occupied c))). { destruct (sq1 _ Hb) as [-> | ->]; lia. } subst x. rewrite <- HS.
  transitivity (b * sigs (map tau (occupied c)) * 1); [lia|]. rewrite <- H1. lia.
Qed.
Lemma par_gam c d a : length c = n -> gam c = Some (d, a) -> par d = par c.
Proof.
  intros Hl E. pose proof (gam_gam _ _ _ Hl E) as E'. destruct (gam_some c Hl) as (d' & a' & E1 & Hd & Ha & _). rewrite E in E1. injection E1 as <- <-.
  pose proof (gam_gam _ _ _ Hd E') as E''. rewrite E in E''. injection E'' as E''. pose proof (par_sq c). pose proof (par_sq d).
  destruct (sq1 _ (par_sq c)) as [X|X], (sq1 _ (par_sq d)) as [Y|Y]; rewrite X, Y in *; destruct (sq1 _ Ha) as [Z1|Z1]; lia.
Qed.
(* the inverse *)
Definition gam' (t : config) : option (config * Z) := scale (par t) (gam t).
Lemma gam'_delem t s : length t = n -> length s = n -> delem gam' t s = delem gam s t.
Proof.
  intros Ht Hs. unfold delem, gam'. destruct (gam_some t Ht) as (t' & a & Et & Hlt & Ha & _). destruct (gam_some s Hs) as (s' & b & Es & Hls & Hb & _).
  rewrite Et, Es. cbn [scale]. destruct (list_eqb_spec s t') as [E|E], (list_eqb_spec t s') as [E'|E']; auto.
  - subst t'. pose proof (gam_gam _ _ _ Ht Et) as G. rewrite Es in G. injection G as <- ->. lia.
  - subst t'. pose proof (gam_gam _ _ _ Ht Et) as G. rewrite Es in G. injection G as -> _. congruence.
  - subst s'. pose proof (gam_gam _ _ _ Hs Es) as G. rewrite Et in G. injection G as -> _. congruence.
Qed.
Lemma gam'_some t : length t = n -> exists d a, gam' t = Some (d, a) /\ length d = n /\ a * a = 1.
Proof.
  intros Ht. destruct (gam_some t Ht) as (d & a & E & Hd & Ha & _). unfold gam'. rewrite E. cbn [scale]. exists d, (par t * a). split; auto. split; auto.
  pose proof (par_sq t). nia.
Qed.
Lemma gam'_gam' t d a : length t = n -> gam' t = Some (d, a) -> gam' d = Some (t, a * par t).
Proof.
  intros Ht E. unfold gam' in *. destruct (gam t) as [[d' b]|] eqn:Eg; [|discriminate E]. cbn [scale] in E. injection E as -> <-.
  rewrite (gam_gam _ _ _ Ht Eg). cbn [scale]. rewrite (par_gam _ _ _ Ht Eg). do 2 f_equal. lia.
Qed.
Lemma gam'_flip b i t : (i < n)%nat -> length t = n -> comp (flip b (tau i)) gam' t = scale (sig i) (comp gam' (flip b i) t).
Proof.
  intros Hi Ht. assert (G : comp (flip b (tau i)) gam t = scale (sig (tau i)) (comp gam (flip b i) t)).
  { destruct b; [rewrite gam_cre|rewrite gam_ann]; auto; rewrite tau_inv; auto. }
  rewrite sig_tau in G by auto. unfold gam'. unfold comp in *. destruct (flip b (tau i) t) as [[d s]|] eqn:Ef.
  - rewrite (par_flip _ _ _ _ _ Ef). destruct (gam d) as [[u x]|]; cbn [scale] in *; destruct (gam t) as [[w y]|]; cbn [scale] in *; try discriminate G; auto.
    + destruct (flip b i w) as [[z a]|]; cbn [scale] in *; [|discriminate G]. injection G as -> G. do 2 f_equal.
      transitivity (- par t * (s * x)); [lia|]. rewrite G. lia.
    + destruct (flip b i w) as [[z a]|]; cbn [scale] in *; [discriminate G|auto].
  - destruct (gam t) as [[w y]|]; cbn [scale] in *; auto. destruct (flip b i w) as [[z a]|]; cbn [scale] in *; [discriminate G|auto].
Qed.

Context {F : ofield}.
Add Field Ff : (f_field F).
Add Ring Cring : (@c_ring F).
Implicit Types u v w : config -> cx F.
Definition Tv v : config -> cx F := vpull gam' (fun s => cconj (v s)).
Lemma Tv_flip b i v t : (i < n)%nat -> length t = n -> Tv (vpull (flip b i) v) t = (cofZ (sig i) * vpull (flip b (tau i)) (Tv v) t)%C.
Proof.
  intros Hi Ht. unfold Tv. rewrite vpull_vpull. pose proof (gam'_flip b i t Hi Ht) as G.
  assert (E : vpull gam' (fun s => cconj (vpull (flip b i) v s)) t = vpull (comp gam' (flip b i)) (fun s => cconj (v s)) t).
  { rewrite <- vpull_vpull. unfold vpull at 1 3. destruct (gam' t) as [[s a]|]; auto. f_equal. unfold vpull. destruct (flip b i s) as [[x y]|].
    - rewrite cconj_mul, cconj_cofZ. reflexivity.
    - apply cx_ext; cbn; ring. }
  rewrite E. unfold vpull. rewrite G. destruct (comp gam' (flip b i) t) as [[s a]|]; cbn [scale]; [|ring].
  rewrite cofZ_mul. transitivity (cofZ (sig i * sig i) * (cconj (v s) * cofZ a))%C.
  - rewrite sig_1, cofZ_1 by auto. ring.
  - rewrite cofZ_mul. ring.
Qed.
Lemma Tv_Tv v t : length t = n -> Tv (Tv v) t = (cofZ (par t) * v t)%C.
Proof.
  intros Ht. unfold Tv. destruct (gam'_some t Ht) as (d & a & E & Hd & Ha). unfold vpull. rewrite E, (gam'_gam' _ _ _ Ht E).
  rewrite cconj_mul, cconj_conj. replace (cconj (cofZ (a * par t))) with (@cofZ F (a * par t)) by (symmetry; apply cconj_cofZ).
  transitivity (cofZ (a * a) * (cofZ (par t) * v t))%C; [rewrite !cofZ_mul; ring|]. rewrite Ha, cofZ_1. ring.
Qed.
Lemma Tv_ext v w : veq n v w -> veq n (Tv v) (Tv w).
Proof. intros H t Ht. unfold Tv, vpull. destruct (gam'_some t Ht) as (d & a & E & Hd & _). rewrite E, H; auto. Qed.
Lemma Tv_add v w t : Tv (fun s => v s + w s)%C t = (Tv v t + Tv w t)%C.
Proof. unfold Tv, vpull. destruct (gam' t) as [[s a]|]; [|ring]. rewrite cconj_add. ring. Qed.
Lemma Tv_scale c v t : Tv (fun s => c * v s)%C t = (cconj c * Tv v t)%C.
Proof. unfold Tv, vpull. destruct (gam' t) as [[s a]|]; [|ring]. rewrite cconj_mul. ring. Qed.
Lemma Tv_csum {B} (f : B -> config -> cx F) l t : Tv (fun s => csum (fun b => f b s) l) t = csum (fun b => Tv (f b) t) l.
Proof.
  unfold Tv, vpull. destruct (gam' t) as [[s a]|].
  - rewrite <- csum_conj, csum_mul_r. reflexivity.
  - symmetry. apply csum_zero. auto.
Qed.
Lemma Tv_vip u w : vip n (Tv u) (Tv w) = cconj (vip n u w).
Proof.
  unfold vip. rewrite <- csum_conj.
  set (g := fun t => match gam' t with Some (s, _) => s | None => t end).
  transitivity (csum (fun t => cconj (cconj (u (g t)) * w (g t)))%C (allcfg n)).
  - apply csum_ext. intros t Ht. apply allcfg_In in Ht. unfold Tv, vpull, g. destruct (gam'_some t Ht) as (d & a & E & Hd & Ha). rewrite E.
    rewrite !cconj_mul, cconj_conj. replace (cconj (cofZ a)) with (@cofZ F a) by (symmetry; apply cconj_cofZ).
    transitivity (cofZ (a * a) * (u d * cconj (w d)))%C; [rewrite cofZ_mul; ring|]. rewrite Ha, cofZ_1. ring.
  - rewrite <- (csum_map g (fun t => cconj (cconj (u t) * w t))%C). apply csum_perm.
    apply NoDup_Permutation_bis.
    + apply NoDup_map_on; [|apply allcfg_NoDup]. intros x y Hx Hy E. apply allcfg_In in Hx, Hy. unfold g in E.
      destruct (gam'_some x Hx) as (d & a & Ex & _). destruct (gam'_some y Hy) as (d' & a' & Ey & _). rewrite Ex, Ey in E. subst d'.
      apply gam'_gam' in Ex, Ey; auto. rewrite Ex in Ey. injection Ey. auto.
    + rewrite map_length. auto.
    + intros x Hx. apply in_map_iff in Hx as (y & <- & Hy). apply allcfg_In in Hy. apply allcfg_In. unfold g. destruct (gam'_some y Hy) as (d & a & -> & Hd & _). exact Hd.
Qed.
End K.
