(* A unitary change of the orbitals acts on Fock space. *)
From Coq Require Import Ring Field.
From Verif Require Import M_Prelude M_Scalar M_PSR M_State M_Basis M_Operators S_Fock S_Ops S_Basis S_Expect S_Operators S_Symmetry S_TimeReversal S_Levels S_Unitary.
From Verif Require Import L_Scalar L_Sum L_Dict L_Fock L_State L_Ops L_Expect L_Lanczos2 L_Symmetry.
From Verif Require L_Ham.
Local Open Scope Z_scope.

Lemma jw_cons i b c : jw_sign (S i) (b :: c) = if b then - jw_sign i c else jw_sign i c.
Proof.
  unfold jw_sign. cbn [firstn]. destruct b; cbn [nelec]; [|reflexivity]. rewrite Nat.even_succ, <- Nat.negb_even. destruct (Nat.even (nelec (firstn i c))); reflexivity.
Qed.
Lemma flip_cons v i b c : flip v (S i) (b :: c) = match flip v i c with Some (d, s) => Some (b :: d, if b then - s else s) | None => None end.
Proof. unfold flip. cbn [nth_error]. destruct (nth_error c i) as [x|]; [|reflexivity]. destruct (Bool.eqb x v); [reflexivity|]. rewrite jw_cons. reflexivity. Qed.

Section S.
Context {F : ofield}.
Add Field Ff : (f_field F).
Add Field Cf : (@c_field F).
Local Open Scope cx_scope.
Implicit Types v w : config -> cx F.
Lemma cofZ_neg z : @cofZ F (- z) = - cofZ z.
Proof. replace (- z)%Z with (-1 * z)%Z by lia. rewrite cofZ_mul, cofZ_m1. ring. Qed.
Lemma vpull_cons y i b c w : vpull (flip y (S i)) w (b :: c) = if b then - vpull (flip y i) (fun d => w (true :: d)) c else vpull (flip y i) (fun d => w (false :: d)) c.
Proof. unfold vpull. rewrite flip_cons. destruct (flip y i c) as [[d s]|]; destruct b; rewrite ?cofZ_neg; ring. Qed.
Lemma self_opp (x : cx F) : x = - x -> x = c0.
Proof.
  intros H. assert (D : cofZ 2 * x = c0). { replace (@cofZ F 2) with (c1 + @c1 F) by (rewrite <- cofZ_1; symmetry; apply (cofZ_add 1 1)). transitivity (x + x); [ring|]. rewrite H at 1. ring. }
  assert (N : cofZ 2 <> @c0 F) by (intros E; apply (f_equal re) in E; cbn [re cofZ creal c0] in E; pose proof (L_Ham.fofZ_pos (F := F) 2 ltac:(lia)) as X; rewrite E, flt_irrefl in X; discriminate X). transitivity (cofZ 2 * x / cofZ 2); [field; auto|]. rewrite D. field. auto.
Qed.
Lemma csum_delta2 (f : nat -> cx F) n i : (i < n)%nat -> csum (fun j => (if Nat.eqb j i then c1 else c0) * f j) (seq 0 n) = f i.
Proof. intros H. rewrite (csum_single (fun j => (if Nat.eqb j i then c1 else c0) * f j) (seq 0 n) i (seq_NoDup n 0)); [rewrite Nat.eqb_refl; ring|apply in_seq; lia|]. intros j _ N. destruct (Nat.eqb_spec j i); [congruence|ring]. Qed.

Section U.
Variable n : nat.
Variable u : nat -> nat -> cx F.
Notation T := (turned n u).
Notation P := (turned_product n u).
Definition cc (i : nat) v (t : config) : cx F := csum (fun j => u j i * C_ j v t) (seq 0 n).
Definition aa (i : nat) v (t : config) : cx F := csum (fun j => cconj (u j i) * A_ j v t) (seq 0 n).
Lemma creator_vec i v t : length t = n -> opv n (turned_creator n u i) v t = cc i v t.
Proof.
  intros Ht. rewrite opv_pvec; [| |auto].
  - unfold turned_creator, cc. rewrite csum_map. apply csum_ext. intros j _. cbn [fst snd pvec]. rewrite Nat2Z.id. reflexivity.
  - unfold good_labels. apply Forall_forall. intros ph Hp. unfold turned_creator in Hp. apply in_map_iff in Hp as (j & <- & _). constructor; [right; reflexivity|constructor].
Qed.
Lemma cc_ext i v w : veq n v w -> veq n (cc i v) (cc i w).
Proof. intros H t Ht. apply csum_ext. intros j _. f_equal. apply (C_ext n); auto. Qed.
Lemma aa_ext i v w : veq n v w -> veq n (aa i v) (aa i w).
Proof. intros H t Ht. apply csum_ext. intros j _. f_equal. apply (A_ext n); auto. Qed.
Lemma pull_cc b j i v t : vpull (flip b j) (cc i v) t = csum (fun k => u k i * vpull (flip b j) (C_ k v) t) (seq 0 n).
Proof. unfold cc. rewrite (vpull_csum b j (fun k s => u k i * C_ k v s)). apply csum_ext. intros k _. apply vpull_scale. Qed.
Lemma C_cc j i v t : C_ j (cc i v) t = csum (fun k => u k i * C_ j (C_ k v) t) (seq 0 n). Proof. exact (pull_cc false j i v t). Qed.
Lemma A_cc j i v t : A_ j (cc i v) t = csum (fun k => u k i * A_ j (C_ k v) t) (seq 0 n). Proof. exact (pull_cc true j i v t). Qed.
Lemma C_aa j i v t : C_ j (aa i v) t = csum (fun k => cconj (u k i) * C_ j (A_ k v) t) (seq 0 n).
Proof. unfold aa, C_ at 1. rewrite (vpull_csum false j (fun k s => cconj (u k i) * A_ k v s)). apply csum_ext. intros k _. apply vpull_scale. Qed.
Lemma C_lin {X} j (c : X -> cx F) (f : X -> config -> cx F) l t : C_ j (fun s => csum (fun x => c x * f x s) l) t = csum (fun x => c x * C_ j (f x) t) l.
Proof. unfold C_ at 1. rewrite (vpull_csum false j (fun x s => c x * f x s)). apply csum_ext. intros x _. apply vpull_scale. Qed.
Lemma A_lin {X} j (c : X -> cx F) (f : X -> config -> cx F) l t : A_ j (fun s => csum (fun x => c x * f x s) l) t = csum (fun x => c x * A_ j (f x) t) l.
Proof. unfold A_ at 1. rewrite (vpull_csum true j (fun x s => c x * f x s)). apply csum_ext. intros x _. apply vpull_scale. Qed.
Lemma cc_cc i k v t : length t = n -> cc i (cc k v) t = - cc k (cc i v) t.
Proof.
  intros Ht. unfold cc at 1. rewrite (csum_ext _ (fun j => csum (fun l => u j i * u l k * C_ j (C_ l v) t) (seq 0 n))).
  - rewrite csum_swap. unfold cc at 1. rewrite <- csum_opp. apply csum_ext. intros l Hl. apply in_seq in Hl. rewrite C_cc, <- csum_mul_l, <- csum_opp. apply csum_ext. intros j Hj. apply in_seq in Hj.
    rewrite (car_CC n j l v t) by (auto; lia). ring.
  - intros j _. rewrite C_cc, <- csum_mul_l. apply csum_ext. intros l _. ring.
Qed.
Lemma cc_sq i v t : length t = n -> cc i (cc i v) t = c0.
Proof. intros Ht. apply self_opp. apply cc_cc. auto. Qed.
Lemma cc_lin {X} i (c : X -> cx F) (f : X -> config -> cx F) l t : cc i (fun s => csum (fun x => c x * f x s) l) t = csum (fun x => c x * cc i (f x) t) l.
Proof.
  unfold cc. rewrite (csum_ext _ (fun j => csum (fun x => c x * (u j i * C_ j (f x) t)) l)).
  - rewrite csum_swap. apply csum_ext. intros x _. apply csum_mul_l.
  - intros j _. rewrite C_lin, <- csum_mul_l. apply csum_ext. intros; ring.
Qed.
Lemma aa_lin {X} i (c : X -> cx F) (f : X -> config -> cx F) l t : aa i (fun s => csum (fun x => c x * f x s) l) t = csum (fun x => c x * aa i (f x) t) l.
Proof.
  unfold aa. rewrite (csum_ext _ (fun j => csum (fun x => c x * (cconj (u j i) * A_ j (f x) t)) l)).
  - rewrite csum_swap. apply csum_ext. intros x _. apply csum_mul_l.
  - intros j _. rewrite A_lin, <- csum_mul_l. apply csum_ext. intros; ring.
Qed.
Lemma P_true k c : veq n (P k (true :: c)) (cc k (P (S k) c)).
Proof. intros t Ht. cbn [turned_product]. apply creator_vec. auto. Qed.
(* the creators *)
Lemma cc_prod c : forall k i t, (i < length c)%nat -> length t = n -> cc (k + i) (P k c) t = A_ i (fun d => P k d t) c.
Proof.
  induction c as [|b c IH]; intros k i t Hi Ht; [cbn in Hi; lia|]. destruct i as [|i].
  - rewrite Nat.add_0_r. unfold A_, vpull, flip. cbn [nth_error]. destruct b; cbn [Bool.eqb].
    + rewrite (cc_ext k (P k (true :: c)) (cc k (P (S k) c)) (P_true k c) t Ht). apply cc_sq. auto.
    + unfold upd. cbn [firstn skipn app]. change (jw_sign 0 (false :: c)) with 1%Z. rewrite cofZ_1, (P_true k c t Ht). cbn [turned_product]. ring.
  - unfold A_. rewrite vpull_cons. cbn in Hi. replace (k + S i)%nat with (S k + i)%nat by lia. destruct b.
    + rewrite (cc_ext (S k + i) (P k (true :: c)) (cc k (P (S k) c)) (P_true k c) t Ht), cc_cc by auto.
      f_equal. transitivity (cc k (fun s => A_ i (fun d => P (S k) d s) c) t).
      * apply cc_ext; [|auto]. intros s Hs. apply IH; auto. lia.
      * unfold A_, vpull. destruct (flip true i c) as [[d sg]|].
        -- rewrite (P_true k d t Ht). transitivity (cc k (fun s => csum (fun _ : unit => cofZ sg * P (S k) d s) [tt]) t).
           ++ apply cc_ext; auto. intros s _. cbn [csum]. ring.
           ++ rewrite (cc_lin k (fun _ : unit => cofZ sg) (fun _ => P (S k) d)). cbn [csum]. ring.
        -- transitivity (cc k (fun s => csum (fun _ : unit => c0 * P (S k) c s) []) t); [reflexivity|]. rewrite (cc_lin k (fun _ : unit => c0) (fun _ => P (S k) c)). reflexivity.
    + cbn [turned_product]. rewrite IH by (auto; lia). reflexivity.
Qed.
Hypothesis HU : unitary_orbitals n u.
Lemma aa_cc i k v t : (i < n)%nat -> (k < n)%nat -> length t = n -> aa i (cc k v) t = (if Nat.eqb i k then v t else c0) - cc k (aa i v) t.
Proof.
  intros Hi Hk Ht. unfold aa at 1.
  rewrite (csum_ext _ (fun j => csum (fun l => cconj (u j i) * u l k * (if Nat.eqb l j then v t else c0) - cconj (u j i) * u l k * C_ l (A_ j v) t) (seq 0 n))).
  - rewrite (csum_ext _ (fun j => cconj (u j i) * u j k * v t - csum (fun l => cconj (u j i) * u l k * C_ l (A_ j v) t) (seq 0 n))).
    + rewrite csum_sub. f_equal.
      * rewrite csum_mul_r, (proj1 (HU i k Hi Hk)). destruct (Nat.eqb i k); ring.
      * rewrite csum_swap. apply csum_ext. intros l _. rewrite C_aa, <- csum_mul_l. apply csum_ext. intros; ring.
    + intros j Hj. apply in_seq in Hj. rewrite csum_sub. f_equal. rewrite (csum_ext _ (fun l => (if Nat.eqb l j then c1 else c0) * (cconj (u j i) * u l k * v t))).
      * apply csum_delta2. lia.
      * intros l _. destruct (Nat.eqb l j); ring.
  - intros j Hj. apply in_seq in Hj. rewrite A_cc, <- csum_mul_l. apply csum_ext. intros l Hl. apply in_seq in Hl.
    rewrite <- (car_CA n l j v t) by (auto; lia). ring.
Qed.
Lemma aa_vac i t : length t = n -> aa i (vacuum n) t = c0.
Proof.
  intros Ht. apply csum_zero. intros j _. unfold A_, vpull, flip. destruct (nth_error t j) as [b|] eqn:E; [|ring]. destruct b; cbn [Bool.eqb]; [ring|]. unfold vacuum.
  destruct (list_eq_dec Bool.bool_dec (upd t j true) (repeat false n)) as [X|_]; [|ring]. exfalso.
  assert (Y : nth_error (upd t j true) j = Some true) by (apply nth_error_upd_same; eapply upd_lt; eauto). rewrite X in Y. apply nth_error_In in Y. apply repeat_spec in Y. discriminate.
Qed.
(* the annihilators *)
Lemma aa_prod c : forall k i t, (i < n)%nat -> (k + length c <= n)%nat -> length t = n -> aa i (P k c) t = if (i <? k)%nat then c0 else C_ (i - k) (fun d => P k d t) c.
Proof.
  induction c as [|b c IH]; intros k i t Hi Hk Ht.
  - cbn [turned_product]. rewrite aa_vac by auto. destruct (i <? k)%nat; [reflexivity|]. unfold C_, vpull, flip. destruct (i - k)%nat; reflexivity.
  - cbn [length] in Hk. destruct b.
    + rewrite (aa_ext i _ _ (P_true k c) t Ht), aa_cc by (auto; lia).
      assert (E : cc k (aa i (P (S k) c)) t = cc k (fun s => if (i <? S k)%nat then c0 else C_ (i - S k) (fun d => P (S k) d s) c) t).
      { apply cc_ext; [|auto]. intros s Hs. apply IH; auto. lia. }
      rewrite E. clear E. destruct (Nat.ltb_spec i (S k)) as [L|L].
      * assert (Z : cc k (fun _ => c0) t = c0) by (apply csum_zero; intros j _; unfold C_, vpull; destruct (flip false j t) as [[x y]|]; ring). rewrite Z.
        destruct (Nat.eqb_spec i k) as [->|N].
        -- rewrite Nat.ltb_irrefl, Nat.sub_diag. unfold C_, vpull, flip. cbn [nth_error Bool.eqb]. unfold upd. cbn [firstn skipn app]. change (jw_sign 0 (true :: c)) with 1%Z. rewrite cofZ_1. cbn [turned_product]. ring.
        -- destruct (Nat.ltb_spec i k); [ring|lia].
      * destruct (Nat.eqb_spec i k); [lia|]. destruct (Nat.ltb_spec i k); [lia|]. replace (i - k)%nat with (S (i - S k)) by lia. unfold C_ at 2. rewrite vpull_cons.
        transitivity (- cc k (fun s => C_ (i - S k) (fun d => P (S k) d s) c) t); [ring|]. f_equal. unfold C_, vpull. destruct (flip false (i - S k) c) as [[d sg]|].
        -- rewrite (P_true k d t Ht). transitivity (cc k (fun s => csum (fun _ : unit => cofZ sg * P (S k) d s) [tt]) t).
           ++ apply cc_ext; auto. intros s _. cbn [csum]. ring.
           ++ rewrite (cc_lin k (fun _ : unit => cofZ sg) (fun _ => P (S k) d)). cbn [csum]. ring.
        -- transitivity (cc k (fun s => csum (fun _ : unit => c0 * P (S k) c s) []) t); [reflexivity|]. rewrite (cc_lin k (fun _ : unit => c0) (fun _ => P (S k) c)). reflexivity.
    + cbn [turned_product]. rewrite IH by (auto; lia). destruct (Nat.ltb_spec i (S k)) as [L|L].
      * destruct (Nat.ltb_spec i k); [reflexivity|]. replace (i - k)%nat with 0%nat by lia. unfold C_, vpull, flip. reflexivity.
      * destruct (Nat.ltb_spec i k); [lia|]. replace (i - k)%nat with (S (i - S k)) by lia. unfold C_ at 2. rewrite vpull_cons. reflexivity.
Qed.
(* adjoints without conjugation *)
Lemma pull_adj b i (f g : config -> cx F) : csum (fun s => f s * vpull (flip b i) g s) (allcfg n) = csum (fun s => vpull (flip (negb b) i) f s * g s) (allcfg n).
Proof.
  pose proof (vip_adj n b i (fun s => cconj (f s)) g) as H. unfold vip in H. rewrite (csum_ext _ (fun s => f s * vpull (flip b i) g s)) in H by (intros; rewrite cconj_conj; reflexivity). rewrite H. apply csum_ext. intros s _.
  unfold vpull. destruct (flip (negb b) i s) as [[d sg]|].
  - rewrite cconj_mul, cconj_conj, cconj_cofZ. reflexivity.
  - unfold cconj, c0, creal. cbn [re im]. f_equal. f_equal. ring.
Qed.
Lemma T_ext v w t : veq n v w -> T v t = T w t.
Proof. intros H. apply csum_ext. intros s Hs. apply allcfg_In in Hs. rewrite H; auto. Qed.
Lemma T_lin {X} (c : X -> cx F) (f : X -> config -> cx F) l t : T (fun s => csum (fun x => c x * f x s) l) t = csum (fun x => c x * T (f x) t) l.
Proof.
  unfold turned. rewrite (csum_ext _ (fun s => csum (fun x => c x * (P 0 s t * f x s)) l)).
  - rewrite csum_swap. apply csum_ext. intros x _. apply csum_mul_l.
  - intros s _. rewrite <- csum_mul_l. apply csum_ext. intros x _. ring.
Qed.
Lemma T_scale c v t : T (fun s => c * v s) t = c * T v t.
Proof. unfold turned. rewrite <- csum_mul_l. apply csum_ext. intros; ring. Qed.
Lemma T_C i v t : (i < n)%nat -> length t = n -> T (C_ i v) t = cc i (T v) t.
Proof.
  intros Hi Ht. unfold turned at 1. unfold C_. rewrite (pull_adj false i (fun s => P 0 s t) v). cbn [negb].
  transitivity (csum (fun s => v s * cc i (P 0 s) t) (allcfg n)).
  - apply csum_ext. intros s Hs. apply allcfg_In in Hs. pose proof (cc_prod s 0 i t ltac:(lia) Ht) as X. cbn [plus] in X. rewrite X. unfold A_. ring.
  - rewrite <- (cc_lin i v (fun s => P 0 s)). apply cc_ext; auto. intros r _. unfold turned. apply csum_ext. intros; ring.
Qed.
Lemma T_A i v t : (i < n)%nat -> length t = n -> T (A_ i v) t = aa i (T v) t.
Proof.
  intros Hi Ht. unfold turned at 1. unfold A_. rewrite (pull_adj true i (fun s => P 0 s t) v). cbn [negb].
  transitivity (csum (fun s => v s * aa i (P 0 s) t) (allcfg n)).
  - apply csum_ext. intros s Hs. apply allcfg_In in Hs. rewrite (aa_prod s 0 i t Hi ltac:(lia) Ht). cbn [Nat.ltb Nat.leb]. rewrite Nat.sub_0_r. unfold C_. ring.
  - rewrite <- (aa_lin i v (fun s => P 0 s)). apply aa_ext; auto. intros r _. unfold turned. apply csum_ext. intros; ring.
Qed.
Lemma P_empty m : forall k, P k (repeat false m) = vacuum n.
Proof. induction m as [|m IH]; intros k; cbn; auto. Qed.
(* the product states are orthonormal *)
Lemma vip_cc k v w : vip n (cc k v) w = vip n v (aa k w).
Proof.
  unfold cc, aa. rewrite (vip_csum_l n w (fun j => C_ j v) (fun j => u j k)), (vip_csum_r n v (fun j => A_ j w) (fun j => cconj (u j k))). apply csum_ext. intros j _. rewrite vip_A. reflexivity.
Qed.
Lemma vip_0 v : vip n v (fun _ => c0) = c0. Proof. apply csum_zero. intros; ring. Qed.
Lemma prod_on c : forall k d, (k + length c = n)%nat -> length d = length c -> vip n (P k c) (P k d) = if list_eq_dec Bool.bool_dec c d then c1 else c0.
Proof.
  induction c as [|b c IH]; intros k d Hk Hd; destruct d as [|b' d]; try discriminate.
  - cbn [turned_product]. cbn [list_eq_dec list_rec list_rect]. unfold vip.
    rewrite (csum_single (fun t : config => cconj (vacuum n t) * vacuum n t) (allcfg n) (repeat false n) (allcfg_NoDup n)).
    + unfold vacuum. destruct (list_eq_dec Bool.bool_dec (repeat false n) (repeat false n)) as [_|N]; [|now elim N]. unfold cconj, c1, creal. cbn [re im]. unfold cmul. cbn [re im]. f_equal; ring.
    + apply allcfg_In, repeat_length.
    + intros t _ N. unfold vacuum. destruct (list_eq_dec Bool.bool_dec t (repeat false n)); [congruence|]. ring.
  - cbn [length] in *. injection Hd as Hd.
    assert (A0 : forall e, length e = length c -> veq n (aa k (P (S k) e)) (fun _ => c0)).
    { intros e He s Hs. rewrite (aa_prod e (S k) k s) by (auto; lia). destruct (Nat.ltb_spec k (S k)); [reflexivity|lia]. }
    assert (A1 : forall e, length e = length c -> veq n (aa k (P k (true :: e))) (P (S k) e)).
    { intros e He s Hs. rewrite (aa_prod (true :: e) k k s) by (cbn [length]; auto; lia). rewrite Nat.ltb_irrefl, Nat.sub_diag. unfold C_, vpull, flip. cbn [nth_error Bool.eqb]. unfold upd. cbn [firstn skipn app].
      change (jw_sign 0 (true :: e)) with 1%Z. rewrite cofZ_1. cbn [turned_product]. ring. }
    assert (R : vip n (P (S k) c) (P (S k) d) = if list_eq_dec Bool.bool_dec c d then c1 else c0) by (apply IH; lia).
    destruct b, b'.
    + rewrite (vip_ext n _ _ _ _ (P_true k c) (veq_refl n _)), vip_cc, (vip_ext n _ (P (S k) c) _ (P (S k) d) (veq_refl n _) (A1 d Hd)), R.
      destruct (list_eq_dec Bool.bool_dec c d), (list_eq_dec Bool.bool_dec (true :: c) (true :: d)); auto; congruence.
    + rewrite (vip_ext n _ _ _ _ (P_true k c) (veq_refl n _)), vip_cc. change (P k (false :: d)) with (P (S k) d). rewrite (vip_ext n _ (P (S k) c) _ (fun _ => c0) (veq_refl n _) (A0 d Hd)), vip_0.
      destruct (list_eq_dec Bool.bool_dec (true :: c) (false :: d)); [discriminate|reflexivity].
    + rewrite vip_conj, (vip_ext n _ _ _ _ (P_true k d) (veq_refl n _)), vip_cc. change (P k (false :: c)) with (P (S k) c). rewrite (vip_ext n _ (P (S k) d) _ (fun _ => c0) (veq_refl n _) (A0 c eq_refl)), vip_0.
      destruct (list_eq_dec Bool.bool_dec (false :: c) (true :: d)); [discriminate|]. unfold cconj, c0, creal. cbn [re im]. f_equal. ring.
    + change (vip n (P (S k) c) (P (S k) d) = if list_eq_dec Bool.bool_dec (false :: c) (false :: d) then c1 else c0). rewrite R.
      destruct (list_eq_dec Bool.bool_dec c d), (list_eq_dec Bool.bool_dec (false :: c) (false :: d)); auto; congruence.
Qed.
Lemma T_iso v w : vip n (T v) (T w) = vip n v w.
Proof.
  assert (E : forall x, veq n (T x) (fun t => csum (fun s => x s * P 0 s t) (allcfg n))) by (intros x t _; unfold turned; apply csum_ext; intros; ring).
  rewrite (vip_ext n _ _ _ _ (E v) (E w)). rewrite (vip_csum_l n _ (fun s => P 0 s) v). unfold vip at 2. apply csum_ext. intros s Hs. apply allcfg_In in Hs. f_equal.
  rewrite (vip_csum_r n _ (fun s => P 0 s) w). rewrite (csum_single (fun x => w x * vip n (P 0 s) (P 0 x)) (allcfg n) s (allcfg_NoDup n) (proj2 (allcfg_In n s) Hs)).
  - rewrite prod_on by (auto; lia). destruct (list_eq_dec Bool.bool_dec s s) as [_|N]; [ring|now elim N].
  - intros r Hr N. apply allcfg_In in Hr. rewrite prod_on by (auto; lia). destruct (list_eq_dec Bool.bool_dec s r); [congruence|ring].
Qed.
End U.
End S.
