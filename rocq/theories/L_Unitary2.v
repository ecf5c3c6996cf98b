(* Unitary changes of the orbitals: the inverse, operators, quantum numbers. *)
From Coq Require Import Ring Field Permutation.
From Verif Require Import M_Prelude M_Scalar M_PSR M_State M_Basis M_Operators S_Fock S_Ops S_Basis S_Expect S_Operators S_Symmetry S_TimeReversal S_Levels S_Sector S_Unitary.
From Verif Require Import L_Scalar L_Sum L_Dict L_PSR L_Fock L_State L_Ops L_Expect L_Lanczos2 L_Operators4 L_Sector L_Symmetry L_Unitary.
Local Open Scope Z_scope.

(* the occupation of a set of orbitals *)
Definition ind (S : list Z) (i : Z) : Z := if inb i S then 1 else 0.
Lemma ind_charge S c k : Z.of_nat (length (filter (fun z => inb z S) (map Z.of_nat (filter (fun i => nth (i - k) c false) (seq k (length c)))))) = charge_from (ind S) (Z.of_nat k) c.
Proof.
  revert k. induction c as [|b c IH]; intros k; [reflexivity|]. cbn [length seq filter charge_from].
  rewrite (filter_ext_in (fun i => nth (i - k) (b :: c) false) (fun i => nth (i - Datatypes.S k) c false) (seq (Datatypes.S k) (length c))).
  - rewrite Nat.sub_diag. change (nth 0 (b :: c) false) with b. specialize (IH (Datatypes.S k)). replace (Z.of_nat k + 1) with (Z.of_nat (Datatypes.S k)) by lia. rewrite <- IH. unfold ind. destruct b; [|lia]. cbn [map filter].
    destruct (inb (Z.of_nat k) S); cbn [length]; lia.
  - intros i Hi. apply in_seq in Hi. replace (i - k)%nat with (Datatypes.S (i - Datatypes.S k)) by lia. reflexivity.
Qed.
Lemma count_charge S c : NoDup S -> Z.of_nat (length (filter (S_Fock.occupied c) S)) = charge (ind S) c.
Proof.
  intros HN. unfold charge. change 0 with (Z.of_nat 0). rewrite <- ind_charge. f_equal. apply Permutation_length. apply NoDup_Permutation.
  - apply NoDup_filter. auto.
  - apply NoDup_filter, FinFun.Injective_map_NoDup; [intros a b; apply Nat2Z.inj|]. apply NoDup_filter, seq_NoDup.
  - intros z. rewrite !filter_In, in_map_iff, inb_In. unfold S_Fock.occupied. split.
    + intros [Hz Ho]. apply andb_true_iff in Ho as [H0 Ho]. apply Z.leb_le in H0. split; [|auto]. exists (Z.to_nat z). split; [lia|]. apply filter_In. rewrite Nat.sub_0_r. split; [|auto]. apply in_seq.
      destruct (le_lt_dec (length c) (Z.to_nat z)) as [L|L]; [|lia]. rewrite nth_overflow in Ho by auto. discriminate.
    + intros [(i & <- & Hi) Hz]. apply filter_In in Hi as [_ Hi]. rewrite Nat.sub_0_r in Hi. split; [auto|]. rewrite Nat2Z.id, Hi. apply andb_true_iff. split; [apply Z.leb_le; lia|auto].
Qed.

Section S.
Context {F : ofield}.
Add Field Ff : (f_field F).
Add Field Cf : (@c_field F).
Local Open Scope cx_scope.
Implicit Types v w : config -> cx F.
Definition adj (u : nat -> nat -> cx F) (i j : nat) : cx F := cconj (u j i).
Lemma adj_unitary n u : unitary_orbitals n u -> unitary_orbitals n (adj u).
Proof.
  intros H i j Hi Hj. destruct (H i j Hi Hj) as [A B]. unfold adj. split; [rewrite <- B|rewrite <- A]; apply csum_ext; intros k _; rewrite ?cconj_conj; ring.
Qed.
Lemma C_bottom n k c t : (k + S (length c) = n)%nat -> length t = n -> C_ k (fun s => if list_eq_dec Bool.bool_dec s (repeat false (S k) ++ c) then c1 else @c0 F) t =
  if list_eq_dec Bool.bool_dec t (repeat false k ++ true :: c) then c1 else c0.
Proof.
  intros Hk Ht. assert (Es : repeat false (S k) = repeat false k ++ [false]) by (rewrite <- repeat_cons; reflexivity). rewrite Es, <- app_assoc. cbn [app].
  unfold C_, vpull, flip. destruct (nth_error t k) as [b|] eqn:E; [|apply nth_error_None in E; lia].
  assert (L : length (repeat false k) = k) by apply repeat_length.
  assert (U : forall b', upd (repeat false k ++ b :: c) k b' = repeat false k ++ b' :: c).
  { intros b'. unfold upd. rewrite firstn_app, L, Nat.sub_diag. cbn [firstn]. rewrite app_nil_r, firstn_all2 by lia. f_equal. f_equal. change (skipn (S k) (repeat false k ++ b :: c) = c).
    rewrite skipn_app, L. replace (S k - k)%nat with 1%nat by lia. rewrite skipn_all2 by lia. reflexivity. }
  destruct b; cbn [Bool.eqb].
  - destruct (list_eq_dec Bool.bool_dec t (repeat false k ++ true :: c)) as [->|N].
    + rewrite U. destruct (list_eq_dec Bool.bool_dec (repeat false k ++ false :: c) (repeat false k ++ false :: c)) as [_|N]; [|now elim N].
      assert (J : jw_sign k (repeat false k ++ true :: c) = 1%Z). { unfold jw_sign. rewrite firstn_app, L, Nat.sub_diag. cbn [firstn]. rewrite app_nil_r, firstn_all2 by lia. clear. induction k; cbn; auto. }
      rewrite J, cofZ_1. ring.
    + destruct (list_eq_dec Bool.bool_dec (upd t k false) (repeat false k ++ false :: c)) as [X|_]; [|ring]. elim N.
      pose proof (upd_inv t k true false E) as Y.
      rewrite <- Y, X. unfold upd. rewrite firstn_app, L, Nat.sub_diag. cbn [firstn]. rewrite app_nil_r, firstn_all2 by lia. f_equal. f_equal. change (skipn (S k) (repeat false k ++ false :: c) = c).
      rewrite skipn_app, L. replace (S k - k)%nat with 1%nat by lia. rewrite skipn_all2 by lia. reflexivity.
  - destruct (list_eq_dec Bool.bool_dec t (repeat false k ++ true :: c)) as [->|N]; [|reflexivity]. rewrite nth_error_app2, L, Nat.sub_diag in E by lia. discriminate.
Qed.
Section U.
Variable n : nat.
Variable u : nat -> nat -> cx F.
Hypothesis HU : unitary_orbitals n u.
Lemma turn_back c : forall k, (k + length c = n)%nat -> veq n (turned n u (turned_product n (adj u) k c)) (fun t => if list_eq_dec Bool.bool_dec t (repeat false k ++ c) then c1 else c0).
Proof.
  induction c as [|b c IH]; intros k Hk t Ht.
  - cbn [length] in Hk. replace k with n by lia. rewrite app_nil_r. cbn [turned_product]. unfold turned.
    rewrite (csum_single (fun s => turned_product n u 0 s t * vacuum n s) (allcfg n) (repeat false n) (allcfg_NoDup n)).
    + rewrite P_empty. unfold vacuum at 2. destruct (list_eq_dec Bool.bool_dec (repeat false n) (repeat false n)) as [_|N]; [|now elim N]. unfold vacuum. ring.
    + apply allcfg_In, repeat_length.
    + intros s _ N. unfold vacuum. destruct (list_eq_dec Bool.bool_dec s (repeat false n)); [congruence|ring].
  - cbn [length] in Hk. destruct b.
    + rewrite (T_ext n u _ _ t (P_true n (adj u) k c)). unfold cc. rewrite (T_lin n u (fun j => adj u j k) (fun j => C_ j (turned_product n (adj u) (S k) c))).
      rewrite (csum_ext _ (fun j => csum (fun l => C_ l (turned n u (turned_product n (adj u) (S k) c)) t * (u l j * cconj (u k j))) (seq 0 n))).
      * rewrite csum_swap. rewrite (csum_ext _ (fun l => (if Nat.eqb l k then c1 else c0) * C_ l (turned n u (turned_product n (adj u) (S k) c)) t)).
        -- rewrite (csum_delta2 (fun l => C_ l (turned n u (turned_product n (adj u) (S k) c)) t)) by lia. rewrite <- (C_bottom n k c t ltac:(lia) Ht). apply (C_ext n); [|auto]. apply IH. lia.
        -- intros l Hl. apply in_seq in Hl. rewrite csum_mul_l, (proj2 (HU l k ltac:(lia) ltac:(lia))). ring.
      * intros j Hj. apply in_seq in Hj. rewrite (T_C n u j) by (auto; lia). unfold cc. rewrite <- csum_mul_l. apply csum_ext. intros l _. unfold adj. ring.
    + cbn [turned_product]. rewrite (IH (S k) ltac:(lia) t Ht). assert (Es : repeat false (S k) = repeat false k ++ [false]) by (rewrite <- repeat_cons; reflexivity). rewrite Es, <- app_assoc. reflexivity.
Qed.
Lemma T_inv v t : length t = n -> turned n u (turned n (adj u) v) t = v t.
Proof.
  intros Ht. rewrite (T_ext n u _ (fun s => csum (fun r => v r * turned_product n (adj u) 0 r s) (allcfg n)) t) by (intros s _; unfold turned; apply csum_ext; intros; ring).
  rewrite (T_lin n u v (fun r => turned_product n (adj u) 0 r)).
  rewrite (csum_single (fun r => v r * turned n u (turned_product n (adj u) 0 r) t) (allcfg n) t (allcfg_NoDup n) (proj2 (allcfg_In n t) Ht)).
  - rewrite (turn_back t 0) by (auto; lia). cbn [repeat app]. destruct (list_eq_dec Bool.bool_dec t t) as [_|N]; [ring|now elim N].
  - intros r Hr N. apply allcfg_In in Hr. rewrite (turn_back r 0) by (auto; lia). cbn [repeat app]. destruct (list_eq_dec Bool.bool_dec t r); [congruence|ring].
Qed.
(* operators of orbitals that are kept *)
Lemma cc_kept i v t : (i < n)%nat -> kept n u i -> cc n u i v t = C_ i v t.
Proof. intros Hi Hk. unfold cc. rewrite (csum_ext _ (fun j => (if Nat.eqb j i then c1 else c0) * C_ j v t)); [exact (csum_delta2 (fun j => C_ j v t) n i Hi)|]. intros j Hj. apply in_seq in Hj. rewrite Hk by lia. reflexivity. Qed.
Lemma cconj_delta (b : bool) : cconj (if b then c1 else @c0 F) = if b then c1 else c0.
Proof. destruct b; unfold cconj, c1, c0, creal; cbn [re im]; f_equal; ring. Qed.
Lemma aa_kept i v t : (i < n)%nat -> kept n u i -> aa n u i v t = A_ i v t.
Proof. intros Hi Hk. unfold aa. rewrite (csum_ext _ (fun j => (if Nat.eqb j i then c1 else c0) * A_ j v t)); [exact (csum_delta2 (fun j => A_ j v t) n i Hi)|]. intros j Hj. apply in_seq in Hj. rewrite Hk by lia. rewrite cconj_delta. reflexivity. Qed.
Lemma T_pvec (p : process) v : Forall (wf_ladder n) p -> (forall l, In l p -> kept n u (Z.to_nat (fst l))) -> veq n (turned n u (pvec p v)) (pvec p (turned n u v)).
Proof.
  induction p as [|l p IH]; intros Hw Hk t Ht; [reflexivity|]. apply Forall_cons_iff in Hw as [[Hl _] Hw]. specialize (IH Hw (fun x Hx => Hk x (or_intror Hx))).
  pose proof (Hk l (or_introl eq_refl)) as K. assert (Li : (Z.to_nat (fst l) < n)%nat) by lia. cbn [pvec]. destruct (Ascii.eqb (snd l) lab_c); cbn [negb].
  - change (turned n u (C_ (Z.to_nat (fst l)) (pvec p v)) t = C_ (Z.to_nat (fst l)) (pvec p (turned n u v)) t). rewrite T_C, cc_kept by auto. apply (C_ext n); auto.
  - change (turned n u (A_ (Z.to_nat (fst l)) (pvec p v)) t = A_ (Z.to_nat (fst l)) (pvec p (turned n u v)) t). rewrite T_A, aa_kept by auto. apply (A_ext n); auto.
Qed.
Lemma wf_good (A : op_t F) : wf_op n A -> good_labels A.
Proof. intros [_ H]. eapply Forall_impl; [|exact H]. intros ph Hp. eapply Forall_impl; [|exact Hp]. intros l [_ Hl]. exact Hl. Qed.
Lemma turns_kept (A : op_t F) : wf_op n A -> kept_op n u A -> turns n u A A.
Proof.
  intros Hw Hk v t Ht. rewrite (opv_pvec n A (turned n u v) t (wf_good A Hw) Ht).
  rewrite (T_ext n u _ (fun s => csum (fun pv => snd pv * pvec (fst pv) v s) A) t) by (intros s Hs; apply opv_pvec; auto; apply wf_good; auto).
  rewrite (T_lin n u (fun pv => snd pv) (fun pv => pvec (fst pv) v)). apply csum_ext. intros pv Hp. f_equal. apply T_pvec; auto.
  - destruct Hw as [_ Hw]. rewrite Forall_forall in Hw. apply Hw. auto.
  - intros l Hl. apply (Hk (fst pv) l); auto. apply in_map. auto.
Qed.
(* one-particle operators *)
Lemma hops_vec h v t : length t = n -> opv n (hops n h) v t = csum (fun i => csum (fun j => h i j * C_ i (A_ j v) t) (seq 0 n)) (seq 0 n).
Proof.
  intros Ht. rewrite opv_pvec; auto.
  - unfold hops. rewrite csum_flat_map. apply csum_ext. intros i _. rewrite csum_map. apply csum_ext. intros j _. cbn [fst snd pvec]. rewrite !Nat2Z.id. reflexivity.
  - unfold good_labels. apply Forall_forall. intros ph Hp. unfold hops in Hp. apply in_flat_map in Hp as (i & _ & Hp). apply in_map_iff in Hp as (j & <- & _). constructor; [right; reflexivity|]. constructor; [left; reflexivity|constructor].
Qed.
Lemma turns_hops h : turns n u (hops n h) (hops n (turned_hops n u h)).
Proof.
  intros v t Ht. rewrite hops_vec by auto. rewrite (T_ext n u _ (fun s => csum (fun i => csum (fun j => h i j * C_ i (A_ j v) s) (seq 0 n)) (seq 0 n)) t) by (intros s Hs; apply hops_vec; auto).
  rewrite (T_ext n u _ (fun s => csum (fun i => c1 * csum (fun j => h i j * C_ i (A_ j v) s) (seq 0 n)) (seq 0 n)) t) by (intros s _; apply csum_ext; intros; ring).
  rewrite (T_lin n u (fun _ => c1) (fun i s => csum (fun j => h i j * C_ i (A_ j v) s) (seq 0 n))).
  transitivity (csum (fun i => csum (fun j => csum (fun k => csum (fun l => u k i * h i j * cconj (u l j) * C_ k (A_ l (turned n u v)) t) (seq 0 n)) (seq 0 n)) (seq 0 n)) (seq 0 n)).
  - apply csum_ext. intros i Hi. apply in_seq in Hi. rewrite (T_lin n u (fun j => h i j) (fun j => C_ i (A_ j v))). rewrite <- csum_mul_l. apply csum_ext. intros j Hj. apply in_seq in Hj.
    rewrite T_C by (auto; lia). rewrite (cc_ext n u i _ (aa n u j (turned n u v))) by (auto; intros s Hs; apply T_A; auto; lia). unfold cc. rewrite <- !csum_mul_l. apply csum_ext. intros k _.
    rewrite C_aa. rewrite <- !csum_mul_l. apply csum_ext. intros l _. ring.
  - rewrite (csum_ext _ (fun i => csum (fun k => csum (fun j => csum (fun l => u k i * h i j * cconj (u l j) * C_ k (A_ l (turned n u v)) t) (seq 0 n)) (seq 0 n)) (seq 0 n))) by (intros i _; apply csum_swap).
    rewrite csum_swap. apply csum_ext. intros k _.
    rewrite (csum_ext _ (fun i => csum (fun l => csum (fun j => u k i * h i j * cconj (u l j) * C_ k (A_ l (turned n u v)) t) (seq 0 n)) (seq 0 n))) by (intros i _; apply csum_swap).
    rewrite csum_swap. apply csum_ext. intros l _. unfold turned_hops. rewrite <- csum_mul_r. apply csum_ext. intros i _. rewrite <- csum_mul_r. reflexivity.
Qed.
(* quantum numbers that are not mixed *)
Lemma prod_charge (q : Z -> Z) : (forall i j, (i < n)%nat -> (j < n)%nat -> u j i <> c0 -> q (Z.of_nat j) = q (Z.of_nat i)) ->
  forall c k t, (k + length c <= n)%nat -> length t = n -> turned_product n u k c t <> c0 -> charge q t = charge_from q (Z.of_nat k) c.
Proof.
  intros Hq. induction c as [|b c IH]; intros k t Hk Ht Hn; cbn [length] in Hk.
  - cbn [turned_product] in Hn. unfold vacuum in Hn. destruct (list_eq_dec Bool.bool_dec t (repeat false n)) as [->|_]; [|now elim Hn]. clear. unfold charge. generalize 0%Z. induction n as [|m IH]; intros z; [reflexivity|]. cbn [repeat charge_from]. rewrite IH. reflexivity.
  - destruct b; [|cbn [turned_product charge_from] in *; rewrite (IH (S k) t) by (auto; lia); replace (Z.of_nat (S k)) with (Z.of_nat k + 1)%Z by lia; lia].
    rewrite (P_true n u k c t Ht) in Hn. apply csum_ne in Hn as (j & Hj & Hn). apply in_seq in Hj. apply mul_ne in Hn as [N1 N2].
    unfold C_, vpull in N2. destruct (flip false j t) as [[s sg]|] eqn:E; [|now elim N2]. apply mul_ne in N2 as [N2 _].
    assert (Ls : length s = n) by (apply flip_len in E; congruence). rewrite (ann_flip j t) in * || idtac.
    specialize (IH (S k) s ltac:(lia) Ls N2). cbn [charge_from]. replace (Z.of_nat k + 1)%Z with (Z.of_nat (S k)) by lia. rewrite <- IH, <- (Hq k j) by (auto; lia).
    rewrite <- ann_flip in E. pose proof (lad_charge q (Z.of_nat j, lab_a) t s sg ltac:(cbn; lia)) as X. cbn in X. rewrite Nat2Z.id in X. specialize (X E). lia.
Qed.
Lemma prod_allowed rs c t : wf_restr rs -> unmixed n u rs -> length c = n -> length t = n -> turned_product n u 0 c t <> c0 -> (allowed_opt rs t <-> allowed_opt rs c).
Proof.
  intros Hw Hm Hc Ht Hn. destruct rs as [rs|]; [|cbn; tauto]. cbn in *. unfold allowed.
  assert (K : forall x, In x rs -> length (filter (S_Fock.occupied t) (fst x)) = length (filter (S_Fock.occupied c) (fst x))).
  { intros x Hx. rewrite Forall_forall in Hw, Hm. apply Nat2Z.inj. rewrite !count_charge by (apply Hw; auto). change (charge (ind (fst x)) c) with (charge_from (ind (fst x)) (Z.of_nat 0) c).
    apply (prod_charge (ind (fst x))); auto; [|lia]. intros i j Hi Hj Hu. pose proof (Hm x Hx i j Hi Hj Hu) as E. unfold ind.
    destruct (inb (Z.of_nat i) (fst x)) eqn:Ei, (inb (Z.of_nat j) (fst x)) eqn:Ej; auto.
    - apply inb_In in Ei. apply E in Ei. apply inb_In in Ei. congruence.
    - apply inb_In in Ej. apply E in Ej. apply inb_In in Ej. congruence. }
  rewrite !Forall_forall. split; intros H x Hx; specialize (H x Hx); rewrite ?K in * by auto; auto.
Qed.
End U.
Lemma turns_back n u (A B : op_t F) : unitary_orbitals n u -> turns n u A B -> turns n (adj u) B A.
Proof.
  intros HU H v t Ht. pose proof (adj_unitary n u HU) as HV.
  assert (J : forall x s, length s = n -> turned n (adj u) (turned n u x) s = x s).
  { intros x s Hs. pose proof (T_inv n (adj u) HV x s Hs) as X. rewrite <- X. unfold turned at 1 3. apply csum_ext. intros r _. f_equal.
    unfold turned. apply csum_ext. intros y _. f_equal. assert (E : forall c k, turned_product n u k c = turned_product n (adj (adj u)) k c).
    { induction c as [|b c IH]; intros k; [reflexivity|]. cbn [turned_product]. rewrite IH. destruct b; [|reflexivity]. f_equal. unfold turned_creator. apply map_ext. intros j. unfold adj. rewrite cconj_conj. reflexivity. }
    rewrite E. reflexivity. }
  rewrite (T_ext n (adj u) _ (turned n u (opv n A (turned n (adj u) v))) t); [apply J; auto|]. intros s Hs. rewrite (H (turned n (adj u) v) s Hs). apply opv_ext. intros r Hr. symmetry. apply T_inv; auto.
Qed.
End S.
