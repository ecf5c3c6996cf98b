(* Density matrices: entries, Hermiticity, bounds, traces, cubic harmonics. *)
From Coq Require Import Field Ring Permutation.
From Verif Require Import M_Prelude M_Scalar M_PSR M_State M_Basis M_Expect S_Fock S_Basis S_Expect
  L_Scalar L_Sum L_Dict L_Fock L_State L_Index L_Ham L_FromH L_PSR L_Expect L_Expect2 L_Expect3 L_Expect4 L_Cubic.
Local Open Scope Z_scope.

Section G.
Context {F : ofield}.
Add Field Ff : (f_field F).
Add Ring Cring : (@c_ring F).

(* a loop whose steps add to a function-valued observation of the state *)
Lemma fold_res_add {S A I} (val : S -> I -> cx F) (g : A -> I -> cx F) f (l : list A) :
  (forall s a, In a l -> exists s', f s a = Ok s' /\ forall k, val s' k = (val s k + g a k)%C) ->
  forall s, exists s', fold_res f l s = Ok s' /\ forall k, val s' k = (val s k + csum (fun a => g a k) l)%C.
Proof.
  induction l as [|a l IH]; intros H s.
  - exists s. split; [reflexivity|]. intros k. unfold csum. cbn [fold_right]. ring.
  - destruct (H s a (or_introl eq_refl)) as (s1 & E1 & G1).
    destruct (IH (fun s b Hb => H s b (or_intror Hb)) s1) as (s2 & E2 & G2).
    exists s2. cbn [fold_res]. rewrite E1. cbn [bind]. split; auto. intros k. rewrite G2, G1. unfold csum. cbn [fold_right]. ring.
Qed.
(* a loop that records non-zero values *)
Lemma dget_record {K A} `{EqB K} (kk : A -> K) (R : K -> cx F) (l : list A) : forall d k,
  (forall v, dget d k = Some v -> v = R k /\ v <> c0) ->
  let d' := fold_left (fun d q => if negb (ceqb (R (kk q)) c0) then dset d (kk q) (R (kk q)) else d) l d in
  forall v, dget d' k = Some v <-> dget d k = Some v \/ (In k (map kk l) /\ v = R k /\ v <> c0).
Proof.
  induction l as [|q l IH]; intros d k Hd; cbn [fold_left map].
  - intros v. split; [auto|]. intros [E|[[] _]]. auto.
  - cbn zeta. intros v.
    destruct (ceqb_spec (R (kk q)) c0) as [Ez|Ez]; cbn [negb].
    + rewrite (IH d k Hd v). split.
      * intros [E|(Hi & E)]; [left; auto|right; split; [right|]; auto].
      * intros [E|([Hi|Hi] & E1 & E2)]; [left; auto| |right; auto]. subst k. congruence.
    + rewrite (IH (dset d (kk q) (R (kk q))) k).
      2:{ intros w. rewrite dget_dset. destruct (eqb_spec k (kk q)) as [->|]; [|apply Hd]. intros [= <-]. auto. }
      rewrite dget_dset. destruct (eqb_spec k (kk q)) as [->|Hne].
      * split.
        -- intros [E|(Hi & E1 & E2)]; right; (split; [|split]); auto; [left; auto|congruence|congruence|right; auto].
        -- intros [E|(_ & E1 & E2)]; left; [destruct (Hd _ E) as [-> _]; auto|subst v; auto].
      * split.
        -- intros [E|(Hi & E)]; [left; auto|right; split; [right|]; auto].
        -- intros [E|([Hi|Hi] & E1 & E2)]; [left; auto|congruence|right; auto].
Qed.
Lemma csum_list_prod {A B} (f : A * B -> cx F) l m : csum f (list_prod l m) = csum (fun a => csum (fun b => f (a, b)) m) l.
Proof.
  induction l as [|a l IH]; [reflexivity|]. cbn [list_prod]. rewrite csum_app, IH, csum_map. reflexivity.
Qed.

Variable nb : nbaths_t.
Variable l : Z.
Hypothesis Hsh : has_shell nb l.
Let n := n_orb nb.
Let Hwf : wf_nbaths nb := proj1 Hsh.

Lemma rho_E (psi : psi_t F) x y : coord_ok nb x -> coord_ok nb y ->
  rho nb psi x y = vip n (amp psi) (E_ (ix nb y) (ix nb x) (amp psi)).
Proof.
  intros Hx Hy. unfold rho. fold n. unfold n. rewrite (ev_gam nb l Hsh).
  - apply vip_ext; [apply veq_refl|]. intros t Ht. unfold gam, csum. cbn [fold_right fst snd]. ring.
  - constructor; [split; cbn [fst snd]; auto|constructor].
Qed.
Lemma rho_A (psi : psi_t F) x y : coord_ok nb x -> coord_ok nb y ->
  rho nb psi x y = vip n (A_ (ix nb y) (amp psi)) (A_ (ix nb x) (amp psi)).
Proof. intros Hx Hy. rewrite rho_E by auto. unfold E_. apply vip_C. Qed.
Lemma rho_conj (psi : psi_t F) x y : coord_ok nb x -> coord_ok nb y -> rho nb psi y x = cconj (rho nb psi x y).
Proof. intros Hx Hy. rewrite !rho_A by auto. apply vip_conj. Qed.
(* the value computed in the loops *)
Lemma rho_model (psi : psi_t F) x y : coord_ok nb x -> coord_ok nb y -> valid_psi n psi ->
  c2i nb x = Ok (Z.of_nat (ix nb x)) /\ c2i nb y = Ok (Z.of_nat (ix nb y)) /\
  exists p q, op_a (Z.of_nat n) (Z.of_nat (ix nb x)) psi = Ok p /\ op_c (Z.of_nat n) (Z.of_nat (ix nb y)) p = Ok q /\
    inner psi q = rho nb psi x y.
Proof.
  intros Hx Hy Hv. destruct (hop_ok nb l Hsh y x psi Hy Hx Hv) as (E1 & E2 & p & q & E3 & E4 & Hp & Hq & Gp & Gq).
  split; [auto|]. split; [auto|]. exists p, q. split; [exact E3|]. split; [exact E4|].
  rewrite (vip_inner n) by auto. rewrite rho_E by auto. apply vip_ext; [apply veq_refl|exact Gq].
Qed.

(* sums of annihilators *)
Definition bsum (psi : psi_t F) (z : spinorb -> cx F) (L : list spinorb) (t : config) : cx F :=
  csum (fun x => z x * A_ (ix nb x) (amp psi) t)%C L.
Definition quad (psi : psi_t F) (z : spinorb -> cx F) (L : list spinorb) : cx F :=
  csum (fun x => csum (fun y => z x * cconj (z y) * rho nb psi x y)%C L) L.
Lemma quad_bsum psi z L : Forall (coord_ok nb) L -> quad psi z L = vip n (bsum psi z L) (bsum psi z L).
Proof.
  intros HL. rewrite Forall_forall in HL. unfold bsum at 2. rewrite (vip_csum_r n _ (fun x => A_ (ix nb x) (amp psi)) z).
  unfold quad. apply csum_ext. intros x Hx. unfold bsum. rewrite (vip_csum_l n _ (fun x => A_ (ix nb x) (amp psi)) z).
  rewrite <- csum_mul_l. apply csum_ext. intros y Hy. rewrite rho_A by auto. ring.
Qed.
Lemma norm2_vip (psi : psi_t F) : valid_psi n psi -> vip n (amp psi) (amp psi) = creal (norm2 psi).
Proof. intros Hv. rewrite <- (vip_inner n) by auto. symmetry. apply norm2_inner. apply Hv. Qed.
Lemma vip_self_nonneg m (u : config -> cx F) : exists q, vip m u u = creal q /\ (0 <= q)%F.
Proof. eexists. split; [apply vip_self|]. apply fsum_nonneg. intros. apply cabs2_nonneg. Qed.
Lemma quad_bounds (psi : psi_t F) z L : Forall (coord_ok nb) L -> NoDup L -> valid_psi n psi ->
  exists q, quad psi z L = creal q /\ (0 <= q)%F /\ (q <= fsum (fun x => cabs2 (z x)) L * norm2 psi)%F.
Proof.
  intros HL HN Hv. rewrite quad_bsum by auto. destruct (vip_self_nonneg n (bsum psi z L)) as (q & Eq & Hq). exists q.
  split; [auto|]. split; [auto|].
  set (D := fun t => csum (fun x => cconj (z x) * C_ (ix nb x) (amp psi) t)%C L).
  destruct (vip_self_nonneg n D) as (q' & Eq' & Hq').
  assert (HS : (vip n D D + quad psi z L)%C = (creal (fsum (fun x => cabs2 (z x)) L) * creal (norm2 psi))%C).
  { unfold D at 2. rewrite (vip_csum_r n _ (fun x => C_ (ix nb x) (amp psi)) (fun x => cconj (z x))).
    rewrite <- csum_creal_fsum, <- csum_mul_r. unfold quad.
    transitivity (csum (fun x => csum (fun y => z y * cconj (z x) * (if eqb x y then creal (norm2 psi) else c0))%C L) L).
    - rewrite (csum_swap (fun x y => z x * cconj (z y) * rho nb psi x y)%C). rewrite <- csum_add. apply csum_ext. intros x Hx. unfold D. rewrite (vip_csum_l n _ (fun x => C_ (ix nb x) (amp psi)) (fun x => cconj (z x))).
      rewrite <- csum_mul_l, <- csum_add. apply csum_ext. intros y Hy. rewrite cconj_conj.
      rewrite Forall_forall in HL. pose proof (HL x Hx) as Ox. pose proof (HL y Hy) as Oy.
      rewrite <- vip_A.
      transitivity (z y * cconj (z x) * (vip n (amp psi) (A_ (ix nb y) (C_ (ix nb x) (amp psi))) + rho nb psi y x))%C; [ring|].
      f_equal. rewrite rho_E by auto.
      transitivity (vip n (amp psi) (fun t => A_ (ix nb y) (C_ (ix nb x) (amp psi)) t + E_ (ix nb x) (ix nb y) (amp psi) t)%C).
      + unfold vip. rewrite <- csum_add. apply csum_ext. intros t _. ring.
      + destruct (ix_ok nb Hwf x Ox) as [Lx _]. destruct (ix_ok nb Hwf y Oy) as [Ly _].
        rewrite <- (ix_eqb nb Hwf) by auto.
        transitivity (vip n (amp psi) (fun t => if Nat.eqb (ix nb x) (ix nb y) then amp psi t else c0)).
        * apply vip_ext; [apply veq_refl|]. intros t Ht. rewrite <- (car_CA n) by auto. unfold E_. ring.
        * destruct (Nat.eqb (ix nb x) (ix nb y)); [apply (norm2_vip psi Hv)|]. unfold vip. apply csum_zero. intros; ring.
    - apply csum_ext. intros x Hx. rewrite (csum_single _ L x HN Hx).
      + destruct (eqb_spec x x); [|congruence]. rewrite <- cmul_conj. ring.
      + intros y Hy Hne. destruct (eqb_spec x y); [congruence|]. ring. }
  rewrite Eq', quad_bsum, Eq, <- creal_add, <- creal_mul in HS by auto. apply creal_inj in HS. rewrite <- HS.
  apply fsub_nonneg_inv. replace (q' + q - q)%F with q' by ring. auto.
Qed.

(* ---- getDensityMatrix ---- *)
Definition dkk (q : ((Z * Z) * Z) * Z) : spinorb * spinorb :=
  (SImp l (fst (fst (fst q))) (snd (fst q)), SImp l (snd (fst (fst q))) (snd q)).
Definition dlist : list (((Z * Z) * Z) * Z) := list_prod (list_prod (list_prod (zrange 2) (zrange 2)) (mrange l)) (mrange l).
Lemma mrange_In m : In m (mrange l) <-> - l <= m <= l.
Proof.
  assert (H : In (0, m) (sites l) <-> - l <= m <= l) by (rewrite sites_In; tauto).
  rewrite <- H, <- mrange_sites, in_prod_iff. assert (In 0 (zrange 2)) by (left; reflexivity). tauto.
Qed.
Lemma dlist_In x y : In (x, y) (map dkk dlist) <-> in_shell l x /\ in_shell l y.
Proof.
  rewrite in_map_iff. split.
  - intros ([[[si sj] mi] mj] & E & Hi). unfold dkk in E. cbn [fst snd] in E. injection E as <- <-.
    unfold dlist in Hi. rewrite !in_prod_iff in Hi. rewrite !mrange_In in Hi. destruct Hi as (((H1 & H2) & H3) & H4).
    change (zrange 2) with [0; 1] in H1, H2. cbn [In] in H1, H2. split; [exists si, mi|exists sj, mj]; (split; [reflexivity|lia]).
  - intros [(si & mi & -> & Hsi & Hmi) (sj & mj & -> & Hsj & Hmj)]. exists (((si, sj), mi), mj). split; [reflexivity|].
    unfold dlist. rewrite !in_prod_iff, !mrange_In. change (zrange 2) with [0; 1]. cbn [In]. lia.
Qed.
Lemma in_shell_ok x : in_shell l x -> coord_ok nb x.
Proof. intros (s & m & -> & Hs & Hm). apply (shell_ok nb l Hsh); auto. Qed.
Lemma density_entries (psi : psi_t F) : valid_psi n psi ->
  exists d, getDensityMatrix nb psi l = Ok d /\
    forall x y v, dget d (x, y) = Some v <-> in_shell l x /\ in_shell l y /\ v = rho nb psi x y /\ v <> c0.
Proof.
  intros Hv. pose (R := fun k : spinorb * spinorb => rho nb psi (fst k) (snd k)).
  exists (fold_left (fun d q => if negb (ceqb (R (dkk q)) c0) then dset d (dkk q) (R (dkk q)) else d) dlist []). split.
  - unfold getDensityMatrix. rewrite (total_orbitals_ok nb l Hsh). cbn [bind]. fold n.
    rewrite (fold_res_prod (fun d si sj => fold_res (fun d mi => fold_res (fun d mj =>
      do i <- c2i nb (SImp l si mi);
      do j <- c2i nb (SImp l sj mj);
      do psi_new <- op_a (Z.of_nat n) i psi;
      do psi_new <- op_c (Z.of_nat n) j psi_new;
      let tmp := inner psi psi_new in
      Ok (if negb (ceqb tmp c0) then dset d (SImp l si mi, SImp l sj mj) tmp else d))
      (mrange l) d) (mrange l) d)).
    rewrite (fold_res_prod (fun d (ss : Z * Z) mi => fold_res (fun d mj =>
      do i <- c2i nb (SImp l (fst ss) mi);
      do j <- c2i nb (SImp l (snd ss) mj);
      do psi_new <- op_a (Z.of_nat n) i psi;
      do psi_new <- op_c (Z.of_nat n) j psi_new;
      let tmp := inner psi psi_new in
      Ok (if negb (ceqb tmp c0) then dset d (SImp l (fst ss) mi, SImp l (snd ss) mj) tmp else d))
      (mrange l) d)).
    rewrite (fold_res_prod (fun d (sm : (Z * Z) * Z) mj =>
      do i <- c2i nb (SImp l (fst (fst sm)) (snd sm));
      do j <- c2i nb (SImp l (snd (fst sm)) mj);
      do psi_new <- op_a (Z.of_nat n) i psi;
      do psi_new <- op_c (Z.of_nat n) j psi_new;
      let tmp := inner psi psi_new in
      Ok (if negb (ceqb tmp c0) then dset d (SImp l (fst (fst sm)) (snd sm), SImp l (snd (fst sm)) mj) tmp else d))).
    fold dlist. apply fold_res_ok. intros d q Hq.
    assert (Hk : In (dkk q) (map dkk dlist)) by (apply in_map; auto). unfold dkk in Hk. apply dlist_In in Hk. destruct Hk as [Hx Hy].
    destruct (rho_model psi _ _ (in_shell_ok _ Hx) (in_shell_ok _ Hy) Hv) as (E1 & E2 & p & w & E3 & E4 & E5).
    rewrite E1. cbn [bind]. rewrite E2. cbn [bind]. rewrite E3. cbn [bind]. rewrite E4. cbn [bind]. cbv zeta. rewrite E5.
    reflexivity.
  - intros x y v. rewrite (dget_record dkk R dlist [] (x, y)) by (intros w; discriminate).
    rewrite dlist_In. unfold R. cbn [fst snd dget]. split; [intros [?|H]; [discriminate|tauto]|]. intros H. right. tauto.
Qed.
Lemma density_dval (psi : psi_t F) d : getDensityMatrix nb psi l = Ok d -> valid_psi n psi ->
  forall x y, dval d (x, y) = if inb x (map (orb l) (sites l)) && inb y (map (orb l) (sites l)) then rho nb psi x y else c0.
Proof.
  intros E Hv. destruct (density_entries psi Hv) as (d' & E' & G). rewrite E in E'. injection E' as <-. intros x y.
  assert (HI : forall x, in_shell l x <-> inb x (map (orb l) (sites l)) = true).
  { intros w. rewrite inb_In, in_map_iff. split.
    - intros (s & m & -> & Hs & Hm). exists (s, m). split; [reflexivity|]. apply sites_In; auto.
    - intros ([s m] & <- & Hi). apply sites_In in Hi. exists s, m. tauto. }
  unfold dval. destruct (dget d (x, y)) as [v|] eqn:Ed.
  - apply G in Ed. destruct Ed as (Hx & Hy & -> & _). rewrite (proj1 (HI x) Hx), (proj1 (HI y) Hy). reflexivity.
  - destruct (inb x (map (orb l) (sites l))) eqn:Ex; [|reflexivity]. destruct (inb y (map (orb l) (sites l))) eqn:Ey; [|reflexivity].
    cbn [andb]. destruct (c_dec (rho nb psi x y) c0) as [->|Hne]; [reflexivity|].
    apply HI in Ex. apply HI in Ey. assert (Hc : dget d (x, y) = Some (rho nb psi x y)) by (apply G; auto). congruence.
Qed.
Lemma density_at (psi : psi_t F) d : getDensityMatrix nb psi l = Ok d -> valid_psi n psi ->
  forall x y, in_shell l x -> in_shell l y -> dval d (x, y) = rho nb psi x y.
Proof.
  intros E Hv x y Hx Hy. rewrite (density_dval psi d E Hv).
  assert (HI : forall x, in_shell l x -> inb x (map (orb l) (sites l)) = true).
  { intros w (s & m & -> & Hs & Hm). apply inb_In, in_map_iff. exists (s, m). split; [reflexivity|]. apply sites_In; auto. }
  rewrite !HI; auto.
Qed.
Lemma density_hermitian (psi : psi_t F) d : getDensityMatrix nb psi l = Ok d -> valid_psi n psi ->
  forall x y v, dget d (x, y) = Some v -> dget d (y, x) = Some (cconj v).
Proof.
  intros E Hv. destruct (density_entries psi Hv) as (d' & E' & G). rewrite E in E'. injection E' as <-. intros x y v Hg.
  apply G in Hg. destruct Hg as (Hx & Hy & -> & Hn). apply G. split; auto. split; auto. split.
  - symmetry. apply rho_conj; apply in_shell_ok; auto.
  - intros E0. apply Hn. apply (f_equal cconj) in E0. rewrite cconj_conj, cconj_0 in E0. auto.
Qed.
Lemma orb_list_ok (L : list spinorb) : Forall (in_shell l) L -> Forall (coord_ok nb) L.
Proof. intros H. eapply Forall_impl; [|exact H]. apply in_shell_ok. Qed.
Lemma density_positive (psi : psi_t F) d (z : spinorb -> cx F) L : getDensityMatrix nb psi l = Ok d -> valid_psi n psi ->
  Forall (in_shell l) L -> NoDup L ->
  exists q, csum (fun x => csum (fun y => z x * cconj (z y) * dval d (x, y))%C L) L = creal q /\
    (0 <= q)%F /\ (q <= fsum (fun x => cabs2 (z x)) L * norm2 psi)%F.
Proof.
  intros E Hv HL HN. destruct (quad_bounds psi z L (orb_list_ok L HL) HN Hv) as (q & Eq & H). exists q. split; auto.
  rewrite <- Eq. unfold quad. rewrite Forall_forall in HL. apply csum_ext. intros x Hx. apply csum_ext. intros y Hy.
  rewrite (density_at psi d E Hv); auto.
Qed.
Lemma ev_N (psi : psi_t F) : valid_psi n psi -> ev n (one_body nb (N_terms l)) psi = csum (fun sm => rho nb psi (orb l sm) (orb l sm)) (sites l).
Proof.
  intros Hv. unfold n. rewrite (ev_gam nb l Hsh).
  2:{ apply (ok_dterms nb l Hsh (fun _ => c1)). }
  fold n. unfold gam, N_terms.
  transitivity (vip n (amp psi) (fun t => csum (fun sm => c1 * E_ (ix nb (orb l sm)) (ix nb (orb l sm)) (amp psi) t)%C (sites l))).
  - apply vip_ext; [apply veq_refl|]. intros t _. rewrite csum_map. reflexivity.
  - rewrite (vip_csum_r n _ (fun sm => E_ (ix nb (orb l sm)) (ix nb (orb l sm)) (amp psi)) (fun _ => c1)). apply csum_ext. intros sm Hs.
    rewrite rho_E by (apply (site_ok nb l Hsh); auto). ring.
Qed.
Lemma orb_in_shell sm : In sm (sites l) -> in_shell l (orb l sm).
Proof. destruct sm as [s m]. intros H. apply sites_In in H. exists s, m. split; [reflexivity|auto]. Qed.
Lemma density_trace (psi : psi_t F) d v : getDensityMatrix nb psi l = Ok d -> getTraceDensityMatrix nb psi l = Ok v -> valid_psi n psi ->
  csum (fun sm => dval d (orb l sm, orb l sm)) (sites l) = creal v.
Proof.
  intros E Ev Hv. destruct (trace_ok nb l Hsh psi Hv) as (v' & E' & G).
  rewrite Ev in E'. injection E' as <-. rewrite G. fold n. rewrite (ev_N psi Hv). apply csum_ext. intros sm Hs.
  rewrite (density_at psi d E Hv); auto; apply orb_in_shell; auto.
Qed.
End G.
