(* The statements of C34-C38 about getGreen. *)
From Coq Require Import Lia List Bool Permutation Field Ring.
From Verif Require Import M_Prelude M_Scalar M_PSR M_Ladder M_State M_Mpi M_Hamiltonian M_Lanczos S_Fock S_Ham S_Ops S_Green
  L_PSR L_Ladder L_Scalar L_Dict L_Sum L_Fock L_State L_Ops L_FockP L_Ham L_Expand L_ExpandP L_FromH L_HamP L_Vec L_CFrac L_Lanczos L_Lanczos2 L_Lanczos3 L_Green L_Green2 L_Green3.
Import ListNotations.
Local Open Scope cx_scope.

Section LGreen4.
Context {F : ofield}.
Add Field Ff : (f_field F).
Add Ring Cring : (@c_ring F).
Add Field Cf : (@c_field F).
Variable fsqrt : F -> F.

Lemma mesh_nth omega delta e ab k : (k < length omega)%nat ->
  nth k (green_mesh omega delta e ab) (@c0 F) = cont_frac (mkC (nth k omega 0%F + e)%F delta) (fst ab) (snd ab).
Proof.
  intros Hk. unfold green_mesh. rewrite (nth_indep _ _ (cont_frac (mkC (0 + e)%F delta) (fst ab) (snd ab))) by (rewrite map_length; auto).
  rewrite (map_nth (fun w => cont_frac (mkC (w + e)%F delta) (fst ab) (snd ab))). auto.
Qed.
Lemma mesh_len omega delta (e : F) ab : length (green_mesh omega delta e ab) = length omega.
Proof. apply map_length. Qed.

(* C34 *)
Definition green_bound (delta : F) (x : cx F) : Prop := (delta * im x <= 0)%F /\ (cabs2 x * (delta * delta) <= 1)%F.
Lemma bound_c0 delta : green_bound delta (@c0 F).
Proof.
  unfold green_bound, cabs2. simpl. split; [replace (delta * 0)%F with (0:F)%F by ring; apply fle_refl|].
  replace ((0 * 0 + 0 * 0) * (delta * delta))%F with (0:F)%F by ring. apply flt_le, flt_0_1.
Qed.
Lemma mesh_bound omega delta e al be : delta <> 0%F -> length al = S (length be) ->
  Forall (green_bound delta) (green_mesh omega delta e (al, be)).
Proof.
  intros Hd HL. unfold green_mesh. apply Forall_forall. intros x Hx. apply in_map_iff in Hx as (w & <- & _). cbn [fst snd].
  assert (Hne : al <> []) by (intros ->; discriminate). split.
  - apply (cf_sign (mkC (w + e)%F delta) al be); auto.
  - apply (cf_bound (mkC (w + e)%F delta) al be); auto.
Qed.
Lemma local_len hs psi0 ks (r : list F * list F) : In (Ok r) (get_tridiagonal_krylov_vectors_local fsqrt hs psi0 ks) -> length (fst r) = S (length (snd r)).
Proof.
  unfold get_tridiagonal_krylov_vectors_local. cbv zeta. destruct (Z.ltb_spec (Z.min ks (Z.of_nat (length psi0))) 1) as [H|H].
  - intros Hi. apply in_map_iff in Hi as (? & E & _). discriminate.
  - destruct hs as [|h hs]; [intros []|].
    destruct (krylov _ _ _ _) as [[al be]|] eqn:E; intros [Hi|Hi]; try discriminate.
    + injection Hi as <-. simpl. eapply krylov_len; eauto.
    + apply in_map_iff in Hi as (? & Ei & _). injection Ei as <-. simpl. rewrite !repeat_length. lia.
    + apply in_map_iff in Hi as (? & Ei & _). discriminate.
Qed.
Lemma green_bounds_ok fuel ord n e psi op omega delta ks swm rs hs mode pm h' g : delta <> 0%F ->
  In (h', Ok g) (getGreen fsqrt fuel ord n e psi op omega delta ks swm rs hs mode pm) ->
  length g = length omega /\ Forall (green_bound delta) g.
Proof.
  intros Hd Hin.
  assert (G : forall ab : list F * list F, length (fst ab) = S (length (snd ab)) ->
    length (green_mesh omega delta e ab) = length omega /\ Forall (green_bound delta) (green_mesh omega delta e ab)).
  { intros [al be] HL. split; [apply mesh_len|]. apply mesh_bound; auto. }
  unfold getGreen in Hin. destruct psi as [|p0 psi'] eqn:Epsi.
  { apply in_map_iff in Hin as (h & E & _). injection E as _ <-. split; [apply repeat_length|]. apply Forall_forall. intros x Hx.
    apply repeat_spec in Hx. subst x. apply bound_c0. }
  rewrite <- Epsi in *. clear p0 psi' Epsi.
  assert (GM : forall pm, In (h', Ok g) (let h_local := match pm with HBuild => true | _ => false end in
        let ebh := expand_basis_and_hamiltonian fuel n op rs ord pm h_local (dkeys psi) hs in
        if h_local then
          let starts := map (fun x => do (h, idx) <- snd x; do psi0 <- psi_vec idx psi; Ok (h, psi0)) ebh in
          match starts with
          | Ok (_, psi0) :: _ =>
              if forallb is_ok starts then
                combine (map fst ebh)
                  (map (rmap (green_mesh omega delta e))
                     (get_tridiagonal_krylov_vectors_local fsqrt (map fst (oks starts)) psi0 ks))
              else map (fun xs => (fst (fst xs), match snd xs with Ok _ => Err Deadlock | Err e => Err e end)) (combine ebh starts)
          | _ => map (fun xs => (fst (fst xs), match snd xs with Ok _ => Err Deadlock | Err e => Err e end)) (combine ebh starts)
          end
        else
          map (fun x => (fst x, do (h, idx) <- snd x; do psi0 <- psi_vec idx psi;
                                rmap (green_mesh omega delta e) (get_tridiagonal_krylov_vectors fsqrt h psi0 ks))) ebh) ->
     length g = length omega /\ Forall (green_bound delta) g).
  { clear Hin pm. intros pm. cbv zeta. set (ebh := expand_basis_and_hamiltonian _ _ _ _ _ _ _ _ _).
    assert (GE : forall l : list ((hdict_t F * res (mat F * dict pybytes nat)) * res (mat F * vec F)), ~ In (h', Ok g) (map (fun xs => (fst (fst xs), match snd xs with Ok _ => Err Deadlock | Err e => Err e end)) l)).
    { intros l H. apply in_map_iff in H as ([x y] & E & _). simpl in E. injection E as _ E. destruct y; discriminate. }
    destruct (match pm with HBuild => true | _ => false end).
    - destruct (map _ ebh) as [|[[m0 psi0]|ee] starts] eqn:Es; try (intros H; apply GE in H; tauto).
      destruct (forallb _ _); [|intros H; apply GE in H; tauto].
      intros H. apply in_combine_r in H. apply in_map_iff in H as (r & E & Hr). apply rmap_ok in E as (ab & -> & ->).
      apply G. eapply local_len; eauto.
    - intros H. apply in_map_iff in H as ([h1 [[m idx]|]] & E & _); simpl in E; [|discriminate]. injection E as _ E.
      destruct (psi_vec idx psi) as [psi0|]; simpl in E; [|discriminate]. apply rmap_ok in E as ([al be] & E & ->).
      apply G. simpl. eapply krylov_len; eauto. }
  destruct mode.
  - destruct pm.
    + apply in_map_iff in Hin as (h & E & _). destruct (dict_krylov fsqrt n op swm rs psi ks h) as [h2 r] eqn:Er.
      injection E as E1 E. apply rmap_ok in E as ([al be] & -> & ->). apply G. simpl. eapply dict_krylov_len; eauto.
    + apply in_map_iff in Hin as (h & E & _). discriminate.
    + apply in_map_iff in Hin as (h & E & _). discriminate.
  - apply (GM pm). exact Hin.
  - apply (GM pm). exact Hin.
  - apply in_map_iff in Hin as (h & E & _). discriminate.
Qed.

(* the ranks other than 0 in H_build mode *)
Lemma cf_zeros z : z <> @c0 F -> forall k, cont_frac z (repeat 0%F (S k)) (repeat 0%F k) = c1 / z.
Proof.
  intros Hz. induction k as [|k IH]; [simpl; replace (z - creal 0%F) with z; auto; change (creal 0%F) with (@c0 F); ring|].
  cbn [repeat cont_frac] in *. rewrite IH. replace (z - creal 0%F - creal (0 * 0)%F * (c1 / z)) with z; auto.
  change (creal 0%F) with (@c0 F). replace (creal (0 * 0)%F) with (@c0 F) by (apply cx_ext; simpl; ring). ring.
Qed.
Lemma hbuild_others n op rs psi : wf_op n op -> wf_restr rs -> valid_psi n psi -> psi <> [] -> forall fuel (ord : nat -> set_order) e omega delta ks swm (hs : list (hdict_t F)) mode h0 g0 rest, matrix_mode mode ->
  (forall r l, Permutation (ord r l) l) -> Forall (hdict_exact n op rs) hs -> NoDup (flat_map dkeys hs) -> (2 ^ n < fuel)%nat -> hs <> [] -> delta <> 0%F ->
  getGreen fsqrt fuel ord (Z.of_nat n) e psi op omega delta ks swm rs hs mode HBuild = (h0, Ok g0) :: rest ->
  S (length rest) = length hs /\ forall out, In out rest -> snd out = Ok (map (fun w => c1 / mkC (w + e)%F delta) omega).
Proof.
  intros Hw Hr Hpsi Hne fuel ord e omega delta ks swm hs mode h0 g0 rest Hm Hord HF Hnd Hf Hh Hd Eg.
  destruct (green_hbuild fsqrt n op rs Hw Hr psi Hpsi Hne fuel ord e omega delta ks swm hs mode Hm Hord HF Hnd Hf Hh) as (basis & m & v & hs' & HC & HE & HRm & Lv & Hv & _ & _ & Hex & E).
  assert (Lhs : length hs' = length hs) by (symmetry; eapply Forall2_len; eauto).
  cbv zeta in E. rewrite Eg in E. destruct hs' as [|h1 hs']; [discriminate|]. cbn [combine] in E. injection E as E1 E2 E3.
  split; [rewrite E3, combine_length, repeat_length; simpl in Lhs; lia|]. intros [h r] Hin. rewrite E3 in Hin. apply in_combine_r, repeat_spec in Hin.
  symmetry in E2. apply rmap_ok in E2 as ([al be] & Ek & _). rewrite Ek in Hin. unfold other_rank in Hin. cbn [snd].
  unfold krylov in Ek. rewrite Lv in Ek. set (k := Z.min ks (Z.of_nat (length basis))) in *.
  destruct (Z.ltb_spec k 1); [discriminate|]. rewrite Hin. f_equal. unfold green_mesh. cbn [fst snd]. apply map_ext. intros w.
  replace (Z.to_nat k) with (S (Z.to_nat (k - 1))) by lia. apply cf_zeros. intros Ez. apply Hd. apply (f_equal im) in Ez. exact Ez.
Qed.

Lemma restricted_op_exists n (op : op_t F) rs : exists h, restricted_op n op rs h.
Proof.
  exists (fun t s => if linked_dec n op rs s t then opelem op t s else c0). intros t s _ _.
  destruct (linked_dec n op rs s t); split; auto; tauto.
Qed.
Lemma restricted_op_full n (op : op_t F) :
  (forall t s, length t = n -> length s = n -> opelem op t s = c0 \/ (eps12 <= cabs2 (opelem op t s))%F) -> restricted_op n op None (opelem op).
Proof.
  intros H t s Lt Ls. split; auto. intros D. destruct (H t s Lt Ls) as [E|E]; auto. exfalso. apply D. split; auto. split; [exact I|auto].
Qed.

Hypothesis HS : sqrt_laws fsqrt.
Lemma serial_tridiag (h : mat F) psi0 ks al be : hermitian (length psi0) h -> ip (length psi0) (vf psi0) (vf psi0) = c1 ->
  get_tridiagonal_krylov_vectors fsqrt h psi0 ks = Ok (al, be) -> tridiagonalises (length psi0) h (vf psi0) ks al be.
Proof.
  intros HM H1 E. apply (krylov_tridiag fsqrt HS (length psi0) h HM (mdot (length psi0) h) (fun v _ => mdot_len _ h v) (fun v i _ Hi => mdot_nth _ h v i Hi) psi0 eq_refl H1 ks al be). exact E.
Qed.
Lemma local_rank0 (hs : list (mat F)) (M : mat F) psi0 ks r rest : (forall i j, M i j = csum (fun mr : mat F => mr i j) hs) ->
  get_tridiagonal_krylov_vectors_local fsqrt hs psi0 ks = r :: rest -> get_tridiagonal_krylov_vectors fsqrt M psi0 ks = r.
Proof.
  intros HM E. unfold get_tridiagonal_krylov_vectors_local in E. unfold get_tridiagonal_krylov_vectors.
  rewrite <- (krylov_ext fsqrt (length psi0) (reduce_dot hs (length psi0))); auto; [|intros v _; apply reduce_mdot; auto|intros; apply reduce_dot_len].
  cbv zeta in E. destruct (Z.ltb_spec (Z.min ks (Z.of_nat (length psi0))) 1) as [H|H].
  - unfold krylov. destruct (Z.ltb_spec (Z.min ks (Z.of_nat (length psi0))) 1); [|lia]. destruct hs; [discriminate|]. simpl in E. congruence.
  - destruct hs; [discriminate|]. destruct (krylov _ _ _ _); congruence.
Qed.
Lemma local_tridiag (hs : list (mat F)) (M : mat F) psi0 ks al be rest : (forall i j, M i j = csum (fun mr : mat F => mr i j) hs) ->
  hermitian (length psi0) M -> ip (length psi0) (vf psi0) (vf psi0) = c1 ->
  get_tridiagonal_krylov_vectors_local fsqrt hs psi0 ks = Ok (al, be) :: rest -> tridiagonalises (length psi0) M (vf psi0) ks al be.
Proof. intros HM HH H1 E. apply serial_tridiag; auto. apply (local_rank0 hs M psi0 ks _ rest); auto. Qed.

Section In.
Variable n : nat.
Variable op : op_t F.
Variable rs : option restrictions_t.
Variable psi : psi_t F.
Hypothesis HI : green_input n op rs psi.

Lemma psi_nonempty : psi <> [].
Proof.
  intros E. destruct HI as (_ & _ & _ & _ & H & _). rewrite E in H. unfold norm2 in H. simpl in H.
  pose proof (@flt_0_1 F) as H1. rewrite <- H, flt_irrefl in H1. discriminate.
Qed.

Section Core.
Variable basis : list pybytes.
Variable m : nat -> nat -> cx F.
Variable v : vec F.
Hypothesis HC : is_closure n op rs (dkeys psi) basis.
Hypothesis HRm : restricted_matrix n op rs basis m.
Hypothesis Lv : length v = length basis.
Hypothesis Hv : forall i, vf v i = amp_at basis psi i.
Let N := length basis.

Lemma core_herm : hermitian N m.
Proof. destruct HI as (Hw & Hr & Hherm & Hpsi & Hn1 & Hall). apply (restricted_herm n op rs Hw (dkeys psi) basis m); auto. apply Forall_forall, Hpsi. Qed.
Lemma core_norm : ip N (vf v) (vf v) = c1.
Proof.
  destruct HI as (Hw & Hr & Hherm & Hpsi & Hn1 & Hall).
  transitivity (ip (length basis) (amp_at basis psi) (amp_at basis psi)); [unfold ip; apply csum_ext; intros; rewrite Hv; auto|].
  rewrite psi_vec_ip; [rewrite Hn1; auto|apply HC|apply Hpsi|]. apply (closure_in n op rs); auto.
Qed.
Lemma core_exact hop ks al be z : restricted_op n op rs hop -> im z <> 0%F -> Z.le (Z.of_nat N) ks ->
  krylov fsqrt (mdot N m) v ks = Ok (al, be) -> fock_green n z hop psi (cont_frac z al be).
Proof.
  intros Hop Hz Hks Ek. destruct HI as (Hw & Hr & Hherm & Hpsi & Hn1 & Hall).
  apply (resolvent_fock n op rs Hw Hherm psi Hall hop Hop _ Hz basis HC m HRm).
  destruct (krylov_green fsqrt HS N m core_herm (mdot N m) (fun v _ => mdot_len _ m v) (fun v i _ Hi => mdot_nth _ m v i Hi) v Lv core_norm ks al be z Ek Hks Hz) as (x & H1 & H2 & H3).
  exists x. split; [|split].
  - intros i Hi. rewrite <- Hv. auto.
  - rewrite <- H2. unfold ip. apply csum_ext. intros. rewrite Hv. auto.
  - intros x' Hx'. apply H3. intros i Hi. rewrite Hv. auto.
Qed.
Lemma core_ok_iff ks : is_ok (krylov fsqrt (mdot N m) v ks) = true <->
  Z.le 1 ks /\ ~ (exists d W, Z.lt (Z.of_nat d) (Z.min ks (Z.of_nat N)) /\ orthonormal N d W /\ invariant N m d W /\ in_span N d W (amp_at basis psi)).
Proof.
  rewrite (krylov_ok_iff fsqrt HS N m core_herm (mdot N m) (fun v _ => mdot_len _ m v) (fun v i _ Hi => mdot_nth _ m v i Hi) v Lv core_norm ks).
  assert (E : forall d W, in_span N d W (vf v) <-> in_span N d W (amp_at basis psi)).
  { intros d W. split; intros (c & Hc); exists c; intros i Hi; [rewrite <- Hv|rewrite Hv]; auto. }
  split; intros [H1 H2]; (split; [auto|]); intros (d & W & Hd & Ho & Hi & Hs); apply H2; exists d, W; repeat (split; auto); apply E; auto.
Qed.
Lemma core_err ks e : krylov fsqrt (mdot N m) v ks = Err e -> e = ValueError.
Proof. apply (krylov_err fsqrt HS N m core_herm (mdot N m) (fun v _ => mdot_len _ m v) (fun v i _ Hi => mdot_nth _ m v i Hi) v Lv core_norm). Qed.
End Core.

(* C36 *)
Definition exact_on (hop : config -> config -> cx F) (omega : list F) (delta e : F) (g : vec F) : Prop :=
  length g = length omega /\
  forall k, (k < length omega)%nat -> fock_green n (mkC (nth k omega 0 + e)%F delta) hop psi (nth k g c0).
Lemma serial_exact fuel ord e omega delta ks swm (hs : list (hdict_t F)) mode hop : matrix_mode mode ->
  Forall (hdict_exact n op rs) hs -> (2 ^ n < fuel)%nat -> hs <> [] -> delta <> 0%F -> restricted_op n op rs hop ->
  exists basis, is_closure n op rs (dkeys psi) basis /\
    (Z.le (Z.of_nat (length basis)) ks -> forall h' g,
       In (h', Ok g) (getGreen fsqrt fuel ord (Z.of_nat n) e psi op omega delta ks swm rs hs mode Serial) -> exact_on hop omega delta e g).
Proof.
  intros Hm HF Hf Hh Hd Hop. pose proof HI as (Hw & Hr & Hherm & Hpsi & Hn1 & Hall).
  destruct (green_serial fsqrt n op rs Hw Hr psi Hpsi psi_nonempty fuel ord e omega delta ks swm hs mode Hm HF Hf Hh) as (basis & m & v & HC & HE & HRm & Lv & Hv & HF2).
  exists basis. split; auto. intros Hks h' g Hin.
  apply (Forall2_in_r _ _ _ _ HF2) in Hin as (h & _ & _ & _ & E). cbn [snd] in E. symmetry in E. apply rmap_ok in E as ([al be] & Ek & ->).
  split; [apply mesh_len|]. intros k Hk. rewrite mesh_nth by auto. cbn [fst snd]. eapply core_exact; eauto.
Qed.
Lemma hbuild_exact fuel (ord : nat -> set_order) e omega delta ks swm (hs : list (hdict_t F)) mode hop : matrix_mode mode ->
  (forall r l, Permutation (ord r l) l) -> Forall (hdict_exact n op rs) hs -> NoDup (flat_map dkeys hs) ->
  (2 ^ n < fuel)%nat -> hs <> [] -> delta <> 0%F -> restricted_op n op rs hop ->
  exists basis, is_closure n op rs (dkeys psi) basis /\
    (Z.le (Z.of_nat (length basis)) ks -> forall h' g rest,
       getGreen fsqrt fuel ord (Z.of_nat n) e psi op omega delta ks swm rs hs mode HBuild = (h', Ok g) :: rest -> exact_on hop omega delta e g).
Proof.
  intros Hm Hord HF Hnd Hf Hh Hd Hop. pose proof HI as (Hw & Hr & Hherm & Hpsi & Hn1 & Hall).
  destruct (green_hbuild fsqrt n op rs Hw Hr psi Hpsi psi_nonempty fuel ord e omega delta ks swm hs mode Hm Hord HF Hnd Hf Hh) as (basis & m & v & hs' & HC & HE & HRm & Lv & Hv & _ & _ & _ & E).
  exists basis. split; auto. intros Hks h' g rest Eg. cbv zeta in E. rewrite Eg in E. destruct hs' as [|h0 hs']; simpl in E; [discriminate|].
  injection E as _ E _. symmetry in E. apply rmap_ok in E as ([al be] & Ek & ->).
  split; [apply mesh_len|]. intros k Hk. rewrite mesh_nth by auto. cbn [fst snd]. eapply core_exact; eauto.
Qed.

(* C37 *)
Definition stops_early (basis : list pybytes) (m : nat -> nat -> cx F) (ks : Z) : Prop :=
  exists d W, Z.lt (Z.of_nat d) (Z.min ks (Z.of_nat (length basis))) /\ orthonormal (length basis) d W /\
    invariant (length basis) m d W /\ in_span (length basis) d W (amp_at basis psi).
Lemma serial_ok_iff fuel ord e omega delta ks swm (hs : list (hdict_t F)) mode : matrix_mode mode ->
  Forall (hdict_exact n op rs) hs -> (2 ^ n < fuel)%nat -> hs <> [] ->
  exists basis m, is_closure n op rs (dkeys psi) basis /\ restricted_matrix n op rs basis m /\
    forall out, In out (getGreen fsqrt fuel ord (Z.of_nat n) e psi op omega delta ks swm rs hs mode Serial) ->
      (is_ok (snd out) = true <-> Z.le 1 ks /\ ~ stops_early basis m ks) /\
      (is_ok (snd out) = false -> snd out = Err ValueError).
Proof.
  intros Hm HF Hf Hh. pose proof HI as (Hw & Hr & Hherm & Hpsi & Hn1 & Hall).
  destruct (green_serial fsqrt n op rs Hw Hr psi Hpsi psi_nonempty fuel ord e omega delta ks swm hs mode Hm HF Hf Hh) as (basis & m & v & HC & HE & HRm & Lv & Hv & HF2).
  exists basis, m. split; auto. split; auto. intros out Hin.
  apply (Forall2_in_r _ _ _ _ HF2) in Hin as (h & _ & _ & _ & E). destruct out as [h1 r1]. cbn [snd] in *. subst r1.
  rewrite <- (core_ok_iff basis m v HC HRm Lv Hv ks).
  destruct (krylov fsqrt (mdot (length basis) m) v ks) as [ab|ex] eqn:Ek; simpl; [split; [tauto|discriminate]|].
  split; [tauto|]. intros _. f_equal. eapply core_err; eauto.
Qed.

(* C38 *)
Lemma serial_outs (r : res (vec F)) l o : Forall2 (fun (h : hdict_t F) out => hdict_exact n op rs (fst out) /\ hext h (fst out) /\ snd out = r) l o -> map snd o = repeat r (length l).
Proof. induction 1 as [|a b l o (_ & _ & E) _ IH]; simpl; congruence. Qed.
Lemma serial_ranks fuel ord e omega delta ks swm (hs : list (hdict_t F)) mode : matrix_mode mode ->
  Forall (hdict_exact n op rs) hs -> (2 ^ n < fuel)%nat ->
  forall h ord', hdict_exact n op rs h ->
  exists r, map snd (getGreen fsqrt fuel ord' (Z.of_nat n) e psi op omega delta ks swm rs [h] mode Serial) = [r] /\
    map snd (getGreen fsqrt fuel ord (Z.of_nat n) e psi op omega delta ks swm rs hs mode Serial) = repeat r (length hs).
Proof.
  intros Hm HF Hf h ord' Hx. pose proof HI as (Hw & Hr & Hherm & Hpsi & Hn1 & Hall).
  destruct (green_serial fsqrt n op rs Hw Hr psi Hpsi psi_nonempty fuel ord' e omega delta ks swm [h] mode Hm) as (basis & m & v & HC & HE & HRm & Lv & Hv & HF1); auto; [discriminate|].
  set (r := rmap (green_mesh omega delta e) (krylov fsqrt (mdot (length basis) m) v ks)) in *. exists r.
  split; [apply (serial_outs r [h]); auto|]. destruct hs as [|h0 hs0] eqn:Ehs.
  { unfold getGreen. pose proof psi_nonempty. destruct psi; [congruence|]. destruct Hm; subst mode; reflexivity. }
  rewrite <- Ehs in *.
  destruct (green_serial fsqrt n op rs Hw Hr psi Hpsi psi_nonempty fuel ord e omega delta ks swm hs mode Hm) as (basis' & m' & v' & HC' & HE' & HRm' & Lv' & Hv' & HF2); auto; [congruence|].
  assert (basis' = basis) by (eapply Exp_fun; eauto). subst basis'.
  assert (v' = v) by (apply list_vf_ext; [congruence|intros; rewrite Hv, Hv'; auto]). subst v'.
  apply serial_outs. replace r with (rmap (green_mesh omega delta e) (krylov fsqrt (mdot (length basis) m') v ks)); auto.
  unfold r. f_equal. apply (krylov_ext fsqrt (length basis)); auto; [|intros; apply mdot_len].
  intros w _. apply mdot_ext. apply (restricted_matrix_fun n op rs basis); auto. eapply closure_valid; eauto.
Qed.
Lemma hbuild_rank0 fuel (ord : nat -> set_order) e omega delta ks swm (hs : list (hdict_t F)) mode : matrix_mode mode ->
  (forall r l, Permutation (ord r l) l) -> Forall (hdict_exact n op rs) hs -> NoDup (flat_map dkeys hs) -> (2 ^ n < fuel)%nat -> hs <> [] ->
  forall h ord', hdict_exact n op rs h ->
  exists r others, map snd (getGreen fsqrt fuel ord' (Z.of_nat n) e psi op omega delta ks swm rs [h] mode Serial) = [r] /\
    map snd (getGreen fsqrt fuel ord (Z.of_nat n) e psi op omega delta ks swm rs hs mode HBuild) = r :: others /\
    length (r :: others) = length hs.
Proof.
  intros Hm Hord HF Hnd Hf Hh h ord' Hx. pose proof HI as (Hw & Hr & Hherm & Hpsi & Hn1 & Hall).
  destruct (green_serial fsqrt n op rs Hw Hr psi Hpsi psi_nonempty fuel ord' e omega delta ks swm [h] mode Hm) as (basis & m & v & HC & HE & HRm & Lv & Hv & HF1); auto; [discriminate|].
  destruct (green_hbuild fsqrt n op rs Hw Hr psi Hpsi psi_nonempty fuel ord e omega delta ks swm hs mode Hm Hord HF Hnd Hf Hh) as (basis' & m' & v' & hs' & HC' & HE' & HRm' & Lv' & Hv' & _ & _ & Hex & E).
  assert (basis' = basis) by (eapply Exp_fun; eauto). subst basis'.
  assert (v' = v) by (apply list_vf_ext; [congruence|intros; rewrite Hv, Hv'; auto]). subst v'.
  assert (Ek : krylov fsqrt (mdot (length basis) m') v ks = krylov fsqrt (mdot (length basis) m) v ks).
  { apply (krylov_ext fsqrt (length basis)); auto; [|intros; apply mdot_len].
    intros w _. apply mdot_ext. apply (restricted_matrix_fun n op rs basis); auto. eapply closure_valid; eauto. }
  cbv zeta in E. rewrite E, Ek. set (r := rmap (green_mesh omega delta e) (krylov fsqrt (mdot (length basis) m) v ks)) in *.
  assert (Lhs : length hs' = length hs) by (symmetry; eapply Forall2_len; eauto).
  destruct hs' as [|h0 hs']; [destruct hs; [congruence|discriminate]|]. cbn [combine map snd].
  exists r. eexists. split; [|split; [reflexivity|]].
  - apply (serial_outs r [h]). auto.
  - simpl. rewrite map_length, combine_length, repeat_length. simpl in *. destruct hs; [congruence|]. simpl in *. lia.
Qed.
End In.
End LGreen4.
