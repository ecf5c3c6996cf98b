(* Sum rules of x-ray absorption: <Dv|D'v> for a full core shell. *)
From Coq Require Import Ring Field.
From Verif Require Import M_Prelude M_Scalar M_PSR M_State M_Basis M_Expect M_Operators S_Fock S_Ops S_Basis S_Expect S_Operators S_Symmetry S_TimeReversal S_Dichroism S_Isotropic S_Sector S_SumRule.
From Verif Require Import L_Scalar L_Sum L_Dict L_Fock L_State L_Ops L_Index L_Expect L_Expect4 L_Expect5 L_Operators L_Operators4 L_Operators7 L_Symmetry L_Symmetry3 L_Symmetry5 L_Dichroism L_Isotropic L_Sector3.
Local Open Scope Z_scope.

Section A.
Context {F : ofield}.
Add Field Ff : (f_field F).
Add Ring Cring : (@c_ring F).
Variable nb : nbaths_t.
Hypothesis Hw : wf_nbaths nb.
Hypothesis Ha : NoDup (angs nb).
Notation n := (n_orb nb).
Notation ixn := (ix nb).

(* a full shell *)
Lemma full_occ l t x : In l (angs nb) -> length t = n -> in_shell_l nb l t = 2 * (2 * l + 1) -> in_shell l x -> nth (ixn x) t false = true.
Proof.
  intros Hl Ht Hf Hx. destruct (nth (ixn x) t false) eqn:E; [reflexivity|exfalso].
  assert (H0 : 0 <= l) by (destruct Hx as (s & m & _ & _ & Hm); lia).
  set (P := fun k : nat => nth k t false && (at_index nb (q_shell l) (Z.of_nat k) =? 1)).
  assert (HC : in_shell_l nb l t = Z.of_nat (length (filter P (seq 0 n)))).
  { unfold in_shell_l, charge. rewrite charge_from_occ, Ht, <- count_zsum. f_equal. apply map_ext. intros k. unfold P. rewrite Z.add_0_l.
    destruct (nth k t false); [|reflexivity]. unfold at_index, q_shell. destruct (i2c nb (Z.of_nat k)) as [[l' s m|]|]; try reflexivity. destruct (l' =? l); reflexivity. }
  assert (HI : incl (ixn x :: filter P (seq 0 n)) (map ixn (shell l))).
  { intros k [<-|Hk]; [apply in_map, shell_In; exact Hx|]. apply filter_In in Hk as [Hk HP]. apply in_seq in Hk. unfold P in HP. apply andb_prop in HP as [_ HP]. apply Z.eqb_eq in HP.
    unfold at_index in HP. destruct (i2c nb (Z.of_nat k)) as [y|] eqn:Ey; [|discriminate].
    destruct (i2c_bijection nb (Z.of_nat k) Hw Ha) as (y' & Ey' & Hy' & Ec); [unfold n_orb in Hk; lia|]. rewrite Ey in Ey'. injection Ey' as <-.
    unfold q_shell in HP. destruct y as [l' s m|]; [|discriminate]. destruct (Z.eqb_spec l' l) as [->|]; [|discriminate].
    destruct Ec as [Ec _]. rewrite (c2i_ok nb _ Hw Hy') in Ec. assert (Ec2 : coord_index nb (SImp l s m) = Z.of_nat k) by congruence. apply in_map_iff. exists (SImp l s m). split.
    - unfold ix. rewrite Ec2. apply Nat2Z.id.
    - apply shell_In. exists s, m. split; [reflexivity|]. cbn in Hy'. tauto. }
  assert (HN : NoDup (ixn x :: filter P (seq 0 n))).
  { constructor; [|apply NoDup_filter, seq_NoDup]. intros C. apply filter_In in C as [_ C]. unfold P in C. rewrite E in C. discriminate C. }
  pose proof (NoDup_incl_length HN HI) as HL. cbn [length] in HL. rewrite map_length in HL.
  assert (L : length (shell l) = (2 * Z.to_nat (2 * l + 1))%nat) by (unfold shell, sites; rewrite map_length, prod_length, map_length, seq_length; reflexivity).
  rewrite L in HL. lia.
Qed.
Variables l1 l2 : Z.
Hypothesis H1 : In l1 (angs nb).
Hypothesis H2 : In l2 (angs nb).
Hypothesis H12 : l1 <> l2.
Variable v : config -> cx F.
Hypothesis Hv : full_shell nb l1 v.
Lemma ix_shell l x : In l (angs nb) -> In x (shell l) -> coord_ok nb x /\ (ixn x < n)%nat.
Proof. intros Hl Hx. apply shell_In in Hx. assert (C : coord_ok nb x) by (destruct Hx as (s & m & -> & Hs & Hm); cbn; auto). split; auto. apply (ix_ok nb Hw x C). Qed.
(* no electron can be added to the full shell *)
Lemma full_C y t : In y (shell l1) -> length t = n -> C_ (ixn y) v t = c0.
Proof.
  intros Hy Ht. destruct (ix_shell l1 y H1 Hy) as [Cy Iy]. unfold C_, vpull. destruct (flip false (ixn y) t) as [[s a]|] eqn:E; [|reflexivity].
  assert (Hs : length s = n) by (apply flip_len in E; congruence).
  destruct (ceqb_spec (v s) c0) as [E0|E0]; [rewrite E0; ring|]. exfalso.
  pose proof (full_occ l1 s y H1 Hs (Hv s Hs E0) (proj1 (shell_In l1 y) Hy)) as K.
  apply flip_inv in E. cbn [negb] in E. apply L_TimeReversal.flip_bits in E. destruct E as (_ & _ & _ & E & _). congruence.
Qed.
Lemma C_zero i u t : (forall s, length s = n -> u s = c0) -> length t = n -> C_ i u t = @c0 F.
Proof. intros H Ht. unfold C_, vpull. destruct (flip false i t) as [[s a]|] eqn:E; [|reflexivity]. rewrite H by (apply flip_len in E; congruence). ring. Qed.
Lemma A_zero i u t : (forall s, length s = n -> u s = c0) -> length t = n -> A_ i u t = @c0 F.
Proof. intros H Ht. unfold A_, vpull. destruct (flip true i t) as [[s a]|] eqn:E; [|reflexivity]. rewrite H by (apply flip_len in E; congruence). ring. Qed.
Lemma ix_ne x y : In x (shell l2) -> In y (shell l1) -> Nat.eqb (ixn x) (ixn y) = false.
Proof.
  intros Hx Hy. destruct (ix_shell l2 x H2 Hx) as [Cx _]. destruct (ix_shell l1 y H1 Hy) as [Cy _]. rewrite (ix_eqb nb Hw) by auto.
  destruct (eqb_spec x y) as [->|]; [|reflexivity]. exfalso. apply shell_In in Hx, Hy. destruct Hx as (? & ? & -> & _), Hy as (? & ? & E & _). congruence.
Qed.
(* c_y^+ c_x v = 0 and c_y^+ c_y' v = delta v *)
Lemma full_E x y t : In x (shell l2) -> In y (shell l1) -> length t = n -> E_ (ixn y) (ixn x) v t = c0.
Proof.
  intros Hx Hy Ht. destruct (ix_shell l2 x H2 Hx) as [_ Ix]. destruct (ix_shell l1 y H1 Hy) as [_ Iy].
  pose proof (car_CA n (ixn y) (ixn x) v t Iy Ix Ht) as K. rewrite Nat.eqb_sym, ix_ne in K by auto. 
  rewrite (A_zero (ixn x) (C_ (ixn y) v)) in K by (auto; intros; apply full_C; auto). unfold E_. rewrite <- K. ring.
Qed.
Lemma full_EE y y' t : In y (shell l1) -> In y' (shell l1) -> length t = n -> E_ (ixn y) (ixn y') v t = if eqb y y' then v t else c0.
Proof.
  intros Hy Hy' Ht. destruct (ix_shell l1 y H1 Hy) as [Cy Iy]. destruct (ix_shell l1 y' H1 Hy') as [Cy' Iy'].
  pose proof (car_CA n (ixn y) (ixn y') v t Iy Iy' Ht) as K. rewrite (ix_eqb nb Hw) in K by auto.
  rewrite (A_zero (ixn y') (C_ (ixn y) v)) in K by (auto; intros; apply full_C; auto). unfold E_. rewrite <- K. ring.
Qed.
Definition rho1 x' x : cx F := vip n v (E_ (ixn x') (ixn x) v).
Lemma vip_add_r (u a b : config -> cx F) : vip n u (fun t => a t + b t)%C = (vip n u a + vip n u b)%C.
Proof. unfold vip. rewrite <- csum_add. apply csum_ext. intros t _. ring. Qed.
Lemma full_pair x y x' y' : In x (shell l2) -> In y (shell l1) -> In x' (shell l2) -> In y' (shell l1) ->
  vip n (E_ (ixn x) (ixn y) v) (E_ (ixn x') (ixn y') v) = if eqb y y' then ((if eqb x x' then vip n v v else c0) - rho1 x' x)%C else c0.
Proof.
  intros Hx Hy Hx' Hy'. destruct (ix_shell l2 x H2 Hx) as [Cx Ix]. destruct (ix_shell l1 y H1 Hy) as [Cy Iy].
  destruct (ix_shell l2 x' H2 Hx') as [Cx' Ix']. destruct (ix_shell l1 y' H1 Hy') as [Cy' Iy'].
  rewrite <- vip_E. unfold rho1.
  rewrite (vip_ext n v v _ (fun t => (if eqb y y' then (if eqb x x' then v t else c0) else c0) + (- c1) * (if eqb y y' then E_ (ixn x') (ixn x) v t else c0))%C (veq_refl n v)).
  - rewrite vip_add_r. unfold vip. destruct (eqb y y'), (eqb x x').
    + rewrite <- csum_sub, <- csum_add. apply csum_ext. intros t _. ring.
    + rewrite <- csum_add. transitivity (csum (fun t => (- c1) * (cconj (v t) * E_ (ixn x') (ixn x) v t))%C (allcfg n)); [apply csum_ext; intros t _; ring|]. rewrite csum_mul_l. ring.
    + rewrite !csum_zero; [ring| |]; intros; ring.
    + rewrite !csum_zero; [ring| |]; intros; ring.
  - intros t Ht. pose proof (E_comm n (ixn y) (ixn x) (ixn x') (ixn y') v t Iy Ix Ix' Iy' Ht) as K. rewrite !(ix_eqb nb Hw) in K by auto.
    assert (Z0 : E_ (ixn x') (ixn y') (E_ (ixn y) (ixn x) v) t = c0).
    { unfold E_ at 1. apply C_zero; auto. intros s Hs. apply A_zero; auto. intros r Hr. apply full_E; auto. }
    rewrite Z0 in K. rewrite (full_EE y y') in K by auto.
    assert (Q : forall a b : spinorb, eqb a b = eqb b a) by (intros a b; destruct (eqb_spec a b), (eqb_spec b a); congruence).
    rewrite (Q y' y) in K.
    transitivity (E_ (ixn y) (ixn x) (E_ (ixn x') (ixn y') v) t - c0)%C; [ring|]. rewrite K. destruct (eqb y y'), (eqb x x'); ring.
Qed.
(* <moved h v|moved h' v> *)
Lemma moved_E h t : moved nb l1 l2 h v t = csum (fun xy => h (fst xy) (snd xy) * E_ (ixn (fst xy)) (ixn (snd xy)) v t)%C (list_prod (shell l2) (shell l1)).
Proof. reflexivity. Qed.
Lemma moved_dot h : vdot n (moved nb l1 l2 h v) (moved nb l1 l2 h v) =
  csum (fun xx => csum (fun y => cconj (h (fst xx) y) * h (snd xx) y)%C (shell l1) * ((if eqb (fst xx) (snd xx) then vip n v v else c0) - rho1 (snd xx) (fst xx)))%C (list_prod (shell l2) (shell l2)).
Proof.
  change (vdot n (moved nb l1 l2 h v) (moved nb l1 l2 h v)) with (vip n (moved nb l1 l2 h v) (moved nb l1 l2 h v)).
  rewrite (vip_ext n _ (fun t => csum (fun xy => h (fst xy) (snd xy) * E_ (ixn (fst xy)) (ixn (snd xy)) v t)%C (list_prod (shell l2) (shell l1))) _
    (fun t => csum (fun xy => h (fst xy) (snd xy) * E_ (ixn (fst xy)) (ixn (snd xy)) v t)%C (list_prod (shell l2) (shell l1)))) by (intros t _; apply moved_E).
  rewrite (vip_csum_r n _ (fun xy => E_ (ixn (fst xy)) (ixn (snd xy)) v) (fun xy => h (fst xy) (snd xy))).
  transitivity (csum (fun x => csum (fun x' => csum (fun y => cconj (h x y) * h x' y)%C (shell l1) * ((if eqb x x' then vip n v v else c0) - rho1 x' x))%C (shell l2)) (shell l2)).
  2: rewrite csum_list_prod; reflexivity.
  rewrite csum_list_prod.
  transitivity (csum (fun x' => csum (fun y' => csum (fun x => cconj (h x y') * h x' y' * ((if eqb x x' then vip n v v else c0) - rho1 x' x))%C (shell l2)) (shell l1)) (shell l2)).
  - apply csum_ext. intros x' Hx'. apply csum_ext. intros y' Hy'. cbn [fst snd].
    rewrite (vip_csum_l n _ (fun xy => E_ (ixn (fst xy)) (ixn (snd xy)) v) (fun xy => h (fst xy) (snd xy))), csum_list_prod, <- csum_mul_l.
    apply csum_ext. intros x Hx. cbn [fst snd].
    rewrite (csum_single _ (shell l1) y'); [|apply shell_NoDup|auto|].
    + rewrite full_pair, eqb_refl by auto. ring.
    + intros y Hy N. rewrite full_pair by auto. destruct (eqb_spec y y'); [contradiction|]. ring.
  - rewrite (csum_swap _ (shell l2) (shell l2)). apply csum_ext. intros x' _. rewrite csum_swap. apply csum_ext. intros x _. rewrite <- csum_mul_r. reflexivity.
Qed.
(* diagonal case *)
Lemma moved_diag h g : (forall x x', In x (shell l2) -> In x' (shell l2) -> csum (fun y => cconj (h x y) * h x' y)%C (shell l1) = if eqb x x' then g x else c0) ->
  vdot n (moved nb l1 l2 h v) (moved nb l1 l2 h v) = csum (fun x => g x * (vip n v v - rho1 x x))%C (shell l2).
Proof.
  intros Hg. rewrite moved_dot, csum_list_prod. apply csum_ext. intros x Hx. cbn [fst snd].
  rewrite (csum_single _ (shell l2) x); [|apply shell_NoDup|auto|].
  - rewrite Hg, eqb_refl by auto. reflexivity.
  - intros x' Hx' N. rewrite Hg by auto. destruct (eqb_spec x x') as [->|]; [contradiction|]. ring.
Qed.
(* expectation values of diagonal one-particle operators of the shell l2 *)
Lemma opv_gam (L : list (@term F)) (u : config -> cx F) t : Forall (term_ok nb) L -> length t = n -> opv n (one_body nb L) u t = gam nb L u t.
Proof.
  intros Hl Ht. unfold opv, opelem, one_body, gam.
  transitivity (csum (fun s => csum (fun xyv => snd xyv * (cofZ (pelem (hop nb (fst (fst xyv)) (snd (fst xyv))) t s) * u s))%C L) (allcfg n)).
  - apply csum_ext. intros s _. rewrite csum_map, <- csum_mul_r. apply csum_ext. intros x _. cbn [fst snd]. ring.
  - rewrite csum_swap. apply csum_ext. intros [[x y] c] Hi. rewrite csum_mul_l. f_equal.
    rewrite Forall_forall in Hl. destruct (Hl _ Hi) as [Hx Hy]. cbn [fst snd] in *.
    destruct (ix_ok nb Hw x Hx) as [_ Ex]. destruct (ix_ok nb Hw y Hy) as [_ Ey].
    rewrite (hop_vec n (ix nb x) (ix nb y)) by auto. rewrite Ex, Ey. reflexivity.
Qed.
Lemma mean_dterms w : mean nb (map (fun sm => ((orb l2 sm, orb l2 sm), w sm)) (sites l2)) v = csum (fun sm => w sm * rho1 (orb l2 sm) (orb l2 sm))%C (sites l2).
Proof.
  unfold mean. assert (HL : Forall (term_ok nb) (map (fun sm => ((orb l2 sm, orb l2 sm), w sm)) (sites l2))).
  { apply Forall_map, Forall_forall. intros sm Hi. assert (C : coord_ok nb (orb l2 sm)) by (apply (ix_shell l2); auto; apply in_map; auto). split; exact C. }
  rewrite (vdot_ext n v v _ (fun t => csum (fun sm => w sm * E_ (ixn (orb l2 sm)) (ixn (orb l2 sm)) v t)%C (sites l2)));
    [|reflexivity|intros t Ht; rewrite opv_gam by auto; unfold gam; rewrite csum_map; reflexivity].
  apply (vip_csum_r n v (fun sm => E_ (ixn (orb l2 sm)) (ixn (orb l2 sm)) v) w).
Qed.
End A.
