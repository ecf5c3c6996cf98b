(* Electrons without interaction: the program. *)
From Coq Require Import Permutation Ring Field.
From Verif Require Import M_Prelude M_Scalar M_PSR M_State M_Mpi M_Hamiltonian M_Basis M_Expect M_Operators M_Lanczos M_Average M_Spectra M_Simulate S_Fock S_Ops S_Ham S_Green S_Spectra S_Basis S_Expect S_Operators S_Symmetry S_TimeReversal S_Thermal S_Moments S_RIXS S_Unitary S_Unitary2 S_Free.
From Verif Require Import L_Scalar L_Sum L_Dict L_Fock L_State L_Ops L_FockP L_Index L_Expect L_Vec L_Green L_Operators L_Operators2 L_Operators3 L_Operators4 L_Operators5 L_Operators6 L_Operators7 L_Operators10 L_Unitary4 L_Free L_Free2 X_Gauss.
From Verif Require S_Dict.
Local Open Scope Z_scope.

Section S.
Context {F : ofield}.
Add Field Ff : (f_field F).
Add Field Cf : (@c_field F).
Local Open Scope cx_scope.
Section P.
Variable fint : F -> Z.
Hypothesis fint_ofZ : forall z, fint (fofZ z) = z.
Variable fsqrt : F -> F.
Variable pi : F.
Variable gaunt : Z -> Z -> Z -> Z -> Z -> Z -> F.
Hypothesis gaunt_swap : forall l1 l2 l3 m1 m2 m3, gaunt l1 l2 l3 m1 m2 m3 = gaunt l3 l2 l1 m3 m2 m1.
Hypothesis gaunt_neg : forall l1 l2 l3 m1 m2 m3, gaunt l1 l2 l3 (- m1)%Z (- m2)%Z (- m3)%Z = gaunt l1 l2 l3 m1 m2 m3.
Variable nb : nbaths_t.
Hypothesis W : wf_nbaths nb.
Hypothesis Hp1 : In 1%Z (angs nb).
Hypothesis Hd2 : In 2%Z (angs nb).
Variable hp : @ham_params F.
Variable n3d : Z.
Hypothesis Hn3d : dget (hp_n0imps hp) 2%Z = Some n3d.
Hypothesis Hn2p : dget (hp_n0imps hp) 1%Z = Some 6%Z.
Hypothesis HFdd : (5 <= length (hp_Fdd hp))%nat.
Hypothesis HFpd : (1 <= length (hp_Fpd hp))%nat.
Hypothesis HGpd : (4 <= length (hp_Gpd hp))%nat.
Hypothesis HZ : no_interaction hp.
Lemma slater_zero ck (Rk : list F) x y z t : (forall r, In r Rk -> r = 0%F) -> slater ck Rk x y z t = 0%F.
Proof.
  intros Hz. unfold slater. destruct (_ =? _)%Z; [|reflexivity]. assert (X : forall k, nth k Rk 0%F = 0%F).
  { intros k. destruct (nth_in_or_default k Rk 0%F); auto. }
  generalize (seq 0 (length Rk)). intros l. induction l as [|k l IH]; cbn [fsum]; [reflexivity|]. rewrite IH, X. ring.
Qed.
Lemma u_none l1 l2 l3 l4 (Rk : list F) p : (forall r, In r Rk -> r = 0%F) -> val (getUop fsqrt pi gaunt l1 l2 l3 l4 Rk) p = c0.
Proof.
  intros Hz. unfold val. destruct (dget (getUop fsqrt pi gaunt l1 l2 l3 l4 Rk) p) as [v|] eqn:E; [|reflexivity].
  apply u_elements in E as (m1 & m2 & m3 & m4 & s & sp & H). cbv zeta in H. destruct H as (_ & _ & _ & _ & _ & _ & N & _). elim N. apply slater_zero. auto.
Qed.
Lemma total_hops (h0 : sop_t F) : NoDup (dkeys h0) -> only_hops h0 -> only_hops (addOps (h_parts fsqrt pi gaunt hp n3d ++ [h0])).
Proof.
  intros Hn Hh p Hp. apply (addOps_keys (h_parts fsqrt pi gaunt hp n3d ++ [h0])) in Hp; [|apply Forall_app; split; [apply parts_NoDup|auto]].
  destruct Hp as (o & Ho & Hv). assert (Hk : In p (dkeys o)). { apply dget_Some_key. unfold val in Hv. destruct (dget o p) eqn:E; [eauto|congruence]. }
  apply in_app_or in Ho as [[<-|[<-|[<-|[<-|[<-|[]]]]]]|[<-|[]]].
  - elim Hv. rewrite pd_val. unfold six. cbn [csum]. rewrite !u_none; [ring| | | | | |]; intros r Hr; apply HZ; rewrite !in_app_iff; auto.
  - destruct (proj1 (fld_matrix (hp_hx hp) (hp_hy hp) (hp_hz hp) 2) p Hk) as (x & y & -> & _). eauto.
  - destruct (proj1 (soc_matrix fsqrt (hp_xi_2p hp) 1) p Hk) as (x & y & -> & _). eauto.
  - destruct (proj1 (soc_matrix fsqrt (hp_xi_3d hp) 2) p Hk) as (x & y & -> & _). eauto.
  - apply dget_Some_key in Hk as [v Hk]. apply eDC_dget, eDC_In in Hk as (x & -> & _). eauto.
  - exact (Hh p Hk).
Qed.
Lemma free_total (h0 : sop_t F) : NoDup (dkeys h0) -> assert_hermitian h0 = Ok tt -> op_in nb h0 -> only_hops h0 ->
  exists hOp, get_hamiltonian_operator fsqrt pi gaunt fint nb hp h0 = Ok hOp /\ wf_op (n_orb nb) hOp /\ assert_hermitian hOp = Ok tt /\ free_hamiltonian (n_orb nb) (hop_elements hOp) hOp.
Proof.
  intros Hn Hh Hi Ho. destruct (total_ok fint fint_ofZ fsqrt pi gaunt gaunt_swap gaunt_neg nb W Hp1 Hd2 hp n3d Hn3d Hn2p HFdd HFpd HGpd h0 Hn Hh Hi) as (E & A & B).
  eexists. split; [exact E|]. split; [exact B|]. split; [exact A|]. intros t s _ _. symmetry. apply (hops_val nb W (addOps (h_parts fsqrt pi gaunt hp n3d ++ [h0])) t s).
  - apply addOps_NoDup.
  - apply sum_in; auto.
  - apply total_hops; auto.
Qed.
End P.
(* the operators of PS.dat *)
Lemma ok_inj {A} (x y : A) : Ok x = Ok y -> x = y. Proof. congruence. Qed.
Lemma pes_orbitals nb lab ops : wf_nbaths nb -> In 2%Z (angs nb) -> getPESOperators lab nb 2 = Ok ops ->
  ops = map (@orbital_op F lab) (map (fun x => Z.to_nat (coord_index nb x)) (S_Operators.shell_list 2)) /\ Forall (fun i => (i < n_orb nb)%nat) (map (fun x => Z.to_nat (coord_index nb x)) (S_Operators.shell_list 2)).
Proof.
  intros W Hd E. rewrite (pes_ok nb W lab 2 Hd) in E. apply ok_inj in E. subst ops.
  assert (C : forall x, In x (S_Operators.shell_list 2) -> exists i, coord_index nb x = Z.of_nat i /\ (i < n_orb nb)%nat).
  { intros x Hx. apply (coord_lt nb W). unfold S_Operators.shell_list in Hx. apply in_flat_map in Hx as (s & Hs & Hx). apply in_map_iff in Hx as (m & <- & Hm). unfold mrange in Hm. apply zrange2_In in Hm. destruct Hs as [<-|[<-|[]]]; apply imp_ok; auto; lia. }
  split.
  - rewrite map_map. apply map_ext_in. intros x Hx. destruct (C x Hx) as (i & Ei & _). unfold orbital_op. rewrite Ei, Nat2Z.id. reflexivity.
  - apply Forall_forall. intros i Hi. apply in_map_iff in Hi as (x & <- & Hx). destruct (C x Hx) as (j & -> & Hj). rewrite Nat2Z.id. exact Hj.
Qed.
(* z - h has an inverse when h is Hermitian and z not real *)
Section G.
Variables (n : nat) (h : nat -> nat -> cx F).
Hypothesis HH : forall i j, (i < n)%nat -> (j < n)%nat -> h i j = cconj (h j i).
Notation S_ f := (csum f (seq 0 n)).
Lemma in_seq_n i : In i (seq 0 n) -> (i < n)%nat. Proof. intros H. apply in_seq in H. lia. Qed.
Definition rows z := map (fun i => map (fun j => z * kdelta i j - h i j) (seq 0 n)) (seq 0 n).
Lemma rows_len z r : In r (rows z) -> length r = length (rows z).
Proof. intros H. unfold rows in *. apply in_map_iff in H as (i & <- & _). rewrite !map_length. reflexivity. Qed.
Lemma rows_n z : length (rows z) = n. Proof. unfold rows. rewrite map_length, seq_length. reflexivity. Qed.
Lemma rows_at z i j : (i < n)%nat -> (j < n)%nat -> vf (nth i (rows z) []) j = z * kdelta i j - h i j.
Proof.
  intros Hi Hj. unfold rows. rewrite (nth_indep _ [] ((fun i => map (fun j => z * kdelta i j - h i j) (seq 0 n)) O)) by (rewrite map_length, seq_length; auto). rewrite (map_nth (fun i => map (fun j => z * kdelta i j - h i j) (seq 0 n))), seq_nth by auto.
  unfold vf. rewrite (nth_indep _ c0 ((fun j => z * kdelta (0 + i) j - h (0 + i)%nat j) O)) by (rewrite map_length, seq_length; auto). rewrite (map_nth (fun j => z * kdelta (0 + i) j - h (0 + i)%nat j)), seq_nth by auto. reflexivity.
Qed.
Lemma right_inverse z : im z <> 0%F -> exists G : nat -> nat -> cx F, forall i j, (i < n)%nat -> (j < n)%nat -> S_ (fun k => (z * kdelta i k - h i k) * G k j) = kdelta i j.
Proof.
  intros Hz. exists (fun k j => vf (gauss (rows z) (map (fun i => kdelta i j) (seq 0 n))) k). intros i j Hi Hj.
  destruct (gauss_exact (rows z) (map (fun i => kdelta i j) (seq 0 n)) (rows_len z)) as [L E].
  - rewrite map_length, seq_length, rows_n. reflexivity.
  - intros x [Lx Ex]. rewrite rows_n in *. apply list_vf_ext; [rewrite repeat_length; auto|]. intros k Hk. rewrite Lx in Hk.
    rewrite (solves_unique n h HH z (fun _ => c0) (vf x) (fun _ => c0) Hz); [unfold vf; rewrite nth_repeat; reflexivity| | |exact Hk].
    + intros m Hm. unfold mv. rewrite csum_zero by (intros; ring). ring.
    + intros m Hm. unfold mv. transitivity (S_ (fun q => (z * kdelta m q - h m q) * vf x q)).
      * assert (M : forall a b : cx F, a - b = a + (- c1) * b) by (intros; ring). rewrite <- (delta_sum n (vf x) m Hm) at 1. rewrite M, <- !csum_mul_l, <- csum_add. apply csum_ext. intros; ring.
      * transitivity (vf (repeat (@c0 F) n) m); [|unfold vf; apply nth_repeat]. rewrite <- (Ex m Hm). apply csum_ext. intros q Hq. apply in_seq_n in Hq. rewrite rows_at by auto. reflexivity.
  - rewrite rows_n in E. specialize (E i Hi). transitivity (vf (map (fun i => @kdelta F i j) (seq 0 n)) i).
    + rewrite <- E. apply csum_ext. intros k Hk. apply in_seq_n in Hk. rewrite rows_at by auto. reflexivity.
    + unfold vf. rewrite (nth_indep _ c0 (kdelta O j)) by (rewrite map_length, seq_length; auto). rewrite (map_nth (fun i => kdelta i j)), seq_nth by auto. reflexivity.
Qed.
Lemma green_exists z : im z <> 0%F -> exists G, one_particle_green n h z G.
Proof.
  intros Hz. destruct (right_inverse z Hz) as [G HG]. destruct (right_inverse (cconj z)) as [B HB].
  { unfold cconj. cbn [im]. intros C. apply Hz. transitivity (- - im z)%F; [ring|]. rewrite C. ring. }
  assert (HL : forall i j, (i < n)%nat -> (j < n)%nat -> S_ (fun k => cconj (B k i) * (z * kdelta k j - h k j)) = kdelta i j).
  { intros i j Hi Hj. transitivity (cconj (S_ (fun k => (cconj z * kdelta j k - h j k) * B k i))).
    - rewrite <- csum_conj. apply csum_ext. intros k Hk. apply in_seq_n in Hk. rewrite cconj_mul, cconj_sub, cconj_mul, cconj_conj, <- (HH k j Hk Hj). unfold kdelta. rewrite (Nat.eqb_sym j k). destruct (Nat.eqb k j); rewrite ?cconj_1, ?cconj_0; ring.
    - rewrite (HB j i Hj Hi). unfold kdelta. rewrite Nat.eqb_sym. destruct (Nat.eqb i j); rewrite ?cconj_1, ?cconj_0; reflexivity. }
  assert (HE : forall i j, (i < n)%nat -> (j < n)%nat -> G i j = cconj (B j i)).
  { intros i j Hi Hj. transitivity (S_ (fun k => S_ (fun m => cconj (B m i) * (z * kdelta m k - h m k)) * G k j)).
    - rewrite <- (delta_sum n (fun k => G k j) i Hi). apply csum_ext. intros k Hk. apply in_seq_n in Hk. rewrite (HL i k Hi Hk). reflexivity.
    - transitivity (S_ (fun m => cconj (B m i) * kdelta m j)); [|apply (delta_sum_r n (fun m => cconj (B m i)) j Hj)].
      transitivity (S_ (fun k => S_ (fun m => cconj (B m i) * (z * kdelta m k - h m k) * G k j))); [apply csum_ext; intros; symmetry; apply csum_mul_r|]. rewrite csum_swap.
      apply csum_ext. intros m Hm. apply in_seq_n in Hm. rewrite <- (HG m j Hm Hj), <- csum_mul_l. apply csum_ext. intros; ring. }
  exists G. intros i j Hi Hj. split; [apply HG; auto|]. rewrite <- (HL i j Hi Hj). apply csum_ext. intros k Hk. apply in_seq_n in Hk. rewrite HE by auto. reflexivity.
Qed.
End G.
End S.

Section U.
Context {F : ofield}.
Lemma hop_hermitian n (op : op_t F) : wf_op n op -> assert_hermitian op = Ok tt -> forall i j, hop_elements op i j = cconj (hop_elements op j i).
Proof.
  intros [Hn _] HA i j. apply assert_hermitian_iff in HA as [_ HA]; auto. unfold hop_elements.
  assert (X : forall p o, dget op p = o -> val op p = match o with Some v => v | None => c0 end) by (intros p o E; exact (f_equal (fun o => match o with Some v => v | None => c0 end) E)).
  destruct (dget op [(Z.of_nat j, lab_c); (Z.of_nat i, lab_a)]) as [v|] eqn:E.
  - rewrite (X _ _ E). apply HA in E. exact (X _ _ E).
  - rewrite (X _ _ E), cconj_0. destruct (dget op [(Z.of_nat i, lab_c); (Z.of_nat j, lab_a)]) as [v|] eqn:E'; [|exact (X _ _ E')].
    apply HA in E'. change (dag [(Z.of_nat i, lab_c); (Z.of_nat j, lab_a)]) with [(Z.of_nat j, lab_c); (Z.of_nat i, lab_a)] in E'. pose proof (eq_trans (eq_sym E) E') as C. discriminate.
Qed.
Lemma finite_choice {A} (N : nat) (P : nat -> A -> Prop) (d : A) : (forall k, (k < N)%nat -> exists x, P k x) -> exists f, forall k, (k < N)%nat -> P k (f k).
Proof.
  induction N as [|N IH]; intros H; [exists (fun _ => d); intros k Hk; lia|]. destruct IH as [f Hf]; [intros k Hk; apply H; lia|]. destruct (H N) as [x Hx]; [lia|].
  exists (fun k => if Nat.eqb k N then x else f k). intros k Hk. destruct (Nat.eqb_spec k N) as [->|]; [exact Hx|apply Hf; lia].
Qed.
Lemma free_file_same (mesh : list F) orbs G cols cols' : free_file mesh orbs G cols -> free_file mesh orbs G cols' -> cols' = cols.
Proof.
  intros (tot & parts & -> & L1 & L2 & P & T) (tot' & parts' & -> & L1' & L2' & P' & T').
  assert (E : parts' = parts).
  { apply (nth_ext _ _ [] []); [congruence|]. intros t Ht. rewrite L1' in Ht. destruct (P t Ht) as [A B]. destruct (P' t Ht) as [A' B']. apply (nth_ext _ _ 0%F 0%F); [congruence|]. intros k Hk. rewrite A' in Hk. rewrite B, B' by auto. reflexivity. }
  subst. do 2 f_equal. apply (nth_ext _ _ 0%F 0%F); [congruence|]. intros k _. rewrite T, T'. reflexivity.
Qed.
Lemma photoemission_any (fsqrt fexp : F -> F) : sqrt_laws fsqrt -> exp_laws fexp -> forall n fuel fuel' (op : op_t F) ks ks' swm swm' h, free_hamiltonian n h op -> hermitian n h -> wf_op n op ->
  assert_hermitian op = Ok tt -> S_Dict.no_small n op -> (2 ^ n < fuel)%nat -> (2 ^ n < fuel')%nat -> Z.of_nat (2 ^ n) <= ks -> Z.of_nat (2 ^ n) <= ks' -> (swm <= 0)%F -> (swm' <= 0)%F ->
  forall rs rs' es es' psis psis' k_B k_B' T T' ord ord' R R', wf_restr rs -> wf_restr rs' -> (k_B * T)%F <> 0%F -> (k_B' * T')%F <> 0%F -> es <> [] -> es' <> [] ->
  eigenstates n op es psis -> eigenstates n op es' psis' -> (forall i, (i < length es)%nat -> room_for_one n rs (amp (nth i psis []))) -> (forall i, (i < length es')%nat -> room_for_one n rs' (amp (nth i psis' []))) ->
  (forall t i q l, Permutation (ord t i q l) l) -> (forall t i q l, Permutation (ord' t i q l) l) -> (1 <= R)%nat -> (1 <= R')%nat ->
  forall wl d orbs cols rest cols' rest', d <> 0%F -> Forall (fun i => (i < n)%nat) orbs ->
  photoemission fsqrt fexp k_B fuel (Z.of_nat n) op rs ks swm ord R psis es T wl d (map (orbital_op lab_a) orbs) (map (orbital_op lab_c) orbs) = Ok cols :: rest ->
  photoemission fsqrt fexp k_B' fuel' (Z.of_nat n) op rs' ks' swm' ord' R' psis' es' T' wl d (map (orbital_op lab_a) orbs) (map (orbital_op lab_c) orbs) = Ok cols' :: rest' -> cols' = cols.
Proof.
  intros HS HE n fuel fuel' op ks ks' swm swm' h HF HH Hop HA HN Hf Hf' Hk Hk' Hs Hs' rs rs' es es' psis psis' k_B k_B' T T' ord ord' R R' Hr Hr' HT HT' Hne Hne' HV HV' HM HM' Ho Ho' HR HR' wl d orbs cols rest cols' rest' Hd Hb E E'.
  destruct (finite_choice (length wl) (fun k G => one_particle_green n h (mkC (nth k wl 0%F) d) G) (fun _ _ => c0)) as [G HG].
  { intros k _. apply green_exists; [exact HH|exact Hd]. }
  apply (free_file_same wl orbs G).
  - exact (photoemission_free fsqrt fexp HS HE k_B T n fuel op rs ks swm h HF Hop HA HN Hr Hf Hk Hs HT es psis Hne HV HM ord Ho R HR wl d G orbs Hd HG Hb cols rest E).
  - exact (photoemission_free fsqrt fexp HS HE k_B' T' n fuel' op rs' ks' swm' h HF Hop HA HN Hr' Hf' Hk' Hs' HT' es' psis' Hne' HV' HM' ord' Ho' R' HR' wl d G orbs Hd HG Hb cols' rest' E').
Qed.
Lemma program_free (fint : F -> Z) (fsqrt fexp : F -> F) pi gaunt : sqrt_laws fsqrt -> exp_laws fexp -> (forall z, fint (fofZ z) = z) ->
  (forall l1 l2 l3 m1 m2 m3, gaunt l1 l2 l3 m1 m2 m3 = gaunt l3 l2 l1 m3 m2 m1) -> (forall l1 l2 l3 m1 m2 m3, gaunt l1 l2 l3 (- m1) (- m2) (- m3) = gaunt l1 l2 l3 m1 m2 m3) ->
  forall nb hp n3d (h0 : sop_t F) hOp, wf_nbaths nb -> In 1 (angs nb) -> In 2 (angs nb) -> dget (hp_n0imps hp) 2 = Some n3d -> dget (hp_n0imps hp) 1 = Some 6 ->
  (5 <= length (hp_Fdd hp))%nat -> (1 <= length (hp_Fpd hp))%nat -> (4 <= length (hp_Gpd hp))%nat -> no_interaction hp ->
  NoDup (dkeys h0) -> assert_hermitian h0 = Ok tt -> op_in nb h0 -> only_hops h0 -> get_hamiltonian_operator fsqrt pi gaunt fint nb hp h0 = Ok hOp -> S_Dict.no_small (n_orb nb) hOp ->
  forall fuel rs ks swm es psis k_B T ord R, wf_restr rs -> (2 ^ n_orb nb < fuel)%nat -> Z.of_nat (2 ^ n_orb nb) <= ks -> (swm <= 0)%F -> (k_B * T)%F <> 0%F -> es <> [] ->
  eigenstates (n_orb nb) hOp es psis -> (forall i, (i < length es)%nat -> room_for_one (n_orb nb) rs (amp (nth i psis []))) -> (forall t i q l, Permutation (ord t i q l) l) -> (1 <= R)%nat ->
  forall wl d ps ips cols rest G, d <> 0%F -> getPhotoEmissionOperators nb 2 = Ok ps -> getInversePhotoEmissionOperators nb 2 = Ok ips ->
  (forall k, (k < length wl)%nat -> one_particle_green (n_orb nb) (hop_elements hOp) (mkC (nth k wl 0%F) d) (G k)) ->
  photoemission fsqrt fexp k_B fuel (Z.of_nat (n_orb nb)) hOp rs ks swm ord R psis es T wl d ps ips = Ok cols :: rest ->
  free_file wl (map (fun x => Z.to_nat (coord_index nb x)) (S_Operators.shell_list 2)) G cols.
Proof.
  intros HS HE HI Hg1 Hg2 nb hp n3d h0 hOp W H1 H2 N3 N2 L1 L2 L3 HZ Hn Hh Hi Ho EH HN fuel rs ks swm es psis k_B T ord R Hr Hf Hk Hs HT Hne HV HM Hor HR wl d ps ips cols rest G Hd Ep Ei HG E.
  destruct (free_total fint HI fsqrt pi gaunt Hg1 Hg2 nb W H1 H2 hp n3d N3 N2 L1 L2 L3 HZ h0 Hn Hh Hi Ho) as (hOp' & EH' & Wf & HA & HF). rewrite EH in EH'. apply ok_inj in EH'. subst hOp'.
  unfold getPhotoEmissionOperators in Ep. unfold getInversePhotoEmissionOperators in Ei. destruct (pes_orbitals nb lab_a ps W H2 Ep) as [-> Hb]. destruct (pes_orbitals nb lab_c ips W H2 Ei) as [-> _].
  exact (photoemission_free fsqrt fexp HS HE k_B T (n_orb nb) fuel hOp rs ks swm (hop_elements hOp) HF Wf HA HN Hr Hf Hk Hs HT es psis Hne HV HM ord Hor R HR wl d G _ Hd HG Hb cols rest E).
Qed.
End U.
