(* Properties of the averages over degenerate levels: C88. *)
From Coq Require Import QArith Qcanon Reals Permutation.
From Verif Require Import M_Prelude M_Scalar M_PSR M_Ladder M_State M_Mpi M_Hamiltonian M_Lanczos M_Average M_Spectra M_Simulate M_RIXS M_Program.
From Verif Require Import S_Fock S_Ops S_Ham S_Green S_Thermal S_Spectra S_Symmetry S_TimeReversal S_Dichroism S_RIXS S_Levels.
From Verif Require Import L_Scalar L_Sum L_Fock L_State L_FockP L_Green L_Levels L_Levels2 L_Levels3 X_Util X_Reals P_Fock P_Green P_Spectra.
Local Open Scope Z_scope.

(* ---- C88: the averages do not depend on the choice of the states of a degenerate level ---- *)
(* Two complete sets of eigenstates belong to the same levels. *)
Theorem C88_whole : forall (F : ofield) n (A : op_t F) es psis psis', whole_levels n A es psis -> whole_levels n A es psis' -> same_levels n es psis psis'.
Proof. exact (@whole_same). Qed.
(* The mean of an operator, with weights that depend on the energy only, ... *)
Theorem C88_operator : forall (F : ofield) n (A : op_t F) es psis psis' (p : F -> cx F), same_levels n es psis psis' ->
  let value ps i := vdot n (amp (nth i ps [])) (opv n A (amp (nth i ps []))) in
  csum (fun i => p (nth i es 0%F) * value psis' i)%C (seq 0 (length es)) = csum (fun i => p (nth i es 0%F) * value psis i)%C (seq 0 (length es)).
Proof. exact (@levels_form). Qed.
(* ... of a response, ... *)
Theorem C88_response : forall (F : ofield) n (A D : op_t F) es psis psis' (z p : F -> cx F) g g', same_levels n es psis psis' ->
  (forall i, (i < length es)%nat -> response n A (z (nth i es 0%F)) (transition n D) (amp (nth i psis [])) (g i)) ->
  (forall i, (i < length es)%nat -> response n A (z (nth i es 0%F)) (transition n D) (amp (nth i psis' [])) (g' i)) ->
  csum (fun i => p (nth i es 0%F) * g' i)%C (seq 0 (length es)) = csum (fun i => p (nth i es 0%F) * g i)%C (seq 0 (length es)).
Proof. exact (@levels_response). Qed.
(* ... and of the Kramers-Heisenberg expression are the same. *)
Theorem C88_kramers_heisenberg : forall (F : ofield) n (op : op_t F) rs h tIn tOut (z1 z2 p : F -> cx F) es psis psis' g g', wf_op n op -> assert_hermitian op = Ok tt -> restricted_op n op rs h ->
  (forall e, im (z1 e) <> 0%F) -> same_levels n es psis psis' ->
  (forall i, (i < length es)%nat -> kramers_heisenberg n rs h tIn tOut (nth i psis []) (z1 (nth i es 0%F)) (z2 (nth i es 0%F)) (g i)) ->
  (forall i, (i < length es)%nat -> kramers_heisenberg n rs h tIn tOut (nth i psis' []) (z1 (nth i es 0%F)) (z2 (nth i es 0%F)) (g' i)) ->
  csum (fun i => p (nth i es 0%F) * g' i)%C (seq 0 (length es)) = csum (fun i => p (nth i es 0%F) * g i)%C (seq 0 (length es)).
Proof. exact (@levels_kh). Qed.
(* The columns that rank 0 writes, with a full Krylov space and without cut-off, also with restrictions: XAS.dat and NIXS.dat, XPS.dat, PS.dat, ... *)
Theorem C88_absorption : forall (F : ofield) (fsqrt fexp : F -> F), sqrt_laws fsqrt -> exp_laws fexp -> forall (k_B T : F) n fuel op rs ks swm,
  wf_op n op -> assert_hermitian op = Ok tt -> wf_restr rs -> (2 ^ n < fuel)%nat -> Z.of_nat (2 ^ n) <= ks -> (swm <= 0)%F -> (k_B * T)%F <> 0%F ->
  forall es psis psis', Forall (valid_psi n) psis -> Forall (valid_psi n) psis' -> same_levels n es psis psis' ->
  forall ord ord' : nat -> nat -> nat -> set_order, (forall t i q l, Permutation (ord t i q l) l) -> (forall t i q l, Permutation (ord' t i q l) l) ->
  forall R R', (1 <= R)%nat -> (1 <= R')%nat -> forall w d tOps cols rest cols' rest', d <> 0%F -> Forall (wf_op n) tOps ->
  absorption fsqrt fexp k_B fuel (Z.of_nat n) op rs ks swm ord R psis es T w d tOps = Ok cols :: rest ->
  absorption fsqrt fexp k_B fuel (Z.of_nat n) op rs ks swm ord' R' psis' es T w d tOps = Ok cols' :: rest' -> cols' = cols.
Proof. exact (@levels_absorption). Qed.
Theorem C88_emission : forall (F : ofield) (fsqrt fexp : F -> F), sqrt_laws fsqrt -> exp_laws fexp -> forall (k_B T : F) n fuel op rs ks swm,
  wf_op n op -> assert_hermitian op = Ok tt -> wf_restr rs -> (2 ^ n < fuel)%nat -> Z.of_nat (2 ^ n) <= ks -> (swm <= 0)%F -> (k_B * T)%F <> 0%F ->
  forall es psis psis', Forall (valid_psi n) psis -> Forall (valid_psi n) psis' -> same_levels n es psis psis' ->
  forall ord ord' : nat -> nat -> nat -> set_order, (forall t i q l, Permutation (ord t i q l) l) -> (forall t i q l, Permutation (ord' t i q l) l) ->
  forall R R', (1 <= R)%nat -> (1 <= R')%nat -> forall w d tOps cols rest cols' rest', d <> 0%F -> Forall (wf_op n) tOps ->
  emission fsqrt fexp k_B fuel (Z.of_nat n) op rs ks swm ord R psis es T w d tOps = Ok cols :: rest ->
  emission fsqrt fexp k_B fuel (Z.of_nat n) op rs ks swm ord' R' psis' es T w d tOps = Ok cols' :: rest' -> cols' = cols.
Proof. exact (@levels_emission). Qed.
Theorem C88_photoemission : forall (F : ofield) (fsqrt fexp : F -> F), sqrt_laws fsqrt -> exp_laws fexp -> forall (k_B T : F) n fuel op rs ks swm,
  wf_op n op -> assert_hermitian op = Ok tt -> wf_restr rs -> (2 ^ n < fuel)%nat -> Z.of_nat (2 ^ n) <= ks -> (swm <= 0)%F -> (k_B * T)%F <> 0%F ->
  forall es psis psis', Forall (valid_psi n) psis -> Forall (valid_psi n) psis' -> same_levels n es psis psis' ->
  forall ord ord' : nat -> nat -> nat -> set_order, (forall t i q l, Permutation (ord t i q l) l) -> (forall t i q l, Permutation (ord' t i q l) l) ->
  forall R R', (1 <= R)%nat -> (1 <= R')%nat -> forall w d ps ips cols rest cols' rest', d <> 0%F -> Forall (wf_op n) ps -> Forall (wf_op n) ips ->
  photoemission fsqrt fexp k_B fuel (Z.of_nat n) op rs ks swm ord R psis es T w d ps ips = Ok cols :: rest ->
  photoemission fsqrt fexp k_B fuel (Z.of_nat n) op rs ks swm ord' R' psis' es T w d ps ips = Ok cols' :: rest' -> cols' = cols.
Proof. exact (@levels_photoemission). Qed.
(* ... and RIXS.bin. *)
Theorem C88_RIXS : forall (F : ofield) (fsqrt fexp f32 : F -> F) bicgstab k_B T n op rs fuel delta1 delta2 ks swm tOpsIn op0 ops psis psis' es (ms : @meshes F) (ord ord' : nat -> nat -> nat -> set_order) hg hg' pm pm' r r' gs gs' outs outs' f f' data data',
  sqrt_laws fsqrt -> exp_laws fexp -> (k_B * T)%F <> 0%F -> exact_solver bicgstab -> spectra_input n op rs (op0 :: tOpsIn) psis -> Forall (valid_psi n) psis' -> assert_hermitian op = Ok tt ->
  same_levels n es psis psis' -> (2 ^ n < fuel)%nat -> delta1 <> 0%F -> delta2 <> 0%F -> Z.of_nat (2 ^ n) <= ks -> (swm <= 0)%F ->
  (forall t i q l, Permutation (ord t i q l) l) -> (forall t i q l, Permutation (ord' t i q l) l) ->
  Forall (hdict_exact n op rs) hg -> hg <> [] -> Forall (hdict_exact n op rs) hg' -> hg' <> [] ->
  (pm = RwIn \/ pm = RHBuildwIn) -> (pm' = RwIn \/ pm' = RHBuildwIn) ->
  nth_error (getRIXSmap fsqrt bicgstab fuel (Z.of_nat n) op (m_wIn ms) (m_wLoss ms) delta1 delta2 rs ks swm tOpsIn (op0 :: ops) psis es ord hg pm) r = Some (Ok gs) ->
  nth_error (getRIXSmap fsqrt bicgstab fuel (Z.of_nat n) op (m_wIn ms) (m_wLoss ms) delta1 delta2 rs ks swm tOpsIn (op0 :: ops) psis' es ord' hg' pm') r' = Some (Ok gs') ->
  report_RIXS fexp f32 k_B es T ms (length tOpsIn) (S (length ops)) gs = Ok outs -> report_RIXS fexp f32 k_B es T ms (length tOpsIn) (S (length ops)) gs' = Ok outs' ->
  In (Bin f data) outs -> In (Bin f' data') outs' -> f' = f /\ data' = data.
Proof. exact (@levels_RIXS). Qed.
Print Assumptions C88_whole. Print Assumptions C88_operator. Print Assumptions C88_response. Print Assumptions C88_kramers_heisenberg.
Print Assumptions C88_absorption. Print Assumptions C88_emission. Print Assumptions C88_photoemission. Print Assumptions C88_RIXS.

(* two sites with the same energy and one electron: the sites, or a turned pair of states *)
Definition num_op : op_t QcF := [([(0, C_); (0, A_)], qr 1 1); ([(1, C_); (1, A_)], qr 1 1)].
Definition site (b : bool) : config := [b; negb b].
Definition on_sites : list (psi_t QcF) := [[(key (site true), qr 1 1)]; [(key (site false), qr 1 1)]].
Definition on_turned : list (psi_t QcF) := [[(key (site true), qr 3 5); (key (site false), qr 4 5)]; [(key (site true), qr (-4) 5); (key (site false), qr 3 5)]].
Definition two_es : list QcF := [q 1 1; q 1 1].
Definition el_ok : bool := forallb (fun t => forallb (fun s => ceqb (opelem num_op t s) (if if list_eq_dec Bool.bool_dec t s then true else false then qr (Z.of_nat (count_occ Bool.bool_dec t true)) 1 else qr 0 1)) (allcfg 2)) (allcfg 2).
Lemma el_num t s : length t = 2%nat -> length s = 2%nat -> opelem num_op t s = if list_eq_dec Bool.bool_dec t s then qr (Z.of_nat (count_occ Bool.bool_dec t true)) 1 else qr 0 1.
Proof.
  intros Ht Hs. assert (E : el_ok = true) by (vm_compute; reflexivity). unfold el_ok in E. rewrite forallb_forall in E. specialize (E t (proj2 (allcfg_In 2 t) Ht)).
  rewrite forallb_forall in E. specialize (E s (proj2 (allcfg_In 2 s) Hs)). destruct (ceqb_spec (opelem num_op t s) (if if list_eq_dec Bool.bool_dec t s then true else false then qr (Z.of_nat (count_occ Bool.bool_dec t true)) 1 else qr 0 1)) as [X|X]; [|discriminate].
  rewrite X. destruct (list_eq_dec Bool.bool_dec t s); reflexivity.
Qed.
Example C88_run : let run ps := absorption qsqrt one_exp (q 1 1) 5 2 num_op None 4 (q 0 1) (fun _ _ _ l => l) 2 ps two_es (q 1 1) [q 0 1; q 1 1] (q 1 1) [[([(0, A_)], qr 1 1)]] in
  is_cols (nth 0 (run on_sites) (Err OutOfFuel)) [[q 0 1; q 1 1]; [q 1 4; q 1 10]; [q 1 4; q 1 10]] = true /\
  is_cols (nth 0 (run on_turned) (Err OutOfFuel)) [[q 0 1; q 1 1]; [q 1 4; q 1 10]; [q 1 4; q 1 10]] = true.
Proof. vm_compute. auto. Qed.
Add Ring CringQ : (@c_ring QcF).
Definition num (t : config) : cx QcF := qr (Z.of_nat (count_occ Bool.bool_dec t true)) 1.
Lemma opv_num v t : length t = 2%nat -> opv 2 num_op v t = (num t * v t)%C.
Proof.
  intros Ht. unfold opv. rewrite (csum_single _ _ t (allcfg_NoDup 2) (proj2 (allcfg_In 2 t) Ht)).
  - rewrite el_num by auto. destruct (list_eq_dec Bool.bool_dec t t); [reflexivity|contradiction].
  - intros s Hs N. apply allcfg_In in Hs. rewrite el_num by auto. destruct (list_eq_dec Bool.bool_dec t s) as [E|_]; [subst; contradiction|].
    change (qr 0 1) with (@c0 QcF). ring.
Qed.
Lemma ceqb_ok (x y : cx QcF) : ceqb x y = true -> x = y.
Proof. destruct (ceqb_spec x y); [auto|discriminate]. Qed.
Lemma on_cfgs (f g : config -> cx QcF) : forallb (fun t => ceqb (f t) (g t)) (allcfg 2) = true -> forall t, length t = 2%nat -> f t = g t.
Proof. intros H t Ht. rewrite forallb_forall in H. apply ceqb_ok, H, allcfg_In, Ht. Qed.
(* an eigenvector with the energy 1 has one electron *)
Lemma one_only v t : eigenvector 2 num_op (q 1 1) v -> length t = 2%nat -> t <> site true -> t <> site false -> v t = c0.
Proof.
  intros H Ht N1 N2. pose proof (H t Ht) as E. rewrite opv_num in E by auto. destruct t as [|[|] [|[|] [|]]]; try discriminate Ht; try contradiction.
  - assert (X : num [true; true] = (c1 + c1)%C) by (apply ceqb_ok; vm_compute; reflexivity). rewrite X in E. change (creal (q 1 1)) with (@c1 QcF) in E.
    transitivity ((c1 + c1) * v [true; true] - c1 * v [true; true])%C; [ring|]. rewrite E. ring.
  - assert (X : num [false; false] = c0) by (apply ceqb_ok; vm_compute; reflexivity). rewrite X in E. change (creal (q 1 1)) with (@c1 QcF) in E.
    transitivity (c1 * v [false; false])%C; [ring|]. rewrite <- E. ring.
Qed.
Lemma pair_whole (psis : list (psi_t QcF)) (u0 u1 w0 w1 : cx QcF) : length psis = 2%nat ->
  (forall t, length t = 2%nat -> amp (nth 0 psis []) t = if list_eq_dec Bool.bool_dec t (site true) then u0 else if list_eq_dec Bool.bool_dec t (site false) then u1 else c0) ->
  (forall t, length t = 2%nat -> amp (nth 1 psis []) t = if list_eq_dec Bool.bool_dec t (site true) then w0 else if list_eq_dec Bool.bool_dec t (site false) then w1 else c0) ->
  orthonormal_states 2 psis -> (u0 * w1 - u1 * w0 = c1)%C -> whole_levels 2 num_op two_es psis.
Proof.
  intros L A0 A1 O D. split; [auto|]. split; [auto|].
  assert (N1 : num (site true) = c1) by (apply ceqb_ok; vm_compute; reflexivity). assert (N2 : num (site false) = c1) by (apply ceqb_ok; vm_compute; reflexivity).
  assert (E : forall i, nth i two_es 0%F = q 1 1 \/ (2 <= i)%nat) by (intros [|[|i]]; auto; right; lia).
  split.
  - intros i Hi t Ht. rewrite opv_num by auto. destruct (E i) as [-> | ]; [|change (length two_es) with 2%nat in Hi; lia]. change (creal (q 1 1)) with (@c1 QcF). change (length two_es) with 2%nat in Hi.
    assert (Z : forall x y : cx QcF, (num t * (if list_eq_dec Bool.bool_dec t (site true) then x else if list_eq_dec Bool.bool_dec t (site false) then y else c0) =
      c1 * (if list_eq_dec Bool.bool_dec t (site true) then x else if list_eq_dec Bool.bool_dec t (site false) then y else c0))%C).
    { intros x y. destruct (list_eq_dec Bool.bool_dec t (site true)) as [-> |]; [now rewrite N1|]. destruct (list_eq_dec Bool.bool_dec t (site false)) as [-> |]; [now rewrite N2|]. ring. }
    destruct i as [|[|i]]; [rewrite A0 by auto; apply Z|rewrite A1 by auto; apply Z|lia].
  - intros i v Hi Hv. destruct (E i) as [Ei | ]; [|change (length two_es) with 2%nat in Hi; lia]. rewrite Ei in Hv |- *. unfold in_level. rewrite L.
    exists (fun i => match i with O => v (site true) * w1 - v (site false) * w0 | _ => v (site false) * u0 - v (site true) * u1 end)%C. split.
    + intros j Hj N. exfalso. apply N. destruct (E j); [auto|lia].
    + intros t Ht. cbn [seq csum]. rewrite A0, A1 by auto. destruct (list_eq_dec Bool.bool_dec t (site true)) as [-> |N]; [|destruct (list_eq_dec Bool.bool_dec t (site false)) as [-> |N']].
      * transitivity (v (site true) * (u0 * w1 - u1 * w0))%C; [rewrite D; ring|ring].
      * transitivity (v (site false) * (u0 * w1 - u1 * w0))%C; [rewrite D; ring|ring].
      * rewrite (one_only v t) by auto. ring.
Qed.
Example C88_hypotheses : whole_levels 2 num_op two_es on_sites /\ whole_levels 2 num_op two_es on_turned /\ Forall (valid_psi 2) on_sites /\ Forall (valid_psi 2) on_turned /\
  wf_op 2 num_op /\ assert_hermitian num_op = Ok tt.
Proof.
  assert (O : forall psis : list (psi_t QcF), length psis = 2%nat -> forallb (fun ij => ceqb (vdot 2 (amp (nth (fst ij) psis [])) (amp (nth (snd ij) psis []))) (if Nat.eqb (fst ij) (snd ij) then c1 else c0)) (list_prod [0; 1]%nat [0; 1]%nat) = true ->
    orthonormal_states 2 psis).
  { intros psis L H i j Hi Hj. rewrite L in *. rewrite forallb_forall in H. apply ceqb_ok. apply (H (i, j)). apply in_prod; [destruct i as [|[|]]|destruct j as [|[|]]]; simpl; auto; lia. }
  split; [|split; [|split; [|split; [|split]]]].
  - apply (pair_whole on_sites c1 c0 c0 c1); [reflexivity| | |apply O; [reflexivity|vm_compute; reflexivity]|apply ceqb_ok; vm_compute; reflexivity]; apply on_cfgs; vm_compute; reflexivity.
  - apply (pair_whole on_turned (qr 3 5) (qr 4 5) (qr (-4) 5) (qr 3 5)); [reflexivity| | |apply O; [reflexivity|vm_compute; reflexivity]|apply ceqb_ok; vm_compute; reflexivity]; apply on_cfgs; vm_compute; reflexivity.
  - apply Forall_cons; [valid_ex|]. apply Forall_cons; [valid_ex|apply Forall_nil].
  - apply Forall_cons; [valid_ex|]. apply Forall_cons; [valid_ex|apply Forall_nil].
  - wf_op_ex.
  - vm_compute. reflexivity.
Qed.
(* The levels have to be complete: with fewer states than the level has, as with a small nPsiMax, the written spectrum depends on the choice. *)
Theorem C88_incomplete_refuted : exists (op tOp : op_t QcF) es psis psis' cols rest cols' rest',
  let run ps := absorption qsqrt one_exp (q 1 1) 5 2 op None 4 (q 0 1) (fun _ _ _ l => l) 2 ps es (q 1 1) [q 0 1; q 1 1] (q 1 1) [tOp] in
  wf_op 2 op /\ assert_hermitian op = Ok tt /\ length psis = length es /\ length psis' = length es /\ orthonormal_states 2 psis /\ orthonormal_states 2 psis' /\
  (forall i, (i < length es)%nat -> eigenvector 2 op (nth i es 0%F) (amp (nth i psis [])) /\ eigenvector 2 op (nth i es 0%F) (amp (nth i psis' []))) /\
  run psis = Ok cols :: rest /\ run psis' = Ok cols' :: rest' /\ cols' <> cols.
Proof.
  destruct C88_hypotheses as ((_ & O & E & _) & _ & _ & _ & W & H).
  exists num_op, [([(0, A_)], qr 1 1)], [q 1 1], [nth 0 on_sites []], [nth 1 on_sites []].
  set (run := fun ps : list (psi_t QcF) => absorption qsqrt one_exp (q 1 1) 5 2 num_op None 4 (q 0 1) (fun _ _ _ l => l) 2 ps [q 1 1] (q 1 1) [q 0 1; q 1 1] (q 1 1) [[([(0, A_)], qr 1 1)]]).
  assert (D : match run [nth 0 on_sites []], run [nth 1 on_sites []] with Ok c :: _, Ok c' :: _ => negb (is_cols (Ok c') c) | _, _ => false end = true) by (vm_compute; reflexivity).
  destruct (run [nth 0 on_sites []]) as [|[cols|] rest] eqn:R; try discriminate D. destruct (run [nth 1 on_sites []]) as [|[cols'|] rest'] eqn:R'; try discriminate D.
  exists cols, rest, cols', rest'. split; [auto|]. split; [auto|]. split; [auto|]. split; [auto|].
  split; [|split; [|split; [|split; [exact R|split; [exact R'|]]]]].
  - intros i j Hi Hj. cbn [length] in Hi, Hj. replace i with 0%nat by lia. replace j with 0%nat by lia. exact (O 0%nat 0%nat ltac:(cbn; lia) ltac:(cbn; lia)).
  - intros i j Hi Hj. cbn [length] in Hi, Hj. replace i with 0%nat by lia. replace j with 0%nat by lia. exact (O 1%nat 1%nat ltac:(cbn; lia) ltac:(cbn; lia)).
  - intros i Hi. cbn [length] in Hi. replace i with 0%nat by lia. split; [exact (E 0%nat ltac:(cbn; lia))|exact (E 1%nat ltac:(cbn; lia))].
  - intros X. subst cols'. apply negb_true_iff in D. clear R R'. unfold is_cols in D. rewrite Nat.eqb_refl, andb_true_r in D.
    assert (Y : forall v : list (cx QcF), vec_eqb v v = true) by (intros v; unfold vec_eqb; rewrite Nat.eqb_refl; induction v as [|x v IH]; [reflexivity|]; cbn [andb combine forallb fst snd] in *; destruct (ceqb_spec x x); [exact IH|contradiction]).
    assert (Z : forall c : list (list QcF), forallb (fun p => vec_eqb (map creal (fst p)) (map creal (snd p))) (combine c c) = true) by (induction c as [|x c IH]; [reflexivity|]; cbn [combine forallb fst snd]; rewrite Y; exact IH).
    rewrite Z in D. discriminate D.
Qed.
Print Assumptions C88_incomplete_refuted.
