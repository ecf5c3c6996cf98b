(* The 2p core level with spin-orbit coupling: XPS.dat of the program. *)
From Coq Require Import Permutation Ring Field.
From Verif Require Import M_Prelude M_Scalar M_PSR M_State M_Mpi M_Hamiltonian M_Basis M_Expect M_Operators M_Lanczos M_Average M_Spectra M_Simulate S_Fock S_Ops S_Ham S_Green S_Spectra S_Basis S_Expect S_Operators S_Symmetry S_TimeReversal S_Thermal S_RIXS S_Unitary S_Unitary2 S_Free S_Lines.
From Verif Require Import L_Scalar L_Sum L_Dict L_Operators L_Operators7 L_Operators8 L_Operators9 L_Operators10 L_Free3 L_Free4 L_Lines L_Lines2 L_Lines3.
From Verif Require S_Dict.
Local Open Scope Z_scope.

Section S.
Context {F : ofield}.
Add Field Ff : (f_field F).
Add Field Cf : (@c_field F).
Local Open Scope cx_scope.
Lemma lines_point fsqrt (G : cx F) a (u d e xi : F) : d <> 0%F -> In a six_orbs ->
  (let w := mkC u d - creal e in let hf := creal xi * creal (1 / fofZ 2)%F in G = (w + hf + creal xi * ls2 fsqrt a a) / ((w - hf) * (w + creal xi))) ->
  (- im G = weight32 (po a) * lorentzian d (u - (e + xi / fofZ 2)) + weight12 (po a) * lorentzian d (u - (e - xi)))%F.
Proof.
  intros Hd Ha. cbv zeta. pose proof (@f2_nz F) as T2.
  assert (A1 : mkC u d - creal e - creal xi * creal (1 / fofZ 2)%F = mkC (u - (e + xi / fofZ 2))%F d) by (apply cx_ext; cbn [re im csub cmul creal]; field; auto).
  assert (A2 : mkC u d - creal e + creal xi = mkC (u - (e - xi))%F d) by (apply cx_ext; cbn [re im csub cadd creal]; ring).
  assert (N : forall x : F, mkC x d <> c0) by (intros x E; apply Hd; exact (f_equal im E)).
  intros ->. rewrite (weights fsqrt a _ _ Ha); rewrite ?A1, ?A2; auto. rewrite <- !pole by auto. cbn [im cadd]. ring.
Qed.
Lemma lines_file nb (mesh : list F) (d e xi : F) (G : nat -> nat -> nat -> cx F) fsqrt cols : d <> 0%F ->
  (forall k a, (k < length mesh)%nat -> In a six_orbs -> let w := mkC (nth k mesh 0%F) d - creal e in let hf := creal xi * creal (1 / fofZ 2)%F in
     G k (nx nb (po a)) (nx nb (po a)) = (w + hf + creal xi * ls2 fsqrt a a) / ((w - hf) * (w + creal xi))) ->
  free_file mesh (map (nx nb) (S_Operators.shell_list 1)) G cols -> two_lines mesh d e xi cols.
Proof.
  intros Hd HG (total & parts & -> & Lp & Lt & Hp & Ht). exists total, parts. assert (L6 : length (map (nx nb) (S_Operators.shell_list 1)) = 6%nat) by reflexivity. rewrite L6 in Lp, Hp.
  assert (P : forall t, (t < 6)%nat -> length (nth t parts []) = length mesh /\ forall k, (k < length mesh)%nat ->
    nth k (nth t parts []) 0%F = (weight32 (po (nth t six_orbs (0, 0)%Z)) * lorentzian d (nth k mesh 0 - (e + xi / fofZ 2)) + weight12 (po (nth t six_orbs (0, 0)%Z)) * lorentzian d (nth k mesh 0 - (e - xi)))%F).
  { intros t H6. destruct (Hp t H6) as [P1 P2]. split; [exact P1|]. intros k Hk. rewrite (P2 k Hk). assert (HIn : In (nth t six_orbs (0, 0)%Z) six_orbs) by (apply nth_In; exact H6).
    replace (nth t (map (nx nb) (S_Operators.shell_list 1)) O) with (nx nb (po (nth t six_orbs (0, 0)%Z))) by (do 6 (destruct t as [|t]; [reflexivity|]); lia).
    apply (lines_point fsqrt); [exact Hd|exact HIn|exact (HG k _ Hk HIn)]. }
  split; [auto|]. split; [auto|]. split; [auto|]. split.
  - intros t H6. destruct (P t H6) as [P1 P2]. split; [exact P1|]. intros k Hk. rewrite (P2 k Hk). do 6 (destruct t as [|t]; [reflexivity|]); lia.
  - intros k Hk. rewrite Ht, <- (lines_sum (lorentzian d (nth k mesh 0 - (e + xi / fofZ 2))%F) (lorentzian d (nth k mesh 0 - (e - xi))%F)). f_equal.
    assert (Lm : length six_orbs = 6%nat) by reflexivity. apply nth_ext with (d := 0%F) (d' := 0%F); [rewrite !map_length; lia|]. rewrite map_length, Lp. intros t H6.
    rewrite (nth_indep _ 0%F (nth k [] 0%F)) by (rewrite map_length; lia). rewrite (map_nth (fun c => nth k c 0%F)). rewrite (proj2 (P t H6) k Hk).
    do 6 (destruct t as [|t]; [reflexivity|]); lia.
Qed.
Lemma core_zero (h0 : sop_t F) : (forall p, In p (dkeys h0) -> forall x, In x (map fst p) -> ~ in_shell 1 x) -> core_level h0 0%F.
Proof.
  intros H x y Hxy. assert (E : val h0 (hop2 x y) = c0).
  { unfold val. destruct (dget h0 (hop2 x y)) as [v|] eqn:E; [|reflexivity]. exfalso. assert (K : In (hop2 x y) (dkeys h0)) by (apply dget_Some_key; eauto). destruct Hxy as [Hx|Hx]; refine (H _ K _ _ Hx); cbn; auto. }
  rewrite E. destruct (eqb x y); reflexivity.
Qed.
Lemma lines_program (fint : F -> Z) (fsqrt fexp : F -> F) pi gaunt : sqrt_laws fsqrt -> exp_laws fexp -> (forall z, fint (fofZ z) = z) ->
  (forall l1 l2 l3 m1 m2 m3, gaunt l1 l2 l3 m1 m2 m3 = gaunt l3 l2 l1 m3 m2 m1) -> (forall l1 l2 l3 m1 m2 m3, gaunt l1 l2 l3 (- m1) (- m2) (- m3) = gaunt l1 l2 l3 m1 m2 m3)%Z ->
  forall nb hp n3d (h0 : sop_t F) e hOp, wf_nbaths nb -> NoDup (angs nb) -> In 1%Z (angs nb) -> In 2%Z (angs nb) -> dget (hp_n0imps hp) 2%Z = Some n3d -> dget (hp_n0imps hp) 1%Z = Some 6%Z ->
  (5 <= length (hp_Fdd hp))%nat -> (1 <= length (hp_Fpd hp))%nat -> (4 <= length (hp_Gpd hp))%nat -> no_interaction hp ->
  NoDup (dkeys h0) -> assert_hermitian h0 = Ok tt -> op_in nb h0 -> only_hops h0 -> core_level h0 e -> get_hamiltonian_operator fsqrt pi gaunt fint nb hp h0 = Ok hOp -> S_Dict.no_small (n_orb nb) hOp ->
  forall fuel rs ks swm es psis k_B T ord R, wf_restr rs -> (2 ^ n_orb nb < fuel)%nat -> (Z.of_nat (2 ^ n_orb nb) <= ks)%Z -> (swm <= 0)%F -> (k_B * T)%F <> 0%F -> es <> [] ->
  eigenstates (n_orb nb) hOp es psis -> (forall i, (i < length es)%nat -> room_for_one (n_orb nb) rs (amp (nth i psis []))) ->
  (forall i, (i < length es)%nat -> occupied (n_orb nb) (map (fun x => Z.to_nat (coord_index nb x)) (S_Operators.shell_list 1)) (amp (nth i psis []))) -> (forall t i q l, Permutation (ord t i q l) l) -> (1 <= R)%nat ->
  forall wl d ops cols rest, d <> 0%F -> getPhotoEmissionOperators nb 1 = Ok ops ->
  emission fsqrt fexp k_B fuel (Z.of_nat (n_orb nb)) hOp rs ks swm ord R psis es T wl d ops = Ok cols :: rest -> two_lines wl d (e + hp_ctc hp)%F (hp_xi_2p hp) cols.
Proof.
  intros HS HE HI Hg1 Hg2 nb hp n3d h0 e hOp W HNA H1 H2 N3 N2 L1 L2 L3 HZ Hn Hh Hi Ho Hc EH HN fuel rs ks swm es psis k_B T ord R Hr Hf Hk Hs HT Hne HV HM HO Hor HR wl d ops cols rest Hd Ep E.
  destruct (free_total fint HI fsqrt pi gaunt Hg1 Hg2 nb W H1 H2 hp n3d N3 N2 L1 L2 L3 HZ h0 Hn Hh Hi Ho) as (hOp' & EH' & Wf & HA & HF). pose proof EH' as EH2. rewrite EH in EH'. apply ok_inj in EH'. subst hOp'. clear EH2.
  destruct (finite_choice (length wl) (fun k G => one_particle_green (n_orb nb) (hop_elements hOp) (mkC (nth k wl 0%F) d) G) (fun _ _ => c0)) as [G HG].
  { intros k _. apply green_exists; [|exact Hd]. intros i j _ _. exact (hop_hermitian (n_orb nb) hOp Wf HA i j). }
  apply (lines_file nb wl d _ _ G fsqrt); [exact Hd| |].
  - intros k a Hk' Ha. exact (core_green fint HI fsqrt HS pi gaunt Hg1 Hg2 nb W HNA H1 H2 hp n3d N3 N2 L1 L2 L3 HZ h0 e Hn Hh Hi Hc hOp EH (mkC (nth k wl 0%F) d) (G k) a Hd (HG k Hk') Ha).
  - exact (core_program fint fsqrt fexp pi gaunt HS HE HI Hg1 Hg2 nb hp n3d h0 hOp W H1 H2 N3 N2 L1 L2 L3 HZ Hn Hh Hi Ho EH HN fuel rs ks swm es psis k_B T ord R Hr Hf Hk Hs HT Hne HV HM HO Hor HR wl d ops cols rest G Hd Ep HG E).
Qed.
Lemma core_CF (fsqrt : F -> F) nb : sqrt_laws fsqrt -> forall nv params b nB, b <> OtherBasis -> dget nb (KInt 2) = Some nB -> dget nv (KInt 2) = Some 10%Z -> forall h0, get_CF_hamiltonian fsqrt nb nv (read_h0_CF_file params) b = Ok h0 -> core_level h0 0%F.
Proof.
  intros SL nv params b nB Hb HB HV h0 E. destruct (CF_spec fsqrt SL nb nv (read_h0_CF_file params) b nB 10 Hb HB HV) as (A' & u & EA' & _ & _ & _ & _ & _ & _ & _ & SA). rewrite E in EA'. apply ok_inj in EA'. subst A'.
  apply core_zero. intros p Hp z Hz. destruct (cf_hops _ _ _ _ _ _ _ _ _ _ _ _ _ _ SA p Hp) as (x & y & -> & HH). assert (Hz' : z = x \/ z = y) by (cbn in Hz; intuition).
  intros (s & m & -> & _). destruct (HH _ Hz') as [(s' & i & E' & _)|(o & s' & i & E' & _)]; discriminate E'.
Qed.
Lemma core_lines (fint : F -> Z) : (forall z, fint (fofZ z) = z) -> forall fsqrt : F -> F, sqrt_laws fsqrt -> forall pi gaunt,
  (forall l1 l2 l3 m1 m2 m3, gaunt l1 l2 l3 m1 m2 m3 = gaunt l3 l2 l1 m3 m2 m1) -> (forall l1 l2 l3 m1 m2 m3, gaunt l1 l2 l3 (- m1)%Z (- m2)%Z (- m3)%Z = gaunt l1 l2 l3 m1 m2 m3) ->
  forall nb, wf_nbaths nb -> NoDup (angs nb) -> In 1%Z (angs nb) -> In 2%Z (angs nb) -> forall (hp : @ham_params F) n3d, dget (hp_n0imps hp) 2%Z = Some n3d -> dget (hp_n0imps hp) 1%Z = Some 6%Z ->
  (5 <= length (hp_Fdd hp))%nat -> (1 <= length (hp_Fpd hp))%nat -> (4 <= length (hp_Gpd hp))%nat -> no_interaction hp ->
  forall (h0 : sop_t F) e, NoDup (dkeys h0) -> assert_hermitian h0 = Ok tt -> op_in nb h0 -> core_level h0 e -> forall hOp, get_hamiltonian_operator fsqrt pi gaunt fint nb hp h0 = Ok hOp ->
  forall u d G x, d <> 0%F -> one_particle_green (n_orb nb) (hop_elements hOp) (mkC u d) G -> in_shell 1 x -> let i := Z.to_nat (coord_index nb x) in
  (- im (G i i) = weight32 x * lorentzian d (u - (e + hp_ctc hp + hp_xi_2p hp / fofZ 2)) + weight12 x * lorentzian d (u - (e + hp_ctc hp - hp_xi_2p hp)))%F.
Proof.
  intros HI fsqrt SL pi gaunt Hg1 Hg2 nb W HNA H1 H2 hp n3d N3 N2 L1 L2 L3 HZ h0 e Hn Hh Hi Hc hOp EH u d G x Hd HG Hx i. apply shell_po in Hx as (a & Ha & ->).
  apply (lines_point fsqrt); [exact Hd|exact Ha|]. exact (core_green fint HI fsqrt SL pi gaunt Hg1 Hg2 nb W HNA H1 H2 hp n3d N3 N2 L1 L2 L3 HZ h0 e Hn Hh Hi Hc hOp EH (mkC u d) G a Hd HG Ha).
Qed.
Lemma lines_same mesh (d e xi : F) cols cols' : two_lines mesh d e xi cols -> two_lines mesh d e xi cols' -> cols' = cols.
Proof.
  intros (t1 & p1 & -> & A1 & A2 & A3 & A4) (t2 & p2 & -> & B1 & B2 & B3 & B4). f_equal. f_equal.
  - apply nth_ext with (d := 0%F) (d' := 0%F); [congruence|]. intros k Hk. rewrite B2 in Hk. rewrite A4, B4 by auto. reflexivity.
  - apply nth_ext with (d := []) (d' := []); [congruence|]. intros t Ht. rewrite B1 in Ht. destruct (A3 t Ht) as [C1 C2]. destruct (B3 t Ht) as [D1 D2].
    apply nth_ext with (d := 0%F) (d' := 0%F); [congruence|]. intros k Hk. rewrite D1 in Hk. rewrite C2, D2 by auto. reflexivity.
Qed.
End S.
