(* Properties of the rotations: C75. *)
From Coq Require Import QArith Qcanon Reals.
From Verif Require Import M_Prelude M_Scalar M_PSR M_State M_Basis M_Expect M_Operators.
From Verif Require Import S_Fock S_Ops S_Basis S_Expect S_Green S_Operators S_Symmetry.
From Verif Require Import L_Scalar L_Sum L_Dict L_Fock L_Ops L_Operators L_Operators2 L_Operators3 L_Operators4 L_Operators5 L_Symmetry2 L_Symmetry3 L_Symmetry6 L_Symmetry7 X_Util X_Reals X_Ops X_Symmetry.
Local Open Scope Z_scope.

(* the multipoles of all Slater integrals of the Hamiltonian are tensor operators *)
Definition multipole_laws {F : ofield} (fsqrt : F -> F) (ck : Z -> Z -> Z -> Z -> Z -> F) (hp : @ham_params F) : Prop :=
  tensor_laws fsqrt ck (hp_Fdd hp) 2 2 /\ tensor_laws fsqrt ck (hp_Fpp hp) 1 1 /\ tensor_laws fsqrt ck (hp_Fpd hp) 1 1 /\
  tensor_laws fsqrt ck (hp_Fpd hp) 2 2 /\ tensor_laws fsqrt ck (hp_Gpd hp) 1 2 /\ tensor_laws fsqrt ck (hp_Gpd hp) 2 1.
(* the hypotheses under which the Hamiltonian is built, see C52 *)
Definition ham_ok {F : ofield} (fint : F -> Z) (nb : nbaths_t) (hp : @ham_params F) (h0 : sop_t F) : Prop :=
  (forall z, fint (fofZ z) = z) /\ (exists n3d, dget (hp_n0imps hp) 2 = Some n3d) /\ dget (hp_n0imps hp) 1 = Some 6 /\
  (5 <= length (hp_Fdd hp))%nat /\ (1 <= length (hp_Fpd hp))%nat /\ (4 <= length (hp_Gpd hp))%nat /\ In 1 (angs nb) /\ In 2 (angs nb) /\
  NoDup (dkeys h0) /\ good_labels h0 /\ op_in nb h0.

(* ---- C75: symmetry under rotations ---- *)
(* The Coulomb interaction does not see the spin, whatever the Gaunt coefficients are. *)
Theorem C75_coulomb_spin : forall (F : ofield) (fsqrt : F -> F) pi gaunt nb, wf_nbaths nb -> forall O, NoDup O -> Forall (coord_ok nb) O ->
  forall M a l1 l2 l3 l4 R, (forall l, In l [l1; l2; l3; l4] -> acts_in O M l (on_spin a)) ->
  commute (n_orb nb) (indexed nb (getUop fsqrt pi gaunt l1 l2 l3 l4 R)) (generator nb O M).
Proof. exact (@coulomb_spin). Qed.
(* The Coulomb interaction commutes with the three components of L. *)
Theorem C75_coulomb_L : forall (F : ofield) (fsqrt : F -> F) pi gaunt nb, wf_nbaths nb -> forall O, NoDup O -> Forall (coord_ok nb) O ->
  forall M c l1 l2 l3 l4 R, sqrt_laws fsqrt ->
  tensor_laws fsqrt (gauntC fsqrt pi gaunt) R l1 l4 -> tensor_laws fsqrt (gauntC fsqrt pi gaunt) R l3 l2 ->
  (forall l, In l [l1; l2; l3; l4] -> acts_in O M l (on_m (ang fsqrt l c))) ->
  commute (n_orb nb) (indexed nb (getUop fsqrt pi gaunt l1 l2 l3 l4 R)) (generator nb O M).
Proof. exact (@coulomb_L). Qed.
(* The spin-orbit coupling commutes with the three components of J. *)
Theorem C75_SOC : forall (F : ofield) (fsqrt : F -> F) nb, wf_nbaths nb -> forall O, NoDup O -> Forall (coord_ok nb) O ->
  forall M c xi l, sqrt_laws fsqrt -> acts_in O M l (total_ang fsqrt l c) ->
  commute (n_orb nb) (indexed nb (getSOCop fsqrt xi l)) (generator nb O M).
Proof. exact (@SOC_J). Qed.
(* The field commutes with the rotations about its axis. *)
Theorem C75_field : forall (F : ofield) nb, wf_nbaths nb -> forall O, NoDup O -> Forall (coord_ok nb) O ->
  forall M (hx hy hz : F) a l, acts_in O M l (on_spin a) -> spin_commute a (field_spin hx hy hz) ->
  commute (n_orb nb) (indexed nb (gethHfieldop hx hy hz l)) (generator nb O M).
Proof. exact (@field_spins). Qed.
(* The Hamiltonian has the spin symmetry of the field and of h0 if there is no spin-orbit coupling, ... *)
Theorem C75_hamiltonian_spin : forall (F : ofield) (fsqrt : F -> F) pi gaunt fint nb hp h0, wf_nbaths nb -> ham_ok fint nb hp h0 ->
  forall O M a, NoDup O -> Forall (coord_ok nb) O -> (forall l, In l [1; 2] -> acts_in O M l (on_spin a)) ->
  spin_commute a (field_spin (hp_hx hp) (hp_hy hp) (hp_hz hp)) -> hp_xi_2p hp = 0%F -> hp_xi_3d hp = 0%F ->
  commute (n_orb nb) (indexed nb h0) (generator nb O M) ->
  forall hOp, get_hamiltonian_operator fsqrt pi gaunt fint nb hp h0 = Ok hOp -> commute (n_orb nb) hOp (generator nb O M).
Proof. intros F fsqrt pi gaunt fint nb hp h0 Hw (Hf & (n & H1) & H2 & H3 & H4 & H5 & H6 & H7 & H8 & H9 & H10) O M a HO HOk HA HC X1 X2 Hh hOp.
  exact (total_spin fsqrt pi gaunt nb Hw O HO HOk M fint Hf hp n H1 H2 H3 H4 H5 H6 H7 a h0 hOp HA HC X1 X2 H8 H9 H10 Hh). Qed.
(* ... the orbital symmetry of h0 in that case, in any field, ... *)
Theorem C75_hamiltonian_L : forall (F : ofield) (fsqrt : F -> F) pi gaunt fint nb hp h0, wf_nbaths nb -> ham_ok fint nb hp h0 ->
  sqrt_laws fsqrt -> multipole_laws fsqrt (gauntC fsqrt pi gaunt) hp ->
  forall O M c, NoDup O -> Forall (coord_ok nb) O -> (forall l, In l [1; 2] -> acts_in O M l (on_m (ang fsqrt l c))) ->
  hp_xi_2p hp = 0%F -> hp_xi_3d hp = 0%F ->
  commute (n_orb nb) (indexed nb h0) (generator nb O M) ->
  forall hOp, get_hamiltonian_operator fsqrt pi gaunt fint nb hp h0 = Ok hOp -> commute (n_orb nb) hOp (generator nb O M).
Proof. intros F fsqrt pi gaunt fint nb hp h0 Hw (Hf & (n & H1) & H2 & H3 & H4 & H5 & H6 & H7 & H8 & H9 & H10) Hs (T1 & T2 & T3 & T4 & T5 & T6) O M c HO HOk HA X1 X2 Hh hOp.
  exact (total_L fsqrt pi gaunt nb Hw O HO HOk M fint Hf hp n H1 H2 H3 H4 H5 H6 H7 c h0 hOp Hs T1 T2 T3 T4 T5 T6 HA X1 X2 H8 H9 H10 Hh). Qed.
(* ... and with spin-orbit coupling and without field it has the symmetry of h0 under rotations of spin and space together. *)
Theorem C75_hamiltonian_J : forall (F : ofield) (fsqrt : F -> F) pi gaunt fint nb hp h0, wf_nbaths nb -> ham_ok fint nb hp h0 ->
  sqrt_laws fsqrt -> multipole_laws fsqrt (gauntC fsqrt pi gaunt) hp ->
  forall O M c, NoDup O -> Forall (coord_ok nb) O -> (forall l, In l [1; 2] -> acts_in O M l (total_ang fsqrt l c)) ->
  hp_hx hp = 0%F -> hp_hy hp = 0%F -> hp_hz hp = 0%F ->
  commute (n_orb nb) (indexed nb h0) (generator nb O M) ->
  forall hOp, get_hamiltonian_operator fsqrt pi gaunt fint nb hp h0 = Ok hOp -> commute (n_orb nb) hOp (generator nb O M).
Proof. intros F fsqrt pi gaunt fint nb hp h0 Hw (Hf & (n & H1) & H2 & H3 & H4 & H5 & H6 & H7 & H8 & H9 & H10) Hs (T1 & T2 & T3 & T4 & T5 & T6) O M c HO HOk HA X1 X2 X3 Hh hOp.
  exact (total_J fsqrt pi gaunt nb Hw O HO HOk M fint Hf hp n H1 H2 H3 H4 H5 H6 H7 c h0 hOp Hs T1 T2 T3 T4 T5 T6 HA X1 X2 X3 H8 H9 H10 Hh). Qed.
(* One-particle operators commute if their matrices do: how to see that h0 has a symmetry. *)
Theorem C75_one_particle : forall (F : ofield) nb, wf_nbaths nb -> forall O, NoDup O -> Forall (coord_ok nb) O -> forall M H : spinorb -> spinorb -> cx F,
  (forall x y, In x O -> In y O -> csum (fun w => M x w * H w y)%C O = csum (fun w => H x w * M w y)%C O) ->
  commute (n_orb nb) (generator nb O H) (generator nb O M).
Proof. exact (@one_body_commute). Qed.
(* A symmetry takes eigenstates to eigenstates with the same energy. *)
Theorem C75_multiplets : forall (F : ofield) n (A B : op_t F) e v, commute n A B -> (forall t, length t = n -> opv n A v t = (e * v t)%C) ->
  forall t, length t = n -> opv n A (opv n B v) t = (e * opv n B v t)%C.
Proof. exact (@eigen_commute). Qed.
Print Assumptions C75_coulomb_spin. Print Assumptions C75_coulomb_L. Print Assumptions C75_SOC. Print Assumptions C75_field.
Print Assumptions C75_hamiltonian_spin. Print Assumptions C75_hamiltonian_L. Print Assumptions C75_hamiltonian_J.
Print Assumptions C75_one_particle. Print Assumptions C75_multiplets.

Lemma qc_same (x y : cx QcF) : ceqb x y = true -> x = y.
Proof. intros H. destruct (ceqb_spec x y); [assumption|discriminate]. Qed.
(* S+ in the shells 1 and 2, rational numbers; the field along z and Sz *)
Example C75_spin_ex : wf_nbaths (pd_baths 10) /\ NoDup pd_orbs /\ Forall (coord_ok (pd_baths 10)) pd_orbs /\
  (forall l, In l [1; 2; 2; 1] -> acts_in pd_orbs (@in_shells QcF (fun _ => on_spin (half_spin Cplus))) l (on_spin (half_spin Cplus))) /\
  spin_commute (@half_spin QcF Cz) (field_spin 0 0 (q 1 10))%F /\
  @in_shells QcF (fun _ => on_spin (half_spin Cplus)) (SImp 2 1 (-1)) (SImp 2 0 (-1)) = c1.
Proof.
  split; [apply pd_wf; lia|]. split; [apply pd_orbs_NoDup|]. split; [apply pd_orbs_ok|]. split; [|split].
  - intros l Hl. apply (@pd_acts QcF (fun _ => on_spin (half_spin Cplus))). cbn in Hl |- *. tauto.
  - intros s s' [-> | ->] [-> | ->]; apply qc_same; vm_compute; reflexivity.
  - reflexivity.
Qed.
(* L, J and true multipoles of the 2p shell, real numbers *)
Example C75_J_ex : @sqrt_laws RF sqrt /\ @tensor_laws RF sqrt (@gauntC RF sqrt PI gaunt_ex) [8; 0; 6]%R 1 1 /\
  (@gauntC RF sqrt PI gaunt_ex 2 1 1 1 0 : R) = (sqrt 3 / 5)%R /\
  (forall c l, In l [1; 2] -> acts_in pd_orbs (@in_shells RF (fun l => on_m (@ang RF sqrt l c))) l (on_m (@ang RF sqrt l c))) /\
  (forall c l, In l [1; 2] -> acts_in pd_orbs (@in_shells RF (fun l => @total_ang RF sqrt l c)) l (@total_ang RF sqrt l c)).
Proof.
  split; [apply sqrt_laws_R|]. split; [apply tensor_ex|]. split; [apply ck_ex_2p|]. split; intros c l Hl.
  - apply (@pd_acts RF (fun l => on_m (@ang RF sqrt l c))); auto.
  - apply (@pd_acts RF (fun l => @total_ang RF sqrt l c)); auto.
Qed.
(* a Hamiltonian with spin-orbit coupling, and h0 with levels of the two shells *)
Definition sym_hp : @ham_params RF :=
  @mkHP RF [7; 0; 10; 0; 6]%R [6; 0; 4]%R [8; 0; 6]%R [0; 5; 0; 3]%R 11%R (1 / 10)%R [(1, 6); (2, 8)] (3 / 2)%R 0%R 0%R 0%R.
Example C75_hamiltonian_ex : ham_ok (F := RF) Int_part (pd_baths 10) sym_hp (eDC (F := RF) 1%R 2%R) /\
  multipole_laws (F := RF) sqrt (@gauntC RF sqrt PI gaunt_ex) sym_hp /\
  (forall c, commute (F := RF) (n_orb (pd_baths 10)) (indexed (pd_baths 10) (eDC (F := RF) 1%R 2%R)) (generator (pd_baths 10) pd_orbs (in_shells (fun l => @total_ang RF sqrt l c)))) /\
  exists hOp, @get_hamiltonian_operator RF sqrt PI gaunt_ex Int_part (pd_baths 10) sym_hp (eDC (F := RF) 1%R 2%R) = Ok hOp.
Proof.
  assert (HG : good_labels (eDC (F := RF) 1%R 2%R)).
  { apply good_keys. intros p Hp. apply dget_Some_key in Hp as [v Hp]. apply eDC_dget, eDC_In in Hp as (x & -> & _). apply good_hop2. }
  assert (HI : op_in (pd_baths 10) (eDC (F := RF) 1%R 2%R)).
  { apply Forall_forall. intros [p v] Hi. cbn [fst]. apply (in_map fst) in Hi. apply dget_Some_key in Hi as [w Hi]. apply eDC_dget, eDC_In in Hi as (x & E & H).
    cbn [fst] in E. subst p. assert (coord_ok (pd_baths 10) x) by (destruct H as [[(s & m & -> & Hs & Hm) _]|[(s & m & -> & Hs & Hm) _]]; cbn; auto).
    constructor; [exact H0|constructor; [exact H0|constructor]]. }
  assert (HA : ham_ok (F := RF) Int_part (pd_baths 10) sym_hp (eDC (F := RF) 1%R 2%R)).
  { split; [exact Int_part_IZR|]. split; [exists 8; reflexivity|]. split; [reflexivity|]. split; [cbn; lia|]. split; [cbn; lia|]. split; [cbn; lia|]. split; [cbn; auto|]. split; [cbn; auto|].
    split; [apply eDC_NoDup|]. auto. }
  split; [exact HA|]. split; [|split].
  - do 5 (split; [apply tensor_ex|]). apply tensor_ex.
  - intros c. assert (HC : forall l, In l [1; 2] -> closed pd_orbs (@in_shells RF (fun l => @total_ang RF sqrt l c)) (shell l)).
    { intros l Hl. apply (acts_closed (pd_baths 10) pd_orbs (pd_orbs_ok 10) _ l (@total_ang RF sqrt l c)). apply (@pd_acts RF (fun l => @total_ang RF sqrt l c)); auto. }
    apply comm_commute; auto. apply comm_eDC; [apply pd_wf; lia|apply pd_orbs_NoDup|apply pd_orbs_ok|apply HC; cbn; auto|apply HC; cbn; auto].
  - destruct HA as (Hf & (n & H1) & H2 & H3 & H4 & H5 & H6 & H7 & H8 & H9 & H10).
    destruct (total_spec (F := RF) Int_part Hf sqrt PI gaunt_ex gaunt_ex_swap gaunt_ex_neg (pd_baths 10) (pd_wf 10 ltac:(lia)) H6 H7 sym_hp n H1 H2 H3 H4 H5 _ H8 (eDC_hermitian _ _) H10) as (hOp & E & _).
    exists hOp. exact E.
Qed.
(* matrices that commute, and an eigenstate *)
Example C75_small_ex : (forall x y, In x pd_orbs -> In y pd_orbs ->
    csum (fun w => in_shells (F := QcF) (fun _ => on_spin (half_spin Cplus)) x w * (if eqb w y then qi 2 1 0 1 else c0))%C pd_orbs =
    csum (fun w => (if eqb x w then qi 2 1 0 1 else c0) * in_shells (fun _ => on_spin (half_spin Cplus)) w y)%C pd_orbs) /\
  (forall t, length t = 2%nat -> opv (F := QcF) 2 [([(0, "c"%char); (0, "a"%char)], qi 3 1 0 1)] (fun s => if list_eqb s [true; false] then c1 else c0) t =
     (qi 3 1 0 1 * (if list_eqb t [true; false] then c1 else c0))%C).
Proof.
  split.
  - assert (E : forallb (fun x => forallb (fun y => ceqb
      (csum (fun w => in_shells (F := QcF) (fun _ => on_spin (half_spin Cplus)) x w * (if eqb w y then qi 2 1 0 1 else c0))%C pd_orbs)
      (csum (fun w => (if eqb x w then qi 2 1 0 1 else c0) * in_shells (fun _ => on_spin (half_spin Cplus)) w y)%C pd_orbs)) pd_orbs) pd_orbs = true) by (vm_compute; reflexivity).
    rewrite forallb_forall in E. intros x y Hx Hy. specialize (E x Hx). rewrite forallb_forall in E. apply qc_same. apply (E y Hy).
  - intros [|[] [|[] [|]]] Ht; try discriminate; apply qc_same; vm_compute; reflexivity.
Qed.
