(* Properties of time reversal: C79. *)
From Coq Require Import QArith Qcanon Reals.
From Verif Require Import M_Prelude M_Scalar M_PSR M_State M_Basis M_Expect M_Operators.
From Verif Require Import S_Fock S_Ops S_Basis S_Expect S_Green S_Operators S_Symmetry S_TimeReversal.
From Verif Require Import L_Scalar L_Sum L_Dict L_Fock L_Ops L_Operators L_Operators2 L_Operators3 L_Operators4 L_Operators5 L_Operators10 L_Symmetry3 L_Symmetry6 L_TimeReversal L_TimeReversal2 L_TimeReversal3.
From Verif Require Import X_Util X_Reals X_Ops X_Symmetry.
Local Open Scope Z_scope.

(* ---- C79: time reversal and Kramers pairs ---- *)
(* Time reversal, defined by its action on the single-particle states, is antilinear and antiunitary and its square is (-1)^N. *)
Theorem C79_antiunitary : forall (F : ofield) bp bs nb, wf_nbaths nb -> NoDup (angs nb) -> pairs bp bs nb -> forall u v : config -> cx F,
  vdot (n_orb nb) (timerev bp bs nb u) (timerev bp bs nb v) = cconj (vdot (n_orb nb) u v) /\
  (forall a t, timerev bp bs nb (fun s => a * u s + v s)%C t = (cconj a * timerev bp bs nb u t + timerev bp bs nb v t)%C) /\
  (forall t, length t = n_orb nb -> timerev bp bs nb (timerev bp bs nb v) t = ((if Nat.even (nelec t) then c1 else - c1) * v t)%C).
Proof.
  intros F bp bs nb Hw Ha Hp u v. split; [exact (T_antiunitary bp bs nb Hw Ha Hp u v)|]. split.
  - intros a t. exact (T_antilinear bp bs nb a u v t).
  - intros t. exact (T_square bp bs nb Hw Ha Hp v t).
Qed.
(* The spin-orbit coupling and the Coulomb interaction are unchanged by it, the field changes its sign. *)
Theorem C79_SOC : forall (F : ofield) (fsqrt : F -> F) bp bs nb, wf_nbaths nb -> NoDup (angs nb) -> pairs bp bs nb -> forall xi l, In l (angs nb) ->
  reverses bp bs nb (indexed nb (getSOCop fsqrt xi l)) (indexed nb (getSOCop fsqrt xi l)).
Proof. exact (@rev_SOC). Qed.
Theorem C79_field : forall (F : ofield) bp bs nb, wf_nbaths nb -> NoDup (angs nb) -> pairs bp bs nb -> forall (hx hy hz : F) l, In l (angs nb) ->
  reverses bp bs nb (indexed nb (gethHfieldop hx hy hz l)) (indexed nb (gethHfieldop (- hx)%F (- hy)%F (- hz)%F l)).
Proof. exact (@rev_field). Qed.
Theorem C79_coulomb : forall (F : ofield) (fsqrt : F -> F) pi gaunt bp bs nb, wf_nbaths nb -> NoDup (angs nb) -> pairs bp bs nb ->
  (forall l1 l2 l3 m1 m2 m3, gaunt l1 l2 l3 (- m1) (- m2) (- m3) = gaunt l1 l2 l3 m1 m2 m3) ->
  forall l1 l2 l3 l4 R, (forall l, In l [l1; l2; l3; l4] -> In l (angs nb)) ->
  reverses bp bs nb (indexed nb (getUop fsqrt pi gaunt l1 l2 l3 l4 R)) (indexed nb (getUop fsqrt pi gaunt l1 l2 l3 l4 R)).
Proof. exact (@rev_U). Qed.
(* So the Hamiltonian becomes that in the opposite field with the reversed h0. *)
Theorem C79_hamiltonian : forall (F : ofield) (fsqrt : F -> F) pi gaunt fint nb hp bp bs h0 h0' hOp hOp',
  wf_nbaths nb -> NoDup (angs nb) -> pairs bp bs nb ->
  (forall l1 l2 l3 m1 m2 m3, gaunt l1 l2 l3 (- m1) (- m2) (- m3) = gaunt l1 l2 l3 m1 m2 m3) -> ham_set fint nb hp ->
  NoDup (dkeys h0) -> good_labels h0 -> op_in nb h0 -> NoDup (dkeys h0') -> good_labels h0' -> op_in nb h0' ->
  reverses bp bs nb (indexed nb h0) (indexed nb h0') ->
  get_hamiltonian_operator fsqrt pi gaunt fint nb hp h0 = Ok hOp ->
  get_hamiltonian_operator fsqrt pi gaunt fint nb (opposite_field hp) h0' = Ok hOp' -> reverses bp bs nb hOp hOp'.
Proof. exact (@total_rev). Qed.
(* The crystal-field Hamiltonian needs no hypothesis about h0. *)
Theorem C79_CF : forall (F : ofield) (fsqrt : F -> F) pi gaunt fint nb nv hp params b hOp hOp',
  (forall x : F, (0 <= x)%F -> (0 <= fsqrt x)%F /\ (fsqrt x * fsqrt x)%F = x) ->
  (forall l1 l2 l3 m1 m2 m3, gaunt l1 l2 l3 (- m1) (- m2) (- m3) = gaunt l1 l2 l3 m1 m2 m3) -> ham_set fint nb hp -> cf_system nb nv -> b <> OtherBasis ->
  get_hamiltonian_operator_using_CF fsqrt pi gaunt fint nb nv hp params b = Ok hOp ->
  get_hamiltonian_operator_using_CF fsqrt pi gaunt fint nb nv (opposite_field hp) params b = Ok hOp' ->
  pairs (cf_partner b) (cf_sign b) nb /\ reverses (cf_partner b) (cf_sign b) nb hOp hOp'.
Proof. exact (@total_rev_CF'). Qed.
(* Kramers: if an operator is unchanged, the time reversed of an eigenvector is one of the same energy and norm,
   and orthogonal to it if the number of electrons is odd. *)
Theorem C79_kramers : forall (F : ofield) bp bs nb, wf_nbaths nb -> NoDup (angs nb) -> pairs bp bs nb -> forall (A : op_t F) e v,
  reverses bp bs nb A A -> eigenvector (n_orb nb) A e v ->
  eigenvector (n_orb nb) A e (timerev bp bs nb v) /\
  vdot (n_orb nb) (timerev bp bs nb v) (timerev bp bs nb v) = vdot (n_orb nb) v v /\
  (odd_electrons (n_orb nb) v -> vdot (n_orb nb) v (timerev bp bs nb v) = c0).
Proof. exact (@kramers). Qed.
(* Hence without field all levels of the crystal-field Hamiltonian with an odd number of electrons come in pairs, whatever the parameters. *)
Theorem C79_CF_kramers : forall (F : ofield) (fsqrt : F -> F) pi gaunt fint nb nv hp params b hOp,
  (forall x : F, (0 <= x)%F -> (0 <= fsqrt x)%F /\ (fsqrt x * fsqrt x)%F = x) ->
  (forall l1 l2 l3 m1 m2 m3, gaunt l1 l2 l3 (- m1) (- m2) (- m3) = gaunt l1 l2 l3 m1 m2 m3) -> ham_set fint nb hp -> cf_system nb nv -> b <> OtherBasis ->
  no_field hp -> get_hamiltonian_operator_using_CF fsqrt pi gaunt fint nb nv hp params b = Ok hOp ->
  forall e v, eigenvector (n_orb nb) hOp e v -> odd_electrons (n_orb nb) v ->
  exists w, eigenvector (n_orb nb) hOp e w /\ vdot (n_orb nb) w w = vdot (n_orb nb) v v /\ vdot (n_orb nb) v w = c0.
Proof. exact (@CF_kramers). Qed.
Print Assumptions C79_antiunitary. Print Assumptions C79_SOC. Print Assumptions C79_field. Print Assumptions C79_coulomb.
Print Assumptions C79_hamiltonian. Print Assumptions C79_CF. Print Assumptions C79_kramers. Print Assumptions C79_CF_kramers.

(* the 2p shell without bath: the spin-orbit coupling has the eigenvector m = 1, spin up; reversed it is -(m = -1, spin down) *)
Definition p_only : nbaths_t := [(KInt 1, 0)].
Definition one_at (x : spinorb) (t : config) : cx QcF :=
  if eqb (nelec t) 1%nat && nth (Z.to_nat (coord_index p_only x)) t false then c1 else c0.
Notation p_soc := (indexed p_only (getSOCop (F := QcF) (fun x => x) (q 3 2) 1)).
Example C79_kramers_ex : wf_nbaths p_only /\ NoDup (angs p_only) /\ pairs (fun _ b => b) (fun _ _ => 1) p_only /\
  eigenvector (n_orb p_only) p_soc (q 3 4) (one_at (SImp 1 1 1)) /\ odd_electrons (n_orb p_only) (one_at (SImp 1 1 1)) /\
  forallb (fun t => ceqb (timerev (fun _ b => b) (fun _ _ => 1) p_only (one_at (SImp 1 1 1)) t) (- one_at (SImp 1 0 (-1)) t)%C) (allcfg (n_orb p_only)) = true /\
  existsb (fun t => negb (ceqb (one_at (SImp 1 1 1) t) c0)) (allcfg (n_orb p_only)) = true.
Proof.
  split; [|split; [|split; [|split; [|split; [|split]]]]].
  - split; [repeat constructor; cbn; tauto|]. repeat constructor; cbn; lia.
  - repeat constructor; cbn; tauto.
  - intros k n b [E|[]] H. injection E as <- <-. lia.
  - assert (C : forallb (fun t => ceqb (opv (n_orb p_only) p_soc (one_at (SImp 1 1 1)) t) (creal (q 3 4 : QcF) * one_at (SImp 1 1 1) t)%C) (allcfg (n_orb p_only)) = true) by (vm_compute; reflexivity).
    intros t Ht. rewrite forallb_forall in C. specialize (C t (proj2 (allcfg_In _ _) Ht)). destruct (ceqb_spec (opv (n_orb p_only) p_soc (one_at (SImp 1 1 1)) t) (creal (q 3 4 : QcF) * one_at (SImp 1 1 1) t)%C); [assumption|discriminate C].
  - intros t Ht Hv. unfold one_at in Hv. destruct (eqb_spec (nelec t) 1%nat) as [->|]; [reflexivity|]. elim Hv. reflexivity.
  - vm_compute. reflexivity.
  - vm_compute. reflexivity.
Qed.
(* a d8 ion with ten bath states, spin-orbit coupling, no field, the crystal-field parameters of the cubic bath: the Hamiltonian exists *)
Definition rev_hp : @ham_params RF :=
  @mkHP RF [7; 0; 10; 0; 6]%R [6; 0; 4]%R [8; 0; 6]%R [0; 5; 0; 3]%R 11%R (1 / 10)%R [(1, 6); (2, 8)] (3 / 2)%R 0%R 0%R 0%R.
Example C79_CF_ex : (forall b, b <> OtherBasis -> forall params, exists hOp,
    @get_hamiltonian_operator_using_CF RF sqrt PI gaunt_ex Int_part (pd_baths 10) [(KInt 2, 10)] rev_hp params b = Ok hOp) /\
  ham_set (F := RF) Int_part (pd_baths 10) rev_hp /\ cf_system (pd_baths 10) [(KInt 2, 10)] /\ no_field (F := RF) rev_hp /\
  pairs (cf_partner Spherical) (cf_sign Spherical) (pd_baths 10) /\ pairs (cf_partner Cubic) (cf_sign Cubic) (pd_baths 10).
Proof.
  assert (HS : ham_set (F := RF) Int_part (pd_baths 10) rev_hp).
  { split; [exact Int_part_IZR|]. split; [exists 8; reflexivity|]. split; [reflexivity|]. split; [cbn; lia|]. split; [cbn; lia|]. split; [cbn; lia|]. split; cbn; auto. }
  assert (HC : cf_system (pd_baths 10) [(KInt 2, 10)]).
  { split; [apply pd_wf; lia|]. split; [repeat constructor; cbn; lia|]. split; [left; reflexivity|]. split; [reflexivity|]. repeat constructor. }
  split; [|split; [exact HS|split; [exact HC|split; [repeat split|split; apply cf_pairs; apply HC]]]].
  intros b Hb params. destruct HS as (Hf & (n & H1) & H2 & H3 & H4 & H5 & H6 & H7). destruct HC as (Hw & _ & _ & HV & _).
  destruct (total_CF (F := RF) Int_part sqrt PI gaunt_ex (pd_baths 10) rev_hp Hw [(KInt 2, 10)] params b 10 10 Hb eq_refl HV eq_refl (or_introl eq_refl)) as (h0 & _ & C2 & C3 & C4 & _ & C6).
  rewrite C6.
  destruct (total_spec (F := RF) Int_part Hf sqrt PI gaunt_ex gaunt_ex_swap gaunt_ex_neg (pd_baths 10) Hw H6 H7 rev_hp n H1 H2 H3 H4 H5 h0 C2 C3 C4) as (hOp & E & _).
  exists hOp. exact E.
Qed.
