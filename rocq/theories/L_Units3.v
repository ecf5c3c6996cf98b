(* Another unit of energy: thermal averages, the selection of states, and the program. *)
From Coq Require Import String Permutation Ring Field.
From Verif Require Import M_Prelude M_Scalar M_PSR M_State M_Mpi M_Hamiltonian M_Basis M_Expect M_Operators M_Lanczos M_Average M_Main M_Spectra M_Simulate M_RIXS M_Program S_Fock S_Ops S_Ham S_Green S_Spectra S_Basis S_Expect S_Operators S_Symmetry S_TimeReversal S_Thermal S_RIXS S_Units.
From Verif Require Import L_Scalar L_Sum L_Dict L_Fock L_State L_Ops L_Ham L_Average L_Program L_Units L_Units2.
From Verif Require S_Dict.
Local Open Scope Z_scope.

Section S.
Context {F : ofield}.
Add Field Ff : (f_field F).
Add Field Cf : (@c_field F).
Local Open Scope of_scope.
Variable x : F.
Hypothesis Px : 0 < x.
Lemma Nx : x <> 0.
Proof. intros E. rewrite E, flt_irrefl in Px. discriminate. Qed.
Notation E_ l := (energies_in x l).
Lemma lt_unit a b : (x * a <? x * b) = (a <? b).
Proof.
  destruct (a <? b) eqn:E; [apply fmul_lt_l; auto|]. destruct (x * a <? x * b) eqn:E'; auto.
  assert (L : b <= a) by exact E. apply (fmul_le_l b a x (flt_le _ _ Px)) in L. rewrite E' in L. discriminate.
Qed.
Lemma fmin_unit l : forall a, fold_left fmin (E_ l) (x * a) = x * fold_left fmin l a.
Proof.
  unfold energies_in. intros a. rewrite fold_left_onmap. symmetry. apply (fold_left_phi (fun e => x * e)). intros b c. unfold fmin. rewrite lt_unit. destruct (c <? b); auto.
Qed.
Lemma np_min_unit l : np_min (E_ l) = rmap (fun e => x * e) (np_min l).
Proof. destruct l as [|a l]; auto. cbn [energies_in map np_min rmap]. f_equal. apply (fmin_unit l a). Qed.
Lemma avg_unit fexp k_B es obs T : k_B * T <> 0 -> thermal_average fexp (x * k_B) (E_ es) obs T = thermal_average fexp k_B es obs T.
Proof.
  intros HkT. unfold thermal_average. destruct (np_shape0 obs) as [m|]; cbn [bind]; auto. unfold energies_in at 1. rewrite map_length. destruct (negb _); auto. rewrite np_min_unit.
  destruct (np_min es) as [sh|]; cbn [bind rmap]; auto. cbv zeta. 
  assert (C : forall st, fold_left (fun st eo => (fst st + fexp (- (fst eo - x * sh) / (x * k_B * T)), vadd (snd st) (vscale (fexp (- (fst eo - x * sh) / (x * k_B * T))) (snd eo)))) (combine (E_ es) obs) st =
     fold_left (fun st eo => (fst st + fexp (- (fst eo - sh) / (k_B * T)), vadd (snd st) (vscale (fexp (- (fst eo - sh) / (k_B * T))) (snd eo)))) (combine es obs) st).
  { assert (W : forall e, - (x * e - x * sh) / (x * k_B * T) = - (e - sh) / (k_B * T)).
    { intros e. pose proof Nx as N. replace (x * k_B * T) with (x * (k_B * T)) by ring. revert HkT. generalize (k_B * T). intros kT HkT. field. auto. }
    clear HkT. unfold energies_in. revert obs. induction es as [|e es IH]; intros [|o obs] st; cbn [map combine fold_left fst snd]; auto. rewrite W. apply IH. }
  rewrite C. reflexivity.
Qed.
Lemma avg_lin fexp k_B es obs T : thermal_average fexp k_B es (map (map (fun v : cx F => creal x * v)%C) obs) T = rmap (map (fun v : cx F => creal x * v)%C) (thermal_average fexp k_B es obs T).
Proof.
  unfold thermal_average.
  assert (S0 : np_shape0 (map (map (fun v : cx F => creal x * v)%C) obs) = np_shape0 obs).
  { destruct obs as [|o obs]; auto. cbn [map np_shape0]. cbn [Datatypes.length]. rewrite !map_length.
    assert (B : forallb (fun o' => Nat.eqb (Datatypes.length o') (Datatypes.length o)) (map (map (fun v : cx F => creal x * v)%C) obs) = forallb (fun o' => Nat.eqb (Datatypes.length o') (Datatypes.length o)) obs).
    { induction obs as [|a l IH]; auto. cbn [map forallb]. rewrite map_length, IH. reflexivity. }
    rewrite B. reflexivity. }
  rewrite S0. destruct (np_shape0 obs) as [m|]; cbn [bind rmap]; auto. destruct (negb _); auto. destruct (np_min es) as [sh|]; cbn [bind rmap]; auto. cbv zeta.
  set (phi := fun st : F * list (cx F) => (fst st, map (fun v : cx F => creal x * v)%C (snd st))).
  set (w := fun e => fexp (- (e - sh) / (k_B * T))).
  assert (C : forall en ob st, fold_left (fun st eo => (fst st + w (fst eo), vadd (snd st) (vscale (w (fst eo)) (snd eo)))) (combine en (map (map (fun v : cx F => creal x * v)%C) ob)) (phi st) =
     phi (fold_left (fun st eo => (fst st + w (fst eo), vadd (snd st) (vscale (w (fst eo)) (snd eo)))) (combine en ob) st)).
  { intros en. induction en as [|e en IH]; intros [|o ob] st; cbn [map combine fold_left fst snd]; auto. rewrite <- IH. f_equal. unfold phi. cbn [fst snd]. f_equal.
    unfold vadd, vscale. generalize (snd st). intros l. rewrite !map_map. revert l. induction o as [|v o IHo]; intros [|a l]; cbn [map combine]; auto. f_equal; [cbn [fst snd]; ring|]. apply IHo. }
  assert (H0 : (0, repeat (@c0 F) (Datatypes.length (hd [] (map (map (fun v : cx F => creal x * v)%C) obs)))) = phi (0, repeat (@c0 F) (Datatypes.length (hd [] obs)))).
  { unfold phi. cbn [fst snd]. f_equal. destruct obs as [|o obs]; auto. cbn [map hd]. rewrite map_length. induction (Datatypes.length o) as [|k IH]; auto. cbn [repeat map]. rewrite <- IH. f_equal. ring. }
  unfold w in C. rewrite H0, C. unfold phi at 1 2. cbn [fst snd]. f_equal. rewrite !map_map. apply map_ext. intros v. unfold cdiv. ring.
Qed.
Lemma filter_unit e0 cut es : filter (fun e => e - x * e0 <? x * cut) (E_ es) = E_ (filter (fun e => e - e0 <? cut) es).
Proof.
  unfold energies_in. induction es as [|e es IH]; cbn [map filter]; auto. replace (x * e - x * e0) with (x * (e - e0)) by ring. rewrite lt_unit. destruct (e - e0 <? cut); cbn [map]; rewrite IH; auto.
Qed.
Lemma low_unit es (psis : list (psi_t F)) cut : low_energy (E_ es) psis (x * cut) = rmap (fun r => (E_ (fst r), snd r)) (low_energy es psis cut).
Proof.
  unfold low_energy. assert (H : match E_ es with [] => Ok [] | e0 :: _ => Ok (filter (fun e => e - e0 <? x * cut) (E_ es)) end = Ok (E_ match es with [] => [] | e0 :: _ => filter (fun e => e - e0 <? cut) es end)).
  { destruct es as [|e0 es]; auto. change (E_ (e0 :: es)) with (x * e0 :: E_ es) at 1. cbv iota. f_equal. apply filter_unit. }
  rewrite H. assert (H' : match es with [] => Ok [] | e0 :: _ => Ok (filter (fun e => e - e0 <? cut) es) end = Ok match es with [] => [] | e0 :: _ => filter (fun e => e - e0 <? cut) es end) by (destruct es; auto).
  rewrite H'. cbn [bind]. unfold energies_in at 1. rewrite map_length. destruct (map_res _ _); auto.
Qed.
Lemma print_unit fsqrt fexp k_B nb es (psis : list (psi_t F)) T cutOff : k_B * T <> 0 ->
  printThermalExpValues fsqrt fexp (x * k_B) nb (E_ es) psis T cutOff = rmap (first_in x) (printThermalExpValues fsqrt fexp k_B nb es psis T cutOff).
Proof.
  intros HkT. unfold printThermalExpValues. unfold energies_in at 1, nth_res. rewrite nth_error_map. destruct (nth_error es 0) as [e0|]; cbn [option_map bind rmap]; auto.
  assert (D : map (fun e => e - x * e0) (E_ es) = E_ (map (fun e => e - e0) es)) by (unfold energies_in; rewrite !map_map; apply map_ext; intros; ring). rewrite D.
  assert (M : map (fun e => e <? cutOff * (x * k_B) * T) (E_ (map (fun e => e - e0) es)) = map (fun e => e <? cutOff * k_B * T) (map (fun e => e - e0) es)).
  { unfold energies_in. rewrite !map_map. apply map_ext. intros e. replace (cutOff * (x * k_B) * T) with (x * (cutOff * k_B * T)) by ring. apply lt_unit. }
  rewrite M. destruct (negb _); auto. cbv zeta. set (mask := map (fun e => e <? cutOff * k_B * T) (map (fun e => e - e0) es)).
  assert (K : masked mask (E_ (map (fun e => e - e0) es)) = E_ (masked mask (map (fun e => e - e0) es))).
  { unfold masked, energies_in. generalize mask (map (fun e => e - e0) es). intros ma. induction ma as [|b ma IH]; intros [|e l]; cbn [combine map filter fst snd]; auto. destruct b; cbn [map snd fst filter]; rewrite IH; auto. }
  rewrite K. set (e := masked mask (map (fun e => e - e0) es)). set (ps := masked mask psis).
  destruct (map_res (fun psi : psi_t F => do o <- getEgT2gOccupation fsqrt nb psi; Ok (map as_complex o)) ps) as [oc|]; cbn [bind rmap]; auto.
  rewrite avg_unit by auto. destruct (thermal_average fexp k_B e oc T) as [occs|]; cbn [bind rmap]; auto.
  rewrite avg_unit by auto.
  assert (O : map (fun y => [creal y]) (E_ e) = map (map (fun v : cx F => creal x * v)%C) (map (fun y => [creal y]) e)).
  { unfold energies_in. rewrite !map_map. apply map_ext. intros y. cbn [map]. rewrite creal_mul. reflexivity. }
  rewrite O, avg_lin. destruct (thermal_average fexp k_B e (map (fun y => [creal y]) e) T) as [aE|] eqn:EE; cbn [bind rmap]; auto.
  assert (L1 : Datatypes.length aE = 1%nat). { eapply (avg_len fexp k_B); [|exact EE]. intros o Ho. apply in_map_iff in Ho as (y & <- & _). reflexivity. }
  destruct aE as [|a [|]]; try discriminate L1. cbn [map app].
  repeat (match goal with |- context [map_res ?f ps] => let r := fresh "r" in destruct (map_res f ps) as [r|]; cbn [bind rmap]; auto; rewrite ?avg_unit by auto; destruct (thermal_average fexp k_B e r T); cbn [bind rmap]; auto end).
Qed.

(* ---- Hamiltonians ---- *)
Lemma elem_unit (op : op_t F) t s : opelem (op_in_unit x op) t s = (creal x * opelem op t s)%C.
Proof. unfold opelem, op_in_unit. rewrite csum_map, <- csum_mul_l. apply csum_ext. intros [p v] _. cbn [fst snd]. ring. Qed.
Lemma keys_unit {K} (d : dict K (cx F)) : dkeys (op_in_unit x d) = dkeys d.
Proof. unfold dkeys, op_in_unit. rewrite map_map. reflexivity. Qed.
Lemma unit_same n (op : op_t F) : wf_op n op -> assert_hermitian op = Ok tt -> S_Dict.no_small n op -> S_Dict.no_small n (op_in_unit x op) -> same_hamiltonian x n op (op_in_unit x op).
Proof.
  intros [W1 W2] H S S'. split; [split; auto|]. split.
  - split; [rewrite keys_unit; auto|]. unfold op_in_unit. apply Forall_map. eapply Forall_impl; [|exact W2]. intros [p v]. auto.
  - split; [auto|]. split; [rewrite (hermitian_unit x Nx (A := Z)); auto|]. split; [auto|]. split; [auto|]. intros t s _ _. apply elem_unit.
Qed.
Lemma read_unit (parameters : dict string F) :
  complete_file parameters ->
  read_h0_CF_file (file_in x parameters) = cf_in x (read_h0_CF_file parameters).
Proof.
  intros H. assert (G : forall k, dget (map (fun kv => (fst kv, x * snd kv)) parameters) k = option_map (fun v => x * v) (dget parameters k)).
  { clear. intros k. induction parameters as [|[k' v] d IH]; cbn [map dget fst snd]; auto. destruct (eqb k k'); auto. }
  unfold read_h0_CF_file, cf_in, file_in. cbv zeta. rewrite !G. cbn [e_imp e_deltaO_imp e_val_eg e_val_t2g e_con_eg e_con_t2g v_val_eg v_val_t2g v_con_eg v_con_t2g].
  assert (Q : forall k (d : F), In k ["e_imp"; "e_deltaO_imp"; "e_val_eg"; "e_val_t2g"; "e_con_eg"; "e_con_t2g"; "v_val_eg"; "v_val_t2g"; "v_con_eg"; "v_con_t2g"]%string ->
     match option_map (fun v => x * v) (dget parameters k) with Some v => v | None => d end = x * match dget parameters k with Some v => v | None => d end).
  { intros k d Hk. apply H in Hk. apply dget_Some_key in Hk as [v ->]. reflexivity. }
  rewrite !Q by (simpl; tauto). reflexivity.
Qed.
Lemma CF_program_unit fsqrt pi gaunt fint nb nv hp (parameters : dict string F) basis :
  complete_file parameters ->
  get_hamiltonian_operator_using_CF fsqrt pi gaunt fint nb nv (params_in x hp) (file_in x parameters) basis =
  rmap (fun d : op_t F => op_in_unit x d) (get_hamiltonian_operator_using_CF fsqrt pi gaunt fint nb nv hp parameters basis).
Proof. intros H. unfold get_hamiltonian_operator_using_CF. rewrite (read_unit _ H), (CF_unit x Nx). apply (total_unit x Nx). Qed.
End S.
