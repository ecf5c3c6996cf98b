(* Property C41: the thermal average. *)
From Coq Require Import Reals Lra Sorting.Permutation.
From Verif Require Import M_Prelude M_Scalar M_Average.
From Verif Require Import S_Thermal.
From Verif Require Import L_Average L_Main4 X_Util X_Reals.
Local Open Scope of_scope.

(* ---- C41 ---- *)
Theorem C41_average : forall (F : ofield) (fexp : F -> F), exp_laws fexp -> forall (k_B T : F) energies obs m,
  k_B * T <> 0 -> energies <> [] -> length energies = length obs -> (forall o, In o obs -> length o = m) ->
  exists r, thermal_average fexp k_B energies obs T = Ok r /\ length r = m /\
    forall i, (i < m)%nat -> nth i r c0 = average_at fexp (k_B * T) energies obs i.
Proof. exact (fun F fexp HE kB T es obs m HT => avg_ok fexp HE kB T (kB * T) eq_refl HT es obs m). Qed.
(* the weights are probabilities *)
Theorem C41_weights : forall (F : ofield) (fexp : F -> F), exp_laws fexp -> forall (kT : F) energies,
  energies <> [] -> (forall e, 0 < probability fexp kT energies e) /\ ftotal (map (probability fexp kT energies) energies) = 1.
Proof. exact (fun F fexp HE kT es Hne => conj (fun e => prob_pos fexp HE kT es e Hne) (prob_sum fexp HE kT es Hne)). Qed.
(* only energy differences matter *)
Theorem C41_shift : forall (F : ofield) (fexp : F -> F), exp_laws fexp -> forall (k_B T : F) energies obs m s,
  k_B * T <> 0 -> energies <> [] -> length energies = length obs -> (forall o, In o obs -> length o = m) ->
  thermal_average fexp k_B (map (fun e => e + s) energies) obs T = thermal_average fexp k_B energies obs T.
Proof. exact (fun F fexp HE kB T es obs m s HT => avg_shift fexp HE kB T (kB * T) eq_refl HT es obs m s). Qed.
(* the order of the states does not matter *)
Theorem C41_permutation : forall (F : ofield) (fexp : F -> F), exp_laws fexp -> forall (k_B T : F) energies obs energies' obs' m,
  k_B * T <> 0 -> energies <> [] -> length energies = length obs -> length energies' = length obs' ->
  (forall o, In o obs -> length o = m) -> Permutation (combine energies obs) (combine energies' obs') ->
  thermal_average fexp k_B energies' obs' T = thermal_average fexp k_B energies obs T.
Proof. exact (fun F fexp HE kB T es obs es' obs' m HT => avg_perm fexp HE kB T (kB * T) eq_refl HT es obs es' obs' m). Qed.
(* an observable that is the same in all states keeps its value *)
Theorem C41_constant : forall (F : ofield) (fexp : F -> F), exp_laws fexp -> forall (k_B T : F) energies obs o,
  k_B * T <> 0 -> energies <> [] -> length energies = length obs -> (forall o', In o' obs -> o' = o) ->
  thermal_average fexp k_B energies obs T = Ok o.
Proof. exact (fun F fexp HE kB T es obs o HT => avg_const fexp HE kB T (kB * T) eq_refl HT es obs o). Qed.
(* the average lies between the smallest and the largest value *)
Theorem C41_bounds : forall (F : ofield) (fexp : F -> F), exp_laws fexp -> forall (k_B T : F) energies obs m r i (lo hi : F),
  k_B * T <> 0 -> energies <> [] -> length energies = length obs -> (forall o, In o obs -> length o = m) -> (i < m)%nat ->
  thermal_average fexp k_B energies obs T = Ok r ->
  ((forall o, In o obs -> lo <= re (nth i o c0) /\ re (nth i o c0) <= hi) -> lo <= re (nth i r c0) /\ re (nth i r c0) <= hi) /\
  ((forall o, In o obs -> lo <= im (nth i o c0) /\ im (nth i o c0) <= hi) -> lo <= im (nth i r c0) /\ im (nth i r c0) <= hi).
Proof.
  exact (fun F fexp HE kB T es obs m r i lo hi HT Hne HL Hm Hi E =>
    conj (avg_re_bounds fexp HE kB T (kB * T) eq_refl HT es obs m r i lo hi Hne HL Hm Hi E)
         (avg_im_bounds fexp HE kB T (kB * T) eq_refl HT es obs m r i lo hi Hne HL Hm Hi E)).
Qed.
(* the calls that raise *)
Theorem C41_errors : forall (F : ofield) (fexp : F -> F) (k_B T : F) energies (obs : list (list (cx F))),
  (energies = [] \/ length energies <> length obs \/ (exists o o', In o obs /\ In o' obs /\ length o <> length o')) ->
  thermal_average fexp k_B energies obs T = Err ValueError.
Proof. exact (@avg_errors). Qed.
(* The exponential function is evaluated at non-positive numbers only: there is no overflow, however large the energies. *)
Theorem C41_no_overflow : forall (F : ofield) (fexp fexp' : F -> F) (k_B T : F) energies obs, 0 < k_B * T ->
  (forall x, x <= 0 -> fexp x = fexp' x) -> thermal_average fexp k_B energies obs T = thermal_average fexp' k_B energies obs T.
Proof. exact (@avg_exp_nonpos). Qed.
Print Assumptions C41_no_overflow.
Print Assumptions C41_average.
Print Assumptions C41_weights.
Print Assumptions C41_shift.
Print Assumptions C41_permutation.
Print Assumptions C41_constant.
Print Assumptions C41_bounds.
Print Assumptions C41_errors.

(* the laws are met by the exponential function of the reals *)
Example C41_exp : @exp_laws RF exp.
Proof. exact exp_laws_R. Qed.
Definition ex_re (x y : R) : cx RF := @mkC RF x y.
Definition ex_energies : list RF := [3%R; 1%R; 2%R].
Definition ex_obs : list (list (cx RF)) := [[ex_re 1 0; ex_re 2 0]; [ex_re 4 1; ex_re 2 0]; [ex_re 0 1; ex_re 2 5]].
Example C41_hyps : @fmul RF 1%R 2%R <> f0 /\ ex_energies <> [] /\ length ex_energies = length ex_obs /\
  (forall o, In o ex_obs -> length o = 2%nat).
Proof.
  split; [|split; [discriminate|split; [reflexivity|simpl; intuition subst; reflexivity]]].
  change ((1 * 2)%R <> 0%R). lra.
Qed.
Example C41_no_overflow_ex : @fltb RF f0 (@fmul RF 1%R 2%R) = true /\
  (forall x : RF, x <= 0 -> exp x = (fun y : R => if Rlt_dec 0 y then 0%R else exp y) x).
Proof.
  split; [apply rltb_true; simpl; lra|]. intros x Hx. apply rltb_false in Hx. destruct (Rlt_dec 0 x); auto. simpl in Hx. lra.
Qed.
(* on the rationals, with the trivial exponential 1, the average is the mean *)
Example C41_run : match thermal_average (F := QcF) (fun _ => q 1 1) (q 1 1) [q 3 1; q 1 1; q 2 1] [[qr 1 1; qi 2 1 1 1]; [qr 3 1; qr 0 1]; [qr 5 1; qi 1 1 5 1]] (q 1 1) with
  | Ok [a; b] => ceqb a (qr 3 1) && ceqb b (qi 1 1 2 1) | _ => false end = true.
Proof. vm_compute. reflexivity. Qed.
Example C41_run_error : thermal_average (F := QcF) (fun _ => q 1 1) (q 1 1) [q 3 1; q 1 1] [[qr 1 1]] (q 1 1) = Err ValueError.
Proof. reflexivity. Qed.
