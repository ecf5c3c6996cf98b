(* thermal_average *)
From Coq Require Import Field Ring Sorting.Permutation.
From Verif Require Import M_Prelude M_Scalar M_Average S_Thermal L_Scalar.

Section Avg.
Context {F : ofield}.
Variable fexp : F -> F.
Add Field Ff : (f_field F).
Add Ring Cring : (@c_ring F).
Add Field Cf : (@c_field F).
Local Open Scope of_scope.

Lemma ftotal_scale {A} (c : F) (f : A -> F) l : ftotal (map (fun a => c * f a) l) = c * ftotal (map f l).
Proof. induction l as [|a l IH]; simpl; [ring|]. rewrite IH. ring. Qed.
Lemma ctotal_scale {A} (c : cx F) (f : A -> cx F) l : ctotal (map (fun a => cmul c (f a)) l) = cmul c (ctotal (map f l)).
Proof. induction l as [|a l IH]; simpl; [ring|]. rewrite IH. ring. Qed.
Lemma ftotal_perm l m : Permutation l m -> ftotal l = @ftotal F m.
Proof. induction 1; simpl; [auto|congruence|ring|congruence]. Qed.
Lemma ctotal_perm l m : Permutation l m -> ctotal l = @ctotal F m.
Proof. induction 1; simpl; [auto|congruence|ring|congruence]. Qed.
Lemma ftotal_pos l : l <> [] -> (forall x, In x l -> 0 < x) -> 0 < @ftotal F l.
Proof.
  destruct l as [|a l]; [congruence|]. intros _ H. simpl. apply fadd_pos; [apply H; left; auto|].
  assert (H' : forall x, In x l -> 0 < x) by (intros; apply H; right; auto). clear H. induction l as [|b l IH]; simpl; [apply fle_refl|].
  apply fadd_nonneg; [apply flt_le, H'; left; auto|apply IH; intros; apply H'; right; auto].
Qed.

Lemma vadd_length (x y : list (cx F)) : length x = length y -> length (vadd x y) = length x.
Proof. intros E. unfold vadd. rewrite map_length, combine_length. lia. Qed.
Lemma vadd_nth (x y : list (cx F)) i : length x = length y -> nth i (vadd x y) c0 = cadd (nth i x c0) (nth i y c0).
Proof.
  revert y i. induction x as [|a x IH]; intros [|b y] [|i] E; simpl in *; try discriminate; auto; try ring. apply IH. lia.
Qed.
Lemma vscale_length w (x : list (cx F)) : length (vscale w x) = length x. Proof. apply map_length. Qed.
Lemma vscale_nth w (x : list (cx F)) i : nth i (vscale w x) c0 = cmul (creal w) (nth i x c0).
Proof. revert i. induction x as [|a x IH]; intros [|i]; simpl; auto; ring. Qed.

Lemma avg_fold (w : F -> F) m l : (forall eo, In eo l -> length (snd eo) = m) -> forall z acc, length acc = m ->
  exists v, fold_left (fun st (eo : F * list (cx F)) => (fst st + w (fst eo), vadd (snd st) (vscale (w (fst eo)) (snd eo)))) l (z, acc)
     = (z + ftotal (map (fun eo => w (fst eo)) l), v) /\ length v = m /\
     forall i, nth i v c0 = cadd (nth i acc c0) (ctotal (map (fun eo => cmul (creal (w (fst eo))) (nth i (snd eo) c0)) l)).
Proof.
  induction l as [|eo l IH]; intros Hl z acc Hacc; cbn [fold_left map ftotal ctotal].
  - exists acc. split; [f_equal; ring|]. split; auto. intros i. ring.
  - cbn [fst snd].
    assert (He : length acc = length (vscale (w (fst eo)) (snd eo))) by (rewrite vscale_length, Hl by (left; auto); auto).
    destruct (IH (fun x Hx => Hl x (or_intror Hx)) (z + w (fst eo)) (vadd acc (vscale (w (fst eo)) (snd eo)))) as (v & E & Hv & Hn).
    { rewrite vadd_length; auto. }
    exists v. split; [rewrite E; f_equal; ring|]. split; auto. intros i. rewrite Hn, vadd_nth, vscale_nth by auto. ring.
Qed.

Lemma shape_ok (obs : list (list (cx F))) m : (forall o, In o obs -> length o = m) -> np_shape0 obs = Ok (length obs).
Proof.
  intros H. destruct obs as [|o obs]; [reflexivity|]. unfold np_shape0.
  assert (E : forallb (fun o' : list (cx F) => Nat.eqb (length o') (length o)) obs = true).
  { apply forallb_forall. intros x Hx. rewrite (H x (or_intror Hx)), (H o (or_introl eq_refl)). apply Nat.eqb_refl. }
  rewrite E. reflexivity.
Qed.

Lemma creal_div (x y : F) : y <> 0 -> creal (x / y) = cmul (cinv (creal y)) (creal x).
Proof.
  intros Hy. assert (E : cmul (creal (x / y)) (creal y) = creal x) by (rewrite <- creal_mul; f_equal; field; auto).
  rewrite <- E. field. intros Hc. apply Hy. apply (f_equal re) in Hc. exact Hc.
Qed.
Section E.
Hypothesis HE : exp_laws fexp.
Variables kB T kT : F.
Hypothesis HkT0 : kB * T = kT.
Hypothesis HkT : kT <> 0.

Lemma weight_eq e s : fexp (- (e - s) / kT) = fexp (s / kT) * boltzmann fexp kT e.
Proof. unfold boltzmann. rewrite <- (proj2 HE). f_equal. field. auto. Qed.
Lemma Z_pos energies : energies <> [] -> 0 < partition_function fexp kT energies.
Proof.
  intros Hne. unfold partition_function. apply ftotal_pos; [destruct energies; simpl; congruence|].
  intros x Hx. apply in_map_iff in Hx as (e & <- & _). apply (proj1 HE).
Qed.
Lemma prob_pos energies e : energies <> [] -> 0 < probability fexp kT energies e.
Proof. intros Hne. unfold probability. apply fdiv_pos; [apply (proj1 HE)|apply Z_pos; auto]. Qed.
Lemma prob_sum energies : energies <> [] -> ftotal (map (probability fexp kT energies) energies) = 1.
Proof.
  intros Hne. unfold probability. pose proof (Z_pos energies Hne) as Hz. apply flt_not_eq in Hz. set (Zv := partition_function fexp kT energies) in *.
  rewrite (map_ext _ (fun e => finv Zv * boltzmann fexp kT e)) by (intros; field; congruence).
  rewrite ftotal_scale. fold (partition_function fexp kT energies). fold Zv. field. congruence.
Qed.
Lemma avg_ok energies obs m : energies <> [] -> length energies = length obs -> (forall o, In o obs -> length o = m) ->
  exists r, thermal_average fexp kB energies obs T = Ok r /\ length r = m /\ forall i, (i < m)%nat -> nth i r c0 = average_at fexp kT energies obs i.
Proof.
  intros Hne HL Hm. unfold thermal_average. rewrite (shape_ok obs m Hm). cbn [bind]. rewrite <- HL, Nat.eqb_refl. cbn [negb].
  destruct energies as [|e0 es] eqn:Ee; [congruence|]. rewrite <- Ee in *. assert (exists s, np_min energies = Ok s) as (s & Es) by (rewrite Ee; simpl; eauto).
  rewrite Es. cbn [bind]. rewrite HkT0.
  assert (Hh : length (hd [] obs) = m) by (destruct obs as [|o obs]; [rewrite Ee in HL; discriminate|apply Hm; left; auto]).
  rewrite Hh. destruct (avg_fold (fun e => fexp (- (e - s) / kT)) m (combine energies obs)) with (z := 0 : F) (acc := repeat (@c0 F) m) as (v & E & Hv & Hn).
  { intros [e o] Hi. apply in_combine_r in Hi. simpl. auto. } { apply repeat_length. }
  cbv beta in E. rewrite E. cbn [fst snd]. eexists. split; [reflexivity|]. split; [rewrite map_length; auto|]. intros i Hi.
  set (z := 0 + ftotal (map (fun eo : F * list (cx F) => fexp (- (fst eo - s) / kT)) (combine energies obs))).
  assert (Ez : z = fexp (s / kT) * partition_function fexp kT energies).
  { unfold z. rewrite (map_ext _ (fun eo : F * list (cx F) => fexp (s / kT) * boltzmann fexp kT (fst eo))) by (intros; apply weight_eq).
    rewrite ftotal_scale. unfold partition_function. rewrite <- (map_map fst (boltzmann fexp kT)).
    replace (map fst (combine energies obs)) with energies; [ring|].
    clear -HL. revert obs HL. induction energies as [|a l IH]; intros [|o obs] HL; simpl in *; try discriminate; auto. f_equal. apply IH. lia. }
  rewrite (nth_indep _ c0 (cdiv c0 (creal z))) by (rewrite map_length; lia).
  rewrite (map_nth (fun x => cdiv x (creal z))). rewrite Hn, nth_repeat.
  pose proof (Z_pos energies Hne) as HZ. set (Zv := partition_function fexp kT energies) in *.
  assert (Hs : 0 < fexp (s / kT)) by apply (proj1 HE).
  assert (Hcz : creal Zv <> c0) by (intros Hc; apply (f_equal re) in Hc; simpl in Hc; rewrite Hc, flt_irrefl in HZ; discriminate).
  assert (Hcs : creal (fexp (s / kT)) <> c0) by (intros Hc; apply (f_equal re) in Hc; simpl in Hc; rewrite Hc, flt_irrefl in Hs; discriminate).
  unfold average_at, probability. fold Zv.
  rewrite (map_ext (fun eo : F * list (cx F) => cmul (creal (fexp (- (fst eo - s) / kT))) (nth i (snd eo) c0))
     (fun eo => cmul (creal (fexp (s / kT))) (cmul (creal (boltzmann fexp kT (fst eo))) (nth i (snd eo) c0))))
     by (intros eo; rewrite weight_eq, creal_mul; ring).
  rewrite ctotal_scale.
  assert (HzF : Zv <> 0) by (intros Hc; rewrite Hc, flt_irrefl in HZ; discriminate).
  rewrite (map_ext (fun eo : F * list (cx F) => cmul (creal (boltzmann fexp kT (fst eo) / Zv)) (nth i (snd eo) c0))
     (fun eo => cmul (cinv (creal Zv)) (cmul (creal (boltzmann fexp kT (fst eo))) (nth i (snd eo) c0)))).
  - rewrite ctotal_scale. rewrite Ez, creal_mul. field. auto.
  - intros eo. rewrite creal_div by auto. ring.
Qed.

(* consequences *)
Lemma list_ext_nth (r r' : list (cx F)) m : length r = m -> length r' = m -> (forall i, (i < m)%nat -> nth i r c0 = nth i r' c0) -> r = r'.
Proof. intros H1 H2 H. apply (nth_ext _ _ c0 c0); [congruence|]. intros i Hi. apply H. lia. Qed.
Lemma boltz_shift e s : boltzmann fexp kT (e + s) = fexp (- (s / kT)) * boltzmann fexp kT e.
Proof. unfold boltzmann. rewrite <- (proj2 HE). f_equal. field. auto. Qed.
Lemma prob_shift energies s e : energies <> [] -> probability fexp kT (map (fun x => x + s) energies) (e + s) = probability fexp kT energies e.
Proof.
  intros Hne. pose proof (Z_pos energies Hne) as HZ. apply flt_not_eq in HZ.
  assert (Hs : 0 < fexp (- (s / kT))) by apply (proj1 HE). apply flt_not_eq in Hs.
  unfold probability. rewrite boltz_shift.
  assert (E : partition_function fexp kT (map (fun x => x + s) energies) = fexp (- (s / kT)) * partition_function fexp kT energies).
  { unfold partition_function. rewrite map_map, (map_ext _ (fun e => fexp (- (s / kT)) * boltzmann fexp kT e)) by (intros; apply boltz_shift). apply ftotal_scale. }
  rewrite E. field. split; congruence.
Qed.
Lemma avg_shift energies obs m s : energies <> [] -> length energies = length obs -> (forall o, In o obs -> length o = m) ->
  thermal_average fexp kB (map (fun e => e + s) energies) obs T = thermal_average fexp kB energies obs T.
Proof.
  intros Hne HL Hm. destruct (avg_ok energies obs m Hne HL Hm) as (r & E & Lr & Hr).
  assert (Hne' : map (fun e => e + s) energies <> []) by (destruct energies; simpl; congruence).
  destruct (avg_ok (map (fun e => e + s) energies) obs m Hne') as (r' & E' & Lr' & Hr'); [rewrite map_length; auto|auto|].
  rewrite E, E'. f_equal. apply (list_ext_nth _ _ m Lr' Lr). intros i Hi. rewrite Hr, Hr' by auto. unfold average_at.
  assert (G : forall es obs, ctotal (map (fun eo : F * list (cx F) => cmul (creal (probability fexp kT (map (fun e => e + s) energies) (fst eo))) (nth i (snd eo) c0)) (combine (map (fun e => e + s) es) obs))
     = ctotal (map (fun eo : F * list (cx F) => cmul (creal (probability fexp kT energies (fst eo))) (nth i (snd eo) c0)) (combine es obs))).
  { induction es as [|e es IH]; intros [|o ob]; simpl; auto. rewrite IH, prob_shift by auto. auto. }
  apply G.
Qed.
Lemma combine_fst_snd {A B} (l : list A) (m : list B) : length l = length m -> map fst (combine l m) = l /\ map snd (combine l m) = m.
Proof.
  revert m. induction l as [|a l IH]; intros [|b m] HL; simpl in *; try discriminate; auto. injection HL as HL. destruct (IH m HL) as [E1 E2]. split; f_equal; auto.
Qed.
Lemma avg_perm energies obs energies' obs' m : energies <> [] -> length energies = length obs -> length energies' = length obs' ->
  (forall o, In o obs -> length o = m) -> Permutation (combine energies obs) (combine energies' obs') ->
  thermal_average fexp kB energies' obs' T = thermal_average fexp kB energies obs T.
Proof.
  intros Hne HL HL' Hm HP. destruct (combine_fst_snd _ _ HL) as [F1 S1]. destruct (combine_fst_snd _ _ HL') as [F2 S2].
  assert (PE : Permutation energies energies') by (rewrite <- F1, <- F2; apply Permutation_map; auto).
  assert (PO : Permutation obs obs') by (rewrite <- S1, <- S2; apply Permutation_map; auto).
  assert (Hne' : energies' <> []) by (intros ->; apply Permutation_sym, Permutation_nil in PE; auto).
  destruct (avg_ok energies obs m Hne HL Hm) as (r & E & Lr & Hr).
  destruct (avg_ok energies' obs' m Hne' HL') as (r' & E' & Lr' & Hr').
  { intros o Ho. apply Hm. apply (Permutation_in _ (Permutation_sym PO)); auto. }
  rewrite E, E'. f_equal. apply (list_ext_nth _ _ m Lr' Lr). intros i Hi. rewrite Hr, Hr' by auto. unfold average_at.
  assert (EZ : forall e, probability fexp kT energies' e = probability fexp kT energies e).
  { intros e. unfold probability, partition_function. rewrite (ftotal_perm _ _ (Permutation_map (boltzmann fexp kT) PE)). auto. }
  rewrite (map_ext _ (fun eo : F * list (cx F) => cmul (creal (probability fexp kT energies (fst eo))) (nth i (snd eo) c0))) by (intros; rewrite EZ; auto).
  symmetry. apply ctotal_perm. apply Permutation_map. auto.
Qed.
Lemma creal_total {A} (f : A -> F) l : ctotal (map (fun a => creal (f a)) l) = creal (ftotal (map f l)).
Proof. induction l as [|a l IH]; simpl; [reflexivity|]. rewrite IH, creal_add. auto. Qed.
Lemma avg_const energies obs o : energies <> [] -> length energies = length obs -> (forall o', In o' obs -> o' = o) ->
  thermal_average fexp kB energies obs T = Ok o.
Proof.
  intros Hne HL Ho. destruct (avg_ok energies obs (length o) Hne HL) as (r & E & Lr & Hr); [intros o' H; rewrite (Ho o' H); auto|].
  rewrite E. f_equal. apply (list_ext_nth _ _ (length o)); auto. intros i Hi. rewrite Hr by auto. unfold average_at.
  rewrite (map_ext_in _ (fun eo : F * list (cx F) => cmul (nth i o c0) (creal (probability fexp kT energies (fst eo))))).
  - rewrite ctotal_scale, creal_total, <- (map_map fst). destruct (combine_fst_snd _ _ HL) as [-> _]. rewrite prob_sum by auto. change (creal 1) with (@c1 F). ring.
  - intros [e o'] Hi'. cbn [fst snd]. apply in_combine_r in Hi'. rewrite (Ho o' Hi'). ring.
Qed.
(* an additive functional with values in [lo,hi] on the observables has a value in [lo,hi] on the average *)
Lemma avg_bounds (p : cx F -> F) energies obs m r i lo hi :
  (forall w x, p (cmul (creal w) x) = w * p x) -> (forall x y, p (cadd x y) = p x + p y) -> p c0 = 0 ->
  energies <> [] -> length energies = length obs -> (forall o, In o obs -> length o = m) -> (i < m)%nat ->
  thermal_average fexp kB energies obs T = Ok r ->
  (forall o, In o obs -> lo <= p (nth i o c0) /\ p (nth i o c0) <= hi) -> lo <= p (nth i r c0) /\ p (nth i r c0) <= hi.
Proof.
  intros Hs Ha H0 Hne HL Hm Hi E Hb. destruct (avg_ok energies obs m Hne HL Hm) as (r' & E' & Lr & Hr). rewrite E in E'. injection E' as <-.
  rewrite Hr by auto. unfold average_at.
  assert (G : forall l, (forall eo : F * list (cx F), In eo l -> lo <= p (nth i (snd eo) c0) /\ p (nth i (snd eo) c0) <= hi) ->
     lo * ftotal (map (fun eo => probability fexp kT energies (fst eo)) l) <= p (ctotal (map (fun eo => cmul (creal (probability fexp kT energies (fst eo))) (nth i (snd eo) c0)) l)) /\
     p (ctotal (map (fun eo => cmul (creal (probability fexp kT energies (fst eo))) (nth i (snd eo) c0)) l)) <= hi * ftotal (map (fun eo => probability fexp kT energies (fst eo)) l)).
  { induction l as [|eo l IH]; intros Hl; simpl.
    - rewrite H0. replace (lo * 0) with (0 : F) by ring. replace (hi * 0) with (0 : F) by ring. split; apply fle_refl.
    - destruct IH as [I1 I2]; [intros; apply Hl; right; auto|]. destruct (Hl eo (or_introl eq_refl)) as [B1 B2].
      rewrite Ha, Hs. pose proof (prob_pos energies (fst eo) Hne) as Hp. apply flt_le in Hp.
      set (q := probability fexp kT energies (fst eo)) in *. split.
      + replace (lo * (q + ftotal (map (fun eo0 => probability fexp kT energies (fst eo0)) l))) with (q * lo + lo * ftotal (map (fun eo0 => probability fexp kT energies (fst eo0)) l)) by ring.
        apply fadd_le; auto. apply fmul_le_l; auto.
      + replace (hi * (q + ftotal (map (fun eo0 => probability fexp kT energies (fst eo0)) l))) with (q * hi + hi * ftotal (map (fun eo0 => probability fexp kT energies (fst eo0)) l)) by ring.
        apply fadd_le; auto. apply fmul_le_l; auto. }
  destruct (G (combine energies obs)) as [G1 G2].
  { intros [e o] Hi'. apply in_combine_r in Hi'. apply Hb. auto. }
  rewrite <- (map_map fst (probability fexp kT energies)) in G1, G2. destruct (combine_fst_snd _ _ HL) as [EF _]. rewrite EF, prob_sum in G1, G2 by auto.
  replace (lo * 1) with lo in G1 by ring. replace (hi * 1) with hi in G2 by ring. auto.
Qed.
Lemma avg_re_bounds energies obs m r i lo hi :
  energies <> [] -> length energies = length obs -> (forall o, In o obs -> length o = m) -> (i < m)%nat ->
  thermal_average fexp kB energies obs T = Ok r ->
  (forall o, In o obs -> lo <= re (nth i o c0) /\ re (nth i o c0) <= hi) -> lo <= re (nth i r c0) /\ re (nth i r c0) <= hi.
Proof. apply avg_bounds; try reflexivity. intros w x. unfold creal, cmul; simpl. ring. Qed.
Lemma avg_im_bounds energies obs m r i lo hi :
  energies <> [] -> length energies = length obs -> (forall o, In o obs -> length o = m) -> (i < m)%nat ->
  thermal_average fexp kB energies obs T = Ok r ->
  (forall o, In o obs -> lo <= im (nth i o c0) /\ im (nth i o c0) <= hi) -> lo <= im (nth i r c0) /\ im (nth i r c0) <= hi.
Proof. apply avg_bounds; try reflexivity. intros w x. unfold creal, cmul; simpl. ring. Qed.
End E.

Lemma avg_errors kB T energies (obs : list (list (cx F))) :
  (energies = [] \/ length energies <> length obs \/ (exists o o', In o obs /\ In o' obs /\ length o <> length o')) ->
  thermal_average fexp kB energies obs T = Err ValueError.
Proof.
  intros H. unfold thermal_average. destruct (np_shape0 obs) as [n|e] eqn:En.
  - assert (Hn : n = length obs /\ forall o o', In o obs -> In o' obs -> length o = length o').
    { destruct obs as [|o obs]; simpl in En; [injection En as <-; split; auto; intros ? ? []|].
      destruct (forallb _ obs) eqn:Ef; [|discriminate]. injection En as <-. split; auto.
      rewrite forallb_forall in Ef. assert (G : forall x, In x (o :: obs) -> length x = length o).
      { intros x [<-|Hx]; auto. apply Ef in Hx. apply Nat.eqb_eq in Hx. auto. }
      intros x y Hx Hy. rewrite (G x Hx), (G y Hy). auto. }
    destruct Hn as [-> Hr]. cbn [bind]. destruct (Nat.eqb_spec (length energies) (length obs)) as [El|El]; cbn [negb]; auto.
    destruct H as [->|[H|(o & o' & Ho & Ho' & H)]]; [reflexivity|contradiction|exfalso; apply H; auto].
  - cbn [bind]. destruct obs as [|o obs]; simpl in En; [discriminate|]. destruct (forallb _ obs); [discriminate|]. congruence.
Qed.
End Avg.
