(* Lemmas on Boltzmann means: sums, bounds and the arguments of the exponential function. *)
From Verif Require Import M_Prelude M_Scalar M_PSR M_Ladder M_State M_Basis M_Average M_Expect M_Main.
From Verif Require Import S_Fock S_Basis S_Expect S_Thermal S_Print S_Green.
From Verif Require Import L_Scalar L_Sum L_Dict L_Fock L_State L_Average L_Expect L_Expect2 L_Expect3 L_Expect5 L_Expect7 L_Main2 L_Main3.
From Coq Require Import Field Ring.

Section L.
Context {F : ofield}.
Add Field Ff : (f_field F).
Add Ring Cring : (@c_ring F).
Add Field Cf : (@c_field F).
Local Open Scope of_scope.
Variable fexp : F -> F.

Lemma ctotal_ext {A} (f g : A -> cx F) l : (forall a, In a l -> f a = g a) -> ctotal (map f l) = ctotal (map g l).
Proof. intros H. f_equal. apply map_ext_in. auto. Qed.
Lemma ctotal_add {A} (f g : A -> cx F) l : ctotal (map (fun a => cadd (f a) (g a)) l) = cadd (ctotal (map f l)) (ctotal (map g l)).
Proof. induction l as [|a l IH]; simpl; [|rewrite IH]; ring. Qed.
Lemma mean_ext kT sel f g : (forall ep, In ep sel -> f ep = g ep) -> boltz_mean fexp kT sel f = boltz_mean fexp kT sel g.
Proof. intros H. apply ctotal_ext. intros ep Hin. now rewrite (H ep). Qed.
Lemma mean_add kT sel f g : boltz_mean fexp kT sel (fun ep => cadd (f ep) (g ep)) = cadd (boltz_mean fexp kT sel f) (boltz_mean fexp kT sel g).
Proof. unfold boltz_mean. rewrite <- ctotal_add. apply ctotal_ext. intros. ring. Qed.
Lemma mean_bounds kT sel f lo hi : exp_laws fexp -> sel <> [] ->
  (forall ep, In ep sel -> exists x, f ep = creal x /\ lo <= x /\ x <= hi) ->
  exists x, boltz_mean fexp kT sel f = creal x /\ lo <= x /\ x <= hi.
Proof.
  intros HE Hne H. unfold boltz_mean. assert (Hne' : map fst sel <> []) by (destruct sel; [contradiction|discriminate]).
  pose proof (fun e => prob_pos fexp HE kT (map fst sel) e Hne') as Hp. pose proof (prob_sum fexp HE kT (map fst sel) Hne') as Hs.
  revert Hp Hs. generalize (probability fexp kT (map fst sel)). intros w Hp Hs. rewrite map_map in Hs.
  assert (G : forall l, incl l sel -> exists x, ctotal (map (fun ep => cmul (creal (w (fst ep))) (f ep)) l) = creal x /\
     ftotal (map (fun ep => w (fst ep)) l) * lo <= x /\ x <= ftotal (map (fun ep => w (fst ep)) l) * hi).
  { induction l as [|ep l IH]; intros Hl; simpl; [exists 0; split; [reflexivity|]; split; match goal with |- ?a <= ?b => replace a with (0:F) by ring; replace b with (0:F) by ring end; apply fle_refl|].
    destruct IH as (x & E & H1 & H2); [intros y Hy; apply Hl; right; auto|]. destruct (H ep) as (y & Ey & L1 & L2); [apply Hl; left; auto|].
    exists (w (fst ep) * y + x). rewrite E, Ey. split; [unfold creal, cmul, cadd; simpl; f_equal; ring|].
    pose proof (flt_le _ _ (Hp (fst ep))) as Hw. set (t := ftotal (map (fun ep => w (fst ep)) l)) in *. split.
    - replace ((w (fst ep) + t) * lo) with (w (fst ep) * lo + t * lo) by ring. apply fadd_le; auto. now apply fmul_le_l.
    - replace ((w (fst ep) + t) * hi) with (w (fst ep) * hi + t * hi) by ring. apply fadd_le; auto. now apply fmul_le_l. }
  destruct (G sel (incl_refl _)) as (x & E & H1 & H2). rewrite Hs in H1, H2. exists x. split; [auto|]. replace lo with (1 * lo) by ring. replace hi with (1 * hi) by ring. auto.
Qed.

(* ---- exp is evaluated at non-positive numbers only ---- *)
Lemma fmin_le (x y : F) : fmin x y <= x /\ fmin x y <= y.
Proof. unfold fmin. destruct (y <? x) eqn:E; split; auto using fle_refl, flt_le. Qed.
Lemma np_min_le l m : np_min l = Ok m -> forall e : F, In e l -> m <= e.
Proof.
  destruct l as [|x l]; [discriminate|]. simpl. intros [= <-].
  assert (G : forall (l : list F) a, fold_left fmin l a <= a /\ forall e, In e l -> fold_left fmin l a <= e).
  { clear. induction l as [|y l IH]; intros a; simpl; [split; [apply fle_refl|contradiction]|].
    destruct (IH (fmin a y)) as [H1 H2]. destruct (fmin_le a y) as [H3 H4]. split; [now apply fle_trans with (fmin a y)|].
    intros e [<-|Hin]; [now apply fle_trans with (fmin a y)|auto]. }
  intros e [<-|Hin]; [exact (proj1 (G l x))|exact (proj2 (G l x) e Hin)].
Qed.
Lemma avg_exp_nonpos (fexp' : F -> F) k_B T energies obs : 0 < k_B * T -> (forall x, x <= 0 -> fexp x = fexp' x) ->
  thermal_average fexp k_B energies obs T = thermal_average fexp' k_B energies obs T.
Proof.
  intros HT He. unfold thermal_average. destruct (np_shape0 obs); cbn [bind]; auto. destruct (negb _); auto.
  destruct (np_min energies) as [m|] eqn:Em; cbn [bind]; auto. pose proof (np_min_le _ _ Em) as Hm.
  assert (Hf : forall e, In e energies -> fexp (- (e - m) / (k_B * T)) = fexp' (- (e - m) / (k_B * T))).
  { intros e Hin. apply He. pose proof (flt_not_eq _ _ HT) as Hn.
    assert (Hd : forall x y : F, y <> 0 -> - x / y = - (x / y)) by (intros; field; auto). rewrite Hd by auto. replace (0 : F) with (- (0) : F) by ring. apply fopp_le.
    apply fdiv_nonneg; auto. apply fsub_nonneg; auto. }
  f_equal. match goal with |- map ?f (snd ?a) = map ?g (snd ?b) => assert (E : a = b); [|now rewrite E] end.
  assert (G : forall l st, incl (map fst l) energies -> fold_left (fun st eo => (fst st + fexp (- (fst eo - m) / (k_B * T)), vadd (snd st) (vscale (fexp (- (fst eo - m) / (k_B * T))) (snd eo)))) l st =
     fold_left (fun st eo => (fst st + fexp' (- (fst eo - m) / (k_B * T)), vadd (snd st) (vscale (fexp' (- (fst eo - m) / (k_B * T))) (snd eo)))) l st).
  { induction l as [|eo l IH]; intros st Hl; simpl; auto. rewrite Hf by (apply Hl; left; auto). apply IH. intros y Hy. apply Hl. right; auto. }
  apply G. intros e Hin. apply in_map_iff in Hin as ([e' o] & <- & Hin). now apply in_combine_l in Hin.
Qed.
End L.

Section Sum.
Context {F : ofield}.
Add Field Ff2 : (f_field F).
Add Ring Cring2 : (@c_ring F).
Variable fsqrt fexp : F -> F.
Hypothesis HE : exp_laws fexp.
Hypothesis HS : sqrt_laws fsqrt.
Variable nb : nbaths_t.
Hypothesis Hsh : has_shell nb 2.
Variable u : list (list (cx F)).
Hypothesis Hu : get_spherical_2_cubic_matrix fsqrt false 2 = Ok u.
Variable kT e0 : F.
Variable sel : list (F * psi_t F).
Hypothesis Hvs : forall ep, In ep sel -> valid_psi (n_orb nb) (snd ep).
Let mean i := boltz_mean fexp kT sel (nth i (observables fsqrt nb u e0) (fun _ => c0)).

Lemma mean_N_sum : mean 1 = (mean 2 + (mean 3 + (mean 4 + mean 5)))%C.
Proof.
  unfold mean. rewrite <- !mean_add. apply mean_ext. intros ep Hin. cbn [nth observables].
  destruct (occ_u F fsqrt nb Hsh HS (snd ep) (Hvs ep Hin) u Hu) as (a & b & c & d & _ & E1 & E2 & E3 & E4 & _ & _ & _ & _ & _ & _ & _ & _ & ET).
  destruct (trace_agree nb (snd ep) 2 Hsh (Hvs ep Hin)) as (v & Ev & EN & _). rewrite Ev in ET. assert (v = (a + b + c + d)%F) by congruence. subst v.
  rewrite <- EN, <- E1, <- E2, <- E3, <- E4. unfold creal, cadd. simpl. f_equal; ring.
Qed.
Lemma mean_N_bounds : sel <> [] -> (forall ep, In ep sel -> (norm2 (snd ep) <= 1)%F) ->
  exists x, mean 1 = creal x /\ (0 <= x)%F /\ (x <= fofZ 10)%F.
Proof.
  intros Hne Hn. apply mean_bounds; auto. intros ep Hin. cbn [nth observables].
  destruct (occ_u F fsqrt nb Hsh HS (snd ep) (Hvs ep Hin) u Hu) as (a & b & c & d & _ & _ & _ & _ & _ & A0 & A1 & B0 & B1 & C0 & C1 & D0 & D1 & ET).
  destruct (trace_agree nb (snd ep) 2 Hsh (Hvs ep Hin)) as (v & Ev & EN & _). rewrite Ev in ET. assert (v = (a + b + c + d)%F) by congruence. subst v.
  exists (a + b + c + d)%F. split; [symmetry; exact EN|]. split; [repeat apply fadd_nonneg; auto|].
  apply fle_trans with (fofZ 10 * norm2 (snd ep))%F.
  - replace (fofZ 10 : F) with (fofZ 2 + fofZ 2 + fofZ 3 + fofZ 3 : F)%F by (rewrite <- !fofZ_add; reflexivity).
    match goal with |- (_ <= ?x)%F => replace x with (fofZ 2 * norm2 (snd ep) + fofZ 2 * norm2 (snd ep) + fofZ 3 * norm2 (snd ep) + fofZ 3 * norm2 (snd ep))%F by ring end.
    repeat apply fadd_le; auto.
  - match goal with |- (_ <= ?x)%F => replace x with (fofZ 10 * 1 : F)%F at 1 by ring end. apply fmul_le_l; auto.
    replace (0:F)%F with (@fofZ F 0) by reflexivity. apply L_Main2.fofZ_mono. lia.
Qed.
End Sum.
