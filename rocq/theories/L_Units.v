(* Another unit of energy: the Hamiltonians of the program. *)
From Coq Require Import Ring Field.
From Verif Require Import M_Prelude M_Scalar M_PSR M_State M_Mpi M_Hamiltonian M_Basis M_Expect M_Operators S_Fock S_Operators S_Units.
From Verif Require Import L_Scalar L_Ham.
Local Open Scope Z_scope.

Lemma fold_left_phi {A B} (phi : B -> B) (f g : B -> A -> B) l : (forall b a, phi (f b a) = g (phi b) a) -> forall b, phi (fold_left f l b) = fold_left g l (phi b).
Proof. intros H. induction l as [|a l IH]; intros b; cbn [fold_left]; auto. rewrite IH, H. reflexivity. Qed.
Lemma fold_left_onmap {A A' B} (f : B -> A' -> B) (h : A -> A') l : forall b, fold_left f (map h l) b = fold_left (fun b a => f b (h a)) l b.
Proof. induction l as [|a l IH]; intros b; cbn [fold_left map]; auto. Qed.
Lemma fold_res_phi {A B} (phi : B -> B) (f g : B -> A -> res B) l : (forall b a, rmap phi (f b a) = g (phi b) a) -> forall b, rmap phi (fold_res f l b) = fold_res g l (phi b).
Proof. intros H. induction l as [|a l IH]; intros b; cbn [fold_res]; auto. rewrite <- H. destruct (f b a) as [b'|e]; cbn [bind rmap]; auto. Qed.
Lemma fold_res_onmap {A A' B} (f : B -> A' -> res B) (h : A -> A') l : forall b, fold_res f (map h l) b = fold_res (fun b a => f b (h a)) l b.
Proof. induction l as [|a l IH]; intros b; cbn [fold_res map]; auto. destruct (f b (h a)); cbn [bind]; auto. Qed.
Lemma enumerate_onmap {A B} (h : A -> B) l : enumerate (map h l) = map (fun ka => (fst ka, h (snd ka))) (enumerate l).
Proof. unfold enumerate. rewrite map_length. generalize (seq 0 (length l)). induction l as [|a l IH]; intros [|k s]; cbn [combine map]; auto. rewrite IH. reflexivity. Qed.
Lemma py_nth_onmap {A B} (h : A -> B) l i : py_nth (map h l) i = rmap h (py_nth l i).
Proof. unfold py_nth. rewrite map_length. destruct (py_index (length l) i) as [k|]; auto. rewrite nth_error_map. destruct (nth_error l k); auto. Qed.

Section S.
Context {F : ofield}.
Add Field Ff : (f_field F).
Add Field Cf : (@c_field F).
Local Open Scope of_scope.
Variable x : F.
Hypothesis Hx : x <> 0.
Notation X := (@op_in_unit F x _).
Lemma pos_neq0 z : (0 < z)%Z -> @fofZ F z <> 0.
Proof. intros H E. pose proof (fofZ_pos z H : (0 < @fofZ F z) ) as P. rewrite E, flt_irrefl in P. discriminate. Qed.
Lemma two_neq0 : @fofZ F 2 <> 0.
Proof. apply pos_neq0. lia. Qed.
Lemma creal_mul (a b : F) : creal (a * b) = (creal a * creal b)%C.
Proof. unfold creal, cmul. cbn [re im]. f_equal; ring. Qed.
Lemma xnz : creal x <> c0.
Proof. intros E. apply Hx. exact (f_equal re E). Qed.
Lemma ceqb_unit (v w : cx F) : ceqb (creal x * v)%C (creal x * w)%C = ceqb v w.
Proof.
  destruct (ceqb_spec v w) as [->|N]; [destruct (ceqb_spec (creal x * w)%C (creal x * w)%C); congruence|].
  destruct (ceqb_spec (creal x * v)%C (creal x * w)%C) as [E|]; auto. elim N. pose proof xnz as Z.
  transitivity ((creal x * v) / creal x)%C; [field; auto|]. rewrite E. field. auto.
Qed.
Lemma ceqb_unit0 (v : cx F) : ceqb (creal x * v)%C c0 = ceqb v c0.
Proof. rewrite <- (ceqb_unit v c0). f_equal. ring. Qed.
Lemma feqb_unit0 (v : F) : feqb (x * v) 0 = feqb v 0.
Proof.
  destruct (feqb_spec v 0) as [->|N]; [destruct (feqb_spec (x * 0) 0) as [|C]; auto; elim C; ring|].
  destruct (feqb_spec (x * v) 0) as [E|]; auto. elim N. transitivity ((x * v) / x); [field; auto|]. rewrite E. field. auto.
Qed.
Section D.
Context {K : Type} {EK : EqB K}.
Lemma dget_unit (d : dict K (cx F)) k : dget (X d) k = option_map (fun v => creal x * v)%C (dget d k).
Proof. induction d as [|[k' v] d IH]; cbn [op_in_unit map dget fst snd]; auto. destruct (eqb k k'); auto. Qed.
Lemma dset_unit (d : dict K (cx F)) k v : X (dset d k v) = dset (X d) k (creal x * v)%C.
Proof. induction d as [|[k' v'] d IH]; cbn [op_in_unit map dset fst snd]; auto. destruct (eqb k k'); cbn [map fst snd]; auto. unfold op_in_unit in IH. rewrite IH. reflexivity. Qed.
Lemma dadd_unit (d : dict K (cx F)) k v : X (dadd d k v) = dadd (X d) k (creal x * v)%C.
Proof. unfold dadd. rewrite dget_unit. destruct (dget d k) as [w|]; cbn [option_map]; rewrite dset_unit; [|reflexivity]. f_equal. ring. Qed.
End D.
Lemma addOps_unit {A} {EA : EqB A} (ops : list (gop A F)) : X (addOps ops) = addOps (map (fun op : gop A F => X op) ops).
Proof.
  unfold addOps. rewrite fold_left_onmap. apply (fold_left_phi (fun op : gop A F => X op)). intros b op. unfold op_in_unit at 2. rewrite fold_left_onmap.
  apply (fold_left_phi (fun op : gop A F => X op)). intros d [k v]. cbn [fst snd]. rewrite ceqb_unit0. destruct (ceqb v c0); cbn [negb]; auto. apply dadd_unit.
Qed.
Lemma cconj_unit v : cconj (creal x * v)%C = (creal x * cconj v)%C.
Proof. unfold cconj, creal, cmul. cbn [re im]. f_equal; ring. Qed.
Lemma dagger_unit {A} {EA : EqB A} (op : gop A F) : daggerOp (X op : gop A F) = rmap (fun d : gop A F => X d) (daggerOp op).
Proof.
  unfold daggerOp. unfold op_in_unit at 1. rewrite fold_res_onmap. symmetry. apply (fold_res_phi (fun op : gop A F => X op)). intros d [p v]. cbn [fst snd].
  destruct (dagger_process p) as [p'|e]; cbn [bind rmap]; auto. rewrite dset_unit, cconj_unit. reflexivity.
Qed.
Lemma dict_eqb_unit {K} {EK : EqB K} (d e : dict K (cx F)) : dict_eqb (X d) (X e) = dict_eqb d e.
Proof.
  assert (L : forall d : dict K (cx F), length (X d) = length d) by (intros; apply map_length). unfold dict_eqb. rewrite !L. f_equal. clear L.
  change (X d) with (map (fun kv : K * cx F => (fst kv, (creal x * snd kv)%C)) d). induction d as [|[k v] d IH]; cbn [map forallb fst snd]; auto.
  rewrite IH. f_equal. rewrite dget_unit. destruct (dget e k); cbn [option_map]; auto. apply ceqb_unit.
Qed.
Lemma hermitian_unit {A} {EA : EqB A} (op : gop A F) : assert_hermitian (X op : gop A F) = assert_hermitian op.
Proof. unfold assert_hermitian. rewrite dagger_unit. destruct (daggerOp op) as [d|e]; cbn [bind rmap]; auto. rewrite dict_eqb_unit. reflexivity. Qed.
Lemma to_index_unit nb (op : sop_t F) : to_index nb (X op : sop_t F) = rmap (fun d : op_t F => X d) (to_index nb op).
Proof.
  unfold to_index. unfold op_in_unit at 1. rewrite fold_res_onmap. symmetry. apply (fold_res_phi (fun op : op_t F => X op)). intros d [p v]. cbn [fst snd].
  destruct (map_res _ p) as [p'|e]; cbn [bind rmap]; auto. rewrite dset_unit. reflexivity.
Qed.
Variable fsqrt : F -> F.
Variable pi : F.
Variable gaunt : Z -> Z -> Z -> Z -> Z -> Z -> F.
Variable fint : F -> Z.
Lemma getU_unit l1 m1 l2 m2 l3 m3 l4 m4 R : getU fsqrt pi gaunt l1 m1 l2 m2 l3 m3 l4 m4 (energies_in x R) = x * getU fsqrt pi gaunt l1 m1 l2 m2 l3 m3 l4 m4 R.
Proof.
  unfold getU, energies_in. destruct (m1 + m2 =? m3 + m4)%Z; [|ring]. rewrite enumerate_onmap, fold_left_onmap.
  assert (E : (0 : F) = x * 0) by ring. rewrite E at 1. symmetry. apply (fold_left_phi (fun u => x * u)). intros u [k r]. cbn [fst snd]. ring.
Qed.
Lemma half_unit u : creal (x * u / fofZ 2) = (creal x * creal (u / fofZ 2))%C.
Proof. rewrite <- creal_mul. f_equal. field. apply two_neq0. Qed.
Lemma getUop_unit l1 l2 l3 l4 R : getUop fsqrt pi gaunt l1 l2 l3 l4 (energies_in x R) = X (getUop fsqrt pi gaunt l1 l2 l3 l4 R).
Proof.
  unfold getUop. symmetry.
  apply (fold_left_phi (fun d : sop_t F => X d)). intros d1 m1. apply (fold_left_phi (fun d : sop_t F => X d)). intros d2 m2. apply (fold_left_phi (fun d : sop_t F => X d)). intros d3 m3. apply (fold_left_phi (fun d : sop_t F => X d)). intros d4 m4.
  rewrite getU_unit, feqb_unit0. destruct (feqb (getU fsqrt pi gaunt l1 m1 l2 m2 l3 m3 l4 m4 R) 0); cbn [negb]; auto.
  apply (fold_left_phi (fun d : sop_t F => X d)). intros d5 s. apply (fold_left_phi (fun d : sop_t F => X d)). intros d6 sp.
  destruct (negb _); auto. rewrite half_unit. apply dset_unit.
Qed.
Lemma uop_unit a b c d : get2p3dSlaterCondonUop fsqrt pi gaunt (energies_in x a) (energies_in x b) (energies_in x c) (energies_in x d) = X (get2p3dSlaterCondonUop fsqrt pi gaunt a b c d).
Proof. unfold get2p3dSlaterCondonUop. cbv zeta. rewrite !getUop_unit. rewrite addOps_unit. cbn [map]. rewrite !addOps_unit. reflexivity. Qed.
Lemma soc_unit xi l : getSOCop fsqrt (x * xi) l = X (getSOCop fsqrt xi l).
Proof.
  unfold getSOCop. cbv zeta. symmetry.
  match goal with |- X (fold_left ?f ?l (fold_left ?g ?l' [])) = fold_left ?f' _ (fold_left ?g' _ _) => assert (E : X (fold_left g l' []) = fold_left g' l' []) end.
  - apply (fold_left_phi (fun d : sop_t F => X d)). intros d1 m. apply (fold_left_phi (fun d : sop_t F => X d)). intros d2 s. rewrite dset_unit, <- creal_mul. do 2 f_equal. ring.
  - rewrite <- E. apply (fold_left_phi (fun d : sop_t F => X d)). intros d m. rewrite !dset_unit, <- !creal_mul.
    replace (x * xi / fofZ 2 * fsqrt (fofZ ((l - m) * (l + m + 1)))) with (x * (xi / fofZ 2 * fsqrt (fofZ ((l - m) * (l + m + 1))))) by (field; apply two_neq0). reflexivity.
Qed.
Lemma field_unit hx hy hz l : gethHfieldop (x * hx) (x * hy) (x * hz) l = X (gethHfieldop hx hy hz l).
Proof.
  unfold gethHfieldop. cbv zeta. symmetry. apply (fold_left_phi (fun d : sop_t F => X d)). intros d m.
  match goal with |- X (fold_left ?f ?l ?b) = fold_left ?f' ?l ?b' => transitivity (fold_left f' l (X b)) end.
  - apply (fold_left_phi (fun d : sop_t F => X d)). intros d1 s. rewrite dset_unit, <- creal_mul. do 2 f_equal. destruct (s =? 1)%Z; field; apply two_neq0.
  - f_equal. rewrite !dadd_unit, !dset_unit, <- !creal_mul. 
    replace (x * hx / fofZ 2) with (x * (hx / fofZ 2)) by (field; apply two_neq0).
    assert (C2 : @cofZ F 2 <> c0) by (intros E; apply two_neq0; exact (f_equal re E)).
    assert (E1 : (creal x * (creal (- hy) * cI / cofZ 2))%C = (creal (- (x * hy)) * cI / cofZ 2)%C).
    { replace (- (x * hy)) with (x * - hy) by ring. rewrite creal_mul. field. auto. }
    assert (E2 : (creal x * (creal hy * cI / cofZ 2))%C = (creal (x * hy) * cI / cofZ 2)%C) by (rewrite creal_mul; field; auto).
    rewrite E1, E2. reflexivity.
Qed.
Definition dc_in (d : dc_value) : @dc_value F := match d with DC1 a => DC1 (x * a) | DC2 a b => DC2 (x * a) (x * b) end.
Lemma dc_unit n3d c Fdd n2p Fpd Gpd : dc_MLFT fint n3d (x * c) (energies_in x Fdd) n2p (option_map (energies_in x) Fpd) (option_map (energies_in x) Gpd) = rmap dc_in (dc_MLFT fint n3d c Fdd n2p Fpd Gpd).
Proof.
  unfold dc_MLFT. destruct (negb (is_int fint n3d)); auto. destruct (match n2p with Some n => _ | None => _ end); auto. unfold energies_in. rewrite !py_nth_onmap.
  destruct (py_nth Fdd 0) as [F0|]; cbn [rmap bind]; auto. destruct (py_nth Fdd 2) as [F2|]; cbn [rmap bind]; auto. destruct (py_nth Fdd 4) as [F4|]; cbn [rmap bind]; auto. cbv zeta.
  assert (N441 : @fofZ F 441 <> 0) by (apply pos_neq0; lia).
  destruct n2p as [n|], Fpd as [fpd|], Gpd as [gpd|]; cbn [option_map]; auto.
  - destruct (feqb n (fofZ 6)); auto. rewrite !py_nth_onmap. destruct (py_nth fpd 0) as [P0|]; cbn [rmap bind]; auto. destruct (py_nth gpd 1) as [G1|]; cbn [rmap bind]; auto. destruct (py_nth gpd 3) as [G3|]; cbn [rmap bind dc_in]; auto.
    assert (N15 : @fofZ F 15 <> 0) by (apply pos_neq0; lia). assert (N70 : @fofZ F 70 <> 0) by (apply pos_neq0; lia).
    do 2 f_equal; field; auto.
  - cbn [rmap dc_in]. do 2 f_equal. field; auto.
Qed.
Lemma eDC_unit dc : eDCop (map (fun d => x * d) dc) = rmap (fun d : sop_t F => X d) (eDCop dc).
Proof.
  unfold eDCop. symmetry.
  apply (fold_res_phi (fun d : sop_t F => X d)). intros d1 il. apply (fold_res_phi (fun d : sop_t F => X d)). intros d2 s. apply (fold_res_phi (fun d : sop_t F => X d)). intros d3 m.
  unfold nth_res. rewrite nth_error_map. destruct (nth_error dc (fst il)) as [d|]; cbn [option_map bind rmap]; auto. rewrite dset_unit, <- creal_mul. do 3 f_equal. ring.
Qed.
Lemma total_unit nb hp (h0 : res (sop_t F)) : total_hamiltonian fsqrt pi gaunt fint nb (params_in x hp) (rmap (fun d : sop_t F => X d) h0) = rmap (fun d : op_t F => X d) (total_hamiltonian fsqrt pi gaunt fint nb hp h0).
Proof.
  unfold total_hamiltonian, params_in. cbn [hp_Fdd hp_Fpp hp_Fpd hp_Gpd hp_xi_2p hp_xi_3d hp_n0imps hp_ctc hp_hx hp_hy hp_hz]. cbv zeta.
  destruct (dgetitem (hp_n0imps hp) 2%Z) as [n3d|]; cbn [bind rmap]; auto. destruct (dgetitem (hp_n0imps hp) 1%Z) as [n2p|]; cbn [bind rmap]; auto.
  pose proof (dc_unit (fofZ n3d) (hp_ctc hp) (hp_Fdd hp) (Some (fofZ n2p)) (Some (hp_Fpd hp)) (Some (hp_Gpd hp))) as D. cbn [option_map] in D. rewrite D.
  destruct (dc_MLFT fint (fofZ n3d) (hp_ctc hp) (hp_Fdd hp) (Some (fofZ n2p)) (Some (hp_Fpd hp)) (Some (hp_Gpd hp))) as [[d|d p]|e]; cbn [bind rmap dc_in]; [reflexivity| |reflexivity]. change [x * d; x * p] with (map (fun d => x * d) [d; p]). rewrite eDC_unit.
  destruct (eDCop [d; p]) as [ed|e]; cbn [bind rmap]; auto. destruct h0 as [h|e]; cbn [bind rmap]; auto.
  rewrite uop_unit, field_unit, !soc_unit.
  pose proof (addOps_unit (A := spinorb) [get2p3dSlaterCondonUop fsqrt pi gaunt (hp_Fdd hp) (hp_Fpp hp) (hp_Fpd hp) (hp_Gpd hp); gethHfieldop (hp_hx hp) (hp_hy hp) (hp_hz hp) 2; getSOCop fsqrt (hp_xi_2p hp) 1; getSOCop fsqrt (hp_xi_3d hp) 2; ed; h]) as AO.
  cbn [map] in AO. match type of AO with ?l = _ => match goal with |- (do o <- to_index nb ?z; _) = _ => replace z with l by exact AO end end. clear AO.
  rewrite to_index_unit. destruct (to_index nb _) as [o|e]; cbn [bind rmap]; auto. rewrite (hermitian_unit (A := Z)). destruct (assert_hermitian o); cbn [bind rmap]; auto.
Qed.
Lemma pickle_unit nb hp (h0 : sop_t F) : get_hamiltonian_operator fsqrt pi gaunt fint nb (params_in x hp) (X h0) = rmap (fun d : op_t F => X d) (get_hamiltonian_operator fsqrt pi gaunt fint nb hp h0).
Proof. exact (total_unit nb hp (Ok h0)). Qed.

(* ---- the crystal field ---- *)
Notation MX := (map (map (fun v : cx F => creal x * v)%C)).
Lemma entry_unit (a : list (list (cx F))) i j : entry (MX a) i j = (creal x * entry a i j)%C.
Proof.
  unfold entry. change (@nil (cx F)) with (map (fun v : cx F => creal x * v)%C []) at 1. rewrite map_nth.
  transitivity (nth j (map (fun v : cx F => creal x * v)%C (nth i a [])) ((fun v : cx F => creal x * v)%C c0)); [f_equal; ring|apply (map_nth (fun v : cx F => creal x * v)%C)].
Qed.
Lemma dot_unit_r (a b : list (list (cx F))) : dot a (MX b) = MX (dot a b).
Proof.
  unfold dot. rewrite map_map. apply map_ext. intros i. rewrite map_map. apply map_ext. intros j.
  replace (@c0 F) with (creal x * c0)%C at 1 by ring. symmetry. apply (fold_left_phi (fun v : cx F => creal x * v)%C). intros s k. rewrite entry_unit. ring.
Qed.
Lemma dot_unit_l (a b : list (list (cx F))) : dot (MX a) b = MX (dot a b).
Proof.
  unfold dot. rewrite map_length, map_map. apply map_ext. intros i. rewrite map_map. apply map_ext. intros j.
  replace (@c0 F) with (creal x * c0)%C at 1 by ring. symmetry. apply (fold_left_phi (fun v : cx F => creal x * v)%C). intros s k. rewrite entry_unit. ring.
Qed.
Lemma diag_unit a b : diag (eg_t2g (x * a) (x * b)) = MX (diag (eg_t2g a b)).
Proof.
  change (eg_t2g (x * a) (x * b)) with (map (fun d => x * d) (eg_t2g a b)). unfold diag. rewrite enumerate_onmap, !map_map. rewrite map_length. apply map_ext. intros [i d]. cbn [fst snd]. rewrite map_map. apply map_ext. intros j.
  destruct (Nat.eqb j i); [apply creal_mul|ring].
Qed.
Lemma mget_unit (m : list (list (cx F))) i j : mget (MX m) i j = rmap (fun v : cx F => creal x * v)%C (mget m i j).
Proof. unfold mget. rewrite py_nth_onmap. destruct (py_nth m i) as [r|]; cbn [rmap bind]; auto. apply py_nth_onmap. Qed.
Definition X2 (ops : sop_t F * sop_t F) : sop_t F * sop_t F := (X (fst ops), X (snd ops)).
Lemma CF_unit nb nv p basis : get_CF_hamiltonian fsqrt nb nv (cf_in x p) basis = rmap (fun d : sop_t F => X d) (get_CF_hamiltonian fsqrt nb nv p basis).
Proof.
  unfold get_CF_hamiltonian, cf_in. cbn [e_imp e_deltaO_imp e_val_eg e_val_t2g e_con_eg e_con_t2g v_val_eg v_val_t2g v_con_eg v_con_t2g]. cbv zeta.
  destruct (get_spherical_2_cubic_matrix fsqrt false 2) as [u|e]; cbn [bind rmap]; auto.
  assert (N5 : @fofZ F 5 <> 0) by (apply pos_neq0; lia).
  replace (x * e_imp p + fofZ 3 / fofZ 5 * (x * e_deltaO_imp p)) with (x * (e_imp p + fofZ 3 / fofZ 5 * e_deltaO_imp p)) by (field; auto).
  replace (x * e_imp p - fofZ 2 / fofZ 5 * (x * e_deltaO_imp p)) with (x * (e_imp p - fofZ 2 / fofZ 5 * e_deltaO_imp p)) by (field; auto).
  rewrite !diag_unit, !dot_unit_l, !dot_unit_r.
  match goal with |- (do o <- fold_res ?f ?l []; _) = rmap _ (do o <- fold_res ?g ?l []; _) => assert (E : fold_res f l [] = rmap (fun d : sop_t F => X d) (fold_res g l [])) end.
  { symmetry. apply (fold_res_phi (fun d : sop_t F => X d)). intros d1 im. apply (fold_res_phi (fun d : sop_t F => X d)). intros d2 jm. rewrite mget_unit.
    match goal with |- context [mget ?m ?i ?j] => destruct (mget m i j) as [h|] end; cbn [bind rmap]; auto. rewrite ceqb_unit0. destruct (ceqb h c0); cbn [negb]; auto. f_equal.
    apply (fold_left_phi (fun d : sop_t F => X d)). intros d3 s. apply dset_unit. }
  rewrite E. clear E. match goal with |- (do o <- rmap _ ?r; _) = _ => destruct r as [himp|e] end; cbn [bind rmap]; auto.
  destruct (match basis with Spherical => Ok u | Cubic => Ok (eye (length u)) | OtherBasis => Err GenericException end) as [ub|e]; cbn [bind rmap]; auto.
  rewrite !dot_unit_l, !dot_unit_r.
  destruct (dgetitem nb (KInt 2)) as [nB|]; cbn [bind rmap]; auto. destruct (dgetitem nv (KInt 2)) as [nV|]; cbn [bind rmap]; auto.
  match goal with |- (do o <- fold_res ?f ?l ?b; _) = rmap _ (do o <- fold_res ?g ?l ?b; _) => assert (E : fold_res f l b = rmap X2 (fold_res g l b)) end.
  { symmetry. apply (fold_res_phi X2). intros d1 s. apply (fold_res_phi X2). intros d2 im. apply (fold_res_phi X2). intros d3 jm. rewrite !mget_unit.
    match goal with |- context [mget ?m ?i ?j] => destruct (mget m i j) as [v|] end; cbn [bind rmap]; auto.
    match goal with |- context [mget ?m ?i ?j] => destruct (mget m i j) as [e|] end; cbn [bind rmap]; auto.
    assert (AB : forall (v e : cx F) (s mj bi bj : Z) (ops : sop_t F * sop_t F),
      X2 (let '(h_hopp, e_bath) := ops in
          (if negb (ceqb v c0) then dset (dset h_hopp [cre_ (SBath (KInt 2) bi); ann_ (SImp 2 s mj)] v) [cre_ (SImp 2 s mj); ann_ (SBath (KInt 2) bi)] (cconj v) else h_hopp,
           if negb (ceqb e c0) then dset e_bath [cre_ (SBath (KInt 2) bi); ann_ (SBath (KInt 2) bj)] e else e_bath)) =
      (let '(h_hopp, e_bath) := X2 ops in
          (if negb (ceqb (creal x * v)%C c0) then dset (dset h_hopp [cre_ (SBath (KInt 2) bi); ann_ (SImp 2 s mj)] (creal x * v)%C) [cre_ (SImp 2 s mj); ann_ (SBath (KInt 2) bi)] (cconj (creal x * v)%C) else h_hopp,
           if negb (ceqb (creal x * e)%C c0) then dset e_bath [cre_ (SBath (KInt 2) bi); ann_ (SBath (KInt 2) bj)] (creal x * e)%C else e_bath))).
    { intros v' e' s' mj bi bj [a b]. unfold X2. cbn [fst snd]. rewrite !ceqb_unit0. f_equal; [destruct (ceqb v' c0)|destruct (ceqb e' c0)]; cbn [negb]; auto; rewrite !dset_unit, ?cconj_unit; reflexivity. }
    destruct (nB - nV =? 10)%Z.
    - match goal with |- context [mget ?m ?i ?j] => destruct (mget m i j) as [v2|] end; cbn [bind rmap]; auto.
      match goal with |- context [mget ?m ?i ?j] => destruct (mget m i j) as [e2|] end; cbn [bind rmap]; auto. rewrite AB, AB. reflexivity.
    - cbn [rmap]. rewrite AB. reflexivity. }
  rewrite E. clear E. match goal with |- (do o <- rmap _ ?r; _) = _ => destruct r as [[h e]|] end; cbn [bind rmap X2 fst snd]; auto.
  rewrite addOps_unit. reflexivity.
Qed.
End S.
