(* Cubic harmonics: getDensityMatrixCubic and getEgT2gOccupation. *)
From Coq Require Import Field Ring Permutation.
From Verif Require Import M_Prelude M_Scalar M_PSR M_State M_Basis M_Expect S_Fock S_Basis S_Expect
  L_Scalar L_Sum L_Dict L_Fock L_State L_Index L_Ham L_FromH L_PSR L_Expect L_Expect2 L_Expect3 L_Expect4 L_Cubic L_Expect5.
Local Open Scope Z_scope.

Section G.
Context {F : ofield}.
Add Field Ff : (f_field F).
Add Ring Cring : (@c_ring F).
Variable fsqrt : F -> F.
Variable nb : nbaths_t.
Hypothesis Hsh : has_shell nb 2.
Let n := n_orb nb.
Let Hwf : wf_nbaths nb := proj1 Hsh.

Lemma ev_terms (L : list (@term F)) psi : Forall (term_ok nb) L ->
  ev n (one_body nb L) psi = csum (fun xyv => snd xyv * rho nb psi (snd (fst xyv)) (fst (fst xyv)))%C L.
Proof.
  intros HL. unfold n. rewrite (ev_gam nb 2 Hsh) by auto. fold n. unfold gam.
  rewrite (vip_csum_r n _ (fun xyv => E_ (ix nb (fst (fst xyv))) (ix nb (snd (fst xyv))) (amp psi)) snd).
  apply csum_ext. intros [[x y] v] Hi. rewrite Forall_forall in HL. destruct (HL _ Hi) as [Hx Hy]. cbn [fst snd] in *.
  rewrite (rho_E nb 2 Hsh); auto.
Qed.
Definition cm (s : Z) (k : nat) : spinorb := SImp 2 s (Z.of_nat k - 2).
Lemma cm_shell s k : (s = 0 \/ s = 1) -> (k < 5)%nat -> in_shell 2 (cm s k).
Proof. intros Hs Hk. exists s, (Z.of_nat k - 2). split; [reflexivity|lia]. Qed.
Lemma cm_ok s k : (s = 0 \/ s = 1) -> (k < 5)%nat -> coord_ok nb (cm s k).
Proof. intros. apply (in_shell_ok nb 2 Hsh), cm_shell; auto. Qed.
Lemma cub_ok u s i t j : (s = 0 \/ s = 1) -> (t = 0 \/ t = 1) -> Forall (term_ok nb) (@cub_hop F 2 u s i t j).
Proof.
  intros Hs Ht. apply Forall_forall. intros xyv H. unfold cub_hop in H. apply in_flat_map in H. destruct H as (k & Hk & H).
  apply in_map_iff in H. destruct H as (m & <- & Hm). apply in_seq in Hk. apply in_seq in Hm.
  change (Z.to_nat (2 * 2 + 1)) with 5%nat in *. split; cbn [fst snd]; apply cm_ok; auto; lia.
Qed.
Lemma ev_cub (u : list (list (cx F))) s i t j (psi : psi_t F) : (s = 0 \/ s = 1) -> (t = 0 \/ t = 1) ->
  ev n (one_body nb (cub_hop 2 u s i t j)) psi =
  csum (fun k => csum (fun m => at_m u k i * cconj (at_m u m j) * rho nb psi (cm t m) (cm s k))%C (seq 0 5)) (seq 0 5).
Proof.
  intros Hs Ht. rewrite ev_terms by (apply cub_ok; auto). unfold cub_hop. rewrite csum_flat_map. apply csum_ext. intros k _.
  rewrite csum_map. reflexivity.
Qed.
Lemma enum5 : enumerate (mrange 2) = map (fun k => (k, Z.of_nat k - 2)) (seq 0 5).
Proof. reflexivity. Qed.
Lemma py_nth_nat {A} (l : list A) k d : (k < length l)%nat -> py_nth l (Z.of_nat k) = Ok (nth k l d).
Proof.
  intros H. unfold py_nth, py_index. destruct (Z.leb_spec 0 (Z.of_nat k)); [|lia].
  destruct (Z.ltb_spec (Z.of_nat k) (Z.of_nat (length l))); [|lia]. cbn [andb]. rewrite Nat2Z.id, (nth_error_nth' l d) by auto. reflexivity.
Qed.
Lemma mget_at (u : list (list (cx F))) N k i : is_square N u -> (k < N)%nat -> (i < N)%nat -> mget u (Z.of_nat k) (Z.of_nat i) = Ok (at_m u k i).
Proof.
  intros [Hl Hr] Hk Hi. unfold mget. rewrite (py_nth_nat u k []) by lia. cbn [bind]. apply py_nth_nat.
  rewrite Forall_forall in Hr. rewrite (Hr (nth k u [])) by (apply nth_In; lia). auto.
Qed.
Lemma u5_square : is_square 5 (u5 fsqrt).
Proof. split; [reflexivity|]. repeat (apply Forall_cons; [reflexivity|]). apply Forall_nil. Qed.
Lemma dval_dadd {K} `{EqB K} (d : dict K (cx F)) k v k' : dval (dadd d k v) k' = (dval d k' + (if eqb k' k then v else c0))%C.
Proof.
  unfold dadd, dval. destruct (dget d k) as [w|] eqn:E; rewrite dget_dset; destruct (eqb_spec k' k) as [->|]; rewrite ?E; try ring.
Qed.

Definition cterm (psi : psi_t F) (i j : nat) (si sj : Z) (k m : nat) (key : cubkey) : cx F :=
  if eqb key ((si, Z.of_nat i), (sj, Z.of_nat j)) then (cconj (at_m (u5 fsqrt) m i) * rho nb psi (cm si m) (cm sj k) * at_m (u5 fsqrt) k j)%C else c0.
Lemma cubic_sum (psi : psi_t F) : valid_psi n psi ->
  exists d, getDensityMatrixCubic fsqrt nb psi = Ok d /\ forall key, dval d key =
    csum (fun i => csum (fun j => csum (fun si => csum (fun sj => csum (fun k => csum (fun m => cterm psi i j si sj k m key)
      (seq 0 5)) (seq 0 5)) [0; 1]) [0; 1]) (seq 0 5)) (seq 0 5).
Proof.
  intros Hv. unfold getDensityMatrixCubic. destruct (density_entries nb 2 Hsh psi Hv) as (d0 & E0 & _). rewrite E0. cbn [bind].
  rewrite sph2cub_2. cbn [bind]. change (zrange 5) with (map Z.of_nat (seq 0 5)). change (zrange 2) with [0; 1]. rewrite enum5.
  rewrite fold_res_map.
  match goal with |- exists d, fold_res ?f ?l [] = Ok d /\ _ =>
    destruct (fold_res_add (@dval F cubkey _) (fun i key => csum (fun j => csum (fun si => csum (fun sj => csum (fun k => csum (fun m => cterm psi i j si sj k m key)
      (seq 0 5)) (seq 0 5)) [0; 1]) [0; 1]) (seq 0 5)) f l) with (s := @nil (cubkey * cx F)) as (d & E & G)
  end.
  2:{ exists d. split; [exact E|]. intros key. rewrite G. change (dval [] key) with (@c0 F). ring. }
  intros d i Hi. rewrite fold_res_map.
  apply (fold_res_add (@dval F cubkey _) (fun j key => csum (fun si => csum (fun sj => csum (fun k => csum (fun m => cterm psi i j si sj k m key)
      (seq 0 5)) (seq 0 5)) [0; 1]) [0; 1])). clear d. intros d j Hj.
  apply (fold_res_add (@dval F cubkey _) (fun si key => csum (fun sj => csum (fun k => csum (fun m => cterm psi i j si sj k m key)
      (seq 0 5)) (seq 0 5)) [0; 1])). clear d. intros d si Hsi.
  apply (fold_res_add (@dval F cubkey _) (fun sj key => csum (fun k => csum (fun m => cterm psi i j si sj k m key)
      (seq 0 5)) (seq 0 5))). clear d. intros d sj Hsj. rewrite fold_res_map.
  apply (fold_res_add (@dval F cubkey _) (fun k key => csum (fun m => cterm psi i j si sj k m key) (seq 0 5))). clear d. intros d k Hk. rewrite fold_res_map.
  apply (fold_res_add (@dval F cubkey _) (fun m key => cterm psi i j si sj k m key)). clear d. intros d m Hm. cbn [fst snd]. cbv zeta.
  apply in_seq in Hi, Hj, Hk, Hm.
  assert (Ss : si = 0 \/ si = 1) by (cbn [In] in Hsi; lia). assert (Sj : sj = 0 \/ sj = 1) by (cbn [In] in Hsj; lia).
  pose proof (density_at nb 2 Hsh psi d0 E0 Hv (cm si m) (cm sj k) (cm_shell si m Ss ltac:(lia)) (cm_shell sj k Sj ltac:(lia))) as Hr.
  unfold cm in Hr. unfold dval in Hr.
  destruct (dget d0 (SImp 2 si (Z.of_nat m - 2), SImp 2 sj (Z.of_nat k - 2))) as [v|] eqn:Eg.
  - rewrite !(mget_at _ 5) by (apply u5_square || lia). cbn [bind]. eexists. split; [reflexivity|]. intros key.
    unfold cterm, cm. rewrite <- Hr. set (tmp := (cconj (at_m (u5 fsqrt) m i) * v * at_m (u5 fsqrt) k j)%C).
    destruct (ceqb_spec tmp c0) as [Ez|Ez]; cbn [negb].
    + rewrite Ez. destruct (eqb key _); ring.
    + apply dval_dadd.
  - eexists. split; [reflexivity|]. intros key. unfold cterm, cm. rewrite <- Hr. destruct (eqb key _); ring.
Qed.
Lemma single_seq (f : nat -> cx F) i : (i < 5)%nat -> (forall b, (b < 5)%nat -> b <> i -> f b = c0) -> csum f (seq 0 5) = f i.
Proof. intros Hi H. apply csum_single; [apply seq_NoDup|apply in_seq; lia|]. intros b Hb5 Hb. apply in_seq in Hb5. apply H; auto; lia. Qed.
Lemma single_spin (f : Z -> cx F) s : (s = 0 \/ s = 1) -> (forall b, (b = 0 \/ b = 1) -> b <> s -> f b = c0) -> csum f [0; 1] = f s.
Proof.
  intros Hs H. apply csum_single.
  - constructor; [intros [E|[]]; lia|]. constructor; [intros []|constructor].
  - cbn [In]. lia.
  - intros b Hb2 Hb. cbn [In] in Hb2. apply H; auto; lia.
Qed.
Lemma cubic_entries (psi : psi_t F) : valid_psi n psi ->
  exists d, getDensityMatrixCubic fsqrt nb psi = Ok d /\
    forall si sj i j, (si = 0 \/ si = 1) -> (sj = 0 \/ sj = 1) -> (i < 5)%nat -> (j < 5)%nat ->
      dval d ((si, Z.of_nat i), (sj, Z.of_nat j)) = ev n (one_body nb (cub_hop 2 (u5 fsqrt) sj j si i)) psi.
Proof.
  intros Hv. destruct (cubic_sum psi Hv) as (d & E & G). exists d. split; auto. intros si sj i j Hsi Hsj Hi Hj. rewrite G.
  assert (Hne : forall i' j' si' sj' k m, (i' <> i \/ j' <> j \/ si' <> si \/ sj' <> sj) -> cterm psi i' j' si' sj' k m ((si, Z.of_nat i), (sj, Z.of_nat j)) = c0).
  { intros i' j' si' sj' k m Hd. unfold cterm. destruct (eqb_spec (A := cubkey) ((si, Z.of_nat i), (sj, Z.of_nat j)) ((si', Z.of_nat i'), (sj', Z.of_nat j'))) as [Ek|]; auto.
    injection Ek as E1 E2 E3 E4. lia. }
  rewrite (single_seq _ i Hi). 2:{ intros b _ Hb. do 5 (apply csum_zero; intros). apply Hne. auto. }
  rewrite (single_seq _ j Hj). 2:{ intros b _ Hb. do 4 (apply csum_zero; intros). apply Hne. auto. }
  rewrite (single_spin _ si Hsi). 2:{ intros b _ Hb. do 3 (apply csum_zero; intros). apply Hne. auto. }
  rewrite (single_spin _ sj Hsj). 2:{ intros b _ Hb. do 2 (apply csum_zero; intros). apply Hne. auto. }
  rewrite ev_cub by auto. apply csum_ext. intros k _. apply csum_ext. intros m _. unfold cterm.
  destruct (eqb_spec (A := cubkey) ((si, Z.of_nat i), (sj, Z.of_nat j)) ((si, Z.of_nat i), (sj, Z.of_nat j))); [ring|congruence].
Qed.

(* ---- occupations of the cubic harmonics ---- *)
Definition zc (u : list (list (cx F))) (i : nat) (x : spinorb) : cx F :=
  match x with SImp _ _ m => cconj (at_m u (Z.to_nat (m + 2)) i) | _ => c0 end.
Lemma zc_cm u i s k : zc u i (cm s k) = cconj (at_m u k i).
Proof. unfold zc, cm. replace (Z.to_nat (Z.of_nat k - 2 + 2)) with k by lia. reflexivity. Qed.
Lemma ev_cub_quad u s i (psi : psi_t F) : (s = 0 \/ s = 1) -> ev n (one_body nb (cub_terms 2 u s i)) psi = quad nb psi (zc u i) (map (cm s) (seq 0 5)).
Proof.
  intros Hs. unfold cub_terms. rewrite ev_cub by auto. unfold quad. rewrite csum_map, csum_swap. apply csum_ext. intros k _. rewrite csum_map.
  apply csum_ext. intros m _. rewrite !zc_cm, cconj_conj. ring.
Qed.
Lemma cm_NoDup s : NoDup (map (cm s) (seq 0 5)).
Proof. apply FinFun.Injective_map_NoDup; [|apply seq_NoDup]. intros a b E. unfold cm in E. injection E. lia. Qed.
Lemma cub_bounds u s i (psi : psi_t F) : unitary 5 u -> (s = 0 \/ s = 1) -> (i < 5)%nat -> valid_psi n psi ->
  exists q, ev n (one_body nb (cub_terms 2 u s i)) psi = creal q /\ (0 <= q)%F /\ (q <= norm2 psi)%F.
Proof.
  intros (_ & Hu & _) Hs Hi Hv. rewrite ev_cub_quad by auto.
  destruct (quad_bounds nb 2 Hsh psi (zc u i) (map (cm s) (seq 0 5))) as (q & Eq & H0 & H1); auto.
  - apply Forall_map, Forall_forall. intros k Hk. apply in_seq in Hk. apply cm_ok; auto; lia.
  - apply cm_NoDup.
  - exists q. split; auto. split; auto. replace (norm2 psi) with (fsum (fun x => cabs2 (zc u i x)) (map (cm s) (seq 0 5)) * norm2 psi)%F; auto.
    assert (E : fsum (fun x => cabs2 (zc u i x)) (map (cm s) (seq 0 5)) = 1%F).
    { apply creal_inj. rewrite <- csum_creal_fsum, csum_map. change (creal 1%F) with (@c1 F).
      transitivity (@delta F _ _ i i); [|unfold delta; destruct (eqb_spec i i); congruence].
      rewrite <- (Hu i i Hi Hi). apply csum_ext. intros k _. rewrite zc_cm, <- cmul_conj, cconj_conj. ring. }
    rewrite E. ring.
Qed.
(* sum over all harmonics of one spin *)
Lemma cub_total u s (psi : psi_t F) : unitary 5 u -> (s = 0 \/ s = 1) ->
  csum (fun i => ev n (one_body nb (cub_terms 2 u s i)) psi) (seq 0 5) = csum (fun k => rho nb psi (cm s k) (cm s k)) (seq 0 5).
Proof.
  intros (_ & _ & Hu) Hs.
  transitivity (csum (fun k => csum (fun m => csum (fun i => at_m u k i * cconj (at_m u m i))%C (seq 0 5) * rho nb psi (cm s m) (cm s k))%C (seq 0 5)) (seq 0 5)).
  - transitivity (csum (fun i => csum (fun k => csum (fun m => at_m u k i * cconj (at_m u m i) * rho nb psi (cm s m) (cm s k))%C (seq 0 5)) (seq 0 5)) (seq 0 5)).
    + apply csum_ext. intros i _. unfold cub_terms. apply ev_cub; auto.
    + rewrite csum_swap. apply csum_ext. intros k _. rewrite csum_swap. apply csum_ext. intros m _. rewrite csum_mul_r. reflexivity.
  - apply csum_ext. intros k Hk. apply in_seq in Hk. rewrite (single_seq _ k).
    + rewrite Hu by lia. unfold delta. destruct (eqb_spec k k); [ring|congruence].
    + lia.
    + intros m Hm Hne. rewrite Hu by lia. unfold delta. destruct (eqb_spec k m); [congruence|ring].
Qed.
Lemma sites_csum (f : Z * Z -> cx F) : csum f (sites 2) = (csum (fun k => f (0, Z.of_nat k - 2)%Z) (seq 0 5) + csum (fun k => f (1, Z.of_nat k - 2)%Z) (seq 0 5))%C.
Proof.
  unfold sites. rewrite csum_list_prod. unfold csum at 1. cbn [fold_right].
  rewrite !csum_map. change (Z.to_nat (2 * 2 + 1)) with 5%nat. ring.
Qed.
Lemma cub_trace u (psi : psi_t F) : unitary 5 u -> valid_psi n psi ->
  (csum (fun i => ev n (one_body nb (cub_terms 2 u 0 i)) psi) (seq 0 5) + csum (fun i => ev n (one_body nb (cub_terms 2 u 1 i)) psi) (seq 0 5))%C =
  ev n (one_body nb (N_terms 2)) psi.
Proof.
  intros Hu Hv. rewrite !cub_total by auto. unfold n. rewrite (ev_N nb 2 Hsh) by auto. rewrite sites_csum. reflexivity.
Qed.

(* getEgT2gOccupation *)
Definition occ4 := (cx F * cx F * cx F * cx F)%type.
Definition pick (o : occ4) (k : bool * bool) : cx F :=
  let '(eg_dn, eg_up, t2g_dn, t2g_up) := o in
  match k with (true, false) => eg_dn | (true, true) => eg_up | (false, false) => t2g_dn | (false, true) => t2g_up end.
Definition oterm (psi : psi_t F) (i j k : nat) (s : Z) (b : bool * bool) : cx F :=
  if Bool.eqb (Nat.ltb i 2) (fst b) && Bool.eqb (negb (s =? 0)) (snd b) then
    (at_m (u5 fsqrt) j i * cconj (at_m (u5 fsqrt) k i) * rho nb psi (cm s k) (cm s j))%C else c0.
Lemma occ_sum (psi : psi_t F) : valid_psi n psi ->
  exists o, getEgT2gOccupation fsqrt nb psi = Ok (map take_real [pick o (true, false); pick o (true, true); pick o (false, false); pick o (false, true)]) /\
    forall b, pick o b = csum (fun i => csum (fun j => csum (fun k => csum (fun s => oterm psi i j k s b) [0; 1]) (seq 0 5)) (seq 0 5)) (seq 0 5).
Proof.
  intros Hv. unfold getEgT2gOccupation. rewrite (total_orbitals_ok nb 2 Hsh). cbn [bind]. fold n. rewrite sph2cub_2. cbn [bind].
  change (zrange 5) with (map Z.of_nat (seq 0 5)). change (zrange 2) with [0; 1]. rewrite enum5. rewrite fold_res_map.
  match goal with |- context [fold_res ?f ?l ?o] =>
    assert (HH : exists o', fold_res f l o = Ok o' /\ forall b, pick o' b = (pick o b + csum (fun i => csum (fun j => csum (fun k => csum (fun s => oterm psi i j k s b) [0; 1]) (seq 0 5)) (seq 0 5)) l)%C)
  end.
  2:{ destruct HH as (o' & E & G). exists o'. rewrite E. cbn [bind]. destruct o' as [[[o1 o2] o3] o4]. split; [reflexivity|]. intros b. rewrite G.
      replace (pick (c0, c0, c0, c0) b) with (@c0 F) by (destruct b as [[] []]; reflexivity). ring. }
  apply (fold_res_add pick (fun i b => csum (fun j => csum (fun k => csum (fun s => oterm psi i j k s b) [0; 1]) (seq 0 5)) (seq 0 5))).
  intros o i Hi. rewrite fold_res_map.
  apply (fold_res_add pick (fun j b => csum (fun k => csum (fun s => oterm psi i j k s b) [0; 1]) (seq 0 5))). clear o. intros o j Hj. rewrite fold_res_map.
  apply (fold_res_add pick (fun k b => csum (fun s => oterm psi i j k s b) [0; 1])). clear o. intros o k Hk.
  apply (fold_res_add pick (fun s b => oterm psi i j k s b)). clear o. intros [[[o1 o2] o3] o4] s Hs. cbn [fst snd].
  apply in_seq in Hi, Hj, Hk. assert (Ss : s = 0 \/ s = 1) by (cbn [In] in Hs; lia).
  destruct (rho_model nb 2 Hsh psi (cm s k) (cm s j) (cm_ok s k Ss ltac:(lia)) (cm_ok s j Ss ltac:(lia)) Hv) as (E1 & E2 & p & q & E3 & E4 & E5).
  unfold cm in E1, E2. rewrite E2. cbn [bind]. rewrite E1. cbn [bind]. fold (cm s k) (cm s j).
  fold n in E3, E4. rewrite E3. cbn [bind]. rewrite E4. cbn [bind].
  rewrite !(mget_at _ 5) by (apply u5_square || lia). cbn [bind]. cbv zeta. rewrite E5. eexists. split; [reflexivity|].
  intros b. unfold oterm. replace (Nat.ltb i 2) with (Z.of_nat i <? 2) by (destruct (Nat.ltb_spec i 2), (Z.ltb_spec (Z.of_nat i) 2); lia).
  destruct Ss as [-> | ->]; cbn [Z.eqb negb]; destruct (Z.of_nat i <? 2); destruct b as [[] []]; cbn [pick fst snd Bool.eqb andb]; ring.
Qed.
Lemma occ_pick (psi : psi_t F) b : 
  csum (fun i => csum (fun j => csum (fun k => csum (fun s => oterm psi i j k s b) [0; 1]) (seq 0 5)) (seq 0 5)) (seq 0 5) =
  csum (fun i => ev n (one_body nb (cub_terms 2 (u5 fsqrt) (if snd b then 1 else 0) i)) psi) (if fst b then [0; 1]%nat else [2; 3; 4]%nat).
Proof.
  set (s := if snd b then 1 else 0). assert (Ss : s = 0 \/ s = 1) by (unfold s; destruct (snd b); auto).
  transitivity (csum (fun i => if Bool.eqb (Nat.ltb i 2) (fst b) then ev n (one_body nb (cub_terms 2 (u5 fsqrt) s i)) psi else c0) (seq 0 5)).
  - apply csum_ext. intros i _. unfold cub_terms. rewrite ev_cub by auto.
    transitivity (csum (fun j => csum (fun k => if Bool.eqb (Nat.ltb i 2) (fst b) then (at_m (u5 fsqrt) j i * cconj (at_m (u5 fsqrt) k i) * rho nb psi (cm s k) (cm s j))%C else c0) (seq 0 5)) (seq 0 5)).
    + apply csum_ext. intros j _. apply csum_ext. intros k _. rewrite (single_spin _ s Ss).
      * unfold oterm. replace (Bool.eqb (negb (s =? 0)) (snd b)) with true by (unfold s; destruct (snd b); reflexivity).
        rewrite Bool.andb_true_r. reflexivity.
      * intros t Ht Hne. unfold oterm. replace (Bool.eqb (negb (t =? 0)) (snd b)) with false.
        -- rewrite Bool.andb_false_r. reflexivity.
        -- unfold s in Hne. destruct Ht as [-> | ->]; destruct (snd b); cbn; congruence.
    + destruct (Bool.eqb (Nat.ltb i 2) (fst b)); [reflexivity|]. apply csum_zero. intros j _. apply csum_zero. auto.
  - destruct (fst b); unfold csum; cbn [seq fold_right Nat.ltb Nat.leb Bool.eqb]; ring.
Qed.

Lemma occ_tol_pos : (0 < @occ_tol F)%F.
Proof.
  unfold occ_tol. apply fdiv_pos; [apply flt_0_1|]. apply fofZ_pos. reflexivity.
Qed.
Lemma take_real_creal (q : F) : take_real (creal q) = inl q.
Proof.
  unfold take_real, fabs. cbn [im re creal]. rewrite flt_irrefl, occ_tol_pos. reflexivity.
Qed.
Hypothesis Hsq : forall x : F, (0 <= x)%F -> (0 <= fsqrt x)%F /\ (fsqrt x * fsqrt x)%F = x.
Lemma occ_group s (L : list nat) (psi : psi_t F) : (s = 0 \/ s = 1) -> Forall (fun i => (i < 5)%nat) L -> valid_psi n psi ->
  exists q, csum (fun i => ev n (one_body nb (cub_terms 2 (u5 fsqrt) s i)) psi) L = creal q /\ (0 <= q)%F /\ (q <= fofZ (Z.of_nat (length L)) * norm2 psi)%F.
Proof.
  intros Hs HL Hv. induction HL as [|i L Hi HL IH].
  - exists 0%F. split; [reflexivity|]. split; [apply fle_refl|]. cbn [length Z.of_nat fofZ]. replace (0 * norm2 psi)%F with (0 : F)%F by ring. apply fle_refl.
  - destruct IH as (q & E & H0 & H1). destruct (cub_bounds (u5 fsqrt) s i psi (u5_unitary fsqrt Hsq) Hs Hi Hv) as (r & Er & R0 & R1).
    exists (r + q)%F. split; [|split].
    + rewrite creal_add, <- E, <- Er. reflexivity.
    + apply fadd_nonneg; auto.
    + cbn [length]. rewrite Nat2Z.inj_succ, <- Z.add_1_l, fofZ_add. change (fofZ 1) with (1 : F)%F.
      replace ((1 + fofZ (Z.of_nat (length L))) * norm2 psi)%F with (norm2 psi + fofZ (Z.of_nat (length L)) * norm2 psi)%F by ring.
      apply fadd_le; auto.
Qed.
Lemma occ_ok (psi : psi_t F) : valid_psi n psi ->
  exists eg_dn eg_up t2g_dn t2g_up : F, getEgT2gOccupation fsqrt nb psi = Ok [inl eg_dn; inl eg_up; inl t2g_dn; inl t2g_up] /\
    creal eg_dn = csum (fun i => ev n (one_body nb (cub_terms 2 (u5 fsqrt) 0 i)) psi) [0; 1]%nat /\
    creal eg_up = csum (fun i => ev n (one_body nb (cub_terms 2 (u5 fsqrt) 1 i)) psi) [0; 1]%nat /\
    creal t2g_dn = csum (fun i => ev n (one_body nb (cub_terms 2 (u5 fsqrt) 0 i)) psi) [2; 3; 4]%nat /\
    creal t2g_up = csum (fun i => ev n (one_body nb (cub_terms 2 (u5 fsqrt) 1 i)) psi) [2; 3; 4]%nat /\
    (0 <= eg_dn)%F /\ (eg_dn <= fofZ 2 * norm2 psi)%F /\ (0 <= eg_up)%F /\ (eg_up <= fofZ 2 * norm2 psi)%F /\
    (0 <= t2g_dn)%F /\ (t2g_dn <= fofZ 3 * norm2 psi)%F /\ (0 <= t2g_up)%F /\ (t2g_up <= fofZ 3 * norm2 psi)%F /\
    getTraceDensityMatrix nb psi 2 = Ok (eg_dn + eg_up + t2g_dn + t2g_up)%F.
Proof.
  intros Hv. destruct (occ_sum psi Hv) as (o & E & G).
  assert (H2 : Forall (fun i => (i < 5)%nat) [0; 1]%nat) by (repeat constructor).
  assert (H3 : Forall (fun i => (i < 5)%nat) [2; 3; 4]%nat) by (repeat constructor).
  destruct (occ_group 0 [0; 1]%nat psi (or_introl eq_refl) H2 Hv) as (a & Ea & A0 & A1).
  destruct (occ_group 1 [0; 1]%nat psi (or_intror eq_refl) H2 Hv) as (b & Eb & B0 & B1).
  destruct (occ_group 0 [2; 3; 4]%nat psi (or_introl eq_refl) H3 Hv) as (c & Ec & C0 & C1).
  destruct (occ_group 1 [2; 3; 4]%nat psi (or_intror eq_refl) H3 Hv) as (d & Ed & D0 & D1).
  exists a, b, c, d. split.
  { rewrite E, !G, !occ_pick. cbn [fst snd]. rewrite Ea, Eb, Ec, Ed. cbn [map]. rewrite !take_real_creal. reflexivity. }
  do 12 (split; [solve [auto]|]).
  destruct (trace_ok nb 2 Hsh psi Hv) as (v & Ev & Gv). rewrite Ev. f_equal. apply creal_inj. rewrite Gv. fold n.
  rewrite <- (cub_trace (u5 fsqrt) psi (u5_unitary fsqrt Hsq) Hv). rewrite !creal_add, <- Ea, <- Eb, <- Ec, <- Ed.
  unfold csum. cbn [seq fold_right]. ring.
Qed.
Lemma cubic_trace (psi : psi_t F) d v : getDensityMatrixCubic fsqrt nb psi = Ok d -> getTraceDensityMatrix nb psi 2 = Ok v -> valid_psi n psi ->
  csum (fun s => csum (fun i => dval d ((s, Z.of_nat i), (s, Z.of_nat i))) (seq 0 5)) [0; 1] = creal v.
Proof.
  intros E Ev Hv. destruct (trace_ok nb 2 Hsh psi Hv) as (v' & Ev' & Gv). rewrite Ev in Ev'. injection Ev' as <-. rewrite Gv. fold n.
  destruct (cubic_entries psi Hv) as (d' & E' & G). rewrite E in E'. injection E' as <-.
  rewrite <- (cub_trace (u5 fsqrt) psi (u5_unitary fsqrt Hsq) Hv). unfold csum at 1. cbn [fold_right].
  rewrite (csum_ext (fun i => dval d (0, Z.of_nat i, (0, Z.of_nat i))) (fun i => ev n (one_body nb (cub_terms 2 (u5 fsqrt) 0 i)) psi)).
  2:{ intros i Hi. apply in_seq in Hi. apply G; auto; lia. }
  rewrite (csum_ext (fun i => dval d (1, Z.of_nat i, (1, Z.of_nat i))) (fun i => ev n (one_body nb (cub_terms 2 (u5 fsqrt) 1 i)) psi)).
  2:{ intros i Hi. apply in_seq in Hi. apply G; auto; lia. }
  ring.
Qed.
(* Hermiticity *)
Lemma cubic_hermitian (psi : psi_t F) d : getDensityMatrixCubic fsqrt nb psi = Ok d -> valid_psi n psi ->
  forall si sj i j, (si = 0 \/ si = 1) -> (sj = 0 \/ sj = 1) -> (i < 5)%nat -> (j < 5)%nat ->
  dval d ((sj, Z.of_nat j), (si, Z.of_nat i)) = cconj (dval d ((si, Z.of_nat i), (sj, Z.of_nat j))).
Proof.
  intros E Hv si sj i j Hsi Hsj Hi Hj. destruct (cubic_entries psi Hv) as (d' & E' & G). rewrite E in E'. injection E' as <-.
  rewrite !G by auto. rewrite !ev_cub by auto. rewrite <- csum_conj, csum_swap. apply csum_ext. intros k Hk. rewrite <- csum_conj. apply csum_ext. intros m Hm.
  apply in_seq in Hk, Hm. rewrite !cconj_mul, cconj_conj. rewrite (rho_conj nb 2 Hsh psi (cm si m) (cm sj k)) by (apply cm_ok; auto; lia). ring.
Qed.
End G.
