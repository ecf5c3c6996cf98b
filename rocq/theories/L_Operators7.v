(* Transition operators: dipole, photoemission, non-resonant inelastic scattering. *)
From Coq Require Import Permutation Ring Field.
From Verif Require Import M_Prelude M_Scalar M_PSR M_Ladder M_State M_Basis M_Expect M_Operators.
From Verif Require Import S_Fock S_Ops S_Basis S_Expect S_Operators.
From Verif Require Import L_Scalar L_Sum L_Dict L_Fock L_State L_ApplyOp L_Ops L_Index L_Expect L_Expect2 L_Expect3 L_Expect5 L_Expect6 L_Operators L_Operators2 L_Operators3 L_Operators4 L_Operators5 L_Operators6.
Local Open Scope Z_scope.

Section A.
Context {F : ofield}.
Add Field Ff : (f_field F).
Add Ring Cring : (@c_ring F).
Variable fsqrt : F -> F.
Variable pi : F.
Variable gaunt : Z -> Z -> Z -> Z -> Z -> Z -> F.
Let ck := gauntC fsqrt pi gaunt.
Variable nb : nbaths_t.
Hypothesis W : wf_nbaths nb.

(* operators given by their matrix elements *)
Definition hkey (x y : spinorb) : list (Z * ascii) := pidx nb (hop2 x y).
Lemma hkey_inj x y x' y' : coord_ok nb x -> coord_ok nb y -> coord_ok nb x' -> coord_ok nb y' -> hkey x y = hkey x' y' -> x = x' /\ y = y'.
Proof.
  intros H1 H2 H3 H4 E. unfold hkey, pidx, hop2 in E. cbn [map fst snd] in E. injection E as E1 E2. split; apply (coord_index_inj nb); auto.
Qed.
Section Dip.
Variables l1 l2 : Z.
Hypothesis Hnb : dkeys nb = [KInt l1; KInt l2].
Lemma dip_angs : In l1 (angs nb) /\ In l2 (angs nb).
Proof. unfold angs. rewrite Hnb. cbn. auto. Qed.
Variables n0 n1 n2 : F.
Variable rest : list F.
Definition dip_v (m mp : Z) : cx F :=
  if Z.abs (m - mp) <=? 1 then (creal (ck 1 l2 m l1 mp) * (if m - mp =? -1 then (creal n0 + cI * creal n1) / creal (fsqrt (fofZ 2))
    else if m - mp =? 0 then creal n2 else (creal (- n0) + cI * creal n1) / creal (fsqrt (fofZ 2))))%C else c0.
Definition dip_list : list (list (Z * ascii) * cx F) :=
  flat_map (fun m => flat_map (fun mp => flat_map (fun s => if ceqb (dip_v m mp) c0 then [] else [(hkey (SImp l2 s m) (SImp l1 s mp), dip_v m mp)])
    (zrange 2)) (mrange l1)) (mrange l2).
Lemma dip_eq : getDipoleOperator fsqrt pi gaunt nb (n0 :: n1 :: n2 :: rest) = Ok (wr dip_list []).
Proof.
  unfold getDipoleOperator. 
  change (py_nth (n0 :: n1 :: n2 :: rest) 0) with (py_nth (n0 :: n1 :: n2 :: rest) (Z.of_nat 0)).
  change (py_nth (n0 :: n1 :: n2 :: rest) 1) with (py_nth (n0 :: n1 :: n2 :: rest) (Z.of_nat 1)).
  change (py_nth (n0 :: n1 :: n2 :: rest) 2) with (py_nth (n0 :: n1 :: n2 :: rest) (Z.of_nat 2)).
  rewrite !(py_nth_ok _ _ 0%F) by (cbn; lia). cbn [bind nth]. rewrite Hnb.
  apply fold_res_wr. intros d m Hm. apply fold_res_wr. clear d. intros d mp Hmp. apply fold_res_wr. clear d. intros d s Hs.
  unfold mrange in *. apply zrange2_In in Hm, Hmp. apply zrange_In in Hs. unfold dip_v.
  destruct (Z.leb_spec (Z.abs (m - mp)) 1) as [Hle|Hle].
  - assert (Hn : pol fsqrt n0 n1 n2 (m - mp) = Ok (if m - mp =? -1 then (creal n0 + cI * creal n1) / creal (fsqrt (fofZ 2))
      else if m - mp =? 0 then creal n2 else (creal (- n0) + cI * creal n1) / creal (fsqrt (fofZ 2)))%C).
    { unfold pol. destruct (Z.eqb_spec (m - mp) (-1)); auto. destruct (Z.eqb_spec (m - mp) 0); auto. destruct (Z.eqb_spec (m - mp) 1); auto. lia. }
    rewrite Hn. cbn [bind]. fold ck. destruct (ceqb _ c0); cbn [negb]; [reflexivity|].
    destruct dip_angs. rewrite (c2i_ok nb (SImp l2 s m)), (c2i_ok nb (SImp l1 s mp)); auto; try (cbn; repeat split; auto; lia). 
  - destruct (ceqb_spec c0 (@c0 F)); [reflexivity|congruence].
Qed.
Lemma dip_In p v : In (p, v) dip_list <-> exists m mp s, - l2 <= m <= l2 /\ - l1 <= mp <= l1 /\ (s = 0 \/ s = 1) /\ dip_v m mp <> c0 /\
  p = hkey (SImp l2 s m) (SImp l1 s mp) /\ v = dip_v m mp.
Proof.
  unfold dip_list, mrange. split.
  - intros H. apply in_flat_map in H as (m & Hm & H). apply in_flat_map in H as (mp & Hmp & H). apply in_flat_map in H as (s & Hs & H).
    apply zrange2_In in Hm, Hmp. apply zrange_In in Hs. destruct (ceqb_spec (dip_v m mp) c0); [destruct H|]. destruct H as [H|[]]. injection H as <- <-.
    exists m, mp, s. repeat split; auto; lia.
  - intros (m & mp & s & Hm & Hmp & Hs & Hne & -> & ->). apply in_flat_map. exists m. split; [apply zrange2_In; lia|].
    apply in_flat_map. exists mp. split; [apply zrange2_In; lia|]. apply in_flat_map. exists s. split; [apply zrange_In; lia|].
    destruct (ceqb_spec (dip_v m mp) c0); [congruence|]. left. auto.
Qed.
Lemma imp_ok l s m : In l (angs nb) -> (s = 0 \/ s = 1) -> - l <= m <= l -> coord_ok nb (SImp l s m).
Proof. cbn. auto. Qed.
Lemma dip_key m mp s m' mp' s' : - l2 <= m <= l2 -> - l1 <= mp <= l1 -> (s = 0 \/ s = 1) -> - l2 <= m' <= l2 -> - l1 <= mp' <= l1 -> (s' = 0 \/ s' = 1) ->
  forall t t', (t = 0 \/ t = 1) -> (t' = 0 \/ t' = 1) -> hkey (SImp l2 s m) (SImp l1 t mp) = hkey (SImp l2 s' m') (SImp l1 t' mp') -> m = m' /\ mp = mp' /\ s = s' /\ t = t'.
Proof.
  intros. destruct dip_angs. assert (G : SImp l2 s m = SImp l2 s' m' /\ SImp l1 t mp = SImp l1 t' mp') by (apply hkey_inj; auto using imp_ok).
  destruct G as [G1 G2]. injection G1. injection G2. auto.
Qed.
Lemma dip_consistent : consistent dip_list.
Proof.
  intros p v v' H H'. apply dip_In in H as (m & mp & s & Hm & Hmp & Hs & _ & -> & ->). apply dip_In in H' as (m' & mp' & s' & Hm' & Hmp' & Hs' & _ & E & ->).
  apply dip_key in E; auto. destruct E as (-> & -> & _). auto.
Qed.
Hypothesis Hsqrt2 : fsqrt (fofZ 2) <> 0%F.
Lemma creal_opp (x : F) : creal (- x)%F = (- creal x)%C.
Proof. unfold creal, copp. cbn. f_equal. ring. Qed.
Lemma creal_neq0 (x : F) : x <> 0%F -> creal x <> c0.
Proof. intros H E. apply H. apply (f_equal re) in E. exact E. Qed.
Lemma dip_spec m mp s s' : dip_v m mp = if s =? s' then n_dot_r fsqrt ck n0 n1 n2 (SImp l2 s m) (SImp l1 s' mp) else dip_v m mp.
Proof.
  destruct (Z.eqb_spec s s') as [<-|]; auto. unfold dip_v, n_dot_r, r_x, r_y, r_z, c1q, when. rewrite Z.eqb_refl. cbn [andb].
  pose proof (creal_neq0 _ Hsqrt2) as Hc. rewrite creal_opp.
  destruct (Z.leb_spec (Z.abs (m - mp)) 1) as [Hle|Hle].
  - assert (Hc3 : m - mp = -1 \/ m - mp = 0 \/ m - mp = 1) by lia. set (w := creal (fsqrt (fofZ 2))) in *. unfold cdiv.
    destruct Hc3 as [-> |[-> | ->]]; cbn [Z.eqb Pos.eqb]; ring.
  - destruct (Z.eqb_spec (m - mp) (-1)); [lia|]. destruct (Z.eqb_spec (m - mp) 1); [lia|]. destruct (Z.eqb_spec (m - mp) 0); [lia|].
    unfold cdiv. ring.
Qed.
Lemma n_dot_r_off l s m l' s' m' : s <> s' -> n_dot_r fsqrt ck n0 n1 n2 (SImp l s m) (SImp l' s' m') = c0.
Proof.
  intros H. unfold n_dot_r, r_x, r_y, r_z, c1q, when. destruct (Z.eqb_spec s s'); [congruence|]. cbn [andb]. unfold cdiv. ring.
Qed.
Lemma dip_ok : exists op, getDipoleOperator fsqrt pi gaunt nb (n0 :: n1 :: n2 :: rest) = Ok op /\ is_one_body nb op l2 l1 (n_dot_r fsqrt ck n0 n1 n2).
Proof.
  exists (wr dip_list []). split; [apply dip_eq|]. split; [apply NoDup_wr; constructor|]. split.
  - intros p Hp. apply dget_Some_key in Hp as [v Hp]. apply dget_wr in Hp; [|apply dip_consistent].
    apply dip_In in Hp as (m & mp & s & Hm & Hmp & Hs & _ & -> & _). exists (SImp l2 s m), (SImp l1 s mp). split; [reflexivity|].
    split; [exists s, m|exists s, mp]; auto.
  - intros x y (s & m & -> & Hs & Hm) (s' & m' & -> & Hs' & Hm'). fold (hkey (SImp l2 s m) (SImp l1 s' m')).
    unfold val. destruct (dget (wr dip_list []) (hkey (SImp l2 s m) (SImp l1 s' m'))) as [v|] eqn:E.
    + apply dget_wr in E; [|apply dip_consistent]. apply dip_In in E as (m2 & mp2 & s2 & Hm2 & Hmp2 & Hs2 & _ & E & ->).
      apply dip_key in E; auto. destruct E as (<- & <- & <- & ->). rewrite (dip_spec m m' s s), Z.eqb_refl. auto.
    + destruct (Z.eq_dec s s') as [<-|Hne]; [|symmetry; apply n_dot_r_off; auto].
      destruct (ceqb_spec (dip_v m m') c0) as [E0|E0].
      * rewrite <- E0, (dip_spec m m' s s), Z.eqb_refl. auto.
      * assert (X : dget (wr dip_list []) (hkey (SImp l2 s m) (SImp l1 s m')) = Some (dip_v m m')).
        { apply dget_wr; [apply dip_consistent|]. apply dip_In. exists m, m', s. auto 8. }
        congruence.
Qed.
Lemma dip_selection op p : getDipoleOperator fsqrt pi gaunt nb (n0 :: n1 :: n2 :: rest) = Ok op -> In p (dkeys op) ->
  exists s m m', p = pidx nb (hop2 (SImp l2 s m) (SImp l1 s m')) /\ in_shell l2 (SImp l2 s m) /\ in_shell l1 (SImp l1 s m') /\ Z.abs (m - m') <= 1.
Proof.
  rewrite dip_eq. intros E Hp. injection E as <-. apply dget_Some_key in Hp as [v Hp]. apply dget_wr in Hp; [|apply dip_consistent].
  apply dip_In in Hp as (m & mp & s & Hm & Hmp & Hs & Hne & -> & _). exists s, m, mp. split; [reflexivity|].
  split; [exists s, m; auto|]. split; [exists s, mp; auto|]. unfold dip_v in Hne. destruct (Z.leb_spec (Z.abs (m - mp)) 1); auto. congruence.
Qed.
End Dip.
Lemma dip_short n : (length n < 3)%nat -> getDipoleOperator fsqrt pi gaunt nb n = Err IndexError.
Proof. destruct n as [|a [|b [|c n]]]; try reflexivity. cbn. lia. Qed.
Lemma dip_keys n : (3 <= length n)%nat -> length nb <> 2%nat -> getDipoleOperator fsqrt pi gaunt nb n = Err ValueError.
Proof.
  intros Hn H2. unfold getDipoleOperator.
  change (py_nth n 0) with (py_nth n (Z.of_nat 0)). change (py_nth n 1) with (py_nth n (Z.of_nat 1)). change (py_nth n 2) with (py_nth n (Z.of_nat 2)).
  rewrite !(py_nth_ok n _ 0%F) by lia. cbn [bind].
  destruct nb as [|a [|b [|c r]]]; try reflexivity. elim H2. reflexivity.
Qed.
(* one-body operators are well formed *)
Lemma one_body_wf op l l' h : In l (angs nb) -> In l' (angs nb) -> is_one_body nb op l l' h -> @wf_op F (n_orb nb) op.
Proof.
  intros Hl Hl' (Hn & Hk & _). split; auto. apply Forall_forall. intros [p v] Hi. apply (in_map fst) in Hi. cbn [fst] in *.
  destruct (Hk p Hi) as (x & y & -> & Hx & Hy).
  assert (R : forall z, coord_ok nb z -> 0 <= coord_index nb z < Z.of_nat (n_orb nb)).
  { intros z Hz. pose proof (coord_index_range nb z W Hz) as H. pose proof (n_imp_nonneg nb W). assert (n_imp nb <= n_total nb).
    { unfold n_total. pose proof (zsum_snd_nonneg nb (proj2 (proj2 W))). lia. }
    unfold n_orb. rewrite Z2Nat.id by lia. destruct z; lia. }
  assert (Cx : coord_ok nb x) by (destruct Hx as (s & m & -> & ? & ?); cbn; auto).
  assert (Cy : coord_ok nb y) by (destruct Hy as (s & m & -> & ? & ?); cbn; auto).
  unfold pidx, hop2. cbn [map fst snd]. apply Forall_cons; [split; cbn; auto|]. apply Forall_cons; [split; cbn; auto|]. constructor.
Qed.
Lemma daggered n op d : getDipoleOperator fsqrt pi gaunt nb n = Ok op -> NoDup (dkeys op) -> daggerOp op = Ok d -> 
  getDaggeredDipoleOperators fsqrt pi gaunt nb [n] = Ok [d].
Proof. intros E _ E'. unfold getDaggeredDipoleOperators. cbn [map_res]. rewrite E. cbn [bind]. rewrite E'. reflexivity. Qed.

(* ---- photoemission ---- *)
Lemma zr2 : zrange 2 = [0; 1]. Proof. reflexivity. Qed.
Lemma list_prod_flat {X Y} (a : list X) (b : list Y) : list_prod a b = flat_map (fun x => map (fun y => (x, y)) b) a.
Proof. induction a as [|x a IH]; cbn; auto. rewrite IH. auto. Qed.
Lemma map_shell {Y} (f : spinorb -> Y) l : map (fun sm => f (SImp l (fst sm) (snd sm))) (list_prod (zrange 2) (mrange l)) = map f (shell_list l).
Proof. unfold shell_list. rewrite zr2, list_prod_flat. cbn [flat_map]. rewrite !app_nil_r, !map_app, !map_map. reflexivity. Qed.
Lemma pes_ok lab l : In l (angs nb) -> getPESOperators lab nb l = Ok (map (fun x => [([(coord_index nb x, lab)], @c1 F)]) (shell_list l)).
Proof.
  intros Hl. unfold getPESOperators. rewrite <- map_shell. apply map_res_ok. intros [s m] Hi. apply in_prod_iff in Hi as [Hs Hm]. unfold mrange in Hm.
  apply zrange_In in Hs. apply zrange2_In in Hm. cbn [fst snd]. rewrite c2i_ok; auto. apply imp_ok; auto; lia.
Qed.
Lemma pes_err lab l : 0 <= l -> ~ In l (angs nb) -> @getPESOperators F lab nb l = Err GenericException.
Proof.
  intros H0 Hl. unfold getPESOperators. apply map_res_err.
  - intros [s m] _. left. cbn [fst snd]. rewrite c2i_err; auto. cbn. tauto.
  - exists (0, 0). split; [apply in_prod_iff; split; [apply zrange_In; lia|apply zrange2_In; lia]|]. cbn [fst snd]. rewrite c2i_err; auto. cbn. tauto.
Qed.
End A.
