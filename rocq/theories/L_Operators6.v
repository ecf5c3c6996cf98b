(* The crystal-field Hamiltonian. *)
From Coq Require Import Permutation Ring Field.
From Verif Require Import M_Prelude M_Scalar M_PSR M_Ladder M_State M_Basis M_Expect M_Operators.
From Verif Require Import S_Fock S_Ops S_Basis S_Expect S_Operators.
From Verif Require Import L_Scalar L_Sum L_Dict L_Fock L_State L_ApplyOp L_Ops L_Index L_Expect L_Expect2 L_Expect3 L_Expect5 L_Expect6 L_Cubic L_Operators L_Operators2 L_Operators3 L_Operators4 L_Operators5.
Local Open Scope Z_scope.

Section A.
Context {F : ofield}.
Add Field Ff : (f_field F).
Add Ring Cring : (@c_ring F).

Lemma nth_map_seq {X} (f : nat -> X) n i d : (i < n)%nat -> nth i (map f (seq 0 n)) d = f i.
Proof. intros H. rewrite (nth_indep _ d (f 0%nat)) by (rewrite map_length, seq_length; auto). rewrite map_nth, seq_nth by auto. reflexivity. Qed.
Lemma dot_at (a b : list (list (cx F))) n i j : length a = n -> (i < n)%nat -> (j < n)%nat ->
  at_m (dot a b) i j = csum (fun k => at_m a i k * at_m b k j)%C (seq 0 n).
Proof.
  intros <- Hi Hj. unfold at_m at 1, dot. rewrite nth_map_seq by auto. rewrite nth_map_seq by auto. rewrite fold_left_csum.
  rewrite (csum_ext _ (fun k => at_m a i k * at_m b k j)%C); [ring|]. reflexivity.
Qed.
Lemma dot_square (a b : list (list (cx F))) : is_square (length a) (dot a b).
Proof.
  unfold dot. split; [rewrite map_length, seq_length; auto|]. apply Forall_map. apply Forall_forall. intros i _. rewrite map_length, seq_length. auto.
Qed.
Lemma ctrans_at (u : list (list (cx F))) i j : (i < length u)%nat -> (j < length u)%nat -> at_m (ctrans u) i j = cconj (at_m u j i).
Proof. intros Hi Hj. unfold at_m at 1, ctrans. rewrite nth_map_seq by auto. rewrite nth_map_seq by auto. reflexivity. Qed.
Lemma diag_at (d : list F) i j : (i < length d)%nat -> (j < length d)%nat -> at_m (diag d) i j = if Nat.eqb j i then creal (nth i d 0%F) else c0.
Proof.
  intros Hi Hj. unfold at_m, diag. set (f := fun ix : nat * F => map (fun j0 => if Nat.eqb j0 (fst ix) then creal (snd ix) else c0) (seq 0 (length d))).
  assert (He : length (enumerate d) = length d) by (unfold enumerate; rewrite combine_length, seq_length; lia).
  rewrite (nth_indep _ [] (f (0%nat, 0%F))) by (rewrite map_length, He; auto).
  rewrite map_nth. unfold enumerate. rewrite combine_nth by (rewrite seq_length; auto). rewrite seq_nth by auto. unfold f. cbn [fst snd].
  rewrite nth_map_seq by auto. reflexivity.
Qed.
Lemma rot_at (a b : list (list (cx F))) x y i j : length a = 5%nat -> length b = 5%nat -> (i < 5)%nat -> (j < 5)%nat ->
  at_m (dot a (dot (diag (eg_t2g x y)) (ctrans b))) i j = rotm a b x y i j.
Proof.
  intros Ha Hb Hi Hj. rewrite (dot_at _ _ 5) by auto. unfold rotm. apply csum_ext. intros k Hk. apply in_seq in Hk.
  rewrite (dot_at _ _ 5) by (auto; lia).
  rewrite (csum_single _ _ k); [|apply seq_NoDup|apply in_seq; lia|].
  - rewrite diag_at, ctrans_at by (cbn; lia). rewrite Nat.eqb_refl.
    replace (nth k (eg_t2g x y) 0%F) with (if Nat.ltb k 2 then x else y).
    + ring.
    + destruct k as [|[|[|[|[|k]]]]]; try reflexivity. lia.
  - intros k' Hk' Hne. apply in_seq in Hk'. rewrite diag_at by (cbn; lia). destruct (Nat.eqb_spec k' k); [congruence|]. ring.
Qed.
Lemma rot_square (a b : list (list (cx F))) x y : length a = 5%nat -> is_square 5 (dot a (dot (diag (eg_t2g x y)) (ctrans b))).
Proof. intros <-. apply dot_square. Qed.
Lemma rotm_conj (a b : list (list (cx F))) x y i j : cconj (rotm a b x y i j) = rotm b a x y j i.
Proof. unfold rotm. rewrite <- csum_conj. apply csum_ext. intros k _. rewrite !cconj_mul, cconj_conj, cconj_real. ring. Qed.

Lemma fold_res_wr {K} {EK : EqB K} {V X} (step : dict K V -> X -> res (dict K V)) (g : X -> list (K * V)) l :
  (forall d x, In x l -> step d x = Ok (wr (g x) d)) -> forall d, fold_res step l d = Ok (wr (flat_map g l) d).
Proof.
  induction l as [|x l IH]; intros H d; cbn [fold_res flat_map]; auto.
  rewrite H by (cbn; auto). cbn [bind]. rewrite IH by (intros; apply H; cbn; auto). rewrite wr_app. reflexivity.
Qed.
Lemma fold_res_wr2 {K} {EK : EqB K} {V X} (step : dict K V * dict K V -> X -> res (dict K V * dict K V)) (g h : X -> list (K * V)) l :
  (forall d x, In x l -> step d x = Ok (wr (g x) (fst d), wr (h x) (snd d))) ->
  forall d, fold_res step l d = Ok (wr (flat_map g l) (fst d), wr (flat_map h l) (snd d)).
Proof.
  induction l as [|x l IH]; intros H d; cbn [fold_res flat_map].
  - destruct d; reflexivity.
  - rewrite H by (cbn; auto). cbn [bind]. rewrite IH by (intros; apply H; cbn; auto). rewrite !wr_app. reflexivity.
Qed.
Definition E5 : list (nat * Z) := enumerate (mrange 2).
Lemma E5_In i m : In (i, m) E5 <-> (i < 5)%nat /\ m = Z.of_nat i - 2.
Proof.
  change E5 with [(0%nat, -2); (1%nat, -1); (2%nat, 0); (3%nat, 1); (4%nat, 2)]. cbn [In]. split.
  - intros [E|[E|[E|[E|[E|[]]]]]]; injection E as <- <-; lia.
  - intros [H ->]. destruct i as [|[|[|[|[|i]]]]]; [auto 7..|lia].
Qed.

Variable fsqrt : F -> F.
Let u := u5 fsqrt.
Lemma u_len : length u = 5%nat. Proof. reflexivity. Qed.
(* the matrix of the bath basis *)
Definition ub (b : bath_basis) : list (list (cx F)) := match b with Spherical => u | _ => eye 5 end.
Lemma ub_len b : length (ub b) = 5%nat. Proof. destruct b; reflexivity. Qed.

Section B.
(* h_imp_3d_operator *)
Variable H : nat -> nat -> cx F.
Definition imp_list : list (sprocess * cx F) :=
  flat_map (fun imi => flat_map (fun jmj => if ceqb (H (fst imi) (fst jmj)) c0 then [] else
    map (fun s => (hop2 (SImp 2 s (snd imi)) (SImp 2 s (snd jmj)), H (fst imi) (fst jmj))) (zrange 2)) E5) E5.
Lemma imp_In p v : In (p, v) imp_list <-> exists i j s, (i < 5)%nat /\ (j < 5)%nat /\ (s = 0 \/ s = 1) /\ H i j <> c0 /\
  p = hop2 (d_orb s i) (d_orb s j) /\ v = H i j.
Proof.
  unfold imp_list. split.
  - intros Hi. apply in_flat_map in Hi as ([i mi] & H1 & Hi). apply in_flat_map in Hi as ([j mj] & H2 & Hi).
    apply E5_In in H1 as [H1 ->]. apply E5_In in H2 as [H2 ->]. cbn [fst snd] in Hi.
    destruct (ceqb_spec (H i j) c0) as [E|E]; [destruct Hi|]. apply in_map_iff in Hi as (s & Es & Hs). injection Es as <- <-.
    apply zrange_In in Hs. exists i, j, s. do 2 (split; [assumption|]). split; [lia|]. auto.
  - intros (i & j & s & Hi & Hj & Hs & E & -> & ->). apply in_flat_map. exists (i, Z.of_nat i - 2). split; [apply E5_In; auto|].
    apply in_flat_map. exists (j, Z.of_nat j - 2). split; [apply E5_In; auto|]. cbn [fst snd].
    destruct (ceqb_spec (H i j) c0) as [C|_]; [congruence|]. apply in_map_iff. exists s. split; auto. apply zrange_In. lia.
Qed.
Lemma hop2_inj x y x' y' : hop2 x y = hop2 x' y' -> x = x' /\ y = y'.
Proof. unfold hop2. intros E. injection E. auto. Qed.
Lemma d_orb_inj s i s' i' : d_orb s i = d_orb s' i' -> s = s' /\ i = i'.
Proof. unfold d_orb. intros E. injection E as -> E. split; auto. lia. Qed.
Lemma imp_consistent : consistent imp_list.
Proof.
  intros p v v' Hi Hi'. apply imp_In in Hi as (i & j & s & _ & _ & _ & _ & -> & ->). apply imp_In in Hi' as (i' & j' & s' & _ & _ & _ & _ & E & ->).
  apply hop2_inj in E as [E1 E2]. apply d_orb_inj in E1, E2. destruct E1, E2. subst. auto.
Qed.
End B.
Section C.
(* hopping and bath energies of the bath states from off on *)
Variable offs : list Z.
Hypothesis Hoffs : forall o, In o offs -> o = 0 \/ o = 10.
Variable V Eb : Z -> nat -> nat -> cx F.
Definition hop_w (o s : Z) (imi jmj : nat * Z) : list (sprocess * cx F) :=
  if ceqb (V o (fst imi) (fst jmj)) c0 then [] else
  [(hop2 (bath_orb o s (fst imi)) (SImp 2 s (snd jmj)), V o (fst imi) (fst jmj));
   (hop2 (SImp 2 s (snd jmj)) (bath_orb o s (fst imi)), cconj (V o (fst imi) (fst jmj)))].
Definition eb_w (o s : Z) (imi jmj : nat * Z) : list (sprocess * cx F) :=
  if ceqb (Eb o (fst imi) (fst jmj)) c0 then [] else
  [(hop2 (bath_orb o s (fst imi)) (bath_orb o s (fst jmj)), Eb o (fst imi) (fst jmj))].
Definition over (w : Z -> Z -> nat * Z -> nat * Z -> list (sprocess * cx F)) : list (sprocess * cx F) :=
  flat_map (fun s => flat_map (fun imi => flat_map (fun jmj => flat_map (fun o => w o s imi jmj) offs) E5) E5) (zrange 2).
Lemma over_In w x : In x (over w) <-> exists o s i j, In o offs /\ (s = 0 \/ s = 1) /\ (i < 5)%nat /\ (j < 5)%nat /\
  In x (w o s (i, Z.of_nat i - 2) (j, Z.of_nat j - 2)).
Proof.
  unfold over. split.
  - intros Hi. apply in_flat_map in Hi as (s & Hs & Hi). apply in_flat_map in Hi as ([i mi] & H1 & Hi). apply in_flat_map in Hi as ([j mj] & H2 & Hi).
    apply in_flat_map in Hi as (o & Ho & Hi). apply E5_In in H1 as [H1 ->]. apply E5_In in H2 as [H2 ->]. apply zrange_In in Hs.
    exists o, s, i, j. repeat split; auto. lia.
  - intros (o & s & i & j & Ho & Hs & Hi & Hj & H). apply in_flat_map. exists s. split; [apply zrange_In; lia|].
    apply in_flat_map. exists (i, Z.of_nat i - 2). split; [apply E5_In; auto|]. apply in_flat_map. exists (j, Z.of_nat j - 2). split; [apply E5_In; auto|].
    apply in_flat_map. exists o. auto.
Qed.
Lemma hop_In p v : In (p, v) (over hop_w) <-> exists o s i j, (In o offs /\ (s = 0 \/ s = 1) /\ (i < 5)%nat /\ (j < 5)%nat) /\ V o i j <> c0 /\
  ((p = hop2 (bath_orb o s i) (d_orb s j) /\ v = V o i j) \/ (p = hop2 (d_orb s j) (bath_orb o s i) /\ v = cconj (V o i j))).
Proof.
  rewrite over_In. split; intros (o & s & i & j & H); exists o, s, i, j.
  - destruct H as (Ho & Hs & Hi & Hj & H). split; auto. unfold hop_w in H. cbn [fst snd] in H. destruct (ceqb_spec (V o i j) c0) as [E|E]; [destruct H|].
    split; auto. destruct H as [H|[H|[]]]; injection H as <- <-; auto.
  - destruct H as ((Ho & Hs & Hi & Hj) & E & H). do 4 (split; [assumption|]). unfold hop_w. cbn [fst snd].
    destruct (ceqb_spec (V o i j) c0) as [C|_]; [congruence|]. destruct H as [[-> ->]|[-> ->]]; cbn; auto.
Qed.
Lemma eb_In p v : In (p, v) (over eb_w) <-> exists o s i j, (In o offs /\ (s = 0 \/ s = 1) /\ (i < 5)%nat /\ (j < 5)%nat) /\ Eb o i j <> c0 /\
  p = hop2 (bath_orb o s i) (bath_orb o s j) /\ v = Eb o i j.
Proof.
  rewrite over_In. split; intros (o & s & i & j & H); exists o, s, i, j.
  - destruct H as (Ho & Hs & Hi & Hj & H). split; auto. unfold eb_w in H. cbn [fst snd] in H. destruct (ceqb_spec (Eb o i j) c0) as [E|E]; [destruct H|].
    split; auto. destruct H as [H|[]]; injection H as <- <-; auto.
  - destruct H as ((Ho & Hs & Hi & Hj) & E & -> & ->). do 4 (split; [assumption|]). unfold eb_w. cbn [fst snd].
    destruct (ceqb_spec (Eb o i j) c0) as [C|_]; [congruence|]. cbn; auto.
Qed.
Lemma bath_orb_inj o s i o' s' i' : (o = 0 \/ o = 10) -> (o' = 0 \/ o' = 10) -> (s = 0 \/ s = 1) -> (s' = 0 \/ s' = 1) -> (i < 5)%nat -> (i' < 5)%nat ->
  bath_orb o s i = bath_orb o' s' i' -> o = o' /\ s = s' /\ i = i'.
Proof.
  unfold bath_orb. intros Ho Ho' Hs Hs' Hi Hi' E.
  apply (f_equal (fun x => match x with SBath _ b => b | _ => 0 end)) in E. repeat split; lia.
Qed.
Lemma hop_consistent : consistent (over hop_w).
Proof.
  intros p v v' H H'. apply hop_In in H as (o & s & i & j & (Ho & Hs & Hi & Hj) & _ & H). apply hop_In in H' as (o' & s' & i' & j' & (Ho' & Hs' & Hi' & Hj') & _ & H').
  apply Hoffs in Ho, Ho'.
  destruct H as [[-> ->]|[-> ->]], H' as [[E ->]|[E ->]]; apply hop2_inj in E as [E1 E2]; try (unfold bath_orb, d_orb in *; discriminate);
    [apply d_orb_inj in E2; apply bath_orb_inj in E1; auto; destruct E1 as (-> & -> & ->), E2 as (_ & ->)
    |apply d_orb_inj in E1; apply bath_orb_inj in E2; auto; destruct E2 as (-> & -> & ->), E1 as (_ & ->)]; auto.
Qed.
Lemma eb_consistent : consistent (over eb_w).
Proof.
  intros p v v' H H'. apply eb_In in H as (o & s & i & j & (Ho & Hs & Hi & Hj) & _ & -> & ->). apply eb_In in H' as (o' & s' & i' & j' & (Ho' & Hs' & Hi' & Hj') & _ & E & ->).
  apply Hoffs in Ho, Ho'. apply hop2_inj in E as [E1 E2]. apply bath_orb_inj in E1, E2; auto. destruct E1 as (-> & -> & ->), E2 as (_ & _ & ->). auto.
Qed.
End C.
Variable p : @cf_params F.
Definition v_at (b : bath_basis) (o : Z) (i j : nat) : cx F :=
  if o =? 0 then rotm (ub b) u (v_val_eg p) (v_val_t2g p) i j else rotm (ub b) u (v_con_eg p) (v_con_t2g p) i j.
Definition e_at (b : bath_basis) (o : Z) (i j : nat) : cx F :=
  if o =? 0 then rotm (ub b) (ub b) (e_val_eg p) (e_val_t2g p) i j else rotm (ub b) (ub b) (e_con_eg p) (e_con_t2g p) i j.
Definition imp_at : nat -> nat -> cx F :=
  rotm u u (e_imp p + fofZ 3 / fofZ 5 * e_deltaO_imp p)%F (e_imp p - fofZ 2 / fofZ 5 * e_deltaO_imp p)%F.
Definition offs_of (nB nV : Z) : list Z := if nB - nV =? 10 then [0; 10] else [0].
Local Opaque dot ctrans.
Lemma CF_eq nb nv b nB nV : b <> OtherBasis -> dget nb (KInt 2) = Some nB -> dget nv (KInt 2) = Some nV ->
  get_CF_hamiltonian fsqrt nb nv p b =
  Ok (addOps [wr (imp_list imp_at) []; wr (over (offs_of nB nV) (hop_w (v_at b))) []; wr (over (offs_of nB nV) (eb_w (e_at b))) []]).
Proof.
  intros Hb HB HV. unfold get_CF_hamiltonian. rewrite sph2cub_2. cbn [bind]. fold u.
  rewrite (fold_res_wr _ (fun imi => flat_map (fun jmj => if ceqb (imp_at (fst imi) (fst jmj)) c0 then [] else
    map (fun s => (hop2 (SImp 2 s (snd imi)) (SImp 2 s (snd jmj)), imp_at (fst imi) (fst jmj))) (zrange 2)) E5)).
  2:{ intros d [i mi] Hi. apply fold_res_wr. clear d. intros d [j mj] Hj. apply E5_In in Hi as [Hi ->]. apply E5_In in Hj as [Hj ->]. cbn [fst snd].
      rewrite (mget_at [] _ 5); auto; [|apply rot_square; reflexivity]. cbn [bind]. rewrite rot_at by auto. fold imp_at. change (rotm _ _ _ _ i j) with (imp_at i j).
      destruct (ceqb (imp_at i j) c0); reflexivity. }
  cbn [bind].
  match goal with |- context [match b with Spherical => ?x | Cubic => ?y | OtherBasis => ?z end] =>
    replace (match b with Spherical => x | Cubic => y | OtherBasis => z end) with (@Ok (@M_Expect.mat F) (ub b)) by (destruct b; [reflexivity|reflexivity|congruence]) end.
  cbn [bind]. unfold dgetitem. rewrite HB, HV. cbn [bind]. cbv zeta.
  rewrite (fold_res_wr2 _ (fun s => flat_map (fun imi => flat_map (fun jmj => flat_map (fun o => hop_w (v_at b) o s imi jmj) (offs_of nB nV)) E5) E5)
     (fun s => flat_map (fun imi => flat_map (fun jmj => flat_map (fun o => eb_w (e_at b) o s imi jmj) (offs_of nB nV)) E5) E5)).
  - reflexivity.
  - intros d s Hs. apply fold_res_wr2. clear d. intros d [i mi] Hi. apply fold_res_wr2. clear d. intros d [j mj] Hj. 
    apply E5_In in Hi as [Hi ->]. apply E5_In in Hj as [Hj ->]. cbn [fst snd].
    rewrite !(mget_at [] _ 5); auto; try (apply rot_square; apply ub_len). cbn [bind].
    rewrite !rot_at by (auto using ub_len). 
    assert (E1 : s * (2 * 2 + 1) + Z.of_nat i = 0 + 5 * s + Z.of_nat i) by lia.
    assert (E2 : s * (2 * 2 + 1) + Z.of_nat j = 0 + 5 * s + Z.of_nat j) by lia.
    assert (E3 : 2 * (2 * 2 + 1) + (0 + 5 * s + Z.of_nat i) = 10 + 5 * s + Z.of_nat i) by lia.
    assert (E4 : 2 * (2 * 2 + 1) + (0 + 5 * s + Z.of_nat j) = 10 + 5 * s + Z.of_nat j) by lia.
    rewrite E1, E2, E3, E4. unfold offs_of. destruct d as [d1 d2]. cbn [fst snd].
    destruct (nB - nV =? 10); cbn [flat_map app]; rewrite ?app_nil_r; rewrite ?wr_app; unfold hop_w, eb_w, v_at, e_at; cbn [fst snd Z.eqb];
      repeat match goal with |- context [ceqb ?x c0] => destruct (ceqb x c0) end; reflexivity.
Qed.
Local Transparent dot ctrans.

Lemma CF_other nb nv : get_CF_hamiltonian fsqrt nb nv p OtherBasis = Err GenericException.
Proof.
  unfold get_CF_hamiltonian. rewrite sph2cub_2. cbn [bind]. fold u.
  rewrite (fold_res_wr _ (fun imi => flat_map (fun jmj => if ceqb (imp_at (fst imi) (fst jmj)) c0 then [] else
    map (fun s => (hop2 (SImp 2 s (snd imi)) (SImp 2 s (snd jmj)), imp_at (fst imi) (fst jmj))) (zrange 2)) E5)).
  2:{ intros d [i mi] Hi. apply fold_res_wr. clear d. intros d [j mj] Hj. apply E5_In in Hi as [Hi ->]. apply E5_In in Hj as [Hj ->]. cbn [fst snd].
      rewrite (mget_at [] _ 5); auto; [|apply rot_square; reflexivity]. cbn [bind]. rewrite rot_at by auto. fold imp_at. change (rotm _ _ _ _ i j) with (imp_at i j).
      destruct (ceqb (imp_at i j) c0); reflexivity. }
  cbn [bind].
  reflexivity.
Qed.
Lemma CF_key nb nv b : b <> OtherBasis -> (dget nb (KInt 2) = None \/ dget nv (KInt 2) = None) -> get_CF_hamiltonian fsqrt nb nv p b = Err KeyError.
Proof.
  intros Hb H.
  unfold get_CF_hamiltonian. rewrite sph2cub_2. cbn [bind]. fold u.
  rewrite (fold_res_wr _ (fun imi => flat_map (fun jmj => if ceqb (imp_at (fst imi) (fst jmj)) c0 then [] else
    map (fun s => (hop2 (SImp 2 s (snd imi)) (SImp 2 s (snd jmj)), imp_at (fst imi) (fst jmj))) (zrange 2)) E5)).
  2:{ intros d [i mi] Hi. apply fold_res_wr. clear d. intros d [j mj] Hj. apply E5_In in Hi as [Hi ->]. apply E5_In in Hj as [Hj ->]. cbn [fst snd].
      rewrite (mget_at [] _ 5); auto; [|apply rot_square; reflexivity]. cbn [bind]. rewrite rot_at by auto. fold imp_at. change (rotm _ _ _ _ i j) with (imp_at i j).
      destruct (ceqb (imp_at i j) c0); reflexivity. }
  cbn [bind].
  match goal with |- context [match b with Spherical => ?x | Cubic => ?y | OtherBasis => ?z end] =>
    replace (match b with Spherical => x | Cubic => y | OtherBasis => z end) with (@Ok (@M_Expect.mat F) (ub b)) by (destruct b; [reflexivity|reflexivity|congruence]) end.
  cbn [bind]. unfold dgetitem. destruct (dget nb (KInt 2)); [|reflexivity]. cbn [bind]. destruct (dget nv (KInt 2)); [|reflexivity].
  destruct H; discriminate.
Qed.
Lemma wr_val {K} {EK : EqB K} (L : list (K * cx F)) k v : consistent L -> In (k, v) L -> dget (wr L []) k = Some v.
Proof. intros H Hi. apply dget_wr; auto. Qed.
Lemma offs_ok nB nV o : In o (offs_of nB nV) -> o = 0 \/ (o = 10 /\ nB - nV = 10).
Proof. unfold offs_of. destruct (Z.eqb_spec (nB - nV) 10); cbn; intuition lia. Qed.
Lemma offs_ok' nB nV o : In o (offs_of nB nV) -> o = 0 \/ o = 10.
Proof. intros H. apply offs_ok in H. tauto. Qed.
Lemma v_none (op : sop_t F) q : (forall v, dget op q <> Some v) -> val op q = c0.
Proof. unfold val. intros H. destruct (dget op q); auto. elim (H c); auto. Qed.
Lemma d_orb_bath o s i s' j : d_orb s i <> bath_orb o s' j. Proof. discriminate. Qed.

Section R.
Variables (nb nv : nbaths_t) (b : bath_basis) (nB nV : Z).
Let A1 : sop_t F := wr (imp_list imp_at) [].
Let A2 : sop_t F := wr (over (offs_of nB nV) (hop_w (v_at b))) [].
Let A3 : sop_t F := wr (over (offs_of nB nV) (eb_w (e_at b))) [].
Lemma A1_dget q v : dget A1 q = Some v <-> In (q, v) (imp_list imp_at).
Proof. apply dget_wr, imp_consistent. Qed.
Lemma A2_dget q v : dget A2 q = Some v <-> In (q, v) (over (offs_of nB nV) (hop_w (v_at b))).
Proof. apply dget_wr, hop_consistent. apply offs_ok'. Qed.
Lemma A3_dget q v : dget A3 q = Some v <-> In (q, v) (over (offs_of nB nV) (eb_w (e_at b))).
Proof. apply dget_wr, eb_consistent. apply offs_ok'. Qed.
Lemma A_NoDup : Forall (fun op => NoDup (dkeys op)) [A1; A2; A3].
Proof. repeat (apply Forall_cons || apply Forall_nil); apply NoDup_wr; constructor. Qed.
Lemma cconj_neq0 (x : cx F) : x <> c0 -> cconj x <> c0.
Proof. intros H C. apply H. apply cconj_inj. rewrite C, cconj_0. auto. Qed.
Lemma A1_herm : assert_hermitian A1 = Ok tt.
Proof.
  apply herm_intro; [|apply NoDup_wr; constructor|].
  - intros q v H. apply A1_dget, imp_In in H as (i & j & s & _ & _ & _ & _ & -> & _). apply good_hop2.
  - intros q v H. apply A1_dget. apply A1_dget in H. apply imp_In in H as (i & j & s & Hi & Hj & Hs & Hne & -> & ->). apply imp_In.
    exists j, i, s. do 3 (split; [assumption|]). rewrite dag_hop2. unfold imp_at in *. rewrite rotm_conj.
    split; [|split; reflexivity]. rewrite <- rotm_conj. apply cconj_neq0. auto.
Qed.
Lemma A2_herm : assert_hermitian A2 = Ok tt.
Proof.
  apply herm_intro; [|apply NoDup_wr; constructor|].
  - intros q v H. apply A2_dget, hop_In in H as (o & s & i & j & _ & _ & [[-> _]|[-> _]]); apply good_hop2.
  - intros q v H. apply A2_dget. apply A2_dget in H. apply hop_In in H as (o & s & i & j & H1 & Hne & H). apply hop_In.
    exists o, s, i, j. split; auto. split; auto. destruct H as [[-> ->]|[-> ->]]; rewrite dag_hop2, ?cconj_conj; auto.
Qed.
Lemma e_at_conj o i j : cconj (e_at b o i j) = e_at b o j i.
Proof. unfold e_at. destruct (o =? 0); apply rotm_conj. Qed.
Lemma A3_herm : assert_hermitian A3 = Ok tt.
Proof.
  apply herm_intro; [|apply NoDup_wr; constructor|].
  - intros q v H. apply A3_dget, eb_In in H as (o & s & i & j & _ & _ & -> & _); apply good_hop2.
  - intros q v H. apply A3_dget. apply A3_dget in H. apply eb_In in H as (o & s & i & j & (Ho & Hs & Hi & Hj) & Hne & -> & ->). apply eb_In.
    exists o, s, j, i. split; auto. rewrite dag_hop2, e_at_conj. split; [|auto]. rewrite <- e_at_conj. apply cconj_neq0. auto.
Qed.
Lemma A_key q : In q (dkeys (addOps [A1; A2; A3])) -> exists v, dget A1 q = Some v \/ dget A2 q = Some v \/ dget A3 q = Some v.
Proof.
  intros H. apply (addOps_keys [A1; A2; A3]) in H; [|apply A_NoDup]. destruct H as (op & Ho & Hv). unfold val in Hv.
  destruct (dget op q) as [v|] eqn:E; [|congruence]. exists v. destruct Ho as [<-|[<-|[<-|[]]]]; auto.
Qed.
(* the orbitals that occur *)
Definition cf_orb (x : spinorb) : Prop :=
  (exists s i, x = d_orb s i /\ (s = 0 \/ s = 1) /\ (i < 5)%nat) \/
  (exists o s i, x = bath_orb o s i /\ In o (offs_of nB nV) /\ (s = 0 \/ s = 1) /\ (i < 5)%nat).
Definition same_spin (x y : spinorb) : Prop := q_2Sz_bath x = q_2Sz_bath y.
Lemma spin_d s i : q_2Sz_bath (d_orb s i) = 2 * s - 1. Proof. reflexivity. Qed.
Lemma spin_b o s i : (o = 0 \/ o = 10) -> (s = 0 \/ s = 1) -> (i < 5)%nat -> q_2Sz_bath (bath_orb o s i) = 2 * s - 1.
Proof.
  intros Ho Hs Hi. unfold bath_orb, q_2Sz_bath. replace ((o + 5 * s + Z.of_nat i) / 5) with (o / 5 + s).
  - destruct Ho as [-> | ->], Hs as [-> | ->]; reflexivity.
  - apply (Z.div_unique _ 5 _ (Z.of_nat i)); [lia|]. destruct Ho as [-> | ->]; [change (0 / 5) with 0|change (10 / 5) with 2]; lia.
Qed.
Lemma A_hop q : In q (dkeys (addOps [A1; A2; A3])) -> exists x y, q = hop2 x y /\ cf_orb x /\ cf_orb y /\ same_spin x y.
Proof.
  intros H. apply A_key in H as (v & [H|[H|H]]).
  - apply A1_dget, imp_In in H as (i & j & s & Hi & Hj & Hs & _ & -> & _). exists (d_orb s i), (d_orb s j).
    split; auto. split; [left; exists s, i; auto|]. split; [left; exists s, j; auto|]. reflexivity.
  - apply A2_dget, hop_In in H as (o & s & i & j & (Ho & Hs & Hi & Hj) & _ & H). pose proof (offs_ok' _ _ _ Ho) as Ho'.
    assert (X : cf_orb (bath_orb o s i)) by (right; exists o, s, i; auto). assert (Y : cf_orb (d_orb s j)) by (left; exists s, j; auto).
    assert (S : same_spin (bath_orb o s i) (d_orb s j)) by (unfold same_spin; rewrite spin_d, spin_b; auto).
    destruct H as [[-> _]|[-> _]]; [exists (bath_orb o s i), (d_orb s j)|exists (d_orb s j), (bath_orb o s i)]; auto.
    unfold same_spin in *. auto.
  - apply A3_dget, eb_In in H as (o & s & i & j & (Ho & Hs & Hi & Hj) & _ & -> & _). pose proof (offs_ok' _ _ _ Ho) as Ho'.
    exists (bath_orb o s i), (bath_orb o s j). split; auto. split; [right; exists o, s, i; auto|]. split; [right; exists o, s, j; auto|].
    unfold same_spin. rewrite !spin_b; auto.
Qed.
Lemma A_conserves : conserves q_N (addOps [A1; A2; A3]) /\ conserves q_2Sz_bath (addOps [A1; A2; A3]).
Proof.
  split; intros q H; apply A_hop in H as (x & y & -> & _ & _ & H); rewrite pcharge_hop2; [reflexivity|]. unfold same_spin in H. rewrite H. apply Z.sub_diag.
Qed.
Lemma A_in : In 2 (angs nb) -> In (KInt 2, nB) nb -> (nB - nV = 10 -> 20 <= nB) -> 10 <= nB -> op_in nb (addOps [A1; A2; A3]).
Proof.
  intros H2 HB HV H10. unfold op_in. apply Forall_forall. intros [q v] Hi. apply (in_map fst) in Hi. cbn [fst] in *.
  assert (C : forall x, cf_orb x -> coord_ok nb x).
  { intros x [(s & i & -> & Hs & Hlt)|(o & s & i & -> & Ho & Hs & Hlt)].
    - cbn. split; auto. split; auto. lia.
    - unfold bath_orb, coord_ok. exists nB. split; auto. apply offs_ok in Ho. destruct Ho as [-> | [-> E]]; [|apply HV in E]; lia. }
  apply A_hop in Hi as (x & y & -> & Hx & Hy & _). unfold hop2. repeat (apply Forall_cons || apply Forall_nil); cbn [fst]; auto.
Qed.
Lemma A1_val s s' i j : (s = 0 \/ s = 1) -> (i < 5)%nat -> (j < 5)%nat -> val A1 (hop2 (d_orb s i) (d_orb s' j)) = if s =? s' then imp_at i j else c0.
Proof.
  intros Hs Hi Hj. unfold val. destruct (dget A1 (hop2 (d_orb s i) (d_orb s' j))) as [v|] eqn:E.
  - apply A1_dget, imp_In in E as (i' & j' & t & _ & _ & _ & _ & E & ->). apply hop2_inj in E as [E1 E2]. apply d_orb_inj in E1, E2.
    destruct E1, E2. subst. rewrite Z.eqb_refl. auto.
  - destruct (Z.eqb_spec s s') as [<-|]; auto. destruct (ceqb_spec (imp_at i j) c0) as [->|Hne]; auto.
    assert (X : dget A1 (hop2 (d_orb s i) (d_orb s j)) = Some (imp_at i j)) by (apply A1_dget, imp_In; exists i, j, s; auto 8). congruence.
Qed.
Lemma A2_val o s s' i j : In o (offs_of nB nV) -> (s = 0 \/ s = 1) -> (i < 5)%nat -> (j < 5)%nat ->
  val A2 (hop2 (bath_orb o s i) (d_orb s' j)) = if s =? s' then v_at b o i j else c0.
Proof.
  intros Ho Hs Hi Hj. unfold val. destruct (dget A2 (hop2 (bath_orb o s i) (d_orb s' j))) as [v|] eqn:E.
  - apply A2_dget, hop_In in E as (o' & t & i' & j' & (Ho' & Ht & Hi' & Hj') & _ & [[E ->]|[E ->]]); apply hop2_inj in E as [E1 E2]; [|discriminate].
    apply offs_ok' in Ho, Ho'. apply bath_orb_inj in E1; auto. apply d_orb_inj in E2. destruct E1 as (-> & -> & ->), E2 as (-> & ->). rewrite Z.eqb_refl. auto.
  - destruct (Z.eqb_spec s s') as [<-|]; auto. destruct (ceqb_spec (v_at b o i j) c0) as [->|Hne]; auto.
    assert (X : dget A2 (hop2 (bath_orb o s i) (d_orb s j)) = Some (v_at b o i j)) by (apply A2_dget, hop_In; exists o, s, i, j; auto 8). congruence.
Qed.
Lemma A3_val o o' s s' i j : In o (offs_of nB nV) -> In o' (offs_of nB nV) -> (s = 0 \/ s = 1) -> (s' = 0 \/ s' = 1) -> (i < 5)%nat -> (j < 5)%nat ->
  val A3 (hop2 (bath_orb o s i) (bath_orb o' s' j)) = if (o =? o') && (s =? s') then e_at b o i j else c0.
Proof.
  intros Ho Ho' Hs Hs' Hi Hj. unfold val. destruct (dget A3 (hop2 (bath_orb o s i) (bath_orb o' s' j))) as [v|] eqn:E.
  - apply A3_dget, eb_In in E as (w & t & i' & j' & (Hw & Ht & Hi' & Hj') & _ & E & ->); apply hop2_inj in E as [E1 E2].
    apply offs_ok' in Ho, Ho', Hw. apply bath_orb_inj in E1, E2; auto. destruct E1 as (-> & -> & ->), E2 as (-> & -> & ->). rewrite !Z.eqb_refl. auto.
  - destruct (Z.eqb_spec o o') as [<-|]; auto. destruct (Z.eqb_spec s s') as [<-|]; auto. cbn [andb]. destruct (ceqb_spec (e_at b o i j) c0) as [->|Hne]; auto.
    assert (X : dget A3 (hop2 (bath_orb o s i) (bath_orb o s j)) = Some (e_at b o i j)) by (apply A3_dget, eb_In; exists o, s, i, j; auto 8). congruence.
Qed.
Lemma A1_off o s i x y : x = bath_orb o s i \/ y = bath_orb o s i -> val A1 (hop2 x y) = c0.
Proof.
  intros H. apply v_none. intros v E. apply A1_dget, imp_In in E as (i' & j' & t & _ & _ & _ & _ & E & _). apply hop2_inj in E as [-> ->].
  destruct H; discriminate.
Qed.
Lemma A2_off x y : (exists s i t j, x = d_orb s i /\ y = d_orb t j) \/ (exists o s i o' t j, x = bath_orb o s i /\ y = bath_orb o' t j) -> val A2 (hop2 x y) = c0.
Proof.
  intros H. apply v_none. intros v E. apply A2_dget, hop_In in E as (o & t & i & j & _ & _ & E).
  destruct E as [[E _]|[E _]]; apply hop2_inj in E as [-> ->]; destruct H as [(s & k & s' & k' & E1 & E2)|(o1 & s & k & o2 & s' & k' & E1 & E2)]; discriminate.
Qed.
Lemma A3_off s i x y : x = d_orb s i \/ y = d_orb s i -> val A3 (hop2 x y) = c0.
Proof.
  intros H. apply v_none. intros v E. apply A3_dget, eb_In in E as (o & t & i' & j' & _ & _ & E & _). apply hop2_inj in E as [-> ->].
  destruct H; discriminate.
Qed.
Definition CFop : sop_t F := addOps [A1; A2; A3].
Lemma CF_imp s s' i j : (s = 0 \/ s = 1) -> (i < 5)%nat -> (j < 5)%nat -> val CFop (hop2 (d_orb s i) (d_orb s' j)) = if s =? s' then imp_at i j else c0.
Proof.
  intros Hs Hi Hj. unfold CFop. rewrite addOps_val by apply A_NoDup. cbn [csum]. rewrite A1_val, A2_off, (A3_off s i) by eauto 8. ring.
Qed.
Lemma CF_hop o s s' i j : In o (offs_of nB nV) -> (s = 0 \/ s = 1) -> (i < 5)%nat -> (j < 5)%nat ->
  val CFop (hop2 (bath_orb o s i) (d_orb s' j)) = if s =? s' then v_at b o i j else c0.
Proof.
  intros Ho Hs Hi Hj. unfold CFop. rewrite addOps_val by apply A_NoDup. cbn [csum]. rewrite (A1_off o s i), A2_val, (A3_off s' j) by eauto 8. ring.
Qed.
Lemma CF_bath o o' s s' i j : In o (offs_of nB nV) -> In o' (offs_of nB nV) -> (s = 0 \/ s = 1) -> (s' = 0 \/ s' = 1) -> (i < 5)%nat -> (j < 5)%nat ->
  val CFop (hop2 (bath_orb o s i) (bath_orb o' s' j)) = if (o =? o') && (s =? s') then e_at b o i j else c0.
Proof.
  intros Ho Ho' Hs Hs' Hi Hj. unfold CFop. rewrite addOps_val by apply A_NoDup. cbn [csum]. rewrite (A1_off o s i), A2_off, A3_val by eauto 10. ring.
Qed.
Lemma CF_hermitian : assert_hermitian CFop = Ok tt.
Proof.
  apply addOps_hermitian. repeat (apply Forall_cons || apply Forall_nil); (split; [apply NoDup_wr; constructor|]);
    [apply A1_herm|apply A2_herm|apply A3_herm].
Qed.
End R.
End A.
