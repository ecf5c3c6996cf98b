(* Diagonal expectation values: Lz, Sz and the occupation of a shell. *)
From Coq Require Import Field Ring Permutation.
From Verif Require Import M_Prelude M_Scalar M_PSR M_State M_Basis M_Expect S_Fock S_Basis S_Expect
  L_Scalar L_Dict L_Fock L_State L_Index L_Ham L_FromH L_PSR L_Expect L_Expect2 L_Expect3.
Local Open Scope Z_scope.

Section D.
Context {F : ofield}.
Add Field Ff : (f_field F).
Add Ring Cring : (@c_ring F).

Lemma csum_incl {X} `{EqB X} (g : X -> cx F) l J : NoDup l -> NoDup J -> incl J l -> (forall i, In i l -> ~ In i J -> g i = c0) ->
  csum g l = csum g J.
Proof.
  intros Hl HJ Hi Hz.
  transitivity (csum (fun i => if inb i J then g i else c0) l).
  - apply csum_ext. intros i Hin. destruct (inb i J) eqn:E; auto. apply Hz; auto. intros Hj. apply inb_In in Hj. congruence.
  - rewrite <- csum_filter. apply csum_perm. apply NoDup_Permutation; auto; [apply NoDup_filter; auto|].
    intros i. rewrite filter_In, inb_In. split; [tauto|]. intros Hj. split; auto.
Qed.
Lemma csum_fofZ {X} (h : X -> Z) l : forall acc, @creal F (fofZ (fold_left (fun s x => s + h x) l acc)) = (cofZ acc + csum (fun x => cofZ (h x)) l)%C.
Proof.
  induction l as [|x l IH]; intros acc; cbn [fold_left].
  - unfold csum. cbn [fold_right]. unfold cofZ. ring.
  - rewrite IH. unfold csum. cbn [fold_right]. fold (csum (fun x => @cofZ F (h x)) l). rewrite cofZ_add. ring.
Qed.

Variable nb : nbaths_t.
Variable l : Z.
Hypothesis Hsh : has_shell nb l.
Let n := n_orb nb.
Let Hwf : wf_nbaths nb := proj1 Hsh.

Definition occ_c (x : spinorb) (t : config) : cx F := if occupied t (coord_index nb x) then c1 else c0.
Lemma occupied_ix x t : coord_ok nb x -> occupied t (coord_index nb x) = nth (ix nb x) t false.
Proof.
  intros Hx. destruct (ix_ok nb Hwf x Hx) as [_ E]. unfold occupied. rewrite <- E, Nat2Z.id.
  destruct (Z.leb_spec 0 (Z.of_nat (ix nb x))); [auto|lia].
Qed.
Lemma E_diag x (v : config -> cx F) t : coord_ok nb x -> length t = n -> E_ (ix nb x) (ix nb x) v t = (occ_c x t * v t)%C.
Proof.
  intros Hx Ht. destruct (ix_ok nb Hwf x Hx) as [Hi _]. fold n in Hi. unfold E_, C_, A_. rewrite vpull_vpull. unfold vpull.
  destruct (nth_error t (ix nb x)) as [b|] eqn:E; [|apply nth_error_None in E; lia].
  pose proof (flip_pair false _ _ _ E) as HP. cbn [negb] in HP. rewrite HP. unfold occ_c. rewrite occupied_ix by auto. rewrite (nth_error_nth _ _ _ E).
  destruct b; cbn [Bool.eqb]; rewrite ?cofZ_1; ring.
Qed.
(* diagonal operator sum_x w_x n_x *)
Definition dterms (w : Z * Z -> cx F) : list (@term F) := map (fun sm => ((orb l sm, orb l sm), w sm)) (sites l).
Definition dval_at (w : Z * Z -> cx F) (t : config) : cx F := csum (fun sm => w sm * occ_c (orb l sm) t)%C (sites l).
Lemma ok_dterms w : Forall (term_ok nb) (dterms w).
Proof. unfold dterms. apply Forall_map, Forall_forall. intros sm Hi. split; cbn [fst snd]; apply (site_ok nb l Hsh); auto. Qed.
Lemma gam_dterms w (v : config -> cx F) t : length t = n -> gam nb (dterms w) v t = (dval_at w t * v t)%C.
Proof.
  intros Ht. unfold gam, dterms, dval_at. rewrite csum_map, <- csum_mul_r. apply csum_ext. intros sm Hi. cbn [fst snd].
  rewrite E_diag by (auto; apply (site_ok nb l Hsh); auto). ring.
Qed.
Lemma ev_gam L (psi : psi_t F) : Forall (term_ok nb) L -> ev n (one_body nb L) psi = vip n (amp psi) (gam nb L (amp psi)).
Proof.
  intros HL. unfold ev, vip. apply csum_ext. intros t Ht. apply allcfg_In in Ht. f_equal. apply (op_vec_gam nb Hwf); auto.
Qed.
Lemma ev_dterms w (psi : psi_t F) : ev n (one_body nb (dterms w)) psi = csum (fun t => dval_at w t * creal (cabs2 (amp psi t)))%C (allcfg n).
Proof.
  rewrite ev_gam by apply ok_dterms. unfold vip. apply csum_ext. intros t Ht. apply allcfg_In in Ht.
  rewrite gam_dterms by auto. rewrite <- cmul_conj. ring.
Qed.
(* the loop over the product states *)
Lemma diag_loop {T} (g : pybytes -> res T) (conv : T -> F) (w : Z * Z -> cx F) (psi : psi_t F) : valid_psi n psi ->
  (forall c, length c = n -> exists x, g (key c) = Ok x /\ creal (conv x) = dval_at w c) ->
  exists v, fold_res (fun acc sa => do tmp <- g (fst sa); Ok (acc + conv tmp * cabs2 (snd sa))%F) psi 0%F = Ok v /\
    creal v = ev n (one_body nb (dterms w)) psi.
Proof.
  intros Hv Hg. pose (G := fun k => match g k with Ok x => conv x | Err _ => 0%F end).
  exists (fold_left (fun acc sa => acc + G (fst sa) * cabs2 (snd sa))%F psi 0%F). split.
  - apply fold_res_ok. intros s [k a] Hi. cbn [fst snd].
    destruct (proj2 Hv k) as (c & Hc & ->); [apply (in_map fst) in Hi; exact Hi|].
    destruct (Hg c Hc) as (x & E & _). unfold G. rewrite E. reflexivity.
  - rewrite (fold_left_fsum (fun sa => G (fst sa) * cabs2 (snd sa))%F). rewrite ev_dterms.
    transitivity (csum (fun ka => creal (G (fst ka) * cabs2 (snd ka))%F) psi).
    { rewrite csum_creal_fsum. f_equal. ring. }
    rewrite (csum_dict psi (map key (allcfg n)) (fun k a => creal (G k * cabs2 a)%F)).
    + rewrite csum_map. apply csum_ext. intros t Ht. apply allcfg_In in Ht. destruct (Hg t Ht) as (x & E & Ex).
      unfold amp. rewrite <- Ex. destruct (dget psi (key t)).
      * unfold G. rewrite E, creal_mul. reflexivity.
      * change (cabs2 c0) with (0 * 0 + 0 * 0 : F)%F. replace (0 * 0 + 0 * 0)%F with (0 : F)%F by ring. rewrite creal_0. ring.
    + apply Hv.
    + apply allkeys_NoDup.
    + intros k Hk. destruct (proj2 Hv k Hk) as (c & Hc & ->). apply in_map. apply allcfg_In. auto.
Qed.

(* the occupied spin-orbitals of a configuration that belong to the shell *)
Hypothesis Hnd : NoDup (angs nb).
Definition at_i (w : Z * Z -> cx F) (i : Z) : cx F :=
  match i2c nb i with Ok (SImp a s m) => if a =? l then w (s, m) else c0 | _ => c0 end.
Lemma btuple_range c i : length c = n -> In i (btuple c) -> 0 <= i < n_total nb /\ occupied c i = true.
Proof.
  intros Hc Hi. apply btuple_In in Hi. destruct Hi as (k & Hk & -> & Hn). pose proof (n_orb_Z nb Hwf) as HnZ. fold n in HnZ.
  split; [lia|]. unfold occupied. rewrite Nat2Z.id, Hn. destruct (Z.leb_spec 0 (Z.of_nat k)); [auto|lia].
Qed.
Lemma shell_sum w c : length c = n -> csum (at_i w) (btuple c) = dval_at w c.
Proof.
  intros Hc. pose proof (n_orb_Z nb Hwf) as Hn. fold n in Hn.
  set (J := filter (fun sm => occupied c (coord_index nb (orb l sm))) (sites l)).
  transitivity (csum (at_i w) (map (fun sm => coord_index nb (orb l sm)) J)).
  - apply csum_incl.
    + unfold btuple. apply FinFun.Injective_map_NoDup; [intros a b; apply Nat2Z.inj|]. apply NoDup_filter, seq_NoDup.
    + unfold J. assert (HN : NoDup (filter (fun sm => occupied c (coord_index nb (orb l sm))) (sites l))) by (apply NoDup_filter, sites_NoDup).
      assert (HI : forall a b, In a (sites l) -> In b (sites l) -> coord_index nb (orb l a) = coord_index nb (orb l b) -> a = b).
      { intros [s m] [s' m'] Ha Hb E. apply (coord_index_inj nb) in E; auto; try (apply (site_ok nb l Hsh); auto).
        unfold orb in E. cbn [fst snd] in E. congruence. }
      revert HN. assert (HS : incl (filter (fun sm => occupied c (coord_index nb (orb l sm))) (sites l)) (sites l)) by (intros a Ha; apply filter_In in Ha; tauto).
      revert HS. generalize (filter (fun sm => occupied c (coord_index nb (orb l sm))) (sites l)) as K.
      induction K as [|a K IH]; intros HS HN; cbn [map]; constructor.
      * intros Hi. apply in_map_iff in Hi. destruct Hi as (b & Eb & Hb). apply HI in Eb; [|apply HS; right; auto|apply HS; left; auto].
        subst b. inversion HN; auto.
      * apply IH; [intros b Hb; apply HS; right; auto|inversion HN; auto].
    + intros i Hi. apply in_map_iff in Hi. destruct Hi as (sm & <- & Hsm). unfold J in Hsm. apply filter_In in Hsm. destruct Hsm as [Hs Ho].
      pose proof (site_ok nb l Hsh sm Hs) as Hok. destruct (ix_ok nb Hwf _ Hok) as [Hlt Eix]. fold n in Hlt.
      rewrite occupied_ix in Ho by auto. apply btuple_In. exists (ix nb (orb l sm)). rewrite Hc. auto.
    + intros i Hi Hni. destruct (btuple_range c i Hc Hi) as [Hr Ho]. unfold at_i.
      destruct (i2c_bijection nb i Hwf Hnd Hr) as (x & E & Hx & Ec & _). rewrite E. destruct x as [a s m|]; auto.
      destruct (Z.eqb_spec a l) as [->|]; auto. elim Hni. apply in_map_iff. exists (s, m).
      assert (Ei : coord_index nb (orb l (s, m)) = i) by (rewrite c2i_ok in Ec by auto; unfold orb; cbn [fst snd]; congruence).
      split; auto. unfold J. apply filter_In. cbn [coord_ok] in Hx. destruct Hx as (_ & Hs & Hm). split; [apply sites_In; auto|].
      rewrite Ei. auto.
  - rewrite csum_map. unfold dval_at. unfold J. rewrite csum_filter. apply csum_ext. intros [s m] Hsm.
    pose proof (site_ok nb l Hsh _ Hsm) as Hok. unfold occ_c, at_i.
    destruct (occupied c (coord_index nb (orb l (s, m)))); [|ring].
    rewrite i2c_index by auto. unfold orb. cbn [fst snd]. rewrite Z.eqb_refl. ring.
Qed.
Lemma key_tuple c : length c = n -> bytes2tuple (key c) (Z.of_nat n) = btuple c.
Proof. intros <-. apply c_bytes2tuple. Qed.
Lemma key_str c : length c = n -> bytes2str (key c) (Z.of_nat n) = to01 c.
Proof. intros <-. apply c_bytes2str. Qed.

Lemma trace_ok (psi : psi_t F) : valid_psi n psi ->
  exists v, getTraceDensityMatrix nb psi l = Ok v /\ creal v = ev n (one_body nb (N_terms l)) psi.
Proof.
  intros Hv. unfold getTraceDensityMatrix. rewrite (total_orbitals_ok nb l Hsh). cbn [bind]. fold n.
  destruct (diag_loop (fun k => fold_res (fun nState spin => fold_res (fun nState m =>
        do i <- c2i nb (SImp l spin m);
        do ch <- py_nth (bytes2str k (Z.of_nat n)) i;
        Ok (if Ascii.eqb ch ch1 then nState + 1 else nState)%Z) (mrange l) nState) (zrange 2) 0%Z) fofZ (fun _ => c1) psi Hv) as (v & E & Ev).
  - intros c Hc. exists (fold_left (fun s sm => s + (if occupied c (coord_index nb (orb l sm)) then 1 else 0)) (sites l) 0). split.
    + rewrite (fold_res_prod (fun nState spin m => do i <- c2i nb (SImp l spin m);
        do ch <- py_nth (bytes2str (key c) (Z.of_nat n)) i; Ok (if Ascii.eqb ch ch1 then nState + 1 else nState))).
      rewrite mrange_sites. apply fold_res_ok. intros s [sp m] Hsm. cbn [fst snd].
      pose proof (site_ok nb l Hsh _ Hsm) as Hok. unfold orb in *. cbn [fst snd] in *.
      destruct (ix_ok nb Hwf _ Hok) as [Hlt Eix]. fold n in Hlt. rewrite c2i_ok by auto. cbn [bind].
      rewrite occupied_ix by auto. rewrite key_str by auto. rewrite <- Eix. unfold py_nth, py_index.
      rewrite to01_length, Hc. destruct (Z.leb_spec 0 (Z.of_nat (ix nb (SImp l sp m)))); [|lia].
      destruct (Z.ltb_spec (Z.of_nat (ix nb (SImp l sp m))) (Z.of_nat n)); [|lia]. cbn [andb]. rewrite Nat2Z.id.
      unfold to01. rewrite nth_error_map. rewrite (nth_error_nth' c false) by lia. cbn [option_map bind].
      destruct (nth (ix nb (SImp l sp m)) c false); cbn; f_equal; lia.
    + rewrite csum_fofZ, cofZ_0. unfold dval_at, occ_c.
      transitivity (csum (fun sm => @cofZ F (if occupied c (coord_index nb (orb l sm)) then 1 else 0)) (sites l)); [ring|].
      apply csum_ext. intros sm _. destruct (occupied c (coord_index nb (orb l sm))); rewrite ?cofZ_1, ?cofZ_0; ring.
  - exists v. split; [|exact Ev]. exact E.
Qed.
End D.

Section D2.
Context {F : ofield}.
Add Field Ff2 : (f_field F).
Add Ring Cring2 : (@c_ring F).
Variable nb : nbaths_t.
Lemma int_keys_angs : wf_nbaths nb -> int_keys nb -> NoDup (angs nb).
Proof.
  intros (Hn & _ & _) Hk. unfold angs, dkeys in *. clear -Hn Hk. induction Hk as [|[k m] nb' (a & Ea) Hk IH]; cbn [map flat_map]; [constructor|].
  cbn [fst map] in *. subst k. inversion Hn; subst. cbn [key_angs app]. constructor; auto.
  intros Hi. apply H1. clear -Hi Hk. induction Hk as [|[k' m'] nb'' (b & Eb) Hk IH]; cbn [map flat_map] in *; [contradiction|].
  cbn [fst] in *. subst k'. cbn [key_angs app] in Hi. destruct Hi as [->|Hi]; [left; auto|right; auto].
Qed.
Hypothesis Hwf : wf_nbaths nb.
Hypothesis Hk : int_keys nb.
Hypothesis Hl : In 2 (angs nb).
Let Hsh : has_shell nb 2 := conj Hwf (conj Hk Hl).
Let n := n_orb nb.
Let Hnd := int_keys_angs Hwf Hk.
Lemma Lz_ok (psi : psi_t F) : valid_psi n psi ->
  exists v, getLz3d nb psi = Ok v /\ creal v = ev n (one_body nb (Lz_terms 2)) psi.
Proof.
  intros Hv. unfold getLz3d. rewrite (total_orbitals_ok nb 2 Hsh). cbn [bind]. fold n.
  destruct (diag_loop nb 2 Hsh (fun k => fold_res (fun tmp i =>
      do spinOrb <- i2c nb i;
      Ok (match spinOrb with
          | SImp l s m => if (l =? 2)%Z then (tmp + m)%Z else tmp
          | SBath _ _ => tmp
          end)) (bytes2tuple k (Z.of_nat n)) 0%Z) fofZ (fun sm => cofZ (snd sm)) psi Hv) as (v & E & Ev).
  - intros c Hc. exists (fold_left (fun s i => s + match i2c nb i with Ok (SImp a _ m) => if a =? 2 then m else 0 | _ => 0 end) (btuple c) 0). split.
    + unfold n. rewrite (key_tuple nb) by auto. apply fold_res_ok. intros s i Hi.
      destruct (btuple_range nb 2 Hsh c i Hc Hi) as [Hr _]. destruct (i2c_total nb i Hwf Hr) as (x & Ex & _). rewrite Ex. cbn [bind].
      destruct x as [a sp m|]; [destruct (a =? 2)|]; f_equal; lia.
    + rewrite csum_fofZ, cofZ_0. rewrite <- (shell_sum nb 2 Hsh Hnd (fun sm => cofZ (snd sm)) c Hc).
      transitivity (csum (fun i => @cofZ F (match i2c nb i with Ok (SImp a _ m) => if a =? 2 then m else 0 | _ => 0 end)) (btuple c)); [ring|].
      apply csum_ext. intros i _. unfold at_i. destruct (i2c nb i) as [[a s m|]|]; auto. destruct (a =? 2); auto.
  - exists v. split; [exact E|exact Ev].
Qed.
Definition sz_w (i : Z) : F :=
  match i2c nb i with Ok (SImp a sp m) => if (a =? 2)%Z then (if (sp =? 0)%Z then - fhalf else fhalf)%F else 0%F | _ => 0%F end.
Lemma Sz_ok (psi : psi_t F) : valid_psi n psi ->
  exists v, getSz3d nb psi = Ok v /\ creal v = ev n (one_body nb (Sz_terms 2)) psi.
Proof.
  intros Hv. unfold getSz3d. rewrite (total_orbitals_ok nb 2 Hsh). cbn [bind]. fold n.
  destruct (diag_loop nb 2 Hsh (fun k => fold_res (fun tmp i =>
      do spinOrb <- i2c nb i;
      Ok (match spinOrb with
          | SImp l s m => if (l =? 2)%Z then (tmp + (if (s =? 0)%Z then - fhalf else fhalf))%F else tmp
          | SBath _ _ => tmp
          end)) (bytes2tuple k (Z.of_nat n)) (0 : F)%F) (fun x => x) (fun sm => creal (if fst sm =? 1 then fhalf else - fhalf)%F) psi Hv) as (v & E & Ev).
  - intros c Hc. exists (fold_left (fun s i => s + sz_w i)%F (btuple c) 0%F). split.
    + unfold n. rewrite (key_tuple nb) by auto. apply fold_res_ok. intros s i Hi.
      destruct (btuple_range nb 2 Hsh c i Hc Hi) as [Hr _]. destruct (i2c_total nb i Hwf Hr) as (x & Ex & _). unfold sz_w. rewrite Ex. cbn [bind].
      destruct x as [a sp m|]; [destruct (a =? 2)|]; f_equal; ring.
    + rewrite (fold_left_fsum sz_w).
      rewrite <- (shell_sum nb 2 Hsh Hnd (fun sm => creal (if fst sm =? 1 then fhalf else - fhalf)%F) c Hc).
      rewrite creal_add, creal_0, <- csum_creal_fsum.
      transitivity (csum (fun i => creal (sz_w i)) (btuple c)); [ring|].
      apply csum_ext. intros i Hi. destruct (btuple_range nb 2 Hsh c i Hc Hi) as [Hr _]. unfold at_i.
      destruct (i2c_total nb i Hwf Hr) as (x & Ex & Hx & _). unfold sz_w. rewrite Ex. destruct x as [a s m|]; auto. destruct (a =? 2); auto.
      cbn [coord_ok fst] in *. destruct Hx as (_ & [->| ->] & _); reflexivity.
  - exists v. split; [exact E|exact Ev].
Qed.
End D2.
