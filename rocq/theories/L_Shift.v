(* Levels that are shifted together: eigenstates and Green's functions. *)
From Coq Require Import Ring Field Permutation.
From Verif Require Import M_Prelude M_Scalar M_PSR M_State M_Mpi M_Basis M_Expect M_Operators M_Hamiltonian S_Fock S_Ops S_Ham S_Basis S_Expect S_Green S_Operators S_Symmetry S_TimeReversal S_Sector S_RIXS S_Shift.
From Verif Require Import L_Scalar L_Sum L_Dict L_Fock L_State L_Ops L_Index L_ApplyOp L_Lanczos2 L_Green L_Green3 L_Green4 L_Sector L_Sector3.
From Verif Require S_Dict L_Ham.
Local Open Scope Z_scope.

Section S.
Context {F : ofield}.
Add Field Ff : (f_field F).
Add Field Cf : (@c_field F).
Local Open Scope cx_scope.
Lemma creal_add (a b : F) : creal (a + b)%F = creal a + creal b.
Proof. unfold creal, cadd. cbn [re im]. f_equal. ring. Qed.
Lemma eig_shift n w c (op op' : op_t F) e v q : levels_added n w c op op' -> in_sector n w q v -> eigenvector n op e v -> eigenvector n op' (e + c * fofZ q)%F v.
Proof.
  intros HL Hq HE t Ht. unfold opv. rewrite (csum_ext _ (fun s => opelem op t s * v s + (if list_eq_dec Bool.bool_dec t s then creal (c * fofZ (charge w t))%F else c0) * v s)).
  - rewrite csum_add. pose proof (HE t Ht) as X. unfold opv in X. rewrite X. rewrite (csum_single (fun s : config => (if list_eq_dec Bool.bool_dec t s then creal (c * fofZ (charge w t))%F else c0) * v s) (allcfg n) t (allcfg_NoDup n) (proj2 (allcfg_In n t) Ht)).
    + destruct (list_eq_dec Bool.bool_dec t t) as [_|N]; [|now elim N]. rewrite creal_add. destruct (ceqb_spec (v t) c0) as [E|E]; [rewrite E; ring|]. rewrite (Hq t Ht E). ring.
    + intros s _ N. destruct (list_eq_dec Bool.bool_dec t s) as [E|_]; [congruence|ring].
  - intros s Hs. apply allcfg_In in Hs. rewrite HL by auto. ring.
Qed.
(* without small elements the restricted operator has the elements of the operator *)
Lemma restr_val n (op : op_t F) rs h t s : S_Dict.no_small n op -> restricted_op n op rs h -> length t = n -> length s = n ->
  (allowed_opt rs t -> h t s = opelem op t s) /\ (~ allowed_opt rs t -> h t s = c0).
Proof.
  intros HN HR Ht Hs. destruct (HR t s Ht Hs) as [H1 H2]. split.
  - intros Ha. destruct (HN t s Ht Hs) as [E|E].
    + rewrite E. apply H2. intros (_ & _ & L). rewrite E in L. assert (X : cabs2 (@c0 F) = 0%F) by (unfold cabs2, c0, creal; cbn; ring). rewrite X in L.
      pose proof (flt_le_trans _ _ _ L_Ham.eps12_pos L) as X0. rewrite flt_irrefl in X0. discriminate.
    + apply H1. split; auto.
  - intros Ha. apply H2. intros (_ & L & _). auto.
Qed.
Section H.
Variables (n : nat) (w : Z -> Z) (c : F) (op op' : op_t F) (rs : option restrictions_t) (h h' : config -> config -> cx F).
Hypothesis HL : levels_added n w c op op'.
Hypothesis HN : S_Dict.no_small n op.
Hypothesis HN' : S_Dict.no_small n op'.
Hypothesis HR : restricted_op n op rs h.
Hypothesis HR' : restricted_op n op' rs h'.
Lemma sol_allowed z x psi t : z <> c0 -> fock_solves n z h x psi -> (forall t, length t = n -> ~ allowed_opt rs t -> amp psi t = c0) -> length t = n -> ~ allowed_opt rs t -> x t = c0.
Proof.
  intros Hz Hx Hp Ht Ha. pose proof (Hx t Ht) as X. rewrite Hp in X by auto. rewrite csum_zero in X.
  - transitivity ((z * x t - c0) / z); [field; auto|]. rewrite X. field. auto.
  - intros s Hs. apply allcfg_In in Hs. rewrite (proj2 (restr_val n op rs h t s HN HR Ht Hs) Ha). ring.
Qed.
Lemma shift_solves z x psi q : in_sector n w q x -> (forall t, length t = n -> ~ allowed_opt rs t -> x t = c0) -> fock_solves n z h x psi -> fock_solves n (z + creal (c * fofZ q)%F) h' x psi.
Proof.
  intros Hq Hx HS t Ht. rewrite <- (HS t Ht). destruct (allowed_opt_dec rs t) as [Ha|Ha].
  - rewrite (csum_ext _ (fun s => h t s * x s + (if list_eq_dec Bool.bool_dec t s then creal (c * fofZ (charge w t))%F else c0) * x s)).
    + rewrite csum_add. rewrite (csum_single (fun s : config => (if list_eq_dec Bool.bool_dec t s then creal (c * fofZ (charge w t))%F else c0) * x s) (allcfg n) t (allcfg_NoDup n) (proj2 (allcfg_In n t) Ht)).
      * destruct (list_eq_dec Bool.bool_dec t t) as [_|N]; [|now elim N]. destruct (ceqb_spec (x t) c0) as [E|E]; [rewrite E; ring|]. rewrite (Hq t Ht E). ring.
      * intros s _ N. destruct (list_eq_dec Bool.bool_dec t s) as [E|_]; [congruence|ring].
    + intros s Hs. apply allcfg_In in Hs. rewrite (proj1 (restr_val n op' rs h' t s HN' HR' Ht Hs) Ha), (proj1 (restr_val n op rs h t s HN HR Ht Hs) Ha), HL by auto. ring.
  - rewrite (Hx t Ht Ha). rewrite !csum_zero; [ring| |].
    + intros s Hs. apply allcfg_In in Hs. rewrite (proj2 (restr_val n op rs h t s HN HR Ht Hs) Ha). ring.
    + intros s Hs. apply allcfg_In in Hs. rewrite (proj2 (restr_val n op' rs h' t s HN' HR' Ht Hs) Ha). ring.
Qed.
Hypothesis Hw : wf_op n op.
Hypothesis Hc : conserves w op.
Lemma shift_green z psi q g g' : z <> c0 -> in_sector n w q (amp psi) -> (forall t, length t = n -> ~ allowed_opt rs t -> amp psi t = c0) ->
  fock_green n z h psi g -> fock_green n (z + creal (c * fofZ q)%F) h' psi g' -> g' = g.
Proof.
  intros Hz Hq Ha Hg (x' & Hx' & <- & Hu). destruct (fock_green_sector n w q op rs h psi z g Hw Hc HR Hq Hg) as (x & Hx & Sx & <-).
  apply csum_ext. intros t Ht. apply allcfg_In in Ht. f_equal. symmetry. apply Hu; auto. apply shift_solves; auto. intros s Hs. apply (sol_allowed z x psi s); auto.
Qed.
End H.
End S.
