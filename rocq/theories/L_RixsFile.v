(* plotRIXS.py: what can be read. *)
From Verif Require Import M_Prelude M_Scalar M_Hamiltonian M_Main.
Section R.
Context {F : ofield}.
Lemma rows_of_len r c : forall x : list F, length x = (r * c)%nat -> length (rows_of r c x) = r /\ Forall (fun row => length row = c) (rows_of r c x) /\ concat (rows_of r c x) = x.
Proof.
  induction r as [|r IH]; intros x L; cbn [rows_of].
  - destruct x; [|discriminate]. auto.
  - destruct (IH (skipn c x)) as (A & B & C); [rewrite skipn_length; lia|]. cbn [length concat]. split; [congruence|]. split.
    + constructor; [rewrite firstn_length; lia|auto].
    + rewrite C. apply firstn_skipn.
Qed.
Lemma read_errors (fint : F -> Z) : read_rixs fint [] = Err IndexError /\
  forall x0 x, let N := Z.of_nat (length (x0 :: x)) in
    (fint x0 = -1 -> read_rixs fint (x0 :: x) = Err ZeroDivisionError)%Z /\
    ((fint x0 < -1 \/ (0 <= fint x0 /\ N mod (fint x0 + 1) <> 0)) -> read_rixs fint (x0 :: x) = Err ValueError)%Z.
Proof.
  split; [reflexivity|]. intros x0 x N. unfold read_rixs. cbn [nth_res bind nth_error].
  split.
  - intros ->. reflexivity.
  - intros H. destruct (Z.eqb_spec (fint x0 + 1) 0) as [E|E]; [lia|]. fold N.
    destruct (Z.ltb_spec (fint x0 + 1) 0) as [L|L]; [reflexivity|]. cbn [orb]. destruct H as [H|[H1 H2]]; [lia|].
    destruct (Z.eqb_spec (Z.quot N (fint x0 + 1) * (fint x0 + 1)) N) as [Q|Q]; [|reflexivity]. exfalso. apply H2. rewrite <- Q. apply Z.mod_mul. lia.
Qed.
Lemma read_ok (fint : F -> Z) x0 x : (0 <= fint x0)%Z -> (Z.of_nat (length (x0 :: x)) mod (fint x0 + 1) = 0)%Z ->
  exists wLoss wIn rixs, read_rixs fint (x0 :: x) = Ok (wLoss, wIn, rixs) /\ length wIn = Z.to_nat (fint x0) /\ length rixs = length wLoss /\ Forall (fun r => length r = length wIn) rixs /\
    x0 :: x = concat ((x0 :: wIn) :: map (fun p => fst p :: snd p) (combine wLoss rixs)).
Proof.
  intros H0 Hm. set (N := Z.of_nat (length (x0 :: x))) in *. set (c := (fint x0 + 1)%Z) in *. set (r := (N / c)%Z).
  assert (Hc : (0 < c)%Z) by lia. assert (HN : N = (r * c)%Z) by (unfold r; rewrite (Z.div_mod N c) at 1; lia).
  assert (Q : Z.quot N c = r) by (unfold r; apply Z.quot_div_nonneg; lia). assert (Hr : (1 <= r)%Z) by (assert (1 <= N)%Z by (unfold N; cbn [length]; lia); nia).
  unfold read_rixs. cbn [nth_res bind nth_error]. fold c. fold N. destruct (Z.eqb_spec c 0); [lia|]. rewrite Q. destruct (Z.ltb_spec c 0); [lia|]. cbn [orb]. rewrite <- HN, Z.eqb_refl. cbn [negb].
  destruct (rows_of_len (Z.to_nat r) (Z.to_nat c) (x0 :: x)) as (A & B & C); [unfold N in HN; nia|].
  destruct (rows_of (Z.to_nat r) (Z.to_nat c) (x0 :: x)) as [|row0 rows]; [cbn in A; lia|]. inversion_clear B as [|? ? B0 B1].
  assert (R0 : row0 = x0 :: tl row0) by (destruct row0 as [|y row0]; [cbn in B0; lia|]; cbn in C; injection C as -> _; reflexivity).
  exists (map (hd 0%F) rows), (tl row0), (map (@tl F) rows). split; [reflexivity|].
  assert (LT : length (tl row0) = Z.to_nat (fint x0)) by (rewrite R0 in B0; cbn [length] in B0; unfold c in B0; lia).
  split; [exact LT|]. split; [now rewrite !map_length|]. split.
  - apply Forall_forall. intros y Hy. apply in_map_iff in Hy as (z & <- & Hz). rewrite Forall_forall in B1. specialize (B1 z Hz). rewrite LT. destruct z; cbn [tl length] in *; unfold c in B1; lia.
  - rewrite <- C at 1. rewrite R0 at 1. cbn [concat]. f_equal. f_equal. clear - B1 Hc. induction rows as [|y rows IH]; [reflexivity|]. inversion_clear B1 as [|? ? Y Y']. cbn [map combine fst snd].
    rewrite <- IH by auto. destruct y as [|a y]; [cbn in Y; lia|]. reflexivity.
Qed.
End R.
