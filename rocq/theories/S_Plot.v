(* Specification of what the plot scripts show, in terms of the files that the program has written. *)
From Coq Require Import String.
From Verif Require Import M_Prelude M_Scalar M_Program M_Plot S_Thermal.
Local Open Scope string_scope.

Section Plot.
Context {F : ofield}.
Local Open Scope of_scope.
Variables fsqrt f32 : F -> F.
Variable pi : F.

(* the point of the mesh nearest to e; the first one if there are several *)
Definition nearest (mesh : list F) (e : F) (i : nat) : Prop :=
  let d j := (nth j mesh 0 - e) * (nth j mesh 0 - e) in
  (i < length mesh)%nat /\ (forall j, (j < length mesh)%nat -> d i <= d j) /\ (forall j, (j < i)%nat -> d i < d j).
(* intensities below 10^-6 are not drawn *)
Definition drawn (x : F) : option F := if x <? 1 / fofZ 1000000 then None else Some x.
(* pixels of one step around the points of the mesh *)
Definition pixels (mesh : list F) (lo hi : F) : Prop :=
  exists x0 x1 rest, mesh = x0 :: x1 :: rest /\ lo = x0 - (x1 - x0) / fofZ 2 /\ hi = last mesh 0 + (x1 - x0) / fofZ 2.
Definition extent_ok (wIn wLoss : list F) (e : F * F * F * F) : Prop :=
  let '(l, r, b, t) := e in pixels wIn l r /\ pixels wLoss b t.
(* RIXS.bin with the intensity I l k at the l-th energy loss and the k-th incoming energy *)
Definition rixs_table (wIn wLoss : list F) (I : nat -> nat -> F) : list F :=
  concat ((f32 (fofZ (Z.of_nat (length wIn))) :: map f32 wIn) ::
          map (fun l => f32 (nth l wLoss 0) :: map (fun k => f32 (I l k)) (seq 0 (length wIn))) (seq 0 (length wLoss))).
(* the integral over the energy losses in the list, per polarisation and divided by pi *)
Definition yield (wIn wLoss : list F) (nIn : nat) (I : nat -> nat -> F) (losses : list nat) (y : list F) : Prop :=
  exists x0 x1 rest, wLoss = x0 :: x1 :: rest /\
    y = map (fun k => (x1 - x0) * ftotal (map (fun l => I l k) losses) * (1 / (pi * fofZ (Z.of_nat nIn)))) (seq 0 (length wIn)).
(* one curve for every energy, shifted by its distance from the first energy in units of offset *)
Definition loss_panel (wIn wLoss : list F) (I : nat -> nat -> F) (first : Z) (offset : F) (es : list Z) (cs : list (curve F)) : Prop :=
  Forall2 (fun e c => exists i, nearest wIn (fofZ e) i /\
    c = mkCurve (Energy e) wLoss (map (fun l => offset * fofZ (e - first) + I l i) (seq 0 (length wLoss)))) es cs.
(* the figures of plotSpectra.py *)
Definition plotted (ms : @meshes F) (os : list (output F)) (figs : list (figure F)) : Prop :=
  let w := m_w ms in let wIn := m_wIn ms in let wLoss := m_wLoss ms in
  let nIn := length (m_epsilonsRIXSin ms) in let nOut := length (m_epsilonsRIXSout ms) in
  let kk := seq 0 (length wIn) in let ll := seq 0 (length wLoss) in
  exists tPS pPS tXPS pXPS tXAS pXAS tN pN (I : nat -> nat -> F) data fy qe p3 p2 ext,
    let P i j k l := nth (((i * nOut + j) * length wIn + k) * length wLoss + l) data 0 in
    In (Text "PS.dat" (w :: tPS :: pPS)) os /\ In (Text "XPS.dat" (w :: tXPS :: pXPS)) os /\ In (Text "XAS.dat" (w :: tXAS :: pXAS)) os /\
    In (Text "NIXS.dat" (wLoss :: tN :: pN)) os /\ length pN = length (m_qsNIXS ms) /\
    In (Bin "RIXS.bin" (rixs_table wIn wLoss I)) os /\ In (H5 "RIXSthermal" [nIn; nOut; length wIn; length wLoss] data) os /\
    (forall l k, (l < length wLoss)%nat -> (k < length wIn)%nat -> I l k = ftotal (map (fun i => ftotal (map (fun j => P i j k l) (seq 0 nOut))) (seq 0 nIn))) /\
    yield wIn wLoss nIn I ll fy /\ yield wIn wLoss nIn I (filter (fun l => nth l wLoss 0 <? 1 / fofZ 5) ll) qe /\
    loss_panel wIn wLoss I (-7) (fofZ 3 / fofZ 2) [1; 0; -1; -2; -3; -4; -5; -6; -7]%Z p3 /\ loss_panel wIn wLoss I 11 1 [15; 14; 13; 12; 11]%Z p2 /\
    extent_ok wIn wLoss ext /\
    figs = ([ Lines [[mkCurve (Name "photo-emission") w tPS]]; Lines [[mkCurve (Name "XPS") w tXPS]];
             Lines [[mkCurve (Name "XAS") w tXAS; mkCurve (Name "FY") wIn fy; mkCurve (Name "quasi-elastic FY") wIn qe]];
             Lines [map (fun qc => let '((x, y, z), c) := qc in mkCurve (Norm (fsqrt (x * x + y * y + z * z))) wLoss c) (combine (m_qsNIXS ms) pN)];
             Lines [p3; p2];
             Image (map (fun l => map (fun k => drawn (I l k)) kk) ll) ext ] ++
           (if Nat.eqb nIn 1 && Nat.eqb nOut 1 then [] else
            [Images (map (fun i => map (fun j => map (fun l => map (fun k => drawn (P i j k l)) kk) ll) (seq 0 nOut)) (seq 0 nIn)) ext]))%list.
(* plotRIXS.py shows the numbers of RIXS.bin *)
Definition plotted_bin (wIn wLoss : list F) (I : nat -> nat -> F) (fig : figure F) : Prop :=
  exists ext, extent_ok (map f32 wIn) (map f32 wLoss) ext /\
    fig = Image (map (fun l => map (fun k => drawn (f32 (I l k))) (seq 0 (length wIn))) (seq 0 (length wLoss))) ext.
End Plot.
