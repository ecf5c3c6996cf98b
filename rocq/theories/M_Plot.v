(* Model of the plot scripts: plotScripts/plotSpectra.py:15-219 and plotScripts/plotRIXS.py:25-52.  The result is the data of the
   figures that are shown; titles, colours and tick marks are left out. *)
From Coq Require Import String.
From Verif Require Import M_Prelude M_Scalar M_PSR M_State M_Mpi M_Hamiltonian M_Operators M_Main M_Program.
Local Open Scope string_scope.

(* what the legend of a curve contains *)
Inductive label_t (F : ofield) := Name (s : string) | Norm (q : F) | Index (i : nat) | Energy (e : Z).
Arguments Name {F}. Arguments Norm {F}. Arguments Index {F}. Arguments Energy {F}.
Record curve (F : ofield) := mkCurve { cu_label : label_t F; cu_x : list F; cu_y : list F }.
Arguments mkCurve {F}. Arguments cu_label {F}. Arguments cu_x {F}. Arguments cu_y {F}.
(* A figure: curves in one or several panels, an image with nan as None, a table of images.  The first index of an image is vertical. *)
Inductive figure (F : ofield) :=
| Lines (panels : list (list (curve F)))
| Image (data : list (list (option F))) (extent : F * F * F * F)
| Images (data : list (list (list (list (option F))))) (extent : F * F * F * F).
Arguments Lines {F}. Arguments Image {F}. Arguments Images {F}.

Section Plot.
Context {F : ofield}.
Local Open Scope of_scope.
Variable fsqrt : F -> F.
Variable pi : F.

(* a dataset: shape and flattened array; the file spectra.h5 that a run has written *)
Definition dataset := (list nat * list F)%type.
Definition h5_file (os : list (output F)) : dict string dataset :=
  flat_map (fun o => match o with H5 name shape data => [(name, (shape, data))] | _ => [] end) os.

(* a variable that is only bound if the file has the dataset (plotSpectra.py:28-56) *)
Definition var {A} (x : option A) : res A := match x with Some a => Ok a | None => Err UnboundLocalError end.
(* arrays of another dimension than two or four are not considered *)
Definition dims2 (x : dataset) : res (nat * nat) := match fst x with [a; b] => Ok (a, b) | _ => Err ValueError end.
Definition dims4 (x : dataset) : res (nat * nat * nat * nat) := match fst x with [a; b; c; d] => Ok (a, b, c, d) | _ => Err ValueError end.
Definition el2 (d1 : nat) (x : list F) (i j : nat) : F := nth (i * d1 + j) x 0.
Definition el4 (d1 d2 d3 : nat) (x : list F) (i j k l : nat) : F := nth (((i * d1 + j) * d2 + k) * d3 + l) x 0.
(* the sum over an axis of length n, or over the indices in the list *)
Definition total_at (idx : list nat) (f : nat -> F) : F := fold_left (fun s i => s + f i) idx 0.
Definition total (n : nat) (f : nat -> F) : F := total_at (seq 0 n) f.
(* plt.plot(x, y): the lengths must agree *)
Definition plot (lab : label_t F) (x y : list F) : res (curve F) :=
  if Nat.eqb (length x) (length y) then Ok (mkCurve lab x y) else Err ValueError.
(* x[1] - x[0] *)
Definition step (x : list F) : res F := do x1 <- nth_res x 1; do x0 <- nth_res x 0; Ok (x1 - x0).
Definition fdist (x y : F) : F := if x <? y then y - x else x - y.
(* np.argmin: the first index of the smallest element *)
Fixpoint argmin_from (best : nat) (value : F) (i : nat) (l : list F) : nat :=
  match l with [] => best | x :: l' => if x <? value then argmin_from i x (S i) l' else argmin_from best value (S i) l' end.
Definition argmin (l : list F) : res nat := match l with [] => Err ValueError | x :: l' => Ok (argmin_from 0 x 1 l') end.

(* plotSpectra.py:61-72, 74-85 *)
Definition plot_sum (f : dict string dataset) (name lab : string) : res (list (figure F)) :=
  match dget f name with
  | None => Ok []
  | Some ps =>
      do nm <- dims2 ps;
      do w <- var (dget f "w");
      do c <- plot (Name lab) (snd w) (map (fun j => total (fst nm) (fun i => el2 (snd nm) (snd ps) i j)) (seq 0 (snd nm)));
      Ok [Lines [[c]]]
  end.
(* plotSpectra.py:92-104: fluorescence yield, from all energy losses and from those below 0.2 *)
Definition plot_FY (f : dict string dataset) : res (list (curve F)) :=
  match dget f "RIXSthermal" with
  | None => Ok []
  | Some rixs =>
      do d <- dims4 rixs;
      let '(a, b, c, n) := d in
      let el := el4 b c n (snd rixs) in
      if Nat.eqb a 0 then Err ZeroDivisionError else
      let scaleFY := 1 / (pi * fofZ (Z.of_nat a)) in
      do wIn <- var (dget f "wIn");
      do wLoss <- var (dget f "wLoss");
      do dw <- step (snd wLoss);
      do c1 <- plot (Name "FY") (snd wIn) (map (fun k => dw * total a (fun i => total b (fun j => total n (fun l => el i j k l))) * scaleFY) (seq 0 c));
      if negb (Nat.eqb (length (snd wLoss)) n) then Err IndexError else      (* the mask has another length than the axis *)
      let mask := filter (fun l => nth l (snd wLoss) 0 <? 1 / fofZ 5) (seq 0 n) in
      do c2 <- plot (Name "quasi-elastic FY") (snd wIn) (map (fun k => dw * total a (fun i => total b (fun j => total_at mask (fun l => el i j k l))) * scaleFY) (seq 0 c));
      Ok [c1; c2]
  end.
(* plotSpectra.py:87-111 *)
Definition plot_XAS (f : dict string dataset) : res (list (figure F)) :=
  match dget f "XASthermal" with
  | None => Ok []
  | Some xas =>
      do nm <- dims2 xas;
      do w <- var (dget f "w");
      do c <- plot (Name "XAS") (snd w) (map (fun j => total (fst nm) (fun i => el2 (snd nm) (snd xas) i j)) (seq 0 (snd nm)));
      do fy <- plot_FY f;
      Ok [Lines [c :: fy]]
  end.
(* plotSpectra.py:113-126 *)
Definition plot_NIXS (f : dict string dataset) : res (list (figure F)) :=
  match dget f "NIXSthermal" with
  | None => Ok []
  | Some nixs =>
      do nm <- dims2 nixs;
      do labels <- match dget f "qsNIXS" with
        | Some qs => do d <- dims2 qs; Ok (map (fun i => Norm (fsqrt (total (snd d) (fun j => el2 (snd d) (snd qs) i j * el2 (snd d) (snd qs) i j)))) (seq 0 (fst d)))
        | None => Ok (map Index (seq 0 (fst nm)))
        end;
      do cs <- map_res (fun i => do wLoss <- var (dget f "wLoss");
                                 do lab <- nth_res labels i;
                                 plot lab (snd wLoss) (map (fun j => el2 (snd nm) (snd nixs) i j) (seq 0 (snd nm)))) (seq 0 (fst nm));
      Ok [Lines [cs]]
  end.
(* plotSpectra.py:136-144, 150-157: one curve for every energy, the last one first *)
Definition loss_curves (wIn wLoss : list F) (es : list Z) (offset : F) (sum01 : nat -> nat -> F) (c n : nat) : res (list (curve F)) :=
  map_res (fun ne => do i <- argmin (map (fun x => fdist x (fofZ (snd ne))) wIn);
                     if negb (Nat.ltb i c) then Err IndexError else
                     plot (Energy (snd ne)) wLoss (map (fun l => offset * fofZ (Z.of_nat (length es) - 1 - Z.of_nat (fst ne)) + sum01 i l) (seq 0 n)))
    (combine (seq 0 (length es)) (rev es)).
(* np.arange(a, b, 1) *)
Definition arange (a b : Z) : list Z := zrange2 a b.
(* plotSpectra.py:128-163 *)
Definition plot_loss (f : dict string dataset) : res (list (figure F)) :=
  match dget f "RIXSthermal" with
  | None => Ok []
  | Some rixs =>
      do d <- dims4 rixs;
      let '(a, b, c, n) := d in
      let sum01 k l := total a (fun i => total b (fun j => el4 b c n (snd rixs) i j k l)) in
      do wIn <- var (dget f "wIn");
      do wLoss <- var (dget f "wLoss");
      do p0 <- loss_curves (snd wIn) (snd wLoss) (arange (-7) 2) (fofZ 3 / fofZ 2) sum01 c n;
      do p1 <- loss_curves (snd wIn) (snd wLoss) (arange 11 16) 1 sum01 c n;
      Ok [Lines [p0; p1]]
  end.
(* plotSpectra.py:176-177, plotRIXS.py:34-36: values below plotCutOff=1e-6 become nan *)
Definition cut (x : F) : option F := if x <? 1 / fofZ 1000000 then None else Some x.
(* plotSpectra.py:179-184, plotRIXS.py:38-43 *)
Definition extent_of (wIn wLoss : list F) : res (F * F * F * F) :=
  do dx <- step wIn;
  do dy <- step wLoss;
  do l <- nth_res wIn 0; do r <- nth_res wIn (length wIn - 1); do b <- nth_res wLoss 0; do t <- nth_res wLoss (length wLoss - 1);
  Ok (l - dx / fofZ 2, r + dx / fofZ 2, b - dy / fofZ 2, t + dy / fofZ 2).
(* plotSpectra.py:197-217.  plt.subplots returns a one-dimensional array of axes if there is one row or one column; np.shape(axes)[1]
   and axes[2, :] raise IndexError if there are too few axes. *)
Definition plot_polarisations (a b c n : nat) (rixs : list F) (ext : F * F * F * F) : res (list (figure F)) :=
  if Nat.eqb a 1 && Nat.eqb b 1 then Ok [] else
  if Nat.eqb a 0 || Nat.eqb b 0 then Err ValueError else
  if Nat.eqb a 1 || Nat.eqb b 1 then Err IndexError else
  if Nat.ltb a 3 then Err IndexError else
  Ok [Images (map (fun i => map (fun j => map (fun l => map (fun k => cut (el4 b c n rixs i j k l)) (seq 0 c)) (seq 0 n)) (seq 0 b)) (seq 0 a)) ext].
(* plotSpectra.py:165-219; both figures are shown at the end *)
Definition plot_map (f : dict string dataset) : res (list (figure F)) :=
  match dget f "RIXSthermal" with
  | None => Ok []
  | Some rixs =>
      do d <- dims4 rixs;
      let '(a, b, c, n) := d in
      do wIn <- var (dget f "wIn");
      do wLoss <- var (dget f "wLoss");
      do ext <- extent_of (snd wIn) (snd wLoss);
      let img := map (fun l => map (fun k => cut (total a (fun i => total b (fun j => el4 b c n (snd rixs) i j k l)))) (seq 0 c)) (seq 0 n) in
      do pol <- plot_polarisations a b c n (snd rixs) ext;
      Ok (Image img ext :: pol)
  end.
(* The figures that are shown until an exception, and the exception *)
Fixpoint shown (l : list (res (list (figure F)))) : list (figure F) * res unit :=
  match l with
  | [] => ([], Ok tt)
  | Err e :: _ => ([], Err e)
  | Ok fs :: l' => let '(gs, r) := shown l' in (fs ++ gs, r)%list
  end.
(* plotSpectra.py:15-219 *)
Definition plot_spectra (f : dict string dataset) : list (figure F) * res unit :=
  shown [plot_sum f "PSthermal" "photo-emission"; plot_sum f "XPSthermal" "XPS"; plot_XAS f; plot_NIXS f; plot_loss f; plot_map f].

(* plotRIXS.py:25-52 *)
Definition plotRIXS (fint : F -> Z) (x : list F) : res (figure F) :=
  do r <- read_rixs fint x;
  let '(wLoss, wIn, rixs) := r in
  do ext <- extent_of wIn wLoss;
  Ok (Image (map (map cut) rixs) ext).
End Plot.
