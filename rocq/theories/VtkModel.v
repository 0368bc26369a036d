(** Model of the VTK images of distributed full grids, src/vtk/PlotFileWriter.cpp:20-121, for one process. A vtkImageData is taken by its
    specification: the point with the indices (x, y, z) is at origin + (x, y, z) * spacing and has the tuple
    x + y * dims[0] + z * dims[0] * dims[1] of its scalars. Doubles are exact. *)
From Verif Require Import Base TensorModel QcTools.
From Coq Require Import QArith Qcanon List.
Import ListNotations.
Open Scope Z_scope.

(** What PlotFileWriter.cpp:37-82 sets of the vtkImageData; a spacing is [None] if it is infinite. *)
Record image := Image { iDims : list Z; iSpacing : list (option Qc); iOrigin : list Qc; iScalars : list Qc }.

(** PlotFileWriter.cpp:34-36: 1./(x-1.). *)
Definition plotSpacing (n : Z) : option Qc := if n =? 1 then None else Some (/ zq (n - 1))%Qc.

(** PlotFileWriter.cpp:48-70: the entries up to [dim], then the filling. *)
Definition padTo3 {A} (x : A) (l : list A) : list A := l ++ repeat x (3 - length l).

(** PlotFileWriter.cpp:72-81: the tuples; [None] if nrLocalPoints[1] (76) is past the end of the vector. *)
Definition plotScalars (sizes : list Z) (data : list Qc) : option (list Qc) :=
  match nth_error sizes 1 with
  | None => None
  | Some n1 =>
      Some (concat (map (fun i => let offset := nth 1 (localOffsets sizes) 0 * i in
                                  map (fun j => nth (Z.to_nat (offset + j)) data 0%Qc) (zrange 0 (nth 0 sizes 0)))
                        (zrange 0 n1)))
  end.

(** PlotFileWriter.cpp:20-82, writePlotFile: [sizes] and [origin] are the local sizes and the coordinates of the first local point
    (33, 40-41), [data] the local values; [None] for the failed assertion (25) and for reading past the end. *)
Definition plotImage (sizes : list Z) (origin : list Qc) (data : list Qc) : option image :=
  if (3 <? length sizes)%nat then None
  else match plotScalars sizes data with
       | None => None
       | Some sc => Some (Image (padTo3 1 (rev sizes)) (padTo3 (Some 0%Qc) (rev (map plotSpacing sizes))) (padTo3 0%Qc (rev origin)) sc)
       end.

(** vtkImageData: the tuple of a point, [None] if there is none. *)
Definition pixel (img : image) (x y z : Z) : option Qc :=
  nth_error (iScalars img) (Z.to_nat (x + y * nth 0 (iDims img) 0 + z * nth 0 (iDims img) 0 * nth 1 (iDims img) 0)).
(** vtkImageData: the position of the points with index [x] along axis [a]. *)
Definition pixelPosition (img : image) (a : nat) (x : Z) : option Qc :=
  match nth a (iSpacing img) None with
  | Some h => Some (nth a (iOrigin img) 0 + zq x * h)%Qc
  | None => None
  end.
