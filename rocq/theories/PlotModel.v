(** Model of the plot files: DistributedFullGrid.hpp (writePlotFile, writePlotFileVTK), SparseGridWorker.hpp
    (interpolateAndPlotOnLevel), vtk/DFGPlotFileWriter.hpp, and of the tools that read them (tools/errorCalc.cpp,
    tools/plot_raw_slice.py). A file is a finite string of bytes. A byte of a stored number stays symbolic (the k-th byte of
    the value v in the memory of the machine), so nothing depends on the representation of floating-point numbers; the bytes of
    integers are the little-endian ones. Not modelled: text headers of .raw files beyond their numbers, VTK's xml. *)
From Coq Require Import String Ascii DecimalString.
From Verif Require Import Base TensorModel PartitionModel DecompModel SubspaceModel Hier1dModel DofModel QcTools InterpModel FileModel GridCommModel.
From Coq Require Import QArith Qcanon List.
Import ListNotations.
Open Scope list_scope.
Open Scope Z_scope.

(** A byte: byte [k] of the value [v], or a number below 256. *)
Inductive byteT := ByteOf (v : Qc) (k : Z) | Byte (b : Z).
(** A file: length and contents. *)
Record pfile := { fLen : Z; fByte : Z -> byteT }.
Definition noFile : pfile := {| fLen := 0; fByte := fun _ => Byte 0 |}.

(** Writing [n] bytes at position [off] (MPI_File_write, MPI_File_write_all; POSIX: a gap reads as zero bytes). *)
Definition writeBytes (f : pfile) (off n : Z) (g : Z -> byteT) : pfile :=
  {| fLen := if 0 <? n then Z.max (fLen f) (off + n) else fLen f;
     fByte := fun p => if (off <=? p) && (p <? off + n) then g (p - off) else fByte f p |}.
(** The bytes of an int in memory (little endian), and the int that four bytes stand for. *)
Definition intByte (n k : Z) : byteT := Byte ((n / 256 ^ k) mod 256).
Definition readInt (f : pfile) (p : Z) : option Z :=
  match fByte f p, fByte f (p + 1), fByte f (p + 2), fByte f (p + 3) with
  | Byte a, Byte b, Byte c, Byte d => if p + 4 <=? fLen f then Some (toInt (a + 256 * b + 65536 * c + 16777216 * d)) else None
  | _, _, _, _ => None
  end.

(** MPI_File_set_view with a subarray and MPI_File_write_all of [count] elements of [esz] bytes (MPI standard): element [m] of
    the memory goes to the m-th element of the subarray. A negative count is an error and writes nothing. *)
Definition writeSubarray (esz off : Z) (sizes subsizes starts : list Z) (count : Z) (values : arr) (f : pfile) : pfile :=
  fold_left (fun f m => writeBytes f (off + esz * subarrayElement sizes subsizes starts m) esz (ByteOf (values m))) (zrange 0 count) f.

(** DistributedFullGrid.hpp:1410-1417, 1465-1469 and 1475-1481, 1529-1534: all processes write their part behind [off] bytes.
    [order]: the order in which the parts reach the file. *)
Definition writeParts (esz off : Z) (procs sizes : list Z) (decs : list (list Z)) (order : list Z) (data : Z -> arr) (f : pfile) : pfile :=
  fold_left (fun f r => let lo := lowerBounds procs decs r in let subsizes := vsub (upperBounds procs sizes decs r) lo in
                        writeSubarray esz off sizes subsizes lo (toInt (tensorSize subsizes)) (data r) f) order f.

(** DistributedFullGrid.hpp:1407-1472, writePlotFile, for a name that contains ".raw": the header goes to another file. The file is
    opened without MPI_MODE_EXCL and not truncated: [old] is what it contained. *)
Definition writePlotRaw (esz : Z) (procs sizes : list Z) (decs : list (list Z)) (order : list Z) (data : Z -> arr) (old : pfile) : pfile :=
  writeParts esz 0 procs sizes decs order data old.
(** DistributedFullGrid.hpp:1433-1446: the numbers of the text header (extents, size of an element). *)
Definition rawHeader (esz : Z) (sizes : list Z) : Z * list Z * Z := (Z.of_nat (length sizes), sizes, esz).

(** DistributedFullGrid.hpp:1448-1462: rank 0 writes the dimension as one byte (DimType is uint8_t, Types.hpp:40) and six ints
    from the vector of the sizes, however long that is; [beyond]: the memory after its end. *)
Definition writeHeader (sizes : list Z) (beyond : Z -> Z) (f : pfile) : pfile :=
  let f1 := writeBytes f 0 1 (fun _ => Byte (Z.of_nat (length sizes) mod 256)) in
  writeBytes f1 1 (6 * 4) (fun p => let i := p / 4 in
    intByte (if i <? Z.of_nat (length sizes) then nth (Z.to_nat i) sizes 0 else beyond i) (p mod 4)).
(** ... other names. sizeof(int) is 4. Setting the view is collective, after the header was written. *)
Definition writePlot (esz : Z) (procs sizes : list Z) (decs : list (list Z)) (order : list Z) (beyond : Z -> Z) (data : Z -> arr) (old : pfile) : pfile :=
  writeParts esz ((1 + Z.of_nat (length sizes)) * 4) procs sizes decs order data (writeHeader sizes beyond old).
(** DistributedFullGrid.hpp:1474-1541, writePlotFileVTK: a text header [hdr] (its bytes), then the values in "external32", which is
    big endian; [flip]: whether the MPI library supports it (1527-1529). *)
Definition writePlotVTK (esz : Z) (flip : bool) (hdr : list Z) (procs sizes : list Z) (decs : list (list Z)) (order : list Z) (data : Z -> arr) (old : pfile) : pfile :=
  let f1 := writeBytes old 0 (Z.of_nat (length hdr)) (fun p => Byte (nth (Z.to_nat p) hdr 0)) in
  let f2 := writeParts esz (Z.of_nat (length hdr)) procs sizes decs order data f1 in
  {| fLen := fLen f2; fByte := fun p => match fByte f2 p with ByteOf v k => if flip then ByteOf v (esz - 1 - k) else ByteOf v k | b => b end |}.

(** The value stored at byte [p], if the [esz] bytes there are the bytes of one value in memory order. *)
Definition sameValue (v : Qc) (b : byteT) (k : Z) : bool :=
  match b with ByteOf w j => (if Qc_eq_dec v w then true else false) && (j =? k) | Byte _ => false end.
Definition readValue (esz : Z) (f : pfile) (p : Z) : option Qc :=
  match fByte f p with
  | ByteOf v _ => if (p + esz <=? fLen f) && forallb (fun k => sameValue v (fByte f (p + k)) k) (zrange 0 esz) then Some v else None
  | Byte _ => None
  end.

(** tools/errorCalc.cpp:114-134, readPlotFile: dimension, resolution (an int each) and the position of the data. *)
Definition toolHeader (f : pfile) : option (Z * list (option Z) * Z) :=
  match readInt f 0 with
  | Some dim => Some (dim, map (fun i => readInt f (4 + 4 * i)) (zrange 0 dim), 4 + 4 * dim)
  | None => None
  end.
(** tools/plot_raw_slice.py:11-32: the whole file as an array of 8 byte numbers; its length must be that of the extents; the array
    gets the shape of the extents, last index fastest (numpy's default order). The value at multi-index [v]. *)
Definition toolRaw (f : pfile) (sizes : list Z) (v : list Z) : option Qc :=
  if fLen f =? 8 * zprod sizes then readValue 8 f (8 * sequentialIndex (rev sizes) (rev v)) else None.

(** SparseGridWorker.hpp:753-756, endsWith. *)
Definition endsWith (s suffix : string) : bool :=
  (String.length suffix <=? String.length s)%nat && String.eqb (substring (String.length s - String.length suffix) (String.length suffix) s) suffix.
(** SparseGridWorker.hpp:775-780: the number of the grid is inserted before the first ".". *)
Fixpoint insertBefore (c : ascii) (ins s : string) : option string :=
  match s with
  | EmptyString => None
  | String a s' => if Ascii.eqb a c then Some (ins ++ s)%string else option_map (String a) (insertBefore c ins s')
  end.
Definition gridNumber (g : nat) : string := NilEmpty.string_of_uint (Nat.to_uint g).
Definition plotName (filename : string) (g : nat) : string :=
  if endsWith filename ".vtk"%string then filename
  else match insertBefore "."%char ("_" ++ gridNumber g)%string filename with Some fn => fn | None => filename end.
(** SparseGridWorker.hpp:758-782, interpolateAndPlotOnLevel: the grids one after the other; [write g] writes grid [g] to a file
    with the given contents; [fs]: all files. *)
Definition plotGrids (filename : string) (write : nat -> pfile -> pfile) (n : nat) (fs : string -> pfile) : string -> pfile :=
  fold_left (fun fs g name => if String.eqb name (plotName filename g) then write g (fs name) else fs name) (seq 0 n) fs.

(** DistributedFullGrid.hpp:1490-1508: DIMENSIONS, ORIGIN and SPACING of the VTK file, padded to three dimensions. *)
Definition padTo3 {A : Type} (x : A) (l : list A) : list A := l ++ repeat x (3 - length l).
Definition vtkDims (sizes : list Z) : list Z := padTo3 1 sizes.
Definition vtkSpacing (sizes : list Z) : list Qc := padTo3 1%Qc (map (fun n => (1 / zq (n - 1))%Qc) sizes).
(** VTK file formats, structured points: coordinate [d] of the point with index [v]; the origin is 0. *)
Definition vtkCoord (sizes v : list Z) (d : nat) : Qc := (zq (nth d v 0%Z) * nth d (vtkSpacing sizes) 0)%Qc.

(** vtk/DFGPlotFileWriter.hpp:299-316, setLocalExtent (minimum, maximum per dimension): the global indices of the first and the last local
    point, padded with zeros. *)
Definition localExtent (g : LocalGrid) : list (Z * Z) :=
  let lo := vadd (lgLower g) (getVectorIndex (lgLocalSizes g) 0) in
  let hi := vadd (lgLower g) (getVectorIndex (lgLocalSizes g) (numLocal g - 1)) in
  padTo3 (0, 0) (combine (getVectorIndex (lgGlobal g) (sequentialIndex (lgGlobal g) lo)) (getVectorIndex (lgGlobal g) (sequentialIndex (lgGlobal g) hi))).
(** vtk/DFGPlotFileWriter.hpp:139-170: the values of the piece, in the order of the loops. *)
Definition pieceValues (sub : list Z) (data : arr) : list Qc :=
  let offs := localOffsets sub in
  match sub with
  | [n0] => map data (zrange 0 n0)
  | [n0; n1] => flat_map (fun i => map (fun j => data (nth 1 offs 0 * i + j)) (zrange 0 n0)) (zrange 0 n1)
  | [n0; n1; n2] => flat_map (fun k => flat_map (fun i => map (fun j => data (nth 2 offs 0 * k + nth 1 offs 0 * i + j)) (zrange 0 n0)) (zrange 0 n1)) (zrange 0 n2)
  | _ => []
  end.
(** VTK image data: the points of an extent, first dimension fastest. *)
Definition extentPoints (e : list (Z * Z)) : list (list Z) :=
  match e with
  | [(a0, b0); (a1, b1); (a2, b2)] => flat_map (fun k => flat_map (fun j => map (fun i => [i; j; k]) (zrange a0 (b0 + 1))) (zrange a1 (b1 + 1))) (zrange a2 (b2 + 1))
  | _ => []
  end.
