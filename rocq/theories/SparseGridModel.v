(** Model of the distributed sparse grid of one process: its storage, the lookup of subspaces and the transfer between full
    and sparse grids (src/sparsegrid/DistributedSparseGridUniform.hpp, AnyDistributedSparseGrid.cpp,
    DistributedFullGrid.hpp:1306-1340). *)
From Verif Require Import Base TensorModel Level1dModel LevelSetsModel SubspaceModel CombiSchemeModel Hier1dModel KahanModel.
From Coq Require Import QArith Qcanon.
Open Scope Z_scope.

(** SubspaceSizeType is a 32-bit unsigned integer (Types.hpp), and so is [offset] in createSubspaceData. *)
Definition u32 (x : Z) : Z := x mod 2 ^ 32.

(** State of a DistributedSparseGridUniform: [dSizes] subspacesDataSizes_ (AnyDistributedSparseGrid.hpp:132); the data
    container (DistributedSparseGridUniform.hpp:145-153): [dWith] subspacesWithData_ (std::set, iterated in ascending order),
    [dPtr] subspaces_ as offsets into the buffer (None: nullptr), [dLen]/[dData] size and contents of subspacesData_,
    [dKPtr] kahanDataBegin_, [dKLen]/[dKahan] kahanData_. Contents beyond the length have no meaning. *)
Record DSG := { dSizes : list Z; dWith : list Z; dPtr : list (option Z); dLen : Z; dData : arr;
                dKPtr : list (option Z); dKLen : Z; dKahan : arr }.

Definition zeroA : arr := fun _ => 0%Qc.

(** DistributedSparseGridUniform.hpp:33-37 and 423-438, AnyDistributedSparseGrid.cpp:12-13. *)
Definition initDSG (n : nat) : DSG :=
  {| dSizes := repeat 0 n; dWith := []; dPtr := repeat None n; dLen := 0; dData := zeroA;
     dKPtr := repeat None n; dKLen := 0; dKahan := zeroA |}.

Definition numSubspaces (d : DSG) : Z := Z.of_nat (length (dSizes d)).
Definition memZ (x : Z) (l : list Z) : bool := existsb (Z.eqb x) l.
Definition dataSize (d : DSG) (i : Z) : Z := nth (Z.to_nat i) (dSizes d) 0.

(** AnyDistributedSparseGrid.cpp:23-31. *)
Definition accumulatedSize (sizes w : list Z) : Z := fold_left (fun acc i => acc + nth (Z.to_nat i) sizes 0) w 0.

(** DistributedSparseGridUniform.hpp:60-67 (91-97): the pointers. [i] is the index of the first remaining subspace. *)
Fixpoint layout (sizes : list Z) (i offset : Z) (w : list Z) : list (option Z) :=
  match sizes with
  | [] => []
  | s :: rest => Some offset :: layout rest (i + 1) (if memZ i w then u32 (offset + s) else offset) w
  end.

(** DistributedSparseGridUniform.hpp:47-52 (78-83): without a choice, all subspaces. *)
Definition chosen (d : DSG) : list Z := match dWith d with [] => zrange 0 (numSubspaces d) | w => w end.

(** std::vector::resize with a zero fill: old contents stay. *)
Definition resizeZero (oldLen : Z) (a : arr) : arr := fun k => if k <? oldLen then a k else 0%Qc.

(** DistributedSparseGridUniform.hpp:77-98, createKahanBuffer. [esz] is sizeof(FG_ELEMENT); the memset (87) clears
    [size * sizeof(FG_ELEMENT* )] bytes, i.e. 8 per element. (For elements smaller than 8 bytes that writes behind the
    buffer, which is not modelled.) *)
Definition createKahanBuffer (esz : Z) (d : DSG) : DSG :=
  let w := chosen d in
  let n := accumulatedSize (dSizes d) w in
  let resized := resizeZero (dKLen d) (dKahan d) in
  {| dSizes := dSizes d; dWith := w; dPtr := dPtr d; dLen := dLen d; dData := dData d;
     dKPtr := layout (dSizes d) 0 0 w; dKLen := n;
     dKahan := fun k => if (k + 1) * esz <=? n * 8 then 0%Qc else resized k |}.

(** DistributedSparseGridUniform.hpp:46-74, createSubspaceData. *)
Definition createSubspaceData (esz : Z) (d : DSG) : DSG :=
  let w := chosen d in
  let d' := {| dSizes := dSizes d; dWith := w; dPtr := layout (dSizes d) 0 0 w; dLen := accumulatedSize (dSizes d) w;
               dData := zeroA; dKPtr := dKPtr d; dKLen := dKLen d; dKahan := dKahan d |} in
  if dKLen d' =? 0 then createKahanBuffer esz d' else d'.

(** DistributedSparseGridUniform.hpp:101-107. *)
Definition deleteSubspaceData (d : DSG) : DSG :=
  {| dSizes := dSizes d; dWith := dWith d; dPtr := map (fun _ => None) (dPtr d); dLen := 0; dData := zeroA;
     dKPtr := map (fun _ => None) (dKPtr d); dKLen := 0; dKahan := zeroA |}.

(** DistributedSparseGridUniform.hpp:110-113. *)
Definition setZero (d : DSG) : DSG :=
  {| dSizes := dSizes d; dWith := dWith d; dPtr := dPtr d; dLen := dLen d; dData := zeroA;
     dKPtr := dKPtr d; dKLen := dKLen d; dKahan := zeroA |}.

(** DistributedSparseGridUniform.hpp:130-137. *)
Definition allocateDifferentSubspaces (esz : Z) (w : list Z) (d : DSG) : DSG :=
  createKahanBuffer esz (createSubspaceData esz
    {| dSizes := dSizes d; dWith := w; dPtr := dPtr d; dLen := dLen d; dData := dData d;
       dKPtr := dKPtr d; dKLen := dKLen d; dKahan := dKahan d |}).

Definition withSizes (sizes : list Z) (d : DSG) : DSG :=
  {| dSizes := sizes; dWith := dWith d; dPtr := dPtr d; dLen := dLen d; dData := dData d;
     dKPtr := dKPtr d; dKLen := dKLen d; dKahan := dKahan d |}.

(** DistributedSparseGridUniform.hpp:686-701, setDataSize (the assertion of line 689 is not modelled). *)
Definition setDataSize (i newSize : Z) (d : DSG) : DSG :=
  let d' := if newSize =? dataSize d i then d else deleteSubspaceData d in
  withSizes (upd (dSizes d) (Z.to_nat i) newSize) d'.

(** DistributedSparseGridUniform.hpp:445-457, maxReduceSubspaceSizes with the sizes of another sparse grid. The same
    overwriting of all sizes followed by deletion is done by reduceSubspaceSizes, maxReduceSubspaceSizesAcrossGroups,
    broadcastSubspaceSizes and receiveSubspaceSizesWithScatter (CombiCom.hpp:420-524) with sizes that arrive by MPI. *)
Definition maxReduceSubspaceSizes (other : list Z) (d : DSG) : DSG :=
  deleteSubspaceData (fold_left (fun d i => setDataSize i (Z.max (dataSize d i) (nth (Z.to_nat i) other 0)) d)
                                (zrange 0 (numSubspaces d)) d).
Definition overwriteSizesAndDelete (sizes : list Z) (d : DSG) : DSG := deleteSubspaceData (withSizes sizes d).

(** DistributedSparseGridIO.hpp:226-250, readSubspaceSizesFromFile and readReduceSubspaceSizesFromFile: the sizes are
    overwritten and nothing is deleted. *)
Definition overwriteSizes (sizes : list Z) (d : DSG) : DSG := withSizes sizes d.

(** Any write through the pointer returned by getData or getRawData inside of the buffer (601-642). *)
Definition writeAt (k : Z) (v : Qc) (d : DSG) : DSG :=
  {| dSizes := dSizes d; dWith := dWith d; dPtr := dPtr d; dLen := dLen d; dData := setA (dData d) k v;
     dKPtr := dKPtr d; dKLen := dKLen d; dKahan := dKahan d |}.

(** The operations on the storage. *)
Inductive dsgOp :=
| OpCreate | OpCreateKahan | OpDelete | OpZero
| OpAllocate (w : list Z)
| OpSetSize (i newSize : Z)
| OpMaxReduce (other : list Z)
| OpOverwriteAndDelete (sizes : list Z)
| OpWrite (k : Z) (v : Qc).

Definition runOp (esz : Z) (d : DSG) (o : dsgOp) : DSG :=
  match o with
  | OpCreate => createSubspaceData esz d
  | OpCreateKahan => createKahanBuffer esz d
  | OpDelete => deleteSubspaceData d
  | OpZero => setZero d
  | OpAllocate w => allocateDifferentSubspaces esz w d
  | OpSetSize i s => setDataSize i s d
  | OpMaxReduce other => maxReduceSubspaceSizes other d
  | OpOverwriteAndDelete sizes => overwriteSizesAndDelete sizes d
  | OpWrite k v => writeAt k v d
  end.

(** std::lower_bound as in libstdc++ (bits/stl_algobase.h, __lower_bound), on the level vectors from position [first] on;
    the order is std::vector's lexicographic one. [None]: an element outside of the vector is read. *)
Fixpoint lowerBoundLoop (fuel : nat) (levels : list (list Z)) (first len : Z) (l : list Z) : option Z :=
  match fuel with
  | O => Some first
  | S fuel' =>
      if len <=? 0 then Some first
      else let half := len / 2 in
           let middle := first + half in
           if (middle <? 0) || (Z.of_nat (length levels) <=? middle) then None
           else if lexltb (nth (Z.to_nat middle) levels []) l
                then lowerBoundLoop fuel' levels (middle + 1) (len - half - 1) l
                else lowerBoundLoop fuel' levels first half l
  end.

Fixpoint veqb (a b : list Z) : bool :=
  match a, b with [], [] => true | x :: a', y :: b' => (x =? y) && veqb a' b' | _, _ => false end.

(** DistributedSparseGridUniform.hpp:575-591, getIndexInRange. (std::advance to a position before the first element is
    undefined by the C++ standard; with the pointer-like iterators of libstdc++ it only matters what is read.) *)
Definition getIndexInRange (levels : list (list Z)) (l : list Z) (lowerBound : Z) : option Z :=
  let n := Z.of_nat (length levels) in
  match lowerBoundLoop (Z.to_nat (n - lowerBound)) levels lowerBound (n - lowerBound) l with
  | None => None
  | Some found =>
      if found =? n then Some (-1)
      else if found <? 0 then None
      else Some (if veqb (nth (Z.to_nat found) levels []) l then found else -1)
  end.

(** The loops over the down set of a full grid in registerDistributedFullGrid (784-802), addDistributedFullGrid (829-866)
    and extractFromUniformSG (DistributedFullGrid.hpp:1319-1338): the iterations are handed out to OpenMP threads, each
    thread carries its own lower bound (firstprivate) from one of its iterations to the next. The model executes the threads
    one after the other; they touch different subspaces (C23), so interleavings give the same. *)
Fixpoint forLevelsThread {S : Type} (body : Z -> list Z -> S -> S) (levels : list (list Z)) (qs : list (list Z)) (index : Z)
  (s : S) : option S :=
  match qs with
  | [] => Some s
  | q :: qs' => match getIndexInRange levels q index with
                | None => None
                | Some i => forLevelsThread body levels qs' i (body i q s)
                end
  end.

Fixpoint forLevels {S : Type} (body : Z -> list Z -> S -> S) (levels : list (list Z)) (threads : list (list (list Z))) (s : S)
  : option S :=
  match threads with
  | [] => Some s
  | t :: ts => match forLevelsThread body levels t 0 s with None => None | Some s' => forLevels body levels ts s' end
  end.

(** The indices a lookup loop finds. *)
Definition lookupThread (levels : list (list Z)) (qs : list (list Z)) : option (list Z) :=
  forLevelsThread (fun i _ found => found ++ [i]) levels qs 0 [].

(** DistributedFullGrid.hpp:1866-1873, getNumPointsOnThisPartition for a level, and the product at
    DistributedSparseGridUniform.hpp:787-790. *)
Fixpoint numPointsOfSubspace (levels bs lo up l : list Z) : Z :=
  match levels, bs, lo, up, l with
  | L :: levels', b :: bs', lw :: lo', u :: up', k :: l' =>
      let stride := strideForLevel b L k in
      numPointsOnPartition (u - lw) (localStartForLevel b L k lw stride) stride * numPointsOfSubspace levels' bs' lo' up' l'
  | _, _, _, _, _ => 1
  end.

(** DistributedSparseGridUniform.hpp:785-801: the body of the registration loop. (With a size that is set already only an
    assertion follows.) *)
Definition registerBody (g : Grid) (i : Z) (l : list Z) (d : DSG) : DSG :=
  if i >? -1 then
    if dataSize d i =? 0
    then setDataSize i (numPointsOfSubspace (gLevel g) (gBnd g) (gLower g) (gUpper g) l) d
    else d
  else d.
Definition registerDFG (levels : list (list Z)) (threads : list (list (list Z))) (g : Grid) (d : DSG) : option DSG :=
  forLevels (registerBody g) levels threads d.

(** DistributedSparseGridUniform.hpp:851-861: one summand, with the rounding [rnd] after each operation. *)
Definition kahanAddR (rnd : Qc -> Qc) (d : DSG) (sp kp : Z) (summand : Qc) : DSG :=
  let r := kahanStep rnd (dData d sp, dKahan d kp) summand in
  {| dSizes := dSizes d; dWith := dWith d; dPtr := dPtr d; dLen := dLen d; dData := setA (dData d) sp (fst r);
     dKPtr := dKPtr d; dKLen := dKLen d; dKahan := setA (dKahan d) kp (snd r) |}.

Fixpoint addPointsR (rnd : Qc -> Qc) (coeff : Qc) (values : arr) (points : list Z) (sp kp : Z) (d : DSG) : DSG :=
  match points with
  | [] => d
  | p :: ps => addPointsR rnd coeff values ps (sp + 1) (kp + 1) (kahanAddR rnd d sp kp (rnd (coeff * values p)%Qc))
  end.

(** In exact arithmetic. *)
Notation kahanAdd := (kahanAddR (fun x : Qc => x)).
Notation addPoints := (addPointsR (fun x : Qc => x)).

(** A dereferenced null pointer cannot be observed here: offset 0. *)
Definition ptrOf (p : list (option Z)) (i : Z) : Z := match nth (Z.to_nat i) p None with Some o => o | None => 0 end.

(** DistributedSparseGridUniform.hpp:830-834, shouldBeCopied. *)
Definition shouldBeCopied (fully : bool) (d : DSG) (i : Z) : bool :=
  (i >? -1) && (dataSize d i >? 0) && (fully || memZ i (dWith d)).

(** DistributedSparseGridUniform.hpp:814-866, addDistributedFullGrid; [fully] is the template parameter. *)
Definition addBodyR (rnd : Qc -> Qc) (fully : bool) (g : Grid) (coeff : Qc) (values : arr) (i : Z) (l : list Z) (d : DSG) : DSG :=
  if shouldBeCopied fully d i
  then addPointsR rnd coeff values (fgPointsOfSubspace g l) (ptrOf (dPtr d) i) (ptrOf (dKPtr d) i) d
  else d.
Definition addDFGR (rnd : Qc -> Qc) (fully : bool) (levels : list (list Z)) (threads : list (list (list Z))) (g : Grid) (coeff : Qc)
  (values : arr) (d : DSG) : option DSG := forLevels (addBodyR rnd fully g coeff values) levels threads d.
Notation addBody := (addBodyR (fun x : Qc => x)).
Notation addDFG := (addDFGR (fun x : Qc => x)).

(** DistributedFullGrid.hpp:1321-1337, the body of extractFromUniformSG. *)
Fixpoint copyPoints (d : DSG) (points : list Z) (sp : Z) (values : arr) : arr :=
  match points with [] => values | p :: ps => copyPoints d ps (sp + 1) (setA values p (dData d sp)) end.
Definition extractBody (fully : bool) (d : DSG) (g : Grid) (i : Z) (l : list Z) (values : arr) : arr :=
  if shouldBeCopied fully d i then copyPoints d (fgPointsOfSubspace g l) (ptrOf (dPtr d) i) values else values.
Definition extractDFG (fully : bool) (levels : list (list Z)) (threads : list (list (list Z))) (d : DSG) (g : Grid) (values : arr)
  : option arr := forLevels (extractBody fully d g) levels threads values.

(** DistributedSparseGridUniform.hpp:732-762, accumulateMinMaxCoefficients. The state is [None] while the vectors are empty,
    otherwise minimum and maximum per subspace. std::numeric_limits<double>::min() is the smallest positive normal number
    2^-1022, max() is (2 - 2^-52) * 2^1023. The values are real. *)
Definition dblMin : Qc := Q2Qc (1 # (Pos.pow 2 1022)).
Definition dblMax : Qc := Q2Qc (inject_Z ((2 ^ 53 - 1) * 2 ^ 971)).
Definition qmin (a b : Qc) : Qc := match (b ?= a)%Qc with Lt => b | _ => a end.
Definition qmax (a b : Qc) : Qc := match (a ?= b)%Qc with Lt => b | _ => a end.

Definition minElementOf (a : arr) (first size : Z) : Qc := fold_left (fun m k => qmin m (a k)) (zrange (first + 1) (first + size)) (a first).
Definition maxElementOf (a : arr) (first size : Z) : Qc := fold_left (fun m k => qmax m (a k)) (zrange (first + 1) (first + size)) (a first).

Definition accStep (d : DSG) (m : list Qc * list Qc) (i : Z) : list Qc * list Qc :=
  if dataSize d i >? 0 then
    let first := ptrOf (dPtr d) i in
    (upd (fst m) (Z.to_nat i) (qmin (nth (Z.to_nat i) (fst m) 0%Qc) (minElementOf (dData d) first (dataSize d i))),
     upd (snd m) (Z.to_nat i) (qmax (nth (Z.to_nat i) (snd m) 0%Qc) (maxElementOf (dData d) first (dataSize d i))))
  else m.
Definition accumulateMinMax (d : DSG) (st : option (list Qc * list Qc)) : list Qc * list Qc :=
  let init := match st with Some m => m | None => (repeat dblMax (length (dSizes d)), repeat dblMin (length (dSizes d))) end in
  fold_left (accStep d) (dWith d) init.
