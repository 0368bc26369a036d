(** Model of the counting functions of src/utils/LevelSetUtils.hpp, src/utils/PowerOfTwo.hpp and
    src/combischeme/CombiMinMaxScheme.hpp. Counts are unbounded integers (IndexType and long long overflow is not
    modelled). *)
From Verif Require Import Base TensorModel LevelSetsModel.
From Coq Require Import QArith.
Open Scope Z_scope.

(** PowerOfTwo.hpp:18-21: 30 entries, 29 initialisers; C++ zero-initialises the missing one. *)
Definition powerOfTwoTable : list Z :=
  [1; 2; 4; 8; 16; 32; 64; 128; 256; 512;
   1024; 2048; 4096; 8192; 16384; 32768; 65536; 131072; 262144; 524288;
   1048576; 2097152; 4194304; 8388608; 16777216; 33554432; 67108864; 134217728; 268435456; 0].

(** Table access; an index outside the table is undefined behaviour in the code and 0 here. *)
Definition powerOfTwo (i : Z) : Z := if i <? 0 then 0 else nth (Z.to_nat i) powerOfTwoTable 0.

(** PowerOfTwo.hpp:24-30. *)
Definition oneOverPowOfTwoTable : list Q :=
  [1 # 1; 1 # 2; 1 # 4; 1 # 8; 1 # 16; 1 # 32; 1 # 64; 1 # 128; 1 # 256; 1 # 512;
   1 # 1024; 1 # 2048; 1 # 4096; 1 # 8192; 1 # 16384; 1 # 32768; 1 # 65536; 1 # 131072; 1 # 262144; 1 # 524288;
   1 # 1048576; 1 # 2097152; 1 # 4194304; 1 # 8388608; 1 # 16777216; 1 # 33554432; 1 # 67108864; 1 # 134217728;
   1 # 268435456; 0 # 1].

(** PowerOfTwo.hpp:11-15, powerOfTwoByBitshift (the assertion bounds x; the shift itself is 2^x). *)
Definition powerOfTwoByBitshift (x : Z) : Z := Z.shiftl 1 x.

(** LevelSetUtils.hpp:11-21, without the exception for level 0 without boundary (levels are positive here). *)
Definition dofNodal1 (l b : Z) : Z := if l >? 0 then powerOfTwoByBitshift l + b - 1 else b.

(** LevelSetUtils.hpp:23-32. *)
Definition numDofNodal (l b : list Z) : Z := fold_left (fun acc p => acc * dofNodal1 (fst p) (snd p)) (combine l b) 1.

(** LevelSetUtils.hpp:43-50. *)
Definition numDofHierarchical1 (l b : Z) : Z := if l =? 1 then 1 + b else powerOfTwoByBitshift (l - 1).

(** LevelSetUtils.hpp:52-62. *)
Definition numDofHierarchical (l b : list Z) : Z :=
  fold_left (fun acc p => acc * numDofHierarchical1 (fst p) (snd p)) (combine l b) 1.

(** LevelSetUtils.hpp:64-71. *)
Definition numDofHierarchicalSet (ls : list (list Z)) (b : list Z) : Z :=
  fold_left (fun acc l => acc + numDofHierarchical l b) ls 0.

(** CombiMinMaxScheme.hpp:223-238, getCombiDegreesOfFreedom. *)
Definition combiDegreesOfFreedom (l b : list Z) : Z :=
  fold_left (fun acc p => acc * (if fst p >? 0 then powerOfTwo (fst p) - 1 + snd p else snd p)) (combine l b) 1.

(** CombiMinMaxScheme.hpp:252-272, getSGDegreesOfFreedomFromDownSet. *)
Definition sgSubspaceDof (l : list Z) : Z :=
  fold_left (fun acc x => acc * (if x >? 1 then powerOfTwo (x - 1) else 3)) l 1.
Definition sgDegreesOfFreedom (downSet : list (list Z)) : Z :=
  fold_left (fun acc l => acc + sgSubspaceDof l) downSet 0.

(** CombiMinMaxScheme.hpp:289-325, getHighestIndexInHierarchicalSubspaceLowerThanNodalIndexOnLref for positive levels
    (level 0 throws). The double expression ceil(0.5*(nodalIndex/2^diff - 1)) is evaluated exactly: it is the integer
    ceiling of (nodalIndex - 2^diff) / 2^(diff+1). *)
Definition highestIndexBelow (l nodalIndex refLevel : Z) : Z :=
  if l =? 1 then
    if nodalIndex >? 0 then
      if nodalIndex >=? powerOfTwo refLevel then 2
      else if nodalIndex >=? powerOfTwo refLevel / 2 then 1 else 0
    else -1
  else
    let diff := refLevel - l in
    if nodalIndex >? powerOfTwo diff
    then - ((- (nodalIndex - powerOfTwo diff)) / (2 * powerOfTwo diff)) - 1
    else -1.

(** CombiMinMaxScheme.hpp:352-366: the extents of one subspace in one dimension on all but the last process.
    [done]: numIndicesProcessedOnPoleMinusOne; [starts]: decomposition[d][1], decomposition[d][2], ... Returns the
    extents and the final value of [done]. *)
Fixpoint subspaceExtentsLoop (l refLevel done : Z) (starts : list Z) : list Z * Z :=
  match starts with
  | [] => ([], done)
  | s :: rest =>
      let h := highestIndexBelow l s refLevel in
      if h =? -1
      then let (e, r) := subspaceExtentsLoop l refLevel done rest in (0 :: e, r)
      else let (e, r) := subspaceExtentsLoop l refLevel h rest in ((h - done) :: e, r)
  end.

(** CombiMinMaxScheme.hpp:351-374: the rest belongs to the last process. *)
Definition subspaceExtents (l refLevel : Z) (dec : list Z) : list Z :=
  let (e, done) := subspaceExtentsLoop l refLevel (-1) (tl dec) in
  e ++ [(if l =? 1 then 3 else powerOfTwo (l - 1)) - done - 1].

(** CombiMinMaxScheme.hpp:388-400: product of the extents belonging to process [i] (its coordinates are taken by
    repeated division from the last dimension on, as in Tensor.hpp). *)
Definition processDof (extents : list (list Z)) (decSizes : list Z) (i : Z) : Z :=
  zprod (map2 (fun e k => nth (Z.to_nat k) e 0) extents (getVectorIndex decSizes i)).

(** CombiMinMaxScheme.hpp:327-404, getPartitionedNumDOFSG for a non-empty down set. *)
Definition partitionedNumDof (downSet : list (list Z)) (refLevel : list Z) (dec : list (list Z)) : list Z :=
  let sizes := map (fun d => Z.of_nat (length d)) dec in
  map (fun i => zsum (map (fun l =>
         processDof (map2 (fun p d => subspaceExtents (fst p) (snd p) d) (combine l refLevel) dec) sizes i) downSet))
      (zrange 0 (fold_left Z.mul sizes 1)).
