(** Model of the 1d level structure of a full grid, src/fullgrid/DistributedFullGrid.hpp. *)
From Verif Require Import Base.

(** __builtin_ctz (compiler builtin): number of trailing zero bits; for a negative index in two's complement these are
    the trailing zero bits of its absolute value. The builtin is undefined at 0. *)
Fixpoint ctzPos (p : positive) : Z := match p with xO q => 1 + ctzPos q | _ => 0 end.
Definition ctz (x : Z) : Z := match x with Zpos p | Zneg p => ctzPos p | Z0 => 0 end.

(** DistributedFullGrid.hpp:984-1016, getLevel. [b]: boundary type, [L]: level of the grid in this dimension. *)
Definition getLevel (b L idx : Z) : Z :=
  let i := if b =? 0 then idx + 1 else idx in
  if i =? 0 then 0 else L - ctz i.

(** DistributedFullGrid.hpp:1019-1029, getLeftPredecessor. *)
Definition getLeftPredecessor (b L idx : Z) : Z :=
  let l := getLevel b L idx in
  if l =? 0 then -1 else idx - 2 ^ (L - l).

(** DistributedFullGrid.hpp:1032-1051, getRightPredecessor; [n] is the global number of points. *)
Definition getRightPredecessor (b L n idx : Z) : Z :=
  let l := getLevel b L idx in
  if l =? 0 then -1
  else let r := idx + 2 ^ (L - l) in
       if (b =? 1) && (r =? n) then n
       else if r >? n - 1 then -1 else r.

(** DistributedFullGrid.hpp:1811-1817, getStrideForThisLevel. *)
Definition strideForLevel (b L l : Z) : Z :=
  if (l =? 1) && (b >? 0) then 2 ^ (L - 1) else 2 ^ (L - l + 1).

(** DistributedFullGrid.hpp:1820-1855, getLocalStartForThisLevel; [lo] is the first global 1d index. *)
Definition offsetForLevel (b L l : Z) : Z :=
  if b >? 0 then (if l =? 1 then 0 else 2 ^ (L - l)) else 2 ^ (L - l) - 1.

Definition localStartForLevel (b L l lo stride : Z) : Z :=
  let off := offsetForLevel b L l in
  let first := if lo <? off then 0 else (lo - off + stride - 1) / stride in
  first * stride + off - lo.

(** DistributedFullGrid.hpp:1858-1864, getNumPointsOnThisPartition; [size] is the local 1d size. *)
Definition numPointsOnPartition (size localStart stride : Z) : Z :=
  if size - 1 <? localStart then 0 else (size - 1 - localStart) / stride + 1.

(** DistributedFullGrid.hpp:1343-1363, get1dIndicesLocal: local 1d indices of the points of level [l]. *)
Definition indices1dLocal (b L lo up l : Z) : list Z :=
  if l >? L then []
  else let stride := strideForLevel b L l in
       let start := localStartForLevel b L l lo stride in
       zprog start stride (Z.to_nat (numPointsOnPartition (up - lo) start stride)).
