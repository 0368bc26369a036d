(** Model of src/utils/DecompositionUtils.hpp. *)
From Verif Require Import Base.

(** Exact ceiling of a quotient; std::ceil of the double quotient is modelled without rounding. *)
Definition cdiv (a b : Z) : Z := - ((- a) / b).

(** DecompositionUtils.hpp:22-37, getDefaultDecomposition in one dimension; [None] is the exception.
    The doubles are modelled as exact rationals. *)
Definition defaultDecomposition1 (n p : Z) (forward : bool) : option (list Z) :=
  if p >? n then None
  else Some (map (fun j => if forward then cdiv (n * j) p else (n * j) / p) (zrange 0 p)).

(** DecompositionUtils.hpp:13-40, getDefaultDecomposition. *)
Fixpoint defaultDecomposition (sizes procs : list Z) (forward : bool) : option (list (list Z)) :=
  match sizes, procs with
  | n :: sizes', p :: procs' =>
      match defaultDecomposition1 n p forward with
      | None => None
      | Some d => match defaultDecomposition sizes' procs' forward with
                  | None => None | Some ds => Some (d :: ds) end
      end
  | _, _ => Some []
  end.

(** DecompositionUtils.hpp:42-63, getStandardDecomposition in one dimension; [None] is the exception. *)
Definition standardDecomposition1 (l p : Z) : option (list Z) :=
  if p =? 1 then Some [0]
  else if p =? 2 then Some [0; 2 ^ l / p + 1]
  else if p =? 3 then Some [0; 2 ^ l / p + 1; 2 * 2 ^ l / p + 1]
  else if p =? 4 then Some [0; 2 ^ l / p + 1; 2 * 2 ^ l / p + 1; 3 * 2 ^ l / p + 1]
  else None.

(** DecompositionUtils.hpp:73-88, one entry of downsampleDecomposition; [b] is the boundary flag. *)
Definition downsample1 (refLevel newLevel b dec : Z) : Z :=
  let diff := refLevel - newLevel in
  if b >? 0 then cdiv dec (2 ^ diff)
  else Z.max 0 (cdiv (dec - (2 ^ diff - 1)) (2 ^ diff)).

(** DecompositionUtils.hpp:65-92, downsampleDecomposition. *)
Fixpoint downsampleDecomposition (decs : list (list Z)) (refLevel newLevel b : list Z) : list (list Z) :=
  match decs, refLevel, newLevel, b with
  | d :: decs', r :: refLevel', n :: newLevel', b0 :: b' =>
      map (downsample1 r n b0) d :: downsampleDecomposition decs' refLevel' newLevel' b'
  | _, _, _, _ => decs
  end.

(** LevelSetUtils.hpp:11-21, getNumDofNodal in one dimension; [None] is the exception. *)
Definition numDofNodal1 (l b : Z) : option Z :=
  if l >? 0 then Some (2 ^ l + b - 1) else if b =? 0 then None else Some b.
