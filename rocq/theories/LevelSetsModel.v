(** Model of src/utils/LevelSetUtils.cpp and .hpp: sets of level vectors. *)
From Verif Require Import Base.

(** LevelSetUtils.cpp:6-25, getDownSetRecursively: [rest] are the levels of the dimensions not yet fixed. *)
Fixpoint downSetRec (rest fixedDims : list Z) : list (list Z) :=
  match rest with
  | [] => [fixedDims]
  | l :: rest' => flat_map (fun i => downSetRec rest' (fixedDims ++ [i])) (zrange 1 (l + 1))
  end.

(** LevelSetUtils.cpp:27-32, getDownSet. *)
Definition getDownSet (l : list Z) : list (list Z) := downSetRec l [].

(** LevelSetUtils.cpp:36-53, getAllKOutOfDDimensions: the values taken by the 0/1 vector [selector] when
    std::prev_permutation runs from 1..10..0 (all 0/1 vectors with k ones, in decreasing order; the enumeration by
    prev_permutation itself is taken from its specification). *)
Fixpoint selectors (d k : nat) : list (list bool) :=
  match d with
  | O => match k with O => [[]] | S _ => [] end
  | S d' =>
      (match k with O => [] | S k' => map (cons true) (selectors d' k') end)
      ++ map (cons false) (selectors d' k)
  end.

(** Sum of the selected entries (loop at LevelSetUtils.cpp:92-95). *)
Fixpoint maskSum (m : list bool) (l : list Z) : Z :=
  match m, l with
  | b :: m', x :: l' => (if b then x else 0) + maskSum m' l'
  | _, _ => 0
  end.

Definition levelSum (l : list Z) : Z := fold_left Z.add l 0.

(** LevelSetUtils.cpp:85-103: no selection of two or more dimensions exceeds its bound. *)
Definition mixedSumsOk (lmin : list Z) (n : Z) (l : list Z) : bool :=
  forallb (fun k => forallb (fun m => negb (maskSum m l >? maskSum m lmin + n)) (selectors (length lmin) k))
          (seq 2 (length lmin - 1)).

(** LevelSetUtils.cpp:63-113, createTruncatedHierarchicalLevelsRec. [lmaxRest]: lmax of the dimensions from the
    current one on; [prefix]: entries of l set so far; [lmin], [n] as in the code. *)
Fixpoint truncatedLevelsRec (lmaxRest lmin : list Z) (n : Z) (prefix : list Z) : list (list Z) :=
  match lmaxRest with
  | [] => []
  | lm :: rest =>
      flat_map (fun ldim =>
        if ldim >? lm then []
        else match rest with
             | [] => if mixedSumsOk lmin n (prefix ++ [ldim]) then [prefix ++ [ldim]] else []
             | _ :: _ => truncatedLevelsRec rest lmin n (prefix ++ [ldim])
             end)
      (zrange 1 (levelSum lmin + n - levelSum prefix + 1))
  end.

Definition minElement (l : list Z) : Z := match l with [] => 0 | x :: r => fold_left Z.min r x end.

(** LevelSetUtils.cpp:115-141, createTruncatedHierarchicalLevels. *)
Definition truncatedLevels (lmax lmin : list Z) : list (list Z) :=
  let n := minElement (map2 Z.sub lmax lmin) in
  truncatedLevelsRec lmax (map (fun x => x - n) lmax) n [].

(** LevelSetUtils.hpp:92-139, HypercubeDownSetGenerator: constructor, isFinished and getNextLevel. *)
Definition generatorInit (levelUpTo : list Z) : list Z :=
  upd (repeat 1 (length levelUpTo)) (length levelUpTo - 1) 0.

Definition generatorFinished (levelUpTo current : list Z) : bool :=
  forallb (fun l => l =? nth 0 levelUpTo 0) current.

(** The loop from the last dimension to the first, on reversed lists. *)
Fixpoint generatorStep (upToRev currentRev : list Z) : list Z :=
  match upToRev, currentRev with
  | u :: us, c :: cs => if c <? u then (c + 1) :: cs else 1 :: generatorStep us cs
  | _, _ => []
  end.

Definition generatorNext (levelUpTo current : list Z) : list Z :=
  if generatorFinished levelUpTo current then current
  else rev (generatorStep (rev levelUpTo) (rev current)).

(** LevelSetUtils.hpp:110-112 and repeated getNextLevel: the levels handed out to a caller who asks for as many
    levels as getTotalNumberOfLevels announces. *)
Fixpoint generatorRun (levelUpTo current : list Z) (k : nat) : list (list Z) :=
  match k with
  | O => []
  | S k' => let c := generatorNext levelUpTo current in c :: generatorRun levelUpTo c k'
  end.
Definition generatorTotal (levelUpTo : list Z) : Z := fold_left Z.mul levelUpTo 1.
