(** Model of the ways a combination scheme is divided: among systems (src/combischeme/CombiThirdLevelScheme.cpp), among
    process groups (src/combischeme/CombiMinMaxScheme.hpp:492-591), and of the conjoint set (430-473). *)
From Coq Require Import QArith Qround.
From Verif Require Import Base LevelSetsModel CombiSchemeModel.

(** std::round on a non-negative number: half away from zero. Doubles are modelled by exact rationals. *)
Definition roundQ (q : Q) : Z := Qfloor (q + (1 # 2))%Q.

(** vector(begin + b, begin + e); [None]: not a range inside the vector (undefined behaviour). *)
Definition slice {A : Type} (l : list A) (b e : Z) : option (list A) :=
  if (0 <=? b) && (b <=? e) && (e <=? Z.of_nat (length l))
  then Some (firstn (Z.to_nat (e - b)) (skipn (Z.to_nat b) l)) else None.

(** CombiThirdLevelScheme.cpp:44-56: the loop over the fractions; [b] is beginNextL/beginNextC as an index, [scanned] is
    scannedFrac. *)
Fixpoint decomposeLoop (levels : list (list Z)) (coeffs : list Z) (fractions : list Q) (scanned : Q) (b : Z)
  : option (list (list (list Z) * list Z)) :=
  match fractions with
  | [] => Some []
  | f :: fr =>
      let scanned' := (scanned + f)%Q in
      let e := roundQ (inject_Z (Z.of_nat (length levels)) * scanned') in
      match slice levels b e, slice coeffs b e, decomposeLoop levels coeffs fr scanned' e with
      | Some pl, Some pc, Some rest => Some ((pl, pc) :: rest)
      | _, _, _ => None
      end
  end.
(** CombiThirdLevelScheme.cpp:31-66 (the assertions are not part of a release build). *)
Definition decomposeScheme (levels : list (list Z)) (coeffs : list Z) (fractions : list Q) :=
  decomposeLoop levels coeffs fractions 0 0.

(** CombiThirdLevelScheme.cpp:7-29. *)
Definition createThirdLevelScheme (levels : list (list Z)) (coeffs : list Z) (system numSystems : nat)
  (fractions : list Q) : option (list (list Z) * list Z) :=
  if (numSystems <? 2)%nat then Some (levels, coeffs)
  else match decomposeScheme levels coeffs fractions with
       | Some parts => nth_error parts system
       | None => None
       end.

(** CombiMinMaxScheme.hpp:538-543: the loop of getRoundRobinLevels; the task numbers visited. *)
Fixpoint roundRobinLoop (fuel : nat) (taskNo total numGroups : nat) : list nat :=
  match fuel with
  | O => []
  | S f => if (taskNo <? total)%nat then taskNo :: roundRobinLoop f (taskNo + numGroups) total numGroups else []
  end.
Definition roundRobinTasks (total group numGroups : nat) : list nat := roundRobinLoop total group total numGroups.

(** The three output vectors (taskNumbers, coeffs, levels), lines 539-542 and 583-587. *)
Definition pickTasks (levels : list (list Z)) (coeffs : list Z) (tasks : list nat) : list (nat * Z * list Z) :=
  map (fun t => (t, nth t coeffs 0, nth t levels [])) tasks.
Definition getRoundRobinLevels (levels : list (list Z)) (coeffs : list Z) (group numGroups : nat) :=
  pickTasks levels coeffs (roundRobinTasks (length levels) group numGroups).

(** CombiMinMaxScheme.hpp:513-520: getAssignedLevels, tasks of the own group as read from the scheme file. *)
Definition getAssignedLevels (levels : list (list Z)) (coeffs : list Z) (pgNumbers : list Z) (group : Z) :=
  pickTasks levels coeffs (filter (fun t => nth t pgNumbers 0 =? group) (seq 0 (length pgNumbers))).

(** CombiMinMaxScheme.hpp:574-579: the first group with the smallest load (below 2^63 - 1), else group 0. *)
Fixpoint minGroupLoop (loads : list Z) (g best : nat) (minLoad : Z) : nat :=
  match loads with
  | [] => best
  | x :: r => if x <? minLoad then minGroupLoop r (S g) g x else minGroupLoop r (S g) best minLoad
  end.
Definition minGroup (loads : list Z) : nat := minGroupLoop loads 0 0 (2 ^ 63 - 1).

(** CombiMinMaxScheme.hpp:570-588: the greedy loop over the sorted task ids [ids]; returns the group of each task and the
    final loads. [cost] is getCombiDegreesOfFreedom. *)
Fixpoint balanceLoop (cost : nat -> Z) (ids : list nat) (loads : list Z) : list (nat * nat) * list Z :=
  match ids with
  | [] => ([], loads)
  | t :: r =>
      let g := minGroup loads in
      let (a, l) := balanceLoop cost r (upd loads g (nth g loads 0 + cost t)) in
      ((t, g) :: a, l)
  end.
(** The map loadAssignedToGroup starts with 0 everywhere. *)
Definition balance (cost : nat -> Z) (ids : list nat) (numGroups : nat) := balanceLoop cost ids (repeat 0 numGroups).
(** What getLoadBalancedLevels returns to a process of group [group]; [ids] is the result of std::sort (line 563), of which
    only its specification is known: a permutation of the task ids ordered by descending cost. *)
Definition getLoadBalancedLevels (levels : list (list Z)) (coeffs : list Z) (cost : nat -> Z) (ids : list nat)
  (group numGroups : nat) :=
  pickTasks levels coeffs (map fst (filter (fun p => Nat.eqb (snd p) group) (fst (balance cost ids numGroups)))).

(** CombiMinMaxScheme.hpp:441-455: std::map from level to number of occurrences, kept sorted. *)
Fixpoint countInsert (v : list Z) (m : list (list Z * Z)) : list (list Z * Z) :=
  match m with
  | [] => [(v, 1)]
  | (w, c) :: r => if lexltb v w then (v, 1) :: m
                   else if lexltb w v then (w, c) :: countInsert v r else (w, c + 1) :: r
  end.
(** Lines 446-453: the poles below one grid, dimension by dimension. *)
Definition polesBelow (lmin l : list Z) : list (list Z) :=
  flat_map (fun d => map (fun x => upd l d x) (zrange (nth d lmin 0) (nth d l 0))) (seq 0 (length l)).
Definition poleCounts (spaces : list (list Z)) (coeffs : list Z) (lmin : list Z) : list (list Z * Z) :=
  fold_left (fun m p => if snd p =? 1 then fold_left (fun m v => countInsert v m) (polesBelow lmin (fst p)) m else m)
            (combine spaces coeffs) [].
(** Lines 458-470. [found]: std::find over the list built so far. *)
Definition found (v : list Z) (l : list (list Z)) : bool := if in_dec (list_eq_dec Z.eq_dec) v l then true else false.
Definition addDownSpaces (set : list (list Z)) (v : list Z) : list (list Z) :=
  fold_left (fun s w => if found w s then s else s ++ [w]) (getDownSet v) (set ++ [v]).
Definition getConjointSet (spaces : list (list Z)) (coeffs : list Z) (lmin : list Z) : list (list Z) :=
  fold_left (fun s p => if snd p <? Z.of_nat (length (nth 0 spaces [])) then addDownSpaces s (fst p) else s)
            (poleCounts spaces coeffs lmin) [].
