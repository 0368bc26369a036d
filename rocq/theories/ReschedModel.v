(** Model of rescheduler/RebalancingTaskRescheduler.cpp and of the load models AverageOfLastNLoadModel, AveragingLoadModel and LinearLoadModel. *)
From Verif Require Import Base ManagerModel.
From Coq Require Import QArith Qcanon.
Open Scope Z_scope.

(** std::map<LevelVector, T>: the entries in the order of the keys, each key once. *)
Definition lmap := list (list Z * Z).
(** map::operator[] of a key of the map; a key that does not occur counts as zero, the value of the entry that the operator would insert. *)
Fixpoint look (m : lmap) (k : list Z) : Z :=
  match m with [] => 0 | e :: m' => if level_eq_dec (fst e) k then snd e else look m' k end.
(** Assignment to the entry of a key of the map. *)
Definition setAt (m : lmap) (k : list Z) (g : Z) : lmap := map (fun e => if level_eq_dec (fst e) k then (fst e, g) else e) m.

(** ** RebalancingTaskRescheduler::eval, RebalancingTaskRescheduler.cpp:9-122 *)
(** std::map<int, unsigned long>, 45-48: each group that occurs, in ascending order. *)
Fixpoint insertZ (x : Z) (l : list Z) : list Z :=
  match l with [] => [x] | y :: l' => if x <? y then x :: l else if x =? y then l else y :: insertZ x l' end.
Definition groupsOf (m : lmap) : list Z := fold_left (fun l e => insertZ (snd e) l) m [].
(** 49-52: the load of a group. The durations name keys of [m] only, so that operator[] inserts nothing; unsigned long does not overflow. *)
Definition load (m dur : lmap) (g : Z) : Z := zsum (map (fun e => if look m (fst e) =? g then snd e else 0) dur).
Definition loads (m dur : lmap) : list (Z * Z) := map (fun g => (g, load m dur g)) (groupsOf m).
(** std::minmax_element, 57-66: the first of the smallest and the last of the largest. *)
Fixpoint firstMin (x : Z * Z) (l : list (Z * Z)) : Z * Z :=
  match l with [] => x | y :: l' => firstMin (if snd y <? snd x then y else x) l' end.
Fixpoint lastMax (x : Z * Z) (l : list (Z * Z)) : Z * Z :=
  match l with [] => x | y :: l' => lastMax (if snd y <? snd x then x else y) l' end.
(** 73-79: the tasks of the slowest group with the prognosis of the load model. *)
Definition candidates (m : lmap) (prognosis : list Z -> Z) (slowest : Z) : lmap :=
  map (fun e => (fst e, prognosis (fst e))) (filter (fun e => snd e =? slowest) m).
(** std::min_element, 81-96: the first of the smallest distances to the average. *)
Fixpoint closest (fast avg : Z) (x : list Z * Z) (l : lmap) : list Z * Z :=
  match l with [] => x | y :: l' => closest fast avg (if Z.abs (fast + snd y - avg) <? Z.abs (fast + snd x - avg) then y else x) l' end.
(** 69: slowestGroup.second / averageProcessGroupDuration < min_inbalance_; a quotient of integers is compared with a double. *)
Definition Zc (z : Z) : Qc := Q2Qc (inject_Z z).
Definition balanced (slow avg : Z) (minInbalance : Qc) : bool := if Qclt_le_dec (Zc (Z.quot slow avg)) minInbalance then true else false.
(** 99-113: an earlier move of the task is changed, otherwise the move is added and the copy of the distribution updated. *)
Definition moved (moves : lmap) (k : list Z) : bool := existsb (fun e => if level_eq_dec (fst e) k then true else false) moves.
Fixpoint changeMove (moves : lmap) (k : list Z) (g : Z) : lmap :=
  match moves with [] => [] | e :: moves' => if level_eq_dec (fst e) k then (fst e, g) :: moves' else e :: changeMove moves' k g end.
(** One iteration, 45-118, for a distribution that is not empty. [None]: eval returns. *)
Definition choice (m dur : lmap) (prognosis : list Z -> Z) (avg : Z) (minInbalance : Qc) : option (list Z * Z) :=
  match loads m dur with
  | [] => None
  | x :: l =>
      let fastest := firstMin x l in
      let slowest := lastMax x l in
      if balanced (snd slowest) avg minInbalance then None
      else match candidates m prognosis (fst slowest) with
           | [] => None
           | y :: c =>
               let t := closest (snd fastest) avg y c in
               if snd fastest + snd t <? snd slowest then Some (fst t, fst fastest) else None
           end
  end.
(** 43-121: [it] iterations are left. *)
Fixpoint iterate (it : nat) (m moves dur : lmap) (prognosis : list Z -> Z) (avg : Z) (minInbalance : Qc) : lmap :=
  match it with
  | O => moves
  | S it' =>
      match choice m dur prognosis avg minInbalance with
      | None => moves
      | Some (k, g) => if moved moves k then iterate it' m (changeMove moves k g) dur prognosis avg minInbalance
                       else iterate it' (setAt m k g) (moves ++ [(k, g)]) dur prognosis avg minInbalance
      end
  end.
(** 27-41: what the code calls the average duration of a group; numberOfProcessGroups is the size of the map. *)
Definition average (m dur : lmap) : Z := zsum (map snd dur) / Z.of_nat (length m).
(** [None]: a division by zero (41, 69). *)
Definition evalMoves (maxIterations : nat) (minInbalance : Qc) (m dur : lmap) (prognosis : list Z -> Z) : option lmap :=
  if (length m =? 0)%nat then None
  else if (average m dur =? 0) && negb (maxIterations =? 0)%nat then None
  else Some (iterate maxIterations m [] dur prognosis (average m dur) minInbalance).

(** ** AverageOfLastNLoadModel.cpp *)
Definition window := list Z.
Definition windows := list (list Z * window).
Fixpoint windowOf (w : windows) (k : list Z) : window :=
  match w with [] => [] | e :: w' => if level_eq_dec (fst e) k then snd e else windowOf w' k end.
Fixpoint setWindow (w : windows) (k : list Z) (x : window) : windows :=
  match w with [] => [(k, x)] | e :: w' => if level_eq_dec (fst e) k then (k, x) :: w' else e :: setWindow w' k x end.
(** 7-15; the order of the entries does not matter. *)
Definition newModel (tasks : list (list Z)) : windows := fold_left (fun w k => setWindow w k []) tasks [].
(** 17-25, for [n >= 1]; for [n = 0] the first call removes from an empty deque. *)
Definition addDuration (n : nat) (w : windows) (r : list Z * Z) : windows :=
  let d := windowOf w (fst r) in setWindow w (fst r) ((if (n <=? length d)%nat then tl d else d) ++ [snd r]).
(** 31-34: std::accumulate with the initial value 0 of type int: every partial sum is converted to int (on the usual platforms modulo 2^32).
    The quotient of doubles is exact here and truncated to long. [None]: a division by zero whose result cannot be converted. *)
Definition toInt (n : Z) : Z := (n + 2 ^ 31) mod 2 ^ 32 - 2 ^ 31.
Definition accumulateInt (d : window) : Z := fold_left (fun a x => toInt (a + x)) d 0.
Definition prognosisOf (w : windows) (k : list Z) : option Z :=
  match windowOf w k with [] => None | d => Some (Z.quot (accumulateInt d) (Z.of_nat (length d))) end.

(** ** AveragingLoadModel.hpp:56-67, addDurationInformation: the durations in memory and those written to the file. *)
Definition writeEvery : nat := 50.
Definition addAveraging (s : list Z * list Z) (x : Z) : list Z * list Z :=
  let d := fst s ++ [x] in
  if (writeEvery <? length d)%nat then (skipn writeEvery d, snd s ++ firstn writeEvery d) else (d, snd s).
(** 104-126, eval, when there is a duration in memory. *)
Definition evalAveraging (d : list Z) : Qc := (Zc (zsum d) / Zc (Z.of_nat (length d)))%Qc.
(** AveragingLoadModel.hpp:74-97 and 48-54: the destructor writes the rest. *)
Definition destroyAveraging (s : list Z * list Z) : list Z := snd s ++ fst s.
(** AveragingLoadModel.cpp:13-23, getAverageOfFirstColumn of a file that is not empty: unsigned long, no overflow. *)
Definition averageOfFile (f : list Z) : Z := zsum f / Z.of_nat (length f).
