(** Model of the exchange of pole data between the partitions of one dimension,
    src/hierarchization/DistributedHierarchization.hpp:80-624. The processes along a pole are named by their partition
    index in that dimension (getNeighbor1dFromPartitionIndex maps it to a rank, see PartitionModel.v). *)
From Verif Require Import Base DofModel Level1dModel PartitionModel Hier1dModel.
From Coq Require Import QArith Qcanon.
Open Scope Z_scope.

(** std::set<IndexType>::insert: ascending, no duplicates. *)
Fixpoint zinsert (x : Z) (s : list Z) : list Z :=
  match s with
  | [] => [x]
  | y :: s' => if x <? y then x :: s else if x =? y then s else y :: zinsert x s'
  end.
Definition zset (l : list Z) : list Z := fold_left (fun s x => zinsert x s) l [].

(** std::map<RankType, std::set<IndexType>> filled by [m[r].insert(i)] (327-328 and all uses): here the list of the
    insertions (r, i); [entryOf m r] is the set under the key [r]. *)
Definition idxMap := list (Z * Z).
Definition keysOf (m : idxMap) : list Z := zset (map fst m).
Definition entryOf (m : idxMap) (r : Z) : list Z := zset (map snd (filter (fun e => fst e =? r) m)).

(** DistributedHierarchization.hpp:133-174 and 182-232, sendAndReceiveIndicesBlock: one MPI_Isend (MPI_Irecv) for every
    key of the map: partner, tag (the first index, 170, 224), and the indices in ascending order. *)
Definition messages (m : idxMap) : list (Z * Z * list Z) :=
  map (fun r => (r, hd 0 (entryOf m r), entryOf m r)) (keysOf m).

(** A while loop [idx = first; while (idx <= last) idx = next(idx)] (340-410, 440-446): the indices visited. *)
Fixpoint visited (next : Z -> Z) (fuel : nat) (last idx : Z) : list Z :=
  match fuel with
  | O => []
  | S fuel' => if idx <=? last then idx :: visited next fuel' last (next idx) else []
  end.

(** DistributedHierarchization.hpp:608-624, getNextIndex1d; [last] is the last local index. *)
Definition nextIndex1d (b L last idx : Z) : Z :=
  let lold := getLevel b L idx in
  match find (fun i => (getLevel b L i =? L) || (getLevel b L i =? lold + 1)) (zrange (idx + 1) (last + 1)) with
  | Some i => i
  | None => idx + 1
  end.

(** [int r = getNeighbor1dFromAxisIndex(dim, target); if (r >= 0) m[r].insert(idx);] (e.g. 358-359). *)
Definition addFor (dec1 : list Z) (n target idx : Z) : idxMap :=
  let r := neighbor1dPartition dec1 n target in if r >=? 0 then [(r, idx)] else [].

(** DistributedHierarchization.hpp:343-374, exchangeData1d: the entries of send1dIndices for one index. *)
Definition hierSends (b L lmin : Z) (dec1 : list Z) (n first last idx : Z) : idxMap :=
  flat_map (fun l =>
    if l >? lmin then
      flat_map (fun shift =>
        let s := idx + shift * powerOfTwo (L - l) in
        (if ((shift <? 0) && (s >=? 0) && (s <? first)) || ((shift >? 0) && (s >? last) && (s <? n))
         then addFor dec1 n s idx else []) ++
        (if (b =? 1) && (idx =? 0) && (s <? 0)
         then let m := n + s in if m >? last then addFor dec1 n m idx else []
         else [])) [-1; 1]
    else []) (zrange (getLevel b L idx + 1) (L + 1)).

(** DistributedHierarchization.hpp:375-402: the entries of recv1dIndices for one index; [c] is the own partition. *)
Definition hierRecvs (b L lmin : Z) (dec1 : list Z) (n first last c idx : Z) : idxMap :=
  let lidx := getLevel b L idx in
  if lidx >? lmin then
    flat_map (fun shift =>
      let p := idx + shift * powerOfTwo (L - lidx) in
      (if (lidx >? 0) && (((shift <? 0) && (p >=? 0) && (p <? first)) || ((shift >? 0) && (p >? last) && (p <? n)))
       then addFor dec1 n p p else []) ++
      (if (b =? 1) && (shift >? 0) && (p =? n)
       then let r := neighbor1dPartition dec1 n 0 in if (r >=? 0) && negb (r =? c) then [(r, 0)] else []
       else [])) [-1; 1]
  else [].

(** DistributedHierarchization.hpp:375-409: the next index of the main loop (in both branches pIdx ends up as the
    right predecessor). *)
Definition hierNext (b L last idx : Z) : Z :=
  let lidx := getLevel b L idx in
  let p := idx + powerOfTwo (L - lidx) in
  if (lidx =? 0) || (p >? last) then nextIndex1d b L last idx else p.

(** DistributedHierarchization.hpp:451-487, checkLeftSuccesors; the recursion goes to higher levels, so that depth
    [lmax] suffices. *)
Fixpoint leftSuccs (fuel : nat) (b L lmin : Z) (dec1 : list Z) (n first check root : Z) : idxMap :=
  match fuel with
  | O => []
  | S fuel' =>
      flat_map (fun l =>
        let s := check - powerOfTwo (L - l) in
        let ls := getLevel b L s in
        if (check =? root) && (ls <=? lmin) then []
        else (if (s >=? 0) && (s <? first) then (if ls >? lmin then addFor dec1 n s root else []) else []) ++
             (if s >=? 0 then leftSuccs fuel' b L lmin dec1 n first s root else []))
        (zrange (getLevel b L check + 1) (L + 1))
  end.

(** DistributedHierarchization.hpp:490-536, checkRightSuccesors. *)
Fixpoint rightSuccs (fuel : nat) (b L lmin : Z) (dec1 : list Z) (n last check root : Z) : idxMap :=
  match fuel with
  | O => []
  | S fuel' =>
      flat_map (fun l =>
        let s := check + powerOfTwo (L - l) in
        let ls := getLevel b L s in
        if (check =? root) && (ls <=? lmin) then []
        else (if ls >? lmin then
                (if (s <? n) && (s >? last) then addFor dec1 n s root else []) ++
                (if (root =? 0) && (b =? 1)
                 then let m := n - s in if m >? last then addFor dec1 n m root else []
                 else [])
              else []) ++
             (if s <? n then rightSuccs fuel' b L lmin dec1 n last s root else []))
        (zrange (getLevel b L check + 1) (L + 1))
  end.

(** DistributedHierarchization.hpp:539-603, checkPredecessors: the next index and the entries of recv1dIndices. The
    recursion goes to lower levels. Simplified: the rank returned for a predecessor inside the domain is never negative
    (proved in PartitionProofs.v), the code does not check it here either. *)
Fixpoint checkPredecessors (fuel : nat) (b L lmin : Z) (dec1 : list Z) (n first last c idx : Z) : Z * idxMap :=
  match fuel with
  | O => (idx, [])
  | S fuel' =>
      let rec i := snd (checkPredecessors fuel' b L lmin dec1 n first last c i) in
      if (getLevel b L idx <=? lmin) || (idx <? 0) then (nextIndex1d b L last idx, [])
      else
        let lp := getLeftPredecessor b L idx in
        let fromLeft :=
          (if (lp >=? 0) && (lp <? first) then [(neighbor1dPartition dec1 n lp, lp)] else []) ++
          (if (lp >=? 0) && (getLevel b L lp >=? lmin) then rec lp else []) in
        let rp := getRightPredecessor b L n idx in
        if rp <? 0 then (nextIndex1d b L last idx, fromLeft)
        else if rp >? last then
          (nextIndex1d b L last idx,
           fromLeft ++
           (if (b =? 1) && (rp =? n) then
              if first >? 0 then
                let r := neighbor1dPartition dec1 n 0 in if negb (r =? c) then [(r, 0)] else []
              else []
            else (neighbor1dPartition dec1 n rp, rp) :: (if getLevel b L rp >=? lmin then rec rp else [])))
        else (rp, fromLeft)
  end.

(** First and last global index of partition [c] (getFirstGlobal1dIndex, getLastGlobal1dIndex,
    DistributedFullGrid.hpp:306-309, from the bounds of PartitionModel.v). *)
Definition firstIdx (dec1 : list Z) (c : Z) : Z := nth (Z.to_nat c) dec1 0.
Definition lastIdx (dec1 : list Z) (n c : Z) : Z :=
  (if c <? Z.of_nat (length dec1) - 1 then nth (Z.to_nat (c + 1)) dec1 0 else n) - 1.

(** DistributedHierarchization.hpp:324-412, exchangeData1d. *)
Definition hierVisited (b L : Z) (dec1 : list Z) (n c : Z) : list Z :=
  let first := firstIdx dec1 c in let last := lastIdx dec1 n c in
  visited (hierNext b L last) (Z.to_nat (last - first + 1)) last first.
Definition hierSendMap (b L lmin : Z) (dec1 : list Z) (n c : Z) : idxMap :=
  flat_map (hierSends b L lmin dec1 n (firstIdx dec1 c) (lastIdx dec1 n c)) (hierVisited b L dec1 n c).
Definition hierRecvMap (b L lmin : Z) (dec1 : list Z) (n c : Z) : idxMap :=
  flat_map (hierRecvs b L lmin dec1 n (firstIdx dec1 c) (lastIdx dec1 n c) c) (hierVisited b L dec1 n c).

(** DistributedHierarchization.hpp:423-448, exchangeData1dDehierarchization. *)
Definition predecessorsOf (b L lmin : Z) (dec1 : list Z) (n c idx : Z) : Z * idxMap :=
  checkPredecessors (Z.to_nat (L + 1)) b L lmin dec1 n (firstIdx dec1 c) (lastIdx dec1 n c) c idx.
Definition dehierVisited (b L lmin : Z) (dec1 : list Z) (n c : Z) : list Z :=
  let first := firstIdx dec1 c in let last := lastIdx dec1 n c in
  visited (fun i => fst (predecessorsOf b L lmin dec1 n c i)) (Z.to_nat (last - first + 1)) last first.
Definition dehierSendMap (b L lmin : Z) (dec1 : list Z) (n c : Z) : idxMap :=
  flat_map (fun i => leftSuccs (Z.to_nat (L + 1)) b L lmin dec1 n (firstIdx dec1 c) i i ++
                     rightSuccs (Z.to_nat (L + 1)) b L lmin dec1 n (lastIdx dec1 n c) i i)
           (dehierVisited b L lmin dec1 n c).
Definition dehierRecvMap (b L lmin : Z) (dec1 : list Z) (n c : Z) : idxMap :=
  flat_map (fun i => snd (predecessorsOf b L lmin dec1 n c i)) (dehierVisited b L lmin dec1 n c).

(** MPICartesianUtils.hpp:126-141, getAllMyPoleNeighborRanks: all other partitions of the pole. *)
Definition poleNeighbors (dec1 : list Z) (c : Z) : list Z :=
  filter (fun r => negb (r =? c)) (zrange 0 (Z.of_nat (length dec1))).

(** DistributedHierarchization.hpp:254-313, exchangeAllData1d: every own index to every neighbour ... *)
Definition allSendMap (dec1 : list Z) (n c : Z) : idxMap :=
  flat_map (fun r => map (fun i => (r, i)) (zrange (firstIdx dec1 c) (lastIdx dec1 n c + 1))) (poleNeighbors dec1 c).

(** ... and every other index from its owner. Simplified: the keys with an empty set created in 285-287 are not listed;
    there are none after the loops because no partition is empty. *)
Definition allRecvMap (dec1 : list Z) (n c : Z) : idxMap :=
  flat_map (fun i => addFor dec1 n i i) (zrange 0 (firstIdx dec1 c)) ++
  flat_map (fun i => addFor dec1 n i i) (zrange (lastIdx dec1 n c + 1) n).

(** DistributedHierarchization.hpp:1139-1145 and 1220-1226: which exchange is used, in hierarchize ... *)
Definition exchSends (f : basis) (dehier : bool) (b L lmin : Z) (dec1 : list Z) (n c : Z) : idxMap :=
  match f with
  | Hat | HatPeriodic => if dehier then dehierSendMap b L lmin dec1 n c else hierSendMap b L lmin dec1 n c
  | _ => allSendMap dec1 n c
  end.
Definition exchRecvs (f : basis) (dehier : bool) (b L lmin : Z) (dec1 : list Z) (n c : Z) : idxMap :=
  match f with
  | Hat | HatPeriodic => if dehier then dehierRecvMap b L lmin dec1 n c else hierRecvMap b L lmin dec1 n c
  | _ => allRecvMap dec1 n c
  end.

(** DistributedHierarchization.hpp:92-244 for one pole: the receiver [q] stores the message of [c] under the indices it
    expects from [c], in ascending order (206-230); the sender puts the values of its own set into the message, in ascending
    order (143-173). [locals c] are the values of the own points of [c]. *)
Definition received (f : basis) (dehier : bool) (b L lmin : Z) (dec1 : list Z) (n q : Z) (locals : Z -> arr) : list (Z * Qc) :=
  flat_map (fun c => combine (entryOf (exchRecvs f dehier b L lmin dec1 n q) c)
                             (map (locals c) (entryOf (exchSends f dehier b L lmin dec1 n c) q)))
           (zrange 0 (Z.of_nat (length dec1))).

(** DistributedHierarchization.hpp:1135-1186 (1216-1268) for one pole in one dimension on partition [q]. *)
Definition distPole (f : basis) (dehier : bool) (b L lmin : Z) (dec1 : list Z) (n q : Z) (stale : arr) (locals : Z -> arr)
  : option arr :=
  (if dehier then dehierPole else hierPole) f b L lmin n (firstIdx dec1 q) (lastIdx dec1 n q + 1) stale
    (received f dehier b L lmin dec1 n q locals) (locals q).
