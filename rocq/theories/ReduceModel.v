(** Model of the reduction between process groups: chunk sizes, chunks of subspaces, votes and communicators, and the
    collective sums (src/combicom/CombiCom.hpp, src/sparsegrid/AnyDistributedSparseGrid.cpp). The processes of one
    global-reduce communicator (same local rank, one per group) are numbered 0, 1, ...; what one of them knows is given by
    functions on [nat]. *)
From Verif Require Import Base Hier1dModel HierMassProofs SparseGridModel.
From Coq Require Import QArith Qcanon.
Open Scope Z_scope.

(** Conversions to int (32 bit, two's complement) and size_t (64 bit). *)
Definition i32 (x : Z) : Z := (x + 2 ^ 31) mod 2 ^ 32 - 2 ^ 31.
Definition u64 (x : Z) : Z := x mod 2 ^ 64.

(** CombiCom.hpp:73-75 and 85-98, getGlobalReduceChunkSize: [mib] is the uint32_t argument, [esz] sizeof(SG_ELEMENT),
    [threads] the number of OpenMP threads. (The assertions of lines 90 and 96 are not modelled.) *)
Definition globalReduceChunkSize (mib esz threads : Z) : Z :=
  if (mib >? 2 ^ 31 - 1) || (mib =? 0) then 2 ^ 31 - 1
  else i32 (u64 (u64 (2 ^ 20 * mib) / esz * threads)).

(** CombiCom.hpp:134-143 (146-153, 156-163): the calls of distributedGlobalSparseGridReduce for a buffer of [size] elements,
    as (first element, number of elements); [None] after [fuel] chunks without an end. [chunkSize] is converted to size_t in
    the division and in the addition; with 0 the division is undefined: [None]. The counts are converted to int. *)
Fixpoint sparseGridCalls (fuel : nat) (size chunkSize sent : Z) : option (list (Z * Z)) :=
  if u64 chunkSize =? 0 then None
  else if u64 (size - sent) / u64 chunkSize >? 0 then
    match fuel with
    | O => None
    | S fuel' => match sparseGridCalls fuel' size chunkSize (u64 (sent + u64 chunkSize)) with
                 | Some calls => Some ((sent, i32 chunkSize) :: calls)
                 | None => None
                 end
    end
  else Some [(sent, i32 (u64 (size - sent)))].

(** CombiCom.hpp:231-257, getChunkedSubspaces: the rest of a chunk whose size so far is [cur] (uint32_t), and what remains.
    A subspace without points ends the chunk. *)
Fixpoint takeChunk (size : Z -> Z) (maxChunk cur : Z) (rest : list Z) : list Z * list Z :=
  match rest with
  | [] => ([], [])
  | s :: rest' =>
      if size s =? 0 then ([], rest)
      else if u32 (cur + size s) <? u64 maxChunk
           then let (c, r) := takeChunk size maxChunk (u32 (cur + size s)) rest' in (s :: c, r)
           else ([], rest)
  end.
Fixpoint chunkedSubspaces (fuel : nat) (size : Z -> Z) (maxChunk : Z) (subspaces : list Z) : list (list Z) :=
  match fuel, subspaces with
  | S fuel', s :: rest => let (c, r) := takeChunk size maxChunk (u32 (0 + size s)) rest in
                          (s :: c) :: chunkedSubspaces fuel' size maxChunk r
  | _, _ => []
  end.
(** The chunks; a chunk is a std::set, i.e. in ascending order, as the subspaces handed in are. *)
Definition getChunkedSubspaces (size : Z -> Z) (maxChunk : Z) (subspaces : list Z) : list (list Z) :=
  chunkedSubspaces (length subspaces) size maxChunk subspaces.

(** CombiCom.hpp:285-307, getReductionDatatypes: the addresses (relative to the start of the buffer) of the elements of the
    MPI_Type_indexed datatype of a chunk when used at the first subspace of the chunk (366-368). Block lengths and
    displacements are int. *)
Definition chunkAddresses (d : DSG) (chunk : list Z) : list Z :=
  let base := ptrOf (dPtr d) (hd 0 chunk) in
  flat_map (fun s => let first := base + i32 (ptrOf (dPtr d) s - base) in zrange first (first + i32 (dataSize d s))) chunk.

(** ** Collective sums (MPI by specification)

    One MPI_Allreduce in a communicator with the given members: process [r] contributes the elements at [addr r] of its
    buffer, and gets back the sums there. Different numbers of elements do not match: [None]. (The custom operation of
    CombiCom.hpp:180-217 adds element by element.) *)
Fixpoint scatterV (addrs : list Z) (vals : list Qc) (buf : arr) : arr :=
  match addrs, vals with
  | a :: addrs', v :: vals' => scatterV addrs' vals' (setA buf a v)
  | _, _ => buf
  end.
Definition memN (r : nat) (l : list nat) : bool := existsb (Nat.eqb r) l.
Definition sums (members : list nat) (addr : nat -> list Z) (bufs : nat -> arr) (len : nat) : list Qc :=
  map (fun e => qsum (map (fun r => bufs r (nth e (addr r) 0)) members)) (seq 0 len).
Definition allreduce (members : list nat) (addr : nat -> list Z) (bufs : nat -> arr) : option (nat -> arr) :=
  let len := match members with [] => O | r :: _ => length (addr r) end in
  if forallb (fun r => Nat.eqb (length (addr r)) len) members
  then Some (fun r => if memN r members then scatterV (addr r) (sums members addr bufs len) (bufs r) else bufs r)
  else None.

Fixpoint allreduces (rounds : list (list nat * (nat -> list Z))) (bufs : nat -> arr) : option (nat -> arr) :=
  match rounds with
  | [] => Some bufs
  | (members, addr) :: rounds' => match allreduce members addr bufs with
                                  | None => None
                                  | Some bufs' => allreduces rounds' bufs'
                                  end
  end.

(** The members of one communicator issue lists of collective calls one after the other; differing numbers of calls do not
    match. *)
Definition roundsOf (members : list nat) (calls : nat -> list (list Z)) : option (list (list nat * (nat -> list Z))) :=
  let m := match members with [] => O | r :: _ => length (calls r) end in
  if forallb (fun r => Nat.eqb (length (calls r)) m) members
  then Some (map (fun k => (members, fun r => nth k (calls r) [])) (seq 0 m))
  else None.

(** ** The three reductions. [R] is the number of groups, [ds] the sparse grid of each. *)

Definition withData (d : DSG) (a : arr) : DSG :=
  {| dSizes := dSizes d; dWith := dWith d; dPtr := dPtr d; dLen := dLen d; dData := a;
     dKPtr := dKPtr d; dKLen := dKLen d; dKahan := dKahan d |}.

(** CombiCom.hpp:115-143, distributedGlobalSparseGridReduce as allreduce. *)
Definition optCalls (o : option (list (Z * Z))) : list (list Z) :=
  match o with Some l => map (fun c => zrange (fst c) (fst c + snd c)) l | None => [] end.
Definition sparseGridReduce (R : nat) (chunkSize : Z) (ds : nat -> DSG) : option (nat -> DSG) :=
  match roundsOf (seq 0 R) (fun r => optCalls (sparseGridCalls (Z.to_nat (dLen (ds r))) (dLen (ds r)) chunkSize 0)) with
  | None => None
  | Some rounds => match allreduces rounds (fun r => dData (ds r)) with
                   | None => None
                   | Some bufs => Some (fun r => withData (ds r) (bufs r))
                   end
  end.

(** CombiCom.hpp:333-397, distributedGlobalSubspaceReduce as allreduce. [comms r] is subspacesByComm_ of group [r]: members and
    subspaces of its communicators. Communicators are processed independently of each other, in any order (OpenMP, schedule
    dynamic); [order] lists them. The calls a group issues in one of them are those of its own entries. *)
Definition eqComm (a b : list nat) : bool := if list_eq_dec Nat.eq_dec a b then true else false.
Definition callsIn (maxChunk : Z) (entries : list (list nat * list Z)) (d : DSG) (comm : list nat) : list (list Z) :=
  flat_map (fun c => if eqComm (fst c) comm
                     then map (chunkAddresses d) (getChunkedSubspaces (dataSize d) maxChunk (snd c)) else []) entries.
Fixpoint roundsOfComms (maxChunk : Z) (comms : nat -> list (list nat * list Z)) (ds : nat -> DSG) (order : list (list nat))
  : option (list (list nat * (nat -> list Z))) :=
  match order with
  | [] => Some []
  | comm :: order' =>
      match roundsOf comm (fun r => callsIn maxChunk (comms r) (ds r) comm), roundsOfComms maxChunk comms ds order' with
      | Some a, Some b => Some (a ++ b)
      | _, _ => None
      end
  end.
Definition allComms (R : nat) (comms : nat -> list (list nat * list Z)) : list (list nat) :=
  nodup (list_eq_dec Nat.eq_dec) (flat_map (fun r => map fst (comms r)) (seq 0 R)).
Definition subspaceReduce (maxChunk : Z) (order : list (list nat)) (comms : nat -> list (list nat * list Z)) (ds : nat -> DSG)
  : option (nat -> DSG) :=
  match roundsOfComms maxChunk comms ds order with
  | None => None
  | Some rounds => match allreduces rounds (fun r => dData (ds r)) with
                   | None => None
                   | Some bufs => Some (fun r => withData (ds r) (bufs r))
                   end
  end.

(** ** Votes and communicators. [sizes r] are the subspace sizes of group [r]. *)

(** AnyDistributedSparseGrid.cpp:125-152, getSubspaceVote for subspace [i]: bitwise or of one bit per group. (More than 256
    groups throw; the 256-bit integers are combined byte by byte, modelled as the bitwise or of the numbers.) *)
Definition subspaceVote (R : nat) (sizes : nat -> list Z) (i : Z) : Z :=
  fold_left (fun v r => Z.lor v (if nth (Z.to_nat i) (sizes r) 0 >? 0 then Z.shiftl 1 (Z.of_nat r) else 0)) (seq 0 R) 0.

(** AnyDistributedSparseGrid.cpp:171 and 236: more than one bit is set. *)
Definition severalBits (v : Z) : bool := negb (v =? 0) && negb (Z.land v (v - 1) =? 0).

(** AnyDistributedSparseGrid.cpp:179-185 and 247-255: the groups that have voted. *)
Definition ranksOf (v : Z) : list nat := filter (fun r => negb (Z.land v (Z.shiftl 1 (Z.of_nat r)) =? 0)) (seq 0 256).

(** AnyDistributedSparseGrid.cpp:232-239: std::map from votes to subspaces. *)
Fixpoint insertVote (v i : Z) (m : list (Z * list Z)) : list (Z * list Z) :=
  match m with
  | [] => [(v, [i])]
  | (w, is) :: m' => if v <? w then (v, [i]) :: m else if v =? w then (w, is ++ [i]) :: m' else (w, is) :: insertVote v i m'
  end.
Definition subspacesByVote (n R : nat) (sizes : nat -> list Z) : list (Z * list Z) :=
  fold_left (fun m i => let v := subspaceVote R sizes i in if severalBits v then insertVote v i m else m) (zrange 0 (Z.of_nat n)) [].

(** AnyDistributedSparseGrid.cpp:221-275, setSubspaceCommunicators: what group [r] stores. A communicator is identified by
    its members. *)
Definition subspaceCommunicators (n R : nat) (sizes : nat -> list Z) (r : nat) : list (list nat * list Z) :=
  filter (fun c => memN r (fst c)) (map (fun vi => (ranksOf (fst vi), snd vi)) (subspacesByVote n R sizes)).

(** AnyDistributedSparseGrid.cpp:154-219, setOutgroupCommunicator: the subspaces exchanged, what group [r] stores (the
    communicator is always the one of all groups) and the new sizes of group [r]. (The assertions of 190 and 208 are not
    modelled.) *)
Definition subspacesForMany (n R : nat) (sizes : nat -> list Z) : list Z :=
  filter (fun i => severalBits (subspaceVote R sizes i)) (zrange 0 (Z.of_nat n)).
Definition manyGroups (n R : nat) (sizes : nat -> list Z) : Z :=
  fold_left (fun v i => Z.lor v (subspaceVote R sizes i)) (subspacesForMany n R sizes) 0.
Definition outgroupCommunicator (n R : nat) (sizes : nat -> list Z) (r : nat) : list (list nat * list Z) :=
  if memN r (ranksOf (manyGroups n R sizes)) then [(seq 0 R, subspacesForMany n R sizes)] else [].
Definition maxSize (R : nat) (sizes : nat -> list Z) (i : Z) : Z :=
  fold_left (fun m r => Z.max m (nth (Z.to_nat i) (sizes r) 0)) (seq 0 R) 0.
Definition outgroupSizes (n R : nat) (sizes : nat -> list Z) (r : nat) : list Z :=
  map (fun i => if memZ i (subspacesForMany n R sizes) then maxSize R sizes i else nth (Z.to_nat i) (sizes r) 0) (zrange 0 (Z.of_nat n)).

(** AnyDistributedSparseGrid.cpp:63-88, getIngroupSubspaces of group [r] with at most one communicator. *)
Definition ingroupSubspaces (sizes : list Z) (comms : list (list nat * list Z)) : list Z :=
  filter (fun i => (nth (Z.to_nat i) sizes 0 >? 0) && match comms with [] => true | c :: _ => negb (memZ i (snd c)) end)
         (zrange 0 (Z.of_nat (length sizes))).
