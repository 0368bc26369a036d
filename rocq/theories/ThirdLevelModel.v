(** Model of the exchange between two systems through the third level manager (the broker): third_level_manager/thirdLevelManager.cpp,
    src/third_level/ThirdLevelUtils, the managers of both systems (ProcessManager.hpp, ProcessGroupManager.cpp). The broker and the two
    managers are programs that send to and receive from each other over two connections; a message is a length prefixed string or a block of data
    (see NetModel for the bytes). Sending never blocks, receiving blocks until there is a message; the interleaving is arbitrary. *)
From Verif Require Import Base.
From Coq Require Import QArith Qcanon.
Open Scope Z_scope.

(** The strings of ThirdLevelUtils.cpp:44-98 and thirdLevelManager.cpp:126-268. A size is sent as a decimal number. *)
Inductive msg :=
| MReadyToCombine | MReadyToCombineFile | MReadyToUnify | MReadyToExchange | MReady | MFinished
| MSendFirst | MRecvFirst | MWriteOk | MSending
| MSize (n : Z) | MData (d : list Qc) | MSizes (d : list Z).

(** What a program does next. A system has one peer, the broker; the peers of the broker are [false], the first, and [true], the second
    system. [ASelect]: receive from a system that has sent something. *)
Inductive act (S : Type) :=
| ASend (peer : bool) (m : msg) (s : S)
| ARecv (peer : bool) (k : msg -> S)
| ASelect (k : bool -> msg -> S)
| AStop.
Arguments ASend {S}. Arguments ARecv {S}. Arguments ASelect {S}. Arguments AStop {S}.

(** ** The broker *)
(** Program positions; [i] is the initiator. A failed assertion, or an exception, is [BFail]. *)
Inductive bstate :=
| BLoop (alive1 alive2 : bool)
| BComb (pc : nat) (i : bool)
| BUnify (pc : nat) (i : bool)
| BAny (pc : nat) (i : bool)
| BFile (pc : nat) (i : bool)
| BFwdSize (from : bool) (ret : bstate)
| BFwdSendSize (from : bool) (n : Z) (ret : bstate)
| BFwdData (from : bool) (ret : bstate)
| BFwdSendData (from : bool) (m : msg) (ret : bstate)
| BFail.

(** thirdLevelManager.cpp:126-138, processMessage. Other messages are ignored. The handlers assert that there are two systems. *)
Definition processMessage (alive1 alive2 i : bool) (m : msg) : bstate :=
  match m with
  | MReadyToCombine => if alive1 && alive2 then BComb 0 i else BFail
  | MReadyToCombineFile => if alive1 && alive2 then BFile 0 i else BFail
  | MReadyToUnify => if alive1 && alive2 then BUnify 0 i else BFail
  | MReadyToExchange => if alive1 && alive2 then BAny 0 i else BFail
  | MFinished => if i then BLoop alive1 false else BLoop false alive2
  | _ => BLoop alive1 alive2
  end.

Definition nextB (b : bstate) : act bstate :=
  match b with
  (* thirdLevelManager.cpp:104-123, runtimeLoop; 273-276, processFinished *)
  | BLoop true true => ASelect (processMessage true true)
  | BLoop true false => ARecv false (processMessage true false false)
  | BLoop false true => ARecv true (processMessage false true true)
  | BLoop false false => AStop
  (* 146-176, processCombination *)
  | BComb 0 i => ASend i MSendFirst (BComb 1 i)
  | BComb 1 i => ARecv (negb i) (fun m => match m with MReadyToCombine => BComb 2 i | _ => BFail end)
  | BComb 2 i => ASend (negb i) MRecvFirst (BComb 3 i)
  | BComb 3 i => ARecv i (fun m => match m with MReady => BComb 5 i | MSending => BFwdSize i (BComb 4 i) | _ => BFail end)
  | BComb 4 i => ARecv (negb i) (fun m => match m with MSending => BFwdSize (negb i) (BComb 3 i) | _ => BFail end)
  | BComb _ i => ARecv (negb i) (fun m => match m with MReady => BLoop true true | _ => BFail end)
  (* 202-233, processUnifySubspaceSizes *)
  | BUnify 0 i => ASend i MSendFirst (BUnify 1 i)
  | BUnify 1 i => ARecv (negb i) (fun m => match m with MReadyToUnify => BUnify 2 i | _ => BFail end)
  | BUnify 2 i => ASend (negb i) MRecvFirst (BUnify 3 i)
  | BUnify 3 i => ARecv i (fun m => match m with MSending => BFwdSize i (BUnify 4 i) | _ => BUnify 4 i end)
  | BUnify 4 i => ARecv (negb i) (fun m => match m with MSending => BFwdSize (negb i) (BUnify 5 i) | _ => BUnify 5 i end)
  | BUnify 5 i => ARecv i (fun m => match m with MReady => BUnify 6 i | _ => BFail end)
  | BUnify _ i => ARecv (negb i) (fun m => match m with MReady => BLoop true true | _ => BFail end)
  (* 235-268, processAnyData *)
  | BAny 0 i => ASend i MSendFirst (BAny 1 i)
  | BAny 1 i => ARecv (negb i) (fun m => match m with MReadyToExchange => BAny 2 i | _ => BFail end)
  | BAny 2 i => ASend (negb i) MRecvFirst (BAny 3 i)
  | BAny 3 i => ARecv i (fun m => match m with MSending => BFwdSize i (BAny 4 i) | _ => BAny 4 i end)
  | BAny 4 i => ARecv (negb i) (fun m => match m with MSending => BFwdSize (negb i) (BAny 5 i) | MReady => BAny 7 i | _ => BFail end)
  | BAny 5 i => ARecv i (fun m => match m with MReady => BAny 6 i | _ => BFail end)
  | BAny 6 i => ARecv (negb i) (fun m => match m with MReady => BLoop true true | _ => BFail end)
  | BAny _ i => ARecv i (fun m => match m with MReady => BLoop true true | _ => BFail end)
  (* 179-197, processCombinationFile *)
  | BFile 0 i => ASend i MWriteOk (BFile 1 i)
  | BFile 1 i => ARecv (negb i) (fun m => match m with MReadyToCombineFile => BFile 2 i | _ => BFail end)
  | BFile 2 i => ASend (negb i) MWriteOk (BFile 3 i)
  | BFile 3 i => ARecv i (fun m => match m with MReady => BFile 4 i | _ => BFail end)
  | BFile _ i => ARecv (negb i) (fun m => match m with MReady => BLoop true true | _ => BFail end)
  (* 281-293, forwardData *)
  | BFwdSize from ret => ARecv from (fun m => match m with MSize n => BFwdSendSize from n ret | _ => BFail end)
  | BFwdSendSize from n ret => ASend (negb from) (MSize n) (if n =? 0 then ret else BFwdData from ret)
  | BFwdData from ret => ARecv from (fun m => match m with MData _ | MSizes _ => BFwdSendData from m ret | _ => BFail end)
  | BFwdSendData from m ret => ASend (negb from) m ret
  | BFail => AStop
  end.

(** ** A system *)
(** What the manager exchanges: the values of the sparse grids, one block for every grid and process of the third level group in the order in
    which they are exchanged (ProcessGroupManager.cpp:397-398), and the gathered subspace sizes. *)
Record sysData := { blocks : list (list Qc); sizes : list Z }.
(** The next call on both managers: combineThirdLevel, unifySubspaceSizesThirdLevel (with or without extra sparse grid), an exchange of values
    as in monteCarloThirdLevel (ProcessManager.cpp:555-568), and combineThirdLevelFileBased. *)
Inductive round := RCombine | RUnify (extra : bool) | RExchange | RFile.

Inductive sstate :=
| SStart (rounds : list round) (d : sysData)
| SFetch (r : round) (rounds : list round) (d : sysData)
(** exchangeDsgus: sending first or not, position in the body, finished blocks, the current block, the others *)
| SComb (first : bool) (pc : nat) (done : list (list Qc)) (cur : list Qc) (todo : list (list Qc)) (rounds : list round) (d : sysData)
| SCombNext (first : bool) (done todo : list (list Qc)) (rounds : list round) (d : sysData)
| SUnify (extra first : bool) (pc : nat) (received : list Z) (rounds : list round) (d : sysData)
| SExch (first : bool) (pc : nat) (received : list Qc) (rounds : list round) (d : sysData)
| SReady (rounds : list round) (d : sysData)
| SDone (d : sysData)
| SFail.

(** ThirdLevelUtils.hpp:80-87: sizeof(FG_ELEMENT) * size + 1 bytes; the size of an element is 8 for values and 4 for subspace sizes. *)
Definition rawSize {A : Type} (esz : Z) (l : list A) : Z := esz * Z.of_nat (length l) + 1.

Section System.
(** Whatever the system computes until the next call. *)
Variable compute : list round -> sysData -> sysData.
(** The result of RExchange is not modelled further; it enters [sysData] by [absorb]. *)
Variable absorb : list Qc -> sysData -> sysData.

Definition readyMessage (r : round) : msg :=
  match r with RCombine => MReadyToCombine | RUnify _ => MReadyToUnify | RExchange => MReadyToExchange | RFile => MReadyToCombineFile end.
(** Values sent in RExchange: the first block. *)
Definition exchValues (d : sysData) : list Qc := nth 0 (blocks d) [].

Definition withBlocks (b : list (list Qc)) (d : sysData) : sysData := {| blocks := b; sizes := sizes d |}.
(** ProcessGroupManager.cpp:298-310: minimum or maximum with the sizes of the other system. *)
Definition unifySizes (extra : bool) (received : list Z) (d : sysData) : sysData :=
  {| blocks := blocks d; sizes := map2 (if extra then Z.min else Z.max) (sizes d) received |}.

Definition nextS (s : sstate) : act sstate :=
  match s with
  (* ThirdLevelUtils.cpp:12-17, destructor *)
  | SStart [] d => ASend false MFinished (SDone d)
  (* ProcessManager.hpp:505-526, 653-674; ProcessManager.cpp:555-556; ProcessManager.hpp:568-591 *)
  | SStart (r :: rs) d => ASend false (readyMessage r) (SFetch r rs d)
  | SFetch RCombine rs d => ARecv false (fun m => match m with
                                                  | MSendFirst => SCombNext true [] (blocks d) rs d
                                                  | MRecvFirst => SCombNext false [] (blocks d) rs d
                                                  | _ => SReady rs d end)
  | SFetch (RUnify e) rs d => ARecv false (fun m => match m with
                                                    | MSendFirst => SUnify e true 0 [] rs d
                                                    | MRecvFirst => SUnify e false 3 [] rs d
                                                    | _ => SReady rs d end)
  | SFetch RExchange rs d => ARecv false (fun m => match m with
                                                   | MSendFirst => SExch true 0 [] rs d
                                                   | MRecvFirst => SExch false 3 [] rs d
                                                   | _ => SReady rs d end)
  | SFetch RFile rs d => ARecv false (fun _ => SReady rs d)
  (* ProcessGroupManager.cpp:386-421, exchangeDsgus; 181-211: a block without values is an exception *)
  | SCombNext first done [] rs d => ASend false MReady (SStart rs (compute rs (withBlocks done d)))
  | SCombNext first done ([] :: todo) rs d => AStop
  | SCombNext true done (b :: todo) rs d => ASend false MSending (SComb true 1 done b todo rs d)
  | SCombNext false done (b :: todo) rs d => ARecv false (fun m => match m with MSize _ => SComb false 1 done b todo rs d | _ => SFail end)
  | SComb true 1 done b todo rs d => ASend false (MSize (rawSize 8 b)) (SComb true 2 done b todo rs d)
  | SComb true 2 done b todo rs d => ASend false (MData b) (SComb true 3 done b todo rs d)
  | SComb true 3 done b todo rs d => ARecv false (fun m => match m with MSize _ => SComb true 4 done b todo rs d | _ => SFail end)
  | SComb true _ done b todo rs d => ARecv false (fun m => match m with
                                       | MData r => if Nat.eqb (length r) (length b) then SCombNext true (done ++ [r]) todo rs d else SFail
                                       | _ => SFail end)
  | SComb false 1 done b todo rs d => ARecv false (fun m => match m with
                                       | MData r => if Nat.eqb (length r) (length b) then SComb false 2 done (map2 Qcplus b r) todo rs d else SFail
                                       | _ => SFail end)
  | SComb false 2 done b todo rs d => ASend false MSending (SComb false 3 done b todo rs d)
  | SComb false 3 done b todo rs d => ASend false (MSize (rawSize 8 b)) (SComb false 4 done b todo rs d)
  | SComb false _ done b todo rs d => ASend false (MData b) (SCombNext false (done ++ [b]) todo rs d)
  (* ProcessGroupManager.cpp:274-286, reduceLocalAndRemoteSubspaceSizes: pc 0-2 send, 3-4 receive *)
  | SUnify e first 0 r rs d => ASend false MSending (SUnify e first 1 r rs d)
  | SUnify e first 1 r rs d => ASend false (MSize (rawSize 4 (sizes d))) (SUnify e first 2 r rs d)
  | SUnify e first 2 r rs d => ASend false (MSizes (sizes d)) (if first then SUnify e first 3 r rs d else SReady rs (unifySizes e r d))
  | SUnify e first 3 r rs d => ARecv false (fun m => match m with MSize _ => SUnify e first 4 r rs d | _ => SFail end)
  | SUnify e first _ r rs d => ARecv false (fun m => match m with
                                 | MSizes x => if Nat.eqb (length x) (length (sizes d))
                                               then (if first then SReady rs (unifySizes e x d) else SUnify e first 0 x rs d) else SFail
                                 | _ => SFail end)
  (* ProcessManager.cpp:555-568 *)
  | SExch first 0 r rs d => ASend false MSending (SExch first 1 r rs d)
  | SExch first 1 r rs d => ASend false (MSize (rawSize 8 (exchValues d))) (SExch first 2 r rs d)
  | SExch first 2 r rs d => ASend false (MData (exchValues d)) (if first then SExch first 3 r rs d else SReady rs (absorb r d))
  | SExch first 3 r rs d => ARecv false (fun m => match m with MSize _ => SExch first 4 r rs d | _ => SFail end)
  | SExch first _ r rs d => ARecv false (fun m => match m with
                              | MData x => if Nat.eqb (length x) (length (exchValues d))
                                           then (if first then SReady rs (absorb x d) else SExch first 0 x rs d) else SFail
                              | _ => SFail end)
  | SReady rs d => ASend false MReady (SStart rs (compute rs d))
  | SDone _ => AStop
  | SFail => AStop
  end.
End System.

(** ** The network *)
(** The broker, the systems, the messages on the way to the systems ([out1], [out2]) and to the broker ([in1], [in2]). *)
Record net := Net { broker : bstate; sys1 : sstate; sys2 : sstate; out1 : list msg; out2 : list msg; in1 : list msg; in2 : list msg }.

Section Step.
Variable next1 next2 : sstate -> act sstate.
(** One step of one program; [true] marks the choice of ASelect (select(2) on the connections, NetworkUtils.cpp:220-238). *)
Inductive step : bool -> net -> net -> Prop :=
| st_bsend1 : forall b s1 s2 o1 o2 i1 i2 m b', nextB b = ASend false m b' -> step false (Net b s1 s2 o1 o2 i1 i2) (Net b' s1 s2 (o1 ++ [m]) o2 i1 i2)
| st_bsend2 : forall b s1 s2 o1 o2 i1 i2 m b', nextB b = ASend true m b' -> step false (Net b s1 s2 o1 o2 i1 i2) (Net b' s1 s2 o1 (o2 ++ [m]) i1 i2)
| st_brecv1 : forall b s1 s2 o1 o2 i1 i2 m k, nextB b = ARecv false k -> step false (Net b s1 s2 o1 o2 (m :: i1) i2) (Net (k m) s1 s2 o1 o2 i1 i2)
| st_brecv2 : forall b s1 s2 o1 o2 i1 i2 m k, nextB b = ARecv true k -> step false (Net b s1 s2 o1 o2 i1 (m :: i2)) (Net (k m) s1 s2 o1 o2 i1 i2)
| st_bsel1 : forall b s1 s2 o1 o2 i1 i2 m k, nextB b = ASelect k -> step true (Net b s1 s2 o1 o2 (m :: i1) i2) (Net (k false m) s1 s2 o1 o2 i1 i2)
| st_bsel2 : forall b s1 s2 o1 o2 i1 i2 m k, nextB b = ASelect k -> step true (Net b s1 s2 o1 o2 i1 (m :: i2)) (Net (k true m) s1 s2 o1 o2 i1 i2)
| st_send1 : forall b s1 s2 o1 o2 i1 i2 p m s', next1 s1 = ASend p m s' -> step false (Net b s1 s2 o1 o2 i1 i2) (Net b s' s2 o1 o2 (i1 ++ [m]) i2)
| st_recv1 : forall b s1 s2 o1 o2 i1 i2 p m k, next1 s1 = ARecv p k -> step false (Net b s1 s2 (m :: o1) o2 i1 i2) (Net b (k m) s2 o1 o2 i1 i2)
| st_send2 : forall b s1 s2 o1 o2 i1 i2 p m s', next2 s2 = ASend p m s' -> step false (Net b s1 s2 o1 o2 i1 i2) (Net b s1 s' o1 o2 i1 (i2 ++ [m]))
| st_recv2 : forall b s1 s2 o1 o2 i1 i2 p m k, next2 s2 = ARecv p k -> step false (Net b s1 s2 o1 (m :: o2) i1 i2) (Net b s1 (k m) o1 o2 i1 i2).
Definition anyStep (s t : net) : Prop := exists c, step c s t.
End Step.

(** Both systems connected, nothing sent. *)
Definition startNet (rounds : list round) (d1 d2 : sysData) : net := Net (BLoop true true) (SStart rounds d1) (SStart rounds d2) [] [] [] [].

(** ProcessGroupManager.cpp:400: the number of values the manager expects from worker [p] for every grid: the number of values of the first
    grid (the only one whose sizes were gathered, ProcessGroupWorker.cpp:921) divided by the number of grids. *)
Definition expectedSize (sizePerWorker : Z) (numGrids : Z) : Z := sizePerWorker / numGrids.
