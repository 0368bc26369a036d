(** Model of the interpolation at common points by two systems, ProcessManager::monteCarloThirdLevel
    (src/manager/ProcessManager.cpp:517-575), with the broker of ThirdLevelModel, of the serialization of the points
    (src/utils/MonteCarlo.cpp:12-39), and of their distribution to all processes (src/io/BroadcastParameters.cpp:50-78). *)
From Verif Require Import Base ThirdLevelModel.
From Coq Require Import QArith Qcanon.
Open Scope Z_scope.

(** MonteCarlo.cpp:12-21, serializeInterpolationCoords; without points its reserve reads beyond the vector, not modelled. *)
Definition serializeCoords (cs : list (list Qc)) : list Qc := concat cs.
(** MonteCarlo.cpp:23-39, deserializeInterpolationCoords for [d] > 0; a remainder is dropped (an assertion fails in debug mode). *)
Fixpoint deserializeLoop (n d : nat) (l : list Qc) : list (list Qc) :=
  match n with O => [] | S k => firstn d l :: deserializeLoop k d (skipn d l) end.
Definition deserializeCoords (d : nat) (l : list Qc) : list (list Qc) := deserializeLoop (length l / d) d l.

(** BroadcastParameters.cpp:50-78, getCoordinatesFromRankZero on [P] processes: both sizes are ints, DimType has 8 bits
    (Types.hpp:40). [None]: the product does not fit into an int, or a division by zero. *)
Definition broadcastCoords (P : nat) (root : list (list Qc)) : option (list (list (list Qc))) :=
  let n := Z.of_nat (length root) in
  let d := Z.of_nat (length (nth 0 root [])) in
  if (n * d <? 2 ^ 31) && negb (d mod 2 ^ 8 =? 0) then Some (repeat (deserializeCoords (Z.to_nat (d mod 2 ^ 8)) (serializeCoords root)) P) else None.

(** ** The manager of one system *)
(** Program positions with the points and the values; [QFail]: an assertion or exception. *)
Inductive mcState :=
| QStart (cs : list (list Qc))
| QFetchC (cs : list (list Qc))
| QSendC (pc : nat) (cs : list (list Qc))
| QRecvC (pc : nat) (cs : list (list Qc)) (ser : list Qc)
| QReadyC (cs : list (list Qc))
| QStartV (cs : list (list Qc)) (vs : list Qc)
| QFetchV (cs : list (list Qc)) (vs : list Qc)
| QExchV (first : bool) (pc : nat) (cs : list (list Qc)) (vs received : list Qc)
| QReadyV (cs : list (list Qc)) (vs received : list Qc)
| QEnd (cs : list (list Qc)) (vs : list Qc)
| QDone (cs : list (list Qc)) (vs : list Qc)
| QFail.

Section System.
(** Compiled with assertions or not; dimension; interpolateValues (ProcessManager.cpp:459-478) of this system. *)
Variable debug : bool.
Variable d : nat.
Variable interp : list (list Qc) -> list Qc.

(** ProcessManager.cpp:536-538, the loop of assertions. *)
Fixpoint sameValues (a b : list Qc) : bool :=
  match a, b with [] , [] => true | x :: a', y :: b' => Qc_eq_bool x y && sameValues a' b' | _, _ => false end.

Definition nextQ (s : mcState) : act mcState :=
  match s with
  (* ProcessManager.cpp:525-527 *)
  | QStart cs => ASend false MReadyToExchange (QFetchC cs)
  | QFetchC cs => ARecv false (fun m => match m with MSendFirst => QSendC 0 cs | MRecvFirst => QRecvC 0 cs (serializeCoords cs) | _ => QFail end)
  (* 530-539: sendData, and in debug mode recvData and the comparison *)
  | QSendC 0 cs => ASend false MSending (QSendC 1 cs)
  | QSendC 1 cs => ASend false (MSize (rawSize 8 (serializeCoords cs))) (QSendC 2 cs)
  | QSendC 2 cs => ASend false (MData (serializeCoords cs)) (if debug then QSendC 3 cs else QReadyC cs)
  | QSendC 3 cs => ARecv false (fun m => match m with MSize _ => QSendC 4 cs | _ => QFail end)
  | QSendC _ cs => ARecv false (fun m => match m with MData x => if sameValues (serializeCoords cs) x then QReadyC cs else QFail | _ => QFail end)
  (* 540-545: recvData, in debug mode sendData, deserialization *)
  | QRecvC 0 cs ser => ARecv false (fun m => match m with MSize _ => QRecvC 1 cs ser | _ => QFail end)
  | QRecvC 1 cs ser => ARecv false (fun m => match m with
                         | MData x => if Nat.eqb (length x) (length ser) then (if debug then QRecvC 2 cs x else QReadyC (deserializeCoords d x)) else QFail
                         | _ => QFail end)
  | QRecvC 2 cs ser => ASend false MSending (QRecvC 3 cs ser)
  | QRecvC 3 cs ser => ASend false (MSize (rawSize 8 ser)) (QRecvC 4 cs ser)
  | QRecvC _ cs ser => ASend false (MData ser) (QReadyC (deserializeCoords d ser))
  (* 549-552 *)
  | QReadyC cs => ASend false MReady (QStartV cs (interp cs))
  (* 554-567 *)
  | QStartV cs vs => ASend false MReadyToExchange (QFetchV cs vs)
  | QFetchV cs vs => ARecv false (fun m => match m with
                       | MSendFirst => QExchV true 0 cs vs []
                       | MRecvFirst => QExchV false 3 cs vs []
                       | _ => QReadyV cs vs (repeat 0%Qc (length vs)) end)
  | QExchV first 0 cs vs r => ASend false MSending (QExchV first 1 cs vs r)
  | QExchV first 1 cs vs r => ASend false (MSize (rawSize 8 vs)) (QExchV first 2 cs vs r)
  | QExchV first 2 cs vs r => ASend false (MData vs) (if first then QExchV first 3 cs vs r else QReadyV cs vs r)
  | QExchV first 3 cs vs r => ARecv false (fun m => match m with MSize _ => QExchV first 4 cs vs r | _ => QFail end)
  | QExchV first _ cs vs r => ARecv false (fun m => match m with
                                | MData x => if Nat.eqb (length x) (length vs) then (if first then QReadyV cs vs x else QExchV first 0 cs vs x) else QFail
                                | _ => QFail end)
  (* 568-573 *)
  | QReadyV cs vs r => ASend false MReady (QEnd cs (map2 Qcplus vs r))
  (* ThirdLevelUtils.cpp:12-17, destructor *)
  | QEnd cs vs => ASend false MFinished (QDone cs vs)
  | QDone _ _ => AStop
  | QFail => AStop
  end.
End System.

(** ** The network, as in ThirdLevelModel. *)
(** The programs and what is on its way to the systems and to the broker (ThirdLevelModel, [net]). *)
Record mcNet := MNet { mBroker : bstate; mSys1 : mcState; mSys2 : mcState; mOut1 : list msg; mOut2 : list msg; mIn1 : list msg; mIn2 : list msg }.

Section Step.
Variable next1 next2 : mcState -> act mcState.
(** One step of one program; [true] marks the choice of ASelect (thirdLevelManager.cpp:104-123). *)
Inductive mstep : bool -> mcNet -> mcNet -> Prop :=
| ms_bsend1 : forall b s1 s2 o1 o2 i1 i2 m b', nextB b = ASend false m b' -> mstep false (MNet b s1 s2 o1 o2 i1 i2) (MNet b' s1 s2 (o1 ++ [m]) o2 i1 i2)
| ms_bsend2 : forall b s1 s2 o1 o2 i1 i2 m b', nextB b = ASend true m b' -> mstep false (MNet b s1 s2 o1 o2 i1 i2) (MNet b' s1 s2 o1 (o2 ++ [m]) i1 i2)
| ms_brecv1 : forall b s1 s2 o1 o2 i1 i2 m k, nextB b = ARecv false k -> mstep false (MNet b s1 s2 o1 o2 (m :: i1) i2) (MNet (k m) s1 s2 o1 o2 i1 i2)
| ms_brecv2 : forall b s1 s2 o1 o2 i1 i2 m k, nextB b = ARecv true k -> mstep false (MNet b s1 s2 o1 o2 i1 (m :: i2)) (MNet (k m) s1 s2 o1 o2 i1 i2)
| ms_bsel1 : forall b s1 s2 o1 o2 i1 i2 m k, nextB b = ASelect k -> mstep true (MNet b s1 s2 o1 o2 (m :: i1) i2) (MNet (k false m) s1 s2 o1 o2 i1 i2)
| ms_bsel2 : forall b s1 s2 o1 o2 i1 i2 m k, nextB b = ASelect k -> mstep true (MNet b s1 s2 o1 o2 i1 (m :: i2)) (MNet (k true m) s1 s2 o1 o2 i1 i2)
| ms_send1 : forall b s1 s2 o1 o2 i1 i2 p m s', next1 s1 = ASend p m s' -> mstep false (MNet b s1 s2 o1 o2 i1 i2) (MNet b s' s2 o1 o2 (i1 ++ [m]) i2)
| ms_recv1 : forall b s1 s2 o1 o2 i1 i2 p m k, next1 s1 = ARecv p k -> mstep false (MNet b s1 s2 (m :: o1) o2 i1 i2) (MNet b (k m) s2 o1 o2 i1 i2)
| ms_send2 : forall b s1 s2 o1 o2 i1 i2 p m s', next2 s2 = ASend p m s' -> mstep false (MNet b s1 s2 o1 o2 i1 i2) (MNet b s1 s' o1 o2 i1 (i2 ++ [m]))
| ms_recv2 : forall b s1 s2 o1 o2 i1 i2 p m k, next2 s2 = ARecv p k -> mstep false (MNet b s1 s2 o1 (m :: o2) i1 i2) (MNet b s1 (k m) o1 o2 i1 i2).
Definition mAnyStep (s t : mcNet) : Prop := exists c, mstep c s t.
End Step.

(** ProcessManager.cpp:522-523, 452-457: both systems connected, each with its own random points. *)
Definition startMC (cs1 cs2 : list (list Qc)) : mcNet := MNet (BLoop true true) (QStart cs1) (QStart cs2) [] [] [] [].
