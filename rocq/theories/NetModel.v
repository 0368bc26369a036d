(** Model of the byte streams between systems and broker: src/third_level/NetworkUtils.cpp/.hpp, third_level_manager/System.cpp and
    thirdLevelManager.cpp (forwardData). A byte is a number. recv(2) and send(2) are given by their specification: they transfer at least one
    and at most the requested number of bytes, in order; how many is decided by [cuts]. Errors of the connection other than its end are not
    modelled. *)
From Verif Require Import Base FileModel.
Open Scope Z_scope.

(** What the other side has sent, or will have sent, and how it arrives. Blocking is not visible: a call returns when there is something. *)
Record stream := Stream { bytes : list Z; cuts : list nat }.
(** recv(2) on at most [n] bytes; the empty list when the other side has closed the connection. *)
Definition recv (n : nat) (s : stream) : list Z * stream :=
  let k := Nat.min n (Nat.min (length (bytes s)) (Nat.max 1 (hd n (cuts s)))) in
  (firstn k (bytes s), Stream (skipn k (bytes s)) (tl (cuts s))).

(** NetworkUtils.cpp:52-73, sendall: the loop over send(2); the bytes that have been passed to the connection. *)
Fixpoint sendLoop (fuel : nat) (sendCuts : list nat) (rest : list Z) : list Z :=
  match fuel, rest with
  | O, _ | _, [] => []
  | S fuel', _ => let k := Nat.min (length rest) (Nat.max 1 (hd (length rest) sendCuts)) in firstn k rest ++ sendLoop fuel' (tl sendCuts) (skipn k rest)
  end.
Definition sendall (sendCuts : list nat) (buff : list Z) : list Z := sendLoop (length buff) sendCuts buff.

(** NetworkUtils.cpp:149-170, recvall; [None]: the connection was closed before. *)
Fixpoint recvLoop (fuel : nat) (missing : nat) (s : stream) (got : list Z) : option (list Z * stream) :=
  match missing with
  | O => Some (got, s)
  | _ => match fuel with
         | O => None
         | S fuel' => let (r, s') := recv missing s in match r with [] => None | _ => recvLoop fuel' (missing - length r) s' (got ++ r) end
         end
  end.
Definition recvall (len : nat) (s : stream) : option (list Z * stream) := recvLoop len len s [].

(** std::to_string of a nonnegative number. *)
Fixpoint digitsLoop (fuel : nat) (n : Z) (acc : list Z) : list Z :=
  match fuel with
  | O => acc
  | S fuel' => if n <? 10 then (48 + n) :: acc else digitsLoop fuel' (n / 10) ((48 + n mod 10) :: acc)
  end.
Definition toString (n : Z) : list Z := digitsLoop (S (Z.to_nat (Z.log2 n))) n [].
(** std::stoi and std::stoul of digits: an exception when the value does not fit ([limit] is 2^31 or 2^64), or when there is no digit; other
    characters violate an assertion (NetworkUtils.cpp:193, System.cpp:25). *)
Definition parse (limit : Z) (l : list Z) : option Z :=
  match l with
  | [] => None
  | _ => if forallb (fun c => (48 <=? c) && (c <=? 57)) l
         then let v := fold_left (fun a c => 10 * a + (c - 48)) l 0 in if v <? limit then Some v else None
         else None
  end.

(** NetworkUtils.cpp:76-91, sendallPrefixed; 35 is '#'. *)
Definition prefixed (mesg : list Z) : list Z := toString (Z.of_nat (length mesg)) ++ [35] ++ mesg.
(** NetworkUtils.cpp:172-198, recvLength: byte after byte. *)
Fixpoint recvLengthLoop (fuel : nat) (s : stream) (lenstr : list Z) : option (list Z * stream) :=
  match fuel with
  | O => None
  | S fuel' => let (r, s') := recv 1 s in
               match r with [] => None | c :: _ => if c =? 35 then Some (lenstr, s') else recvLengthLoop fuel' s' (lenstr ++ [c]) end
  end.
Definition recvLength (s : stream) : option (Z * stream) :=
  match recvLengthLoop (S (length (bytes s))) s [] with
  | Some (lenstr, s') => match parse (2 ^ 31) lenstr with Some n => Some (n, s') | None => None end
  | None => None
  end.
(** NetworkUtils.cpp:210-218, recvallPrefixed. *)
Definition recvallPrefixed (s : stream) : option (list Z * stream) :=
  match recvLength s with Some (n, s') => recvall (Z.to_nat n) s' | None => None end.
(** The next [k] messages. *)
Fixpoint recvMessages (k : nat) (s : stream) : option (list (list Z) * stream) :=
  match k with
  | O => Some ([], s)
  | S k' => match recvallPrefixed s with
            | Some (m, s') => match recvMessages k' s' with Some (ms, s'') => Some (m :: ms, s'') | None => None end
            | None => None
            end
  end.
(** System.cpp:20-30, receivePosNumber. *)
Definition receivePosNumber (s : stream) : option (Z * stream) :=
  match recvallPrefixed s with
  | Some (m, s') => match parse (2 ^ 64) m with Some n => Some (n, s') | None => None end
  | None => None
  end.

(** NetworkUtils.cpp:373-408, forward: what is passed on to the receiver. *)
Fixpoint forward (fuel : nat) (chunksize : nat) (missing : nat) (s : stream) : option (list Z * stream) :=
  match missing with
  | O => Some ([], s)
  | _ => match fuel with
         | O => None
         | S fuel' => let (r, s') := recv (if (missing <? chunksize)%nat then missing else chunksize) s in
                      match r with
                      | [] => None
                      | _ => match forward fuel' chunksize (missing - length r) s' with Some (out, s'') => Some (sendall [] r ++ out, s'') | None => None end
                      end
         end
  end.
(** thirdLevelManager.cpp:281-293, forwardData. *)
Definition forwardData (chunksize : nat) (s : stream) : option (list Z * stream) :=
  match receivePosNumber s with
  | Some (n, s') => match (if n =? 0 then Some ([], s') else forward (Z.to_nat n) chunksize (Z.to_nat n) s') with
                    | Some (out, s'') => Some (prefixed (toString n) ++ out, s'')
                    | None => None
                    end
  | None => None
  end.

(** ** Binary data *)
Section Binary.
(** The elements: their bytes in memory, [w] of them (sizeof). *)
Variable V : Type.
Variable w : nat.
Variable enc : V -> list Z.
Variable dec : list Z -> V.

(** NetworkUtils.hpp:400-410, sendallBinary: the byte order of the sender, then the memory. *)
Definition sendBinary (little : bool) (vals : list V) : list Z := (if little then 1 else 0) :: concat (map enc vals).

(** recvBuff[a .. b): [None] when the range is not inside of the vector: undefined behaviour. *)
Definition range {A : Type} (l : list A) (a b : Z) : option (list A) :=
  if b <=? a then Some []
  else if (0 <=? a) && (b <=? Z.of_nat (length l)) then Some (firstn (Z.to_nat (b - a)) (skipn (Z.to_nat a) l)) else None.
(** NetworkUtils.hpp:157-169, reverseEndianness: byte j is byte sizeof - j. *)
Definition reverseEndianness (raw : list Z) : option (list Z) := sequenceO (map (fun j => nth_error raw (w - j)) (seq 0 w)).
Definition element (same : bool) (raw : list Z) : option V :=
  if same then Some (dec raw) else match reverseEndianness raw with Some r => Some (dec r) | None => None end.

(** buff[num] = reduceOp(buff[num], v); for recvallBinaryAndCorrectInPlace [op] is the second argument. *)
Definition put (op : V -> V -> V) (st : list V * nat) (v : option V) : option (list V * nat) :=
  let (buff, num) := st in
  match v, nth_error buff num with Some x, Some b => Some (upd buff num (op b x), S num) | _, _ => None end.
Fixpoint putAll (op : V -> V -> V) (st : list V * nat) (vs : list (option V)) : option (list V * nat) :=
  match vs with [] => Some st | v :: vs' => match put op st v with Some st' => putAll op st' vs' | None => None end end.
Definition elementO (same : bool) (raw : option (list Z)) : option V := match raw with Some r => element same r | None => None end.

(** NetworkUtils.hpp:210-264 and 322-383: the loop. ssize_t and size_t are mixed: differences are converted to unsigned 64 bit numbers before
    the modulo operation. [recvBuff] keeps the bytes of earlier calls. [None]: undefined behaviour; [Some (false, ..)]: connection closed. *)
Fixpoint recvBinLoop (fuel : nat) (op : V -> V -> V) (same : bool) (chunksize rawSize total : nat) (s : stream) (recvBuff remaining : list Z) (head_k1 : Z)
    (st : list V * nat) : option (bool * list V * stream) :=
  if (rawSize <=? total)%nat then Some (true, fst st, s)
  else match fuel with
  | O => None
  | S fuel' =>
    let (r, s') := recv (Nat.min (rawSize - total) chunksize) s in
    match r with
    | [] => Some (false, fst st, s')
    | _ =>
      let recvd := Z.of_nat (length r) in let sz := Z.of_nat w in
      let recvBuff' := r ++ skipn (length r) recvBuff in
      let tail_k := ((sz - head_k1) mod 2 ^ 64) mod sz in
      let head_k := ((recvd - tail_k) mod 2 ^ 64) mod sz in
      match range recvBuff' 0 tail_k with
      | None => None
      | Some t =>
        let rem := remaining ++ t in
        match (if (length rem =? w)%nat then match put op st (element same rem) with Some st1 => Some (st1, []) | None => None end else Some (st, rem)) with
        | None => None
        | Some (st1, rem1) =>
          match putAll op st1 (map (fun j => elementO same (range recvBuff' (tail_k + j * sz) (tail_k + j * sz + sz)))
                                   (zrange 0 ((recvd - head_k - tail_k + sz - 1) / sz))) with
          | None => None
          | Some st2 =>
            match range recvBuff' (recvd - head_k) recvd with
            | None => None
            | Some h => recvBinLoop fuel' op same chunksize rawSize (total + length r) s' recvBuff' (rem1 ++ h) head_k st2
            end
          end
        end
      end
    end
  end.
(** NetworkUtils.hpp:186-274 and 295-394. The first byte tells the byte order of the sender. *)
Definition recvBinary (op : V -> V -> V) (little : bool) (chunksize : nat) (s : stream) (buff : list V) : option (bool * list V * stream) :=
  match recvall 1 s with
  | Some ([c], s') => let rawSize := (length buff * w)%nat in
                      recvBinLoop rawSize op (Bool.eqb (negb (c =? 0)) little) chunksize rawSize 0 s' (repeat 0 chunksize) [] 0 (buff, O)
  | _ => None
  end.
End Binary.
