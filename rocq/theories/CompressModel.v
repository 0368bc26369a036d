(** Model of writing and reading the values of all processes with LZ4 compression, src/io/MPICompression.hpp. Bytes are of any type B.
    The LZ4 library is taken by specification: a frame determines its content, and the decompressor gives as many bytes of it as
    there is room for; it has read the whole frame when it has given the whole content. Not modelled: Stats, memory allocation. *)
From Verif Require Import Base FileModel.
Open Scope Z_scope.

Section Compress.
Context {B : Type} (zero : B).

(** LZ4F_compressFrame with the preferences of the data (MPICompression.hpp:25-35) and of the header (224-227), and decompression of a
    frame ([None]: an error). [encode] and [decode]: a vector of MPI_Offset (8 bytes each) in memory. *)
Record Codec := { frame : list B -> list B; hframe : list B -> list B; unframe : list B -> option (list B);
                  encode : list nat -> list B; decode : list B -> list nat }.
Context (c : Codec).
(** sizeof(T) *)
Context (esz : nat).

(** MPICompression.hpp:222-240, getSizeOfHeaderFrame: the size of a header frame with some contents [dummy] of the right length. *)
Definition headerSize (dummy : list B) : nat := length (hframe c dummy).

(** MPICompression.hpp:37-62 and 244-288, compressBufferToLZ4FrameAndGatherHeader: the strings of all processes. The first process has
    space for the header before its frame; when the sizes are known, the header is put there. *)
Definition stringsBefore (dummy : list B) (bytes : list (list B)) : list (list B) :=
  match bytes with
  | [] => []
  | b :: bs => (repeat zero (headerSize dummy) ++ frame c b) :: map (frame c) bs
  end.
Definition compressedStrings (dummy : list B) (bytes : list (list B)) : list (list B) :=
  let strings := stringsBefore dummy bytes in
  match strings with
  | [] => []
  | s :: ss => writeAt zero s 0 (hframe c (encode c (map (@length B) strings))) :: ss
  end.
(** MPICompression.hpp:292-307, writeCompressedValuesConsecutive: the file is always replaced. *)
Definition writeCompressed (dummy : list B) (old : option (list B)) (bytes : list (list B)) (order : list nat) : list B :=
  writeValues zero old true (compressedStrings dummy bytes) order.

(** MPICompression.hpp:162-176, FrameDecompressor::decompressNextBlocks, and 188-210, decompressLZ4FrameToBuffer: rounds until one gives
    no value. [rem]: content not yet given, [n]: values that are missing, [ptr]: position in memory, in values; it is advanced by the
    number of bytes (line 173). Result: memory and number of rounds. *)
Fixpoint decompressRounds (fuel : nat) (rem mem : list B) (n ptr rounds : nat) : option (list B * nat) :=
  match fuel with
  | O => None
  | S fuel' =>
      let out := firstn (n * esz) rem in
      let got := (length out / esz)%nat in
      let mem' := writeAt zero mem (ptr * esz) out in
      if Nat.eqb got 0 then Some (mem', S rounds)
      else decompressRounds fuel' (skipn (n * esz) rem) mem' (n - got) (ptr + length out) (S rounds)
  end.
(** MPICompression.hpp:203-205: anything but two rounds is an error. *)
Definition decompressTo (s mem : list B) (n : nat) : option (list B) :=
  match unframe c s with
  | None => None
  | Some content => match decompressRounds (n + 2) content mem n 0 0 with
                    | Some (mem', 2%nat) => Some mem'
                    | _ => None
                    end
  end.

(** MPICompression.hpp:333-344: position and size of the frame of process [r]. *)
Definition framePlace (dummy : list B) (sizes : list nat) (r : nat) : nat * nat :=
  let pos := list_sum (firstn r sizes) in
  if Nat.eqb r 0 then (pos + headerSize dummy, nth r sizes 0 - headerSize dummy)%nat else (pos, nth r sizes 0%nat).
End Compress.

Section Read.
Context {B : Type} (zero : B) (c : @Codec B) (esz : nat).

(** MPICompression.hpp:310-346, getFrameSizeAndPosFromHeader: sizes of the strings of all [P] processes. *)
Definition sizesFromHeader (dummy f : list B) (P : nat) : option (list nat) :=
  match decompressTo zero c 8 (readValuesAt f (headerSize c dummy) 0) (repeat zero (8 * P)) P with
  | Some b => Some (decode c b)
  | None => None
  end.

(** MPICompression.hpp:349-370, readCompressedValuesConsecutive, on all processes; [mem]: the memory of every process, a multiple of
    [esz] bytes; [None]: an exception. *)
Definition readFrames {X : Type} (dummy : list B) (file : option (list B)) (P : nat) (use : nat -> list B -> option X) : option (list X) :=
  match file with
  | None => None
  | Some f =>
      match sizesFromHeader dummy f P with
      | None => None
      | Some sizes => if Nat.eqb (length f) (list_sum sizes)
                      then sequenceO (map (fun r => let '(pos, size) := framePlace c dummy sizes r in use r (readValuesAt f size pos)) (seq 0 P))
                      else None
      end
  end.
Definition readCompressed (dummy : list B) (file : option (list B)) (mem : list (list B)) : option (list (list B)) :=
  readFrames dummy file (length mem) (fun r s => let m := nth r mem [] in decompressTo zero c esz s m (length m / esz)).

(** MPICompression.hpp:65-81 (VectorStream) and 108-121 (decompressNextBlock), 385-415: the loop of readReduceCompressedValuesConsecutive.
    [cap]: size of the buffer, [kept]: bytes of an incomplete value at its beginning, [done]/[todo]: values of the memory before
    and after the write pointer. The decompressor may give [cap] bytes although the first ones are occupied: [None] if it writes
    beyond the buffer, or if there are more values than memory. *)
Fixpoint chunks (n : nat) (l : list B) : list (list B) :=
  match n with O => [] | S n' => firstn esz l :: chunks n' (skipn esz l) end.
Fixpoint streamLoop (fuel : nat) (op : list B -> list B -> list B) (cap : nat) (rem kept : list B) (done todo : list (list B)) : option (list (list B)) :=
  match fuel with
  | O => None
  | S fuel' =>
      let out := firstn cap rem in let rem' := skipn cap rem in
      if (cap <? length kept + length out)%nat then None
      else
        let buffer := kept ++ out in
        let full := (length buffer / esz)%nat in
        if (length todo <? full)%nat then None
        else
          let done' := done ++ map2 op (chunks full buffer) (firstn full todo) in
          let todo' := skipn full todo in
          let kept' := skipn (full * esz) buffer in
          match rem' with [] => Some (done' ++ todo') | _ => streamLoop fuel' op cap rem' kept' done' todo' end
  end.
(** MPICompression.hpp:68-69: LZ4_compressBound(4 MiB) + sizeof(size_t). *)
Definition streamCapacity : nat := Z.to_nat (4194304 + 4194304 / 255 + 16 + 8).
Definition readReduceCompressed (dummy : list B) (cap : nat) (op : list B -> list B -> list B) (file : option (list B)) (mem : list (list (list B))) : option (list (list (list B))) :=
  readFrames dummy file (length mem) (fun r s => match unframe c s with
                                               | None => None
                                               | Some content => streamLoop (S (length content)) op cap content [] [] (nth r mem [])
                                               end).
End Read.
