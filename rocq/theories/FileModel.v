(** Model of writing and reading the values of all processes to one file, src/io/MPIInputOutput.hpp. A file is the list of its
    values (all of one type T, so byte positions are multiples of sizeof(T)); [None] is a file that does not exist. A function
    on all processes takes the list of the processes' values in the order of their ranks. Not modelled: MPI_Info hints, other
    open errors than an existing or missing file, LZ4 compression. *)
From Verif Require Import Base.
Open Scope Z_scope.

(** static_cast<int> of an MPI_Offset (64 bit). *)
Definition toInt (n : Z) : Z := (n + 2 ^ 31) mod 2 ^ 32 - 2 ^ 31.

Section File.
Context {A : Type} (zero : A).

(** MPIInputOutput.hpp:47-51, getPositionFromNumValues: MPI_Exscan (0 on the first process). *)
Definition filePosition (data : list (list A)) (r : nat) : nat := length (concat (firstn r data)).

(** MPIInputOutput.hpp:67-112, getFileToWrite: contents of the opened file. *)
Definition openToWrite (old : option (list A)) (replace : bool) : list A :=
  match old with None => [] | Some f => if replace then [] else f end.

(** MPI_File_write_at_all (MPI standard, POSIX): the part of one process; a gap is filled with zero bytes. *)
Definition writeAt (f : list A) (pos : nat) (vals : list A) : list A :=
  match vals with
  | [] => f
  | _ => firstn pos (f ++ repeat zero (pos - length f)) ++ vals ++ skipn (pos + length vals) f
  end.
(** MPIInputOutput.hpp:131-153, writeValuesToFileAtPosition: a negative count is an error that writes nothing and returns 0. *)
Definition writeValuesAt (f : list A) (vals : list A) (pos : nat) : list A * Z :=
  let count := toInt (Z.of_nat (length vals)) in
  if count <? 0 then (f, 0) else (writeAt f pos (firstn (Z.to_nat count) vals), count).

(** MPIInputOutput.hpp:220-227, writeValuesConsecutive on all processes; [order]: the order in which their parts reach the file. *)
Definition writeValues (old : option (list A)) (replace : bool) (data : list (list A)) (order : list nat) : list A :=
  fold_left (fun f r => fst (writeValuesAt f (nth r data []) (filePosition data r))) order (openToWrite old replace).

(** MPIInputOutput.hpp:155-173, readValuesFromFileAtPosition: the values that were read. *)
Definition readValuesAt (f : list A) (n : nat) (pos : nat) : list A :=
  let count := toInt (Z.of_nat n) in if count <? 0 then [] else firstn (Z.to_nat count) (skipn pos f).

(** MPIInputOutput.hpp:195-212, checkFileSizeConsecutive. *)
Definition checkFileSize (f : list A) (data : list (list A)) : bool := Nat.eqb (length f) (length (concat data)).

(** MPIInputOutput.hpp:229-238, readValuesConsecutive on all processes: the memory of every process afterwards; [None]: an exception. *)
Definition readValues (file : option (list A)) (data : list (list A)) : option (list (list A)) :=
  match file with
  | None => None
  | Some f => if checkFileSize f data
              then Some (map (fun r => let old := nth r data [] in let new := readValuesAt f (length old) (filePosition data r) in
                                       new ++ skipn (length new) old) (seq 0 (length data)))
              else None
  end.

(** MPIInputOutput.hpp:249-265: the loop of readReduceValuesConsecutive on one process: [done] values are reduced, [todo] are left.
    Result: the values and the number of collective reads; [None]: more than [fuel] iterations. The buffer is only used up to the
    number of values read (after the check of the size no read is short). *)
Fixpoint reduceLoop (fuel : nat) (op : A -> A -> A) (f : list A) (buffer pos : nat) (done todo : list A) (reads : nat) : option (list A * nat) :=
  match todo with
  | [] => Some (done, reads)
  | _ => match fuel with
         | O => None
         | S fuel' =>
             let n := Nat.min buffer (length todo) in
             let got := readValuesAt f n pos in
             reduceLoop fuel' op f n (pos + length got) (done ++ map2 op got (firstn (length got) todo)) (skipn (length got) todo) (S reads)
         end
  end.

(** MPIInputOutput.hpp:240-267, readReduceValuesConsecutive on all processes. [None]: an exception, or it does not return, because
    a loop does not end or because the processes do not enter the same number of collective reads. *)
Definition sequenceO {B : Type} (l : list (option B)) : option (list B) :=
  fold_right (fun x acc => match x, acc with Some b, Some r => Some (b :: r) | _, _ => None end) (Some []) l.
Definition readReduceValues (fuel : nat) (op : A -> A -> A) (file : option (list A)) (buffer : nat) (data : list (list A)) : option (list (list A)) :=
  match file with
  | None => None
  | Some f =>
      if checkFileSize f data then
        match sequenceO (map (fun r => reduceLoop fuel op f buffer (filePosition data r) [] (nth r data []) 0) (seq 0 (length data))) with
        | None => None
        | Some results => if forallb (fun x => forallb (fun y => Nat.eqb (snd x) (snd y)) results) results then Some (map fst results) else None
        end
      else None
  end.

(** MPIInputOutput.hpp:278-321, readMultipleReduceValuesConsecutive with two files, on one process: reduced with a function of three arguments
    in the order (first file, memory, second file). *)
Fixpoint reduceLoop2 (fuel : nat) (op : A -> A -> A -> A) (f1 f2 : list A) (buffer pos : nat) (done todo : list A) : option (list A) :=
  match todo with
  | [] => Some done
  | _ => match fuel with
         | O => None
         | S fuel' =>
             let n := Nat.min buffer (length todo) in
             let got1 := readValuesAt f1 n pos in
             let got2 := readValuesAt f2 n pos in
             reduceLoop2 fuel' op f1 f2 n (pos + length got2)
               (done ++ map2 (fun a bc => op a (fst bc) (snd bc)) got1 (combine (firstn (length got1) todo) got2)) (skipn (length got2) todo)
         end
  end.
Definition readReduceValues2 (fuel : nat) (op : A -> A -> A -> A) (file1 file2 : option (list A)) (buffer : nat) (data : list (list A)) : option (list (list A)) :=
  match file1, file2 with
  | Some f1, Some f2 =>
      if checkFileSize f1 data && checkFileSize f2 data then
        sequenceO (map (fun r => reduceLoop2 fuel op f1 f2 buffer (filePosition data r) [] (nth r data [])) (seq 0 (length data)))
      else None
  | _, _ => None
  end.
End File.
