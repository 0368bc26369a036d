(** Model of the time measurement, src/utils/Stats.hpp, and of the file that collects it from all processes,
    src/io/FileInputOutput.cpp:11-49. Time points are numbers of nanoseconds since the epoch of the clock; a default constructed
    time point is 0. Names are strings that need no escaping in JSON. A file is a list of tokens; white space is left out. *)
From Coq Require Import String.
From Verif Require Import Base.
Open Scope Z_scope.

(** ** Files *)
Inductive SKey := KName (s : string) | KRank (r : Z).
Inductive STok := TObj | TEndObj | TArr | TEndArr | TComma | TColon | TKey (k : SKey) | TNum (z : Z).

(** ** State of one process, Stats.hpp:98-102: the events of a name in the order in which they were started, with start and end;
    the attributes; both unordered maps are lists in the order of their iteration. *)
Record SState := { sEvents : list (string * list (Z * Z)); sAttrs : list (string * string); sInit : Z; sUntil : Z; sWrites : Z }.

Fixpoint lookupS {A} (n : string) (l : list (string * A)) : option A :=
  match l with [] => None | (m, x) :: r => if String.eqb n m then Some x else lookupS n r end.
Fixpoint updateS {A} (n : string) (x : A) (l : list (string * A)) : list (string * A) :=
  match l with [] => [(n, x)] | (m, y) :: r => if String.eqb n m then (m, x) :: r else (m, y) :: updateS n x r end.
Fixpoint eraseS {A} (n : string) (l : list (string * A)) : list (string * A) :=
  match l with [] => [] | (m, y) :: r => if String.eqb n m then r else (m, y) :: eraseS n r end.

Definition withEvents (s : SState) (ev : list (string * list (Z * Z))) : SState :=
  {| sEvents := ev; sAttrs := sAttrs s; sInit := sInit s; sUntil := sUntil s; sWrites := sWrites s |}.

(** Stats.hpp:106-118, initialize at time [t]. *)
Definition initStats (t : Z) : SState := {| sEvents := []; sAttrs := []; sInit := t; sUntil := t; sWrites := 0 |}.

(** Stats.hpp:126-130 (and 283), startEvent. *)
Definition startEvent (t : Z) (n : string) (s : SState) : SState :=
  withEvents s (updateS n (match lookupS n (sEvents s) with Some l => l ++ [(t, 0)] | None => [(t, 0)] end) (sEvents s)).

(** Stats.hpp:289-300, stopEvent: the end of the last event of the name. [timing]: compiled with TIMING (otherwise the name is
    erased); [debug]: with assertions. [None]: the assertion fails, or there is no event of that name. *)
Definition setLastEnd (t : Z) (l : list (Z * Z)) : list (Z * Z) :=
  match rev l with [] => [] | (b, _) :: r => rev ((b, t) :: r) end.
Definition stopEvent (timing debug : bool) (t : Z) (n : string) (s : SState) : option SState :=
  match lookupS n (sEvents s) with
  | None => None
  | Some l =>
      match rev l with
      | [] => None
      | (_, e) :: _ => if debug && negb (e =? 0) then None
                       else Some (withEvents s (if timing then updateS n (setLastEnd t l) (sEvents s) else eraseS n (sEvents s)))
      end
  end.

(** Stats.hpp:132-136, setAttribute. *)
Definition setAttribute (n v : string) (s : SState) : SState :=
  {| sEvents := sEvents s; sAttrs := updateS n v (sAttrs s); sInit := sInit s; sUntil := sUntil s; sWrites := sWrites s |}.

(** Stats.hpp:36-39 and 302-310, getDuration in milliseconds as an unsigned 64-bit number. *)
Definition getDuration (n : string) (s : SState) : option Z :=
  match lookupS n (sEvents s) with
  | Some l => match rev l with (b, e) :: _ => Some ((Z.quot (e - b) 1000000) mod 2 ^ 64) | [] => None end
  | None => Some (2 ^ 64 - 1)
  end.

(** ** What is written *)
(** Stats.hpp:157-165 (222-231): the attributes. A comma behind each but the last, counted. *)
Fixpoint attrTokens (count size : nat) (l : list (string * string)) : list STok :=
  match l with
  | [] => []
  | (n, v) :: r => [TKey (KName n); TColon; TKey (KName v)] ++ (if Nat.eqb (S count) size then [] else [TComma]) ++ attrTokens (S count) size r
  end.

(** Stats.hpp:176-177 (254-255): an event in microseconds since the start. *)
Definition entryTokens (t0 : Z) (e : Z * Z) : list STok :=
  [TArr; TNum (Z.quot (fst e - t0) 1000); TComma; TNum (Z.quot (snd e - t0) 1000); TEndArr].

(** Stats.hpp:174-183: the events of one name in write. *)
Fixpoint entriesTokens (t0 : Z) (count size : nat) (l : list (Z * Z)) : list STok :=
  match l with
  | [] => []
  | e :: r => entryTokens t0 e ++ (if Nat.eqb (S count) size then [] else [TComma]) ++ entriesTokens t0 (S count) size r
  end.
(** Stats.hpp:169-190: all events in write. *)
Fixpoint eventsTokens (t0 : Z) (count size : nat) (l : list (string * list (Z * Z))) : list STok :=
  match l with
  | [] => []
  | (n, es) :: r => [TKey (KName n); TColon; TArr] ++ entriesTokens t0 0 (List.length es) es ++ [TEndArr] ++
                    (if Nat.eqb (S count) size then [] else [TComma]) ++ eventsTokens t0 (S count) size r
  end.

(** Stats.hpp:247: finished and not yet written. *)
Definition toBeWritten (until : Z) (e : Z * Z) : bool := negb (snd e =? fst e) && (snd e >? until).
(** Stats.hpp:245-257: the events of one name in writePartial; the state is thisEventFirstTime and the tokens so far. *)
Definition partialEntry (t0 until : Z) (st : bool * list STok) (e : Z * Z) : bool * list STok :=
  if toBeWritten until e then (false, snd st ++ (if fst st then [] else [TComma]) ++ entryTokens t0 e) else st.
(** Stats.hpp:237-262: one name; the state is anyEventFirstTime and the tokens so far. *)
Definition partialName (t0 until : Z) (st : bool * list STok) (ne : string * list (Z * Z)) : bool * list STok :=
  let pre := (if fst st then [] else [TComma]) ++ [TKey (KName (fst ne)); TColon; TArr] in
  let r := fold_left (partialEntry t0 until) (snd ne) (true, pre) in
  if fst r then st else (false, snd st ++ snd r ++ [TEndArr]).
Definition partialTokens (t0 until : Z) (l : list (string * list (Z * Z))) : list STok := snd (fold_left (partialName t0 until) l (true, [])).

(** Stats.hpp:149-198 and 214-273: the part of process [rank] of [size]. *)
Definition frame (rank size : Z) (attrs : list (string * string)) (events : list STok) : list STok :=
  (if rank =? 0 then [TObj] else []) ++ [TKey (KRank rank); TColon; TObj; TKey (KName "attributes"); TColon; TObj] ++
  attrTokens 0 (List.length attrs) attrs ++ [TEndObj; TComma; TKey (KName "events"); TColon; TObj] ++ events ++ [TEndObj; TEndObj] ++
  (if rank =? size - 1 then [TEndObj] else [TComma]).
Definition writePart (rank size : Z) (s : SState) : list STok :=
  frame rank size (sAttrs s) (eventsTokens (sInit s) 0 (List.length (sEvents s)) (sEvents s)).
Definition writePartialPart (rank size : Z) (s : SState) : list STok :=
  frame rank size (sAttrs s) (partialTokens (sInit s) (sUntil s) (sEvents s)).
(** Stats.hpp:206 and 277: the number in the name of the file, and the time point until which everything is written. *)
Definition afterPartial (t : Z) (s : SState) : SState :=
  {| sEvents := sEvents s; sAttrs := sAttrs s; sInit := sInit s; sUntil := t; sWrites := sWrites s + 1 |}.

(** FileInputOutput.cpp:11-49: sizes as 32-bit integers, their exclusive scan as displacements, a buffer of their sum, in which
    MPI_Gatherv puts the parts. [None]: a size or the sum does not fit. *)
Fixpoint exclusiveScan (acc : Z) (l : list Z) : list Z := match l with [] => [] | x :: r => acc :: exclusiveScan (acc + x) r end.
Definition placeAt {A} (buf : list A) (d : Z) (part : list A) : list A :=
  firstn (Z.to_nat d) buf ++ part ++ skipn (Z.to_nat d + List.length part) buf.
Definition writeConcatenated {A} (blank : A) (parts : list (list A)) : option (list A) :=
  let counts := map (fun p => Z.of_nat (List.length p)) parts in
  let total := fold_left Z.add counts 0 in
  if (total <? 2 ^ 31) && forallb (fun c => c <? 2 ^ 31) counts then
    Some (fold_left (fun buf dp => placeAt buf (fst dp) (snd dp)) (combine (exclusiveScan 0 counts) parts) (repeat blank (Z.to_nat total)))
  else None.

(** ** Executions of one process: operations with their times. Every partial write yields its number and what was written. *)
Inductive SOp := SStart (n : string) | SStop (n : string) | SAttr (n v : string) | SPartial.

Definition statsStep (timing debug : bool) (o : Z * SOp) (s : SState) : option (SState * list (Z * SState)) :=
  match snd o with
  | SStart n => Some (startEvent (fst o) n s, [])
  | SStop n => match stopEvent timing debug (fst o) n s with Some s' => Some (s', []) | None => None end
  | SAttr n v => Some (setAttribute n v s, [])
  | SPartial => Some (afterPartial (fst o) s, [(sWrites s, s)])
  end.
Fixpoint statsRun (timing debug : bool) (ops : list (Z * SOp)) (s : SState) : option (SState * list (Z * SState)) :=
  match ops with
  | [] => Some (s, [])
  | o :: r => match statsStep timing debug o s with
              | Some (s', f) => match statsRun timing debug r s' with Some (s'', fs) => Some (s'', f ++ fs) | None => None end
              | None => None
              end
  end.
