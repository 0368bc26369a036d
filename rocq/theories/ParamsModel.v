(** Model of the combination parameters: the constructors and setters of src/manager/CombiParameters.hpp, their archive
    (CombiParameters::serialize with boost's text archives), its way from the manager to all workers (src/mpi/MPIUtils.hpp,
    src/manager/ProcessManager.cpp, ProcessGroupManager.cpp, ProcessGroupWorker.cpp) and the ownership of the basis functions.
    Simplified: an archive is a sequence of tokens instead of characters (class versions, tracking numbers and the archive's
    header are left out; reals are exact, as text archives write 17 digits; an archive has less than 2^31 characters);
    MPI delivers what is sent. *)
From Verif Require Import Base FaultModel.
From Coq Require Import String QArith Qcanon List.
Import ListNotations.
Open Scope list_scope.
Open Scope Z_scope.

(** src/hierarchization/CombiLinearBasisFunction.hpp:27-74 and src/utils/BoostExports.hpp:22-30: the basis functions; they have no
    members. *)
Inductive kind := KHat | KHatPeriodic | KFull | KFullPeriodic | KBio | KBioPeriodic.

(** The heap of a process, as far as it holds basis functions: [None] is a deleted object. Pointers are positions. *)
Definition heap := list (option kind).
Definition deref (h : heap) (a : nat) : option kind := match nth_error h a with Some o => o | None => None end.
(** [new T()] for each entry that is not nullptr. *)
Fixpoint allocBases (h : heap) (ks : list (option kind)) : heap * list (option nat) :=
  match ks with
  | [] => (h, [])
  | None :: ks' => let (h', ps) := allocBases h ks' in (h', None :: ps)
  | Some k :: ks' => let (h', ps) := allocBases (h ++ [Some k]) ks' in (h', Some (length h) :: ps)
  end.
(** The kinds behind pointers; [None] if one is dangling. *)
Fixpoint derefAll (h : heap) (ps : list (option nat)) : option (list (option kind)) :=
  match ps with
  | [] => Some []
  | None :: ps' => match derefAll h ps' with Some ks => Some (None :: ks) | None => None end
  | Some a :: ps' =>
      match deref h a, derefAll h ps' with Some k, Some ks => Some (Some k :: ks) | _, _ => None end
  end.

(** CombiParameters.hpp:481-540: the members; the four maps of lines 489-495 are the record [params] of FaultModel. *)
Record cparams := CParams {
  cDim : Z; cLmin : list Z; cLmax : list Z; cBoundary : list Z; cMaps : params; cHierDims : list bool;
  cBases : list (option nat); cProcs : list Z; cDecomp : list (list Z); cForward : bool; cNumCombi : Z; cNumGrids : Z;
  cVariant : Z; cReduceLmin : list Z; cReduceLmax : list Z; cChunk : Z; cHost : string; cPort : Z; cPG : Z }.

Definition withMaps (c : cparams) (m : params) : cparams :=
  CParams (cDim c) (cLmin c) (cLmax c) (cBoundary c) m (cHierDims c) (cBases c) (cProcs c) (cDecomp c) (cForward c)
    (cNumCombi c) (cNumGrids c) (cVariant c) (cReduceLmin c) (cReduceLmax c) (cChunk c) (cHost c) (cPort c) (cPG c).
Definition withBases (c : cparams) (b : list (option nat)) : cparams :=
  CParams (cDim c) (cLmin c) (cLmax c) (cBoundary c) (cMaps c) (cHierDims c) b (cProcs c) (cDecomp c) (cForward c)
    (cNumCombi c) (cNumGrids c) (cVariant c) (cReduceLmin c) (cReduceLmax c) (cChunk c) (cHost c) (cPort c) (cPG c).
(** CombiParameters.hpp:448-450, setParallelization. *)
Definition setParallelization (c : cparams) (p : list Z) : cparams :=
  CParams (cDim c) (cLmin c) (cLmax c) (cBoundary c) (cMaps c) (cHierDims c) (cBases c) p (cDecomp c) (cForward c)
    (cNumCombi c) (cNumGrids c) (cVariant c) (cReduceLmin c) (cReduceLmax c) (cChunk c) (cHost c) (cPort c) (cPG c).
(** CombiParameters.hpp:461-471, setDecomposition, without the assertions. *)
Definition setDecomposition (c : cparams) (d : list (list Z)) : cparams :=
  CParams (cDim c) (cLmin c) (cLmax c) (cBoundary c) (cMaps c) (cHierDims c) (cBases c) (cProcs c) d (cForward c)
    (cNumCombi c) (cNumGrids c) (cVariant c) (cReduceLmin c) (cReduceLmax c) (cChunk c) (cHost c) (cPort c) (cPG c).

(** The arguments that are common to the three constructors. *)
Record ctorArgs := CtorArgs {
  aDim : nat; aLmin : list Z; aLmax : list Z; aBoundary : list Z; aNumCombi : Z; aNumGrids : Z; aVariant : Z;
  aReduceLmin : list Z; aReduceLmax : list Z; aChunk : Z; aForward : bool; aHost : string; aPort : Z; aPG : Z }.
(** CombiParameters.hpp:83-89, 146-152, 211-217: the bases at construction. *)
Definition defaultKinds (dim : nat) (boundary : list Z) : list (option kind) :=
  map (fun d => Some (if nth d boundary 0 =? 1 then KHatPeriodic else KHat)) (seq 0 dim).
(** The common part of the constructors: the initializer lists and the loop over the dimensions. *)
Definition makeParams (h : heap) (a : ctorArgs) (hd : list bool) : heap * cparams :=
  let (h', ps) := allocBases h (defaultKinds (aDim a) (aBoundary a)) in
  (h', CParams (Z.of_nat (aDim a)) (aLmin a) (aLmax a) (aBoundary a) noParams hd ps [] [] (aForward a) (aNumCombi a)
         (aNumGrids a) (aVariant a) (aReduceLmin a) (aReduceLmax a) (aChunk a) (aHost a) (aPort a) (aPG a)).
(** CombiParameters.hpp:91-93, 153-155: the parallelization {0} stands for no argument. *)
Definition maybeParallelization (c : cparams) (p : list Z) : cparams :=
  if list_eq_dec Z.eq_dec p [0] then c else setParallelization c p.
(** CombiParameters.hpp:57-94: the constructor with levels, coefficients and IDs. *)
Definition constructTasks (h : heap) (a : ctorArgs) (ids : list Z) (levels : list (list Z)) (coeffs : list Qc)
    (procs : list Z) : heap * cparams :=
  let (h', c) := makeParams h a (repeat true (aDim a)) in
  (h', maybeParallelization (withMaps c (setLevelsCoeffs (cMaps c) ids levels coeffs)) procs).
(** CombiParameters.hpp:121-156: the constructor without tasks. *)
Definition constructWorkers (h : heap) (a : ctorArgs) (procs : list Z) : heap * cparams :=
  let (h', c) := makeParams h a (repeat true (aDim a)) in (h', maybeParallelization c procs).
(** CombiParameters.hpp:185-219: the constructor with hierarchizationDims. *)
Definition constructDims (h : heap) (a : ctorArgs) (hd : list bool) (ids : list Z) (levels : list (list Z))
    (coeffs : list Qc) : heap * cparams :=
  let (h', c) := makeParams h a hd in (h', withMaps c (setLevelsCoeffs (cMaps c) ids levels coeffs)).

(** CombiParameters.hpp:371-376: delete every basis that is not nullptr; deleting twice is an error. *)
Fixpoint deleteAll (h : heap) (ps : list (option nat)) : option heap :=
  match ps with
  | [] => Some h
  | None :: ps' => deleteAll h ps'
  | Some a :: ps' =>
      match deref h a with
      | Some _ => deleteAll (firstn a h ++ None :: skipn (S a) h) ps'
      | None => None
      end
  end.
(** CombiParameters.hpp:368-384, setHierarchicalBases: [None] for writing behind the end or deleting twice. Entries that are
    not given stay nullptr. (The caller's vector is left with null pointers.) *)
Definition setBases (h : heap) (c : cparams) (news : list (option nat)) : option (heap * cparams) :=
  match deleteAll h (cBases c) with
  | None => None
  | Some h' =>
      if (length news <=? length (cBases c))%nat
      then Some (h', withBases c (news ++ repeat None (length (cBases c) - length news)))
      else None
  end.
(** CombiParameters.hpp:571-579: one new basis for each dimension. *)
Definition setUniform (h : heap) (c : cparams) (k : kind) : option (heap * cparams) :=
  let (h', ps) := allocBases h (repeat (Some k) (Z.to_nat (cDim c))) in setBases h' c ps.
(** CombiParameters.hpp:583-598: the names; [None] for the exception. *)
Definition kindOfName (s : string) : option kind :=
  if String.eqb s "hat" then Some KHat
  else if String.eqb s "hat_periodic" then Some KHatPeriodic
  else if String.eqb s "fullweighting" then Some KFull
  else if String.eqb s "fullweighting_periodic" then Some KFullPeriodic
  else if String.eqb s "biorthogonal" then Some KBio
  else if String.eqb s "biorthogonal_periodic" then Some KBioPeriodic
  else None.
(** CombiParameters.hpp:581-599. *)
Definition setUniformNamed (h : heap) (c : cparams) (s : string) : option (heap * cparams) :=
  match kindOfName s with Some k => setUniform h c k | None => None end.

(** * Archives *)
Inductive token := TInt (z : Z) | TReal (q : Qc) | TStr (s : string) | TClass (k : option kind).

(** Writing and reading of the types of the members: boost/serialization/vector.hpp and map.hpp write the number of the
    entries before them; a pointer is written as the class of its object, or nullptr. *)
Definition saveVec {A} (f : A -> list token) (l : list A) : list token := TInt (Z.of_nat (length l)) :: flat_map f l.
Definition saveBool (b : bool) : list token := [TInt (if b then 1 else 0)].
Definition saveInt (z : Z) : list token := [TInt z].
Definition saveEntry {A} (f : A -> list token) (e : Z * A) : list token := TInt (fst e) :: f (snd e).

Definition loadInt (t : list token) : option (Z * list token) := match t with TInt z :: r => Some (z, r) | _ => None end.
Definition loadReal (t : list token) : option (Qc * list token) := match t with TReal z :: r => Some (z, r) | _ => None end.
Definition loadStr (t : list token) : option (string * list token) := match t with TStr z :: r => Some (z, r) | _ => None end.
Definition loadClass (t : list token) : option (option kind * list token) :=
  match t with TClass k :: r => Some (k, r) | _ => None end.
Definition loadBool (t : list token) : option (bool * list token) :=
  match t with TInt z :: r => Some (negb (z =? 0), r) | _ => None end.
Fixpoint loadMany {A} (f : list token -> option (A * list token)) (n : nat) (t : list token) : option (list A * list token) :=
  match n with
  | O => Some ([], t)
  | S n' =>
      match f t with
      | Some (x, r) => match loadMany f n' r with Some (l, r') => Some (x :: l, r') | None => None end
      | None => None
      end
  end.
Definition loadVec {A} (f : list token -> option (A * list token)) (t : list token) : option (list A * list token) :=
  match loadInt t with Some (n, r) => loadMany f (Z.to_nat n) r | None => None end.
Definition loadEntry {A} (f : list token -> option (A * list token)) (t : list token) : option ((Z * A) * list token) :=
  match loadInt t with
  | Some (k, r) => match f r with Some (v, r') => Some ((k, v), r') | None => None end
  | None => None
  end.
(** A map is cleared and the entries are inserted one by one. *)
Definition loadMap {A} (f : list token -> option (A * list token)) (t : list token) : option (list (Z * A) * list token) :=
  match loadVec (loadEntry f) t with
  | Some (es, r) => Some (fold_left (fun m e => zassign (fst e) (snd e) m) es [], r)
  | None => None
  end.

(** CombiParameters.hpp:547-569, serialize, for writing; [None] if a basis is dangling. *)
Definition saveParams (h : heap) (c : cparams) : option (list token) :=
  match derefAll h (cBases c) with
  | None => None
  | Some ks =>
      Some (saveInt (cDim c) ++ saveVec saveInt (cLmin c) ++ saveVec saveInt (cLmax c) ++ saveVec saveInt (cBoundary c)
            ++ saveVec (saveEntry (saveVec saveInt)) (pLevels (cMaps c))
            ++ saveVec (saveEntry (fun q => [TReal q])) (pCoeffs (cMaps c))
            ++ saveVec saveBool (cHierDims c) ++ saveVec (fun k => [TClass k]) ks ++ saveVec saveInt (cProcs c)
            ++ saveVec (saveVec saveInt) (cDecomp c) ++ saveBool (cForward c) ++ saveInt (cNumCombi c)
            ++ saveInt (cNumGrids c) ++ saveInt (cVariant c) ++ saveInt (cChunk c) ++ saveVec saveInt (cReduceLmin c)
            ++ saveVec saveInt (cReduceLmax c) ++ [TStr (cHost c)] ++ saveInt (cPort c) ++ saveInt (cPG c))
  end.

Definition bindLoad {A B} (x : option (A * list token)) (f : A -> list token -> option B) : option B :=
  match x with Some (a, r) => f a r | None => None end.
Notation "'load' a , r 'from' x 'then' k" := (bindLoad x (fun a r => k)) (at level 200, a name, r name, k at level 200).

(** CombiParameters.hpp:547-569, serialize, for reading into the object [old]: levelsToIDs_ and combiDictionary_ (493-495) are
    not part of the archive and stay as they are. New bases are allocated; the old ones are not deleted. *)
Definition loadParams (h : heap) (old : cparams) (t : list token) : option (heap * cparams) :=
  load dim, t from loadInt t then
  load lmin, t from loadVec loadInt t then
  load lmax, t from loadVec loadInt t then
  load boundary, t from loadVec loadInt t then
  load levels, t from loadMap (loadVec loadInt) t then
  load coeffs, t from loadMap loadReal t then
  load hd, t from loadVec loadBool t then
  load ks, t from loadVec loadClass t then
  load procs, t from loadVec loadInt t then
  load decomp, t from loadVec (loadVec loadInt) t then
  load forward, t from loadBool t then
  load numCombi, t from loadInt t then
  load numGrids, t from loadInt t then
  load variant, t from loadInt t then
  load chunk, t from loadInt t then
  load reduceLmin, t from loadVec loadInt t then
  load reduceLmax, t from loadVec loadInt t then
  load host, t from loadStr t then
  load port, t from loadInt t then
  load pg, t from loadInt t then
  let (h', ps) := allocBases h ks in
  Some (h', CParams dim lmin lmax boundary (FaultModel.Params levels coeffs (pIds (cMaps old)) (pDict (cMaps old))) hd ps procs decomp
              forward numCombi numGrids variant reduceLmin reduceLmax chunk host port pg).

(** CombiParameters.hpp:27: the default constructor; numbers without an initializer are arbitrary (here [g]). *)
Definition blank (g : Z) : cparams := CParams g [] [] [] noParams [] [] [] [] false g g g [] [] g ""%string g g.

(** * From the manager to the workers *)
(** A worker: its heap, combiParameters_ and combiParametersSet_. *)
Record paramWorker := ParamWorker { pwHeap : heap; pwParams : cparams; pwSet : bool }.

(** MPIUtils.hpp:34-55 (receiveClass), 96-104 (the receiving part of broadcastClass): read the archive into a new object, then
    ProcessGroupWorker.cpp:722, 676-678 (setCombiParameters). *)
Definition takeParams (g : Z) (w : paramWorker) (t : list token) : option paramWorker :=
  match loadParams (pwHeap w) (blank g) t with
  | Some (h', c) => Some (ParamWorker h' c true)
  | None => None
  end.
Fixpoint takeAll (g : Z) (ws : list paramWorker) (t : list token) : option (list paramWorker) :=
  match ws with
  | [] => Some []
  | w :: ws' =>
      match takeParams g w t, takeAll g ws' t with Some w', Some r => Some (w' :: r) | _, _ => None end
  end.
(** ProcessGroupWorker.cpp:711-723, updateCombiParameters: the master receives the archive and broadcasts one of its own
    (MPIUtils.hpp:73-105). *)
Definition updateGroup (g : Z) (t : list token) (ws : list paramWorker) : option (list paramWorker) :=
  match ws with
  | [] => Some []
  | master :: others =>
      match takeParams g master t with
      | None => None
      | Some m' =>
          match saveParams (pwHeap m') (pwParams m') with
          | None => None
          | Some t' => match takeAll g others t' with Some r => Some (m' :: r) | None => None end
          end
      end
  end.
(** ProcessManager.cpp:155 and ProcessGroupManager.cpp:531 (MPIUtils.hpp:18-32, sendClass): every group gets an archive. *)
Fixpoint updateGroups (g : Z) (h : heap) (c : cparams) (gs : list (list paramWorker)) : option (list (list paramWorker)) :=
  match gs with
  | [] => Some []
  | ws :: gs' =>
      match saveParams h c with
      | None => None
      | Some t =>
          match updateGroup g t ws, updateGroups g h c gs' with Some ws', Some r => Some (ws' :: r) | _, _ => None end
      end
  end.
