(** Model of the recomputation of combination coefficients after faults: src/fault_tolerance/FTUtils.cpp,
    src/fault_tolerance/LPOptimizationInterpolation.cpp, StaticFaults.cpp, the maps of src/manager/CombiParameters.hpp
    and the callers in src/manager/ProcessManager.hpp and .cpp. Coefficients are exact rationals. The linear program is
    written down exactly; GLPK is taken by its specification (see [optimal]). *)
From Verif Require Import Base TensorModel LevelSetsModel CombiSchemeModel QcTools.
From Coq Require Import QArith Qcanon.
Open Scope Z_scope.

(** std::map<LevelVector, T>: entries ascending in the lexicographic order of the keys (Types.hpp, FTUtils.hpp:
    CombigridDict = std::map<LevelVector, real>). *)
Definition dict (A : Type) := list (list Z * A).
(** std::map::find. *)
Fixpoint dfind {A} (k : list Z) (d : dict A) : option A :=
  match d with
  | [] => None
  | (k', v) :: r => if list_eq_dec Z.eq_dec k k' then Some v else dfind k r
  end.
(** std::map::insert: a key already present keeps its value. *)
Fixpoint dinsert {A} (k : list Z) (v : A) (d : dict A) : dict A :=
  match d with
  | [] => [(k, v)]
  | (k', v') :: r =>
      if lexltb k k' then (k, v) :: d else if lexltb k' k then (k', v') :: dinsert k v r else d
  end.
(** map[k] = v. *)
Fixpoint dassign {A} (k : list Z) (v : A) (d : dict A) : dict A :=
  match d with
  | [] => [(k, v)]
  | (k', v') :: r =>
      if lexltb k k' then (k, v) :: d else if lexltb k' k then (k', v') :: dassign k v r else (k', v) :: r
  end.

(** FTUtils.cpp:266-274, l1_norm. *)
Definition l1norm (u : list Z) : Z := fold_left (fun n x => n + Z.abs x) u 0.
(** FTUtils.cpp:276-285, test_greater. *)
Definition testGreater (b a : list Z) : bool := forallb (fun p => snd p <=? fst p) (combine b a).
(** std::max_element. *)
Definition maxElement (l : list Z) : Z := match l with [] => 0 | x :: r => fold_left Z.max r x end.

(** FTUtils.cpp:306-311: one step of the odometer; [t] is the vector from its last entry on. [None]: j < 0. *)
Fixpoint bump (u : Z) (t : list Z) : option (list Z) :=
  match t with
  | [] => None
  | x :: r => if x + 1 <=? u then Some ((x + 1) :: r) else option_map (cons 1) (bump u r)
  end.
(** FTUtils.cpp:299-314: the loop, cut after [fuel] iterations. *)
Fixpoint mindexLoop (fuel : nat) (u total : Z) (temp : list Z) : list (list Z) :=
  match fuel with
  | O => []
  | S f => (if l1norm temp <=? total then [temp] else []) ++
           match bump u (rev temp) with Some t => mindexLoop f u total (rev t) | None => [] end
  end.
(** FTUtils.cpp:287-317, mindex; the number of iterations is proved sufficient in FaultProofs. *)
Definition mindex (dim : nat) (lmax : list Z) : list (list Z) :=
  let u := maxElement lmax in
  mindexLoop (Z.to_nat (Z.max 1 u ^ Z.of_nat dim)) u (levelSum lmax) (repeat 1 dim).

(** FTUtils.cpp:119-167, set_entire_downset_dict. *)
Definition entireDownset (lmin lmax : list Z) (given : dict Qc) : dict Qc :=
  let all := mindex (length lmin) lmax in
  let active := filter (fun p => qltb 0%Qc (snd p)) given in
  let feasible := flat_map (fun a => filter (fun l => testGreater (fst a) l && testGreater l lmin) all) active in
  fold_left (fun d l => dinsert l (match dfind l given with Some c => c | None => 0%Qc end) d) feasible [].

(** FTUtils.cpp:169-188, create_aux_entire_dict: the position of every level. *)
Definition auxDict (entire : dict Qc) : dict Z := combine (map fst entire) (zseq 0 (length entire)).

(** FTUtils.cpp:107-112: one entry of the matrix. *)
Definition invEntry (w c : list Z) : Z :=
  let diff := vsub c w in
  let s := levelSum diff in
  if ((0 <? s) || (s <=? Z.of_nat (length w))) && ((maxElement diff <=? 1) && forallb (fun x => 0 <=? x) diff)
  then signPow s else 0.
(** FTUtils.cpp:83-117, get_inv_M: the row of the [i]-th level, whose entries start at the diagonal. *)
Fixpoint invRows (i : nat) (keys : list (list Z)) : list (list Z) :=
  match keys with
  | [] => []
  | w :: r => (repeat 0 i ++ map (invEntry w) keys) :: invRows (S i) r
  end.
Definition invM (aux : dict Z) : list (list Z) := invRows 0 (map fst aux).

(** FTUtils.cpp:319-341, check_dimensionality: the positions of the ignored dimensions; the reduced levels are
    [eraseDummies (dummyMask lmin lmax)] of CombiSchemeModel, the entries with different minimum and maximum. *)
Fixpoint ignoredFrom (i : Z) (lmin lmax : list Z) : list Z :=
  match lmin, lmax with
  | a :: m, b :: n => (if b =? a then [i] else []) ++ ignoredFrom (i + 1) m n
  | _, _ => []
  end.
(** FTUtils.cpp:350-355 and 371-376: the entries outside the ignored dimensions. *)
Definition dropIgnored (ig v : list Z) : list Z :=
  map snd (filter (fun p => negb (existsb (Z.eqb (fst p)) ig)) (combine (zseq 0 (length v)) v)).
(** FTUtils.cpp:363-383, set_new_given_dict. *)
Definition newGivenDict (ig : list Z) (given : dict Qc) : dict Qc :=
  fold_left (fun d p => dinsert (dropIgnored ig (fst p)) (snd p) d) given [].
(** FTUtils.cpp:206-227, filter_faults. *)
Definition filterFaults (faults : list (list Z)) (lmaxSum : Z) (given : dict Qc) : list (list Z) :=
  filter (fun f => match dfind f given with
                   | Some _ => (levelSum f =? lmaxSum) || (levelSum f =? lmaxSum - 1)
                   | None => false
                   end) faults.

(** The members of LP_OPT_INTERP used below. *)
Record setup := Setup {
  sIgnored : list Z; sGiven : dict Qc; sNewGiven : dict Qc; sEntire : dict Qc; sInput : list (list Z);
  sValid : list (list Z); sRecompute : list (list Z) }.
(** LPOptimizationInterpolation.cpp:26-29: l_max, the sum of levels of the finest diagonal. *)
Definition topSum (lmin lmax : list Z) : Z := nth 0 lmax 0 + levelSum (tl lmin).
(** LPOptimizationInterpolation.cpp:6-59, the constructor; [None]: every dimension is ignored, line 26 then reads the
    first entry of an empty vector. *)
Definition construct (lmin lmax : list Z) (given : dict Qc) (faults : list (list Z)) : option setup :=
  let mask := dummyMask lmin lmax in
  let ig := ignoredFrom 0 lmin lmax in
  let lmin' := eraseDummies mask lmin in
  let lmax' := eraseDummies mask lmax in
  let faults' := map (dropIgnored ig) faults in
  let given' := newGivenDict ig given in
  match lmax' with
  | [] => None
  | _ =>
      let valid := filterFaults faults' (topSum lmin' lmax') given' in
      Some (Setup ig given given' (entireDownset lmin' lmax' given') faults valid
                  (filter (fun f => if in_dec (list_eq_dec Z.eq_dec) f valid then false else true) faults'))
  end.
(** LPOptimizationInterpolation.cpp:339, getNumFaults. *)
Definition numFaults (s : setup) : nat := length (sValid s).
(** LPOptimizationInterpolation.cpp:45-47: the levels in the order of the map, their positions and the matrix. *)
Definition sLevelsOf (s : setup) : list (list Z) := map fst (sEntire s).
Definition sAux (s : setup) : dict Z := auxDict (sEntire s).
Definition sMatrix (s : setup) : list (list Z) := invM (sAux s).

(** LPOptimizationInterpolation.cpp:160-169: the objective, 4 to the power of minus the norm. *)
Definition objective (s : setup) : list Qc :=
  map (fun l => Qcpower (Q2Qc (1 # 4)) (Z.to_nat (l1norm l))) (sLevelsOf s).
(** LPOptimizationInterpolation.cpp:172-193: one row per valid fault; [None]: a fault is not in the down set, its row is
    then left uninitialised. *)
Fixpoint constraintRows (aux : dict Z) (m : list (list Z)) (faults : list (list Z)) : option (list (list Z)) :=
  match faults with
  | [] => Some []
  | f :: r => match dfind f aux, constraintRows aux m r with
              | Some i, Some rows => Some (nth (Z.to_nat i) m [] :: rows)
              | _, _ => None
              end
  end.
Definition constraints (s : setup) : option (list (list Z)) := constraintRows (sAux s) (sMatrix s) (sValid s).

(** Sum of products, LPOptimizationInterpolation.cpp:222-228. *)
Fixpoint dot (r : list Z) (w : list Qc) : Qc :=
  match r, w with
  | a :: r', x :: w' => (zq a * x + dot r' w')%Qc
  | _, _ => 0%Qc
  end.
Fixpoint qdot (r w : list Qc) : Qc :=
  match r, w with
  | a :: r', x :: w' => (a * x + qdot r' w')%Qc
  | _, _ => 0%Qc
  end.
(** LPOptimizationInterpolation.cpp:151-169: a point of the program. The variables are bounded by 0 and 1 and, for the
    integer program (GLP_BV), are 0 or 1; every row has the value 0. *)
Definition admissible (integral : bool) (x : Qc) : Prop :=
  (0 <= x)%Qc /\ (x <= 1)%Qc /\ (integral = true -> x = 0%Qc \/ x = 1%Qc).
Definition feasible (integral : bool) (s : setup) (w : list Qc) : Prop :=
  length w = length (sLevelsOf s) /\ Forall (admissible integral) w /\
  exists rows, constraints s = Some rows /\ Forall (fun r => dot r w = 0%Qc) rows.
(** GLPK by specification. LPOptimizationInterpolation.cpp:199-200 solve the relaxed and then the integer program, and
    line 218 reads glp_get_col_prim, the solution of the relaxed one ([integral = false]; glp_mip_col_val would be the
    integer one). *)
Definition optimal (integral : bool) (s : setup) (w : list Qc) : Prop :=
  feasible integral s w /\
  forall w', feasible integral s w' -> (qdot (objective s) w' <= qdot (objective s) w)%Qc.

(** LPOptimizationInterpolation.cpp:222-228, all_c. *)
Definition allCoeffs (s : setup) (w : list Qc) : list Qc := map (fun r => dot r w) (sMatrix s).
(** FTUtils.cpp:403-417, select_coeff_downset. *)
Definition selectCoeffs (allC : list Qc) (given : dict Qc) (aux : dict Z) : list Qc :=
  flat_map (fun p => match dfind (fst p) given with
                     | Some _ => [nth (Z.to_nat (snd p)) allC 0%Qc]
                     | None => []
                     end) aux.
(** FTUtils.cpp:229-249, create_out_dict: the i-th entry gets the i-th coefficient; [None]: line 238 reads past the end
    of the coefficients. *)
Definition outDict (given : dict Qc) (c : list Qc) : option (dict Qc) :=
  if (length c <? length given)%nat then None else Some (combine (map fst given) c).
(** LPOptimizationInterpolation.cpp:301-311: a reduced level with the ignored dimensions filled in. *)
Fixpoint completeFrom (j : Z) (ig first fault : list Z) : list Z :=
  match first with
  | [] => []
  | x :: r => if existsb (Z.eqb j) ig then x :: completeFrom (j + 1) ig r fault
              else nth 0 fault 0 :: completeFrom (j + 1) ig r (tl fault)
  end.
(** LPOptimizationInterpolation.cpp:300-316; reading output[level] inserts 0 for an unknown level. *)
Definition collectRecompute (ig first : list Z) (faults : list (list Z)) (out : dict Qc) : dict Qc * list (list Z) :=
  fold_left (fun st f =>
    let l := completeFrom 0 ig first f in
    match dfind l (fst st) with
    | Some c => if Qc_eq_dec c 0%Qc then st else (fst st, snd st ++ [l])
    | None => (dinsert l 0%Qc (fst st), snd st)
    end) faults (out, []).
(** LPOptimizationInterpolation.cpp:203-337, get_results for the values [w] of the variables. *)
Definition getResults (s : setup) (w : list Qc) : option (dict Qc * list (list Z)) :=
  match outDict (sGiven s) (selectCoeffs (allCoeffs s w) (sNewGiven s) (sAux s)) with
  | None => None
  | Some out => Some (collectRecompute (sIgnored s) (nth 0 (sInput s) []) (sRecompute s) out)
  end.

(** std::map<size_t, T>, the order of the entries left open. *)
Fixpoint zfind {A} (k : Z) (m : list (Z * A)) : option A :=
  match m with [] => None | (k', v) :: r => if k =? k' then Some v else zfind k r end.
Fixpoint zassign {A} (k : Z) (v : A) (m : list (Z * A)) : list (Z * A) :=
  match m with [] => [(k, v)] | (k', v') :: r => if k =? k' then (k, v) :: r else (k', v') :: zassign k v r end.

(** CombiParameters.hpp:489-495: the maps. *)
Record params := Params { pLevels : list (Z * list Z); pCoeffs : list (Z * Qc); pIds : dict Z; pDict : dict Qc }.
Definition noParams : params := Params [] [] [] [].
(** CombiParameters.hpp:298-303: one round of the loop of setLevelsCoeffs. *)
Definition setOne (p : params) (id : Z) (l : list Z) (c : Qc) : params :=
  Params (zassign id l (pLevels p)) (zassign id c (pCoeffs p)) (dassign l id (pIds p)) (dassign l c (pDict p)).
(** CombiParameters.hpp:279-305, setLevelsCoeffs. *)
Fixpoint setLevelsCoeffs (p : params) (ids : list Z) (levels : list (list Z)) (coeffs : list Qc) : params :=
  match ids, levels, coeffs with
  | i :: ids', l :: levels', c :: coeffs' => setLevelsCoeffs (setOne p i l c) ids' levels' coeffs'
  | _, _, _ => p
  end.
(** CombiParameters.hpp:242-248, getCoeff. *)
Definition getCoeff (p : params) (id : Z) : Qc := match zfind id (pCoeffs p) with Some c => c | None => 0%Qc end.
(** CombiParameters.hpp:310-318, getLevel. *)
Definition getLevel (p : params) (id : Z) : list Z := match zfind id (pLevels p) with Some l => l | None => [] end.
(** CombiParameters.hpp:323, getID: operator[] gives an unknown level the ID 0. *)
Definition getID (p : params) (l : list Z) : Z * params :=
  match dfind l (pIds p) with
  | Some i => (i, p)
  | None => (0, Params (pLevels p) (pCoeffs p) (dassign l 0 (pIds p)) (pDict p))
  end.
(** CombiParameters.hpp:270-274, setCoeff; levels_[taskID] inserts an empty level for an unknown ID. *)
Definition setCoeff (p : params) (id : Z) (c : Qc) : params :=
  let levels := match zfind id (pLevels p) with Some _ => pLevels p | None => zassign id [] (pLevels p) end in
  Params levels (zassign id c (pCoeffs p)) (pIds p) (dassign (getLevel p id) c (pDict p)).

(** std::sort. *)
Fixpoint insertSorted (x : Z) (l : list Z) : list Z :=
  match l with [] => [x] | y :: l' => if x <=? y then x :: l else y :: insertSorted x l' end.
Definition sortZ (l : list Z) : list Z := fold_right insertSorted [] l.
(** std::set_difference of two ascending sequences. *)
Fixpoint setDiff (a : list Z) : list Z -> list Z :=
  match a with
  | [] => fun _ => []
  | x :: a' => fix go (b : list Z) : list Z :=
      match b with
      | [] => x :: a'
      | y :: b' => if x <? y then x :: setDiff a' b else if y <? x then go b' else setDiff a' b'
      end
  end.

(** Result of recomputeOptimumCoefficients: the parameters, the sorted faults, the tasks to redistribute, the tasks to
    recompute. *)
Record recomputed := Recomputed { rParams : params; rFaults : list Z; rRedistribute : list Z; rRecompute : list Z }.
(** ProcessManager.hpp:731-739: the program handed to GLPK. *)
Definition faultLevels (p : params) (faults : list Z) : list (list Z) := map (getLevel p) faults.
Definition programOf (p : params) (lmin lmax : list Z) (faults : list Z) : option setup :=
  construct lmin lmax (pDict p) (faultLevels p faults).
(** new_dict[lvl] of line 756. *)
Definition newCoeff (d : dict Qc) (l : list Z) : Qc := match dfind l d with Some c => c | None => 0%Qc end.
(** ProcessManager.hpp:726-789, recomputeOptimumCoefficients for the solution [w] (compiled with NDEBUG: the assertion on
    the sum of the coefficients in line 771 is left out; C82 proves the sum). Both output vectors are empty before. *)
Definition recomputeOptimum (p : params) (lmin lmax : list Z) (faults : list Z) (w : list Qc) : option recomputed :=
  match programOf p lmin lmax faults with
  | None => None
  | Some s =>
      if (numFaults s =? 0)%nat then Some (Recomputed p faults [] [])
      else match getResults s w with
           | None => None
           | Some (out, rec) =>
               let ids := zseq 0 (length (pLevels p)) in
               let levels := map (getLevel p) ids in
               let p' := setLevelsCoeffs p ids levels (map (newCoeff out) levels) in
               let recIds := sortZ (map (fun l => match dfind l (pIds p') with Some i => i | None => 0 end) rec) in
               let sorted := sortZ faults in
               Some (Recomputed p' sorted (setDiff sorted recIds) recIds)
           end
  end.

(** ProcessManager.cpp:342-357, restoreCombischeme up to sending the parameters. *)
Definition restoreCombischeme (p : params) (lmin lmax : list Z) : params :=
  let s := makeFaultTolerant lmax (adaptiveScheme lmin lmax) in
  fold_left (fun q lc => let (i, q') := getID q (fst lc) in setCoeff q' i (zq (snd lc)))
            (combine (sSpaces s) (sCoeffs s)) p.

(** StaticFaults.cpp:10-27, failNow: [its] and [ranks] are iterationFaults_ and globalRankFaults_; std::find gives the next
    position with the iteration. [None]: line 22 reads past the end of the ranks. *)
Fixpoint failFrom (its : list Z) (idx : nat) (ranks : list Z) (ncombi rank : Z) : option bool :=
  match its with
  | [] => Some false
  | x :: r => if x =? ncombi
              then match nth_error ranks idx with
                   | None => None
                   | Some q => if rank =? q then Some true else failFrom r (S idx) ranks ncombi rank
                   end
              else failFrom r (S idx) ranks ncombi rank
  end.
Definition failNow (its ranks : list Z) (ncombi rank : Z) : option bool := failFrom its 0 ranks ncombi rank.
