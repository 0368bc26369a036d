(** Model of the one-dimensional (de)hierarchization kernels, src/hierarchization/DistributedHierarchization.hpp.
    A work buffer is a function from indices to values. Values are exact rationals ([Qc]: canonical rationals with
    Leibniz equality); rounding is not modelled, complex values behave like this in each component. *)
From Verif Require Import Base DofModel Level1dModel.
From Coq Require Import QArith Qcanon.
Open Scope Z_scope.

Definition arr := Z -> Qc.

(** Assignment [data[i] = v] (all kernels below). *)
Definition setA (a : arr) (i : Z) (v : Qc) : arr := fun j => if j =? i then v else a j.

(** Constants 0.5, 0.25, 2. of the kernels (645-890). *)
Definition qhalf : Qc := Q2Qc (1 # 2).
Definition qquarter : Qc := Q2Qc (1 # 4).
Definition qtwo : Qc := Q2Qc 2.

(** The inner loops of all kernels (DistributedHierarchization.hpp:651-662, 703-708, 711-716, 748-753, 769-774,
    791-802, 827-832, 835-840, 876-881, 884-889): walk over [n] points starting at [i] with step [stride]; the scaled left
    neighbour [parentL] is carried over from the previous point, the right neighbour at distance [off] is read and scaled
    by [cp]; the point itself is scaled by [cv]. Simplified: the order of the additions is fixed to one of the orders
    used in the code, which is irrelevant in exact arithmetic. *)
Fixpoint stencilLoop (n : nat) (i stride off : Z) (cp cv parentL : Qc) (a : arr) : arr :=
  match n with
  | O => a
  | S n' => let parentR := (cp * a (i + off)%Z)%Qc in
            stencilLoop n' (i + stride) stride off cp cv parentR (setA a i (parentL + parentR + cv * a i)%Qc)
  end.

(** Number of iterations of [for (i = start; i < bound; i += step)] (e.g. 704, 712). *)
Definition forCount (start bound step : Z) : nat :=
  if start <? bound then Z.to_nat ((bound - start + step - 1) / step) else O.

(** DistributedHierarchization.hpp:641-672, hierarchize_hat_boundary_kernel; [n] iterations remain
    (ll = n-1+lmin downwards), [ll] is the loop variable. *)
Fixpoint hatHierLoop (n : nat) (lmax ll steps offset stepsize parentOffset : Z) (a : arr) : arr :=
  match n with
  | O => a
  | S n' =>
      let a' := stencilLoop (Z.to_nat steps) offset stepsize parentOffset (- qhalf)%Qc 1%Qc
                            (- qhalf * a (offset - parentOffset)%Z)%Qc a in
      hatHierLoop n' lmax (ll - 1) (Z.shiftr steps 1) (Z.shiftl 1 (lmax - ll)) (Z.shiftl stepsize 1) stepsize a'
  end.

Definition hatHier (lmax lmin : Z) (a : arr) : arr :=
  hatHierLoop (Z.to_nat (lmax - lmin)) lmax (lmax - 1) (Z.shiftl 1 (lmax - 1)) 1 2 1 a.

(** DistributedHierarchization.hpp:779-810, dehierarchize_hat_boundary_kernel. *)
Fixpoint hatDehierLoop (n : nat) (lmax ll steps offset stepsize parentOffset : Z) (a : arr) : arr :=
  match n with
  | O => a
  | S n' =>
      let a' := stencilLoop (Z.to_nat steps) offset stepsize parentOffset qhalf 1%Qc
                            (qhalf * a (offset - parentOffset)%Z)%Qc a in
      hatDehierLoop n' lmax (ll + 1) (Z.shiftl steps 1) (Z.shiftl 1 (lmax - (ll + 1))) (Z.shiftr stepsize 1)
                    (Z.shiftr parentOffset 1) a'
  end.

Definition hatDehier (lmax lmin : Z) (a : arr) : arr :=
  hatDehierLoop (Z.to_nat (lmax - lmin)) lmax (lmin + 1) (Z.shiftl 1 lmin) (Z.shiftl 1 (lmax - lmin - 1))
                (Z.shiftl 1 (lmax - lmin)) (Z.shiftl 1 (lmax - lmin - 1)) a.

(** The two point loops of the other kernels: odd multiples of the step width (711-716, 748-753, 827-832, 884-889) ... *)
Definition oddLoop (w idxmax : Z) (cp cv : Qc) (a : arr) : arr :=
  stencilLoop (forCount w idxmax (2 * w)) w (2 * w) w cp cv (cp * a 0%Z)%Qc a.

(** ... and inner even multiples (702-708, 768-774, 834-840, 875-881). *)
Definition evenLoop (w idxmax : Z) (cp cv : Qc) (a : arr) : arr :=
  stencilLoop (forCount (2 * w) idxmax (2 * w)) (2 * w) (2 * w) w cp cv (cp * a w)%Qc a.

(** Updates of the two end points: 692-701 (full weighting), ... *)
Definition fwEnds (periodic : bool) (w idxmax : Z) (a : arr) : arr :=
  if periodic then
    let a1 := setA a 0%Z (qquarter * (a 0%Z + a idxmax + a w + a (idxmax - w)%Z))%Qc in setA a1 idxmax (a1 0%Z)
  else
    let a1 := setA a 0%Z (qhalf * (a 0%Z + a w))%Qc in setA a1 idxmax (qhalf * (a1 idxmax + a1 (idxmax - w)%Z))%Qc.

(** ... 842-850 (its inverse), ... *)
Definition fwEndsInv (periodic : bool) (w idxmax : Z) (a : arr) : arr :=
  if periodic then
    let a1 := setA a 0%Z ((a 0%Z + a idxmax) - qhalf * (a w + a (idxmax - w)%Z))%Qc in setA a1 idxmax (a1 0%Z)
  else
    let a1 := setA a 0%Z (qtwo * a 0%Z - a w)%Qc in setA a1 idxmax (qtwo * a1 idxmax - a1 (idxmax - w)%Z)%Qc.

(** ... 755-766 (biorthogonal), ... *)
Definition bioEnds (periodic : bool) (w idxmax : Z) (a : arr) : arr :=
  if periodic then
    let a1 := setA a 0%Z (qhalf * (a 0%Z + a idxmax) + qquarter * (a w + a (idxmax - w)%Z))%Qc in setA a1 idxmax (a1 0%Z)
  else
    let a1 := setA a 0%Z (a 0%Z + qhalf * a w)%Qc in setA a1 idxmax (a1 idxmax + qhalf * a1 (idxmax - w)%Z)%Qc.

(** ... 867-874 (its inverse). *)
Definition bioEndsInv (periodic : bool) (w idxmax : Z) (a : arr) : arr :=
  if periodic then
    let a1 := setA a 0%Z (- qquarter * (a w + a (idxmax - w)%Z) + qhalf * (a 0%Z + a idxmax))%Qc in setA a1 idxmax (a1 0%Z)
  else
    let a1 := setA a 0%Z (a 0%Z - qhalf * a w)%Qc in setA a1 idxmax (a1 idxmax - qhalf * a1 (idxmax - w)%Z)%Qc.

(** One pass of the level loop of hierarchize_full_weighting_boundary_kernel, 689-717. *)
Definition fwHierStep (periodic : bool) (idxmax ldiff : Z) (a : arr) : arr :=
  let w := powerOfTwo ldiff in
  oddLoop w idxmax (- qhalf)%Qc 1%Qc (evenLoop w idxmax qquarter qhalf (fwEnds periodic w idxmax a)).

(** dehierarchize_full_weighting_boundary_kernel, 822-851. *)
Definition fwDehierStep (periodic : bool) (idxmax ldiff : Z) (a : arr) : arr :=
  let w := powerOfTwo ldiff in
  fwEndsInv periodic w idxmax (evenLoop w idxmax (- qhalf)%Qc qtwo (oddLoop w idxmax qhalf 1%Qc a)).

(** hierarchize_biorthogonal_boundary_kernel, 745-775. *)
Definition bioHierStep (periodic : bool) (idxmax ldiff : Z) (a : arr) : arr :=
  let w := powerOfTwo ldiff in
  evenLoop w idxmax qquarter 1%Qc (bioEnds periodic w idxmax (oddLoop w idxmax (- qhalf)%Qc 1%Qc a)).

(** dehierarchize_biorthogonal_boundary_kernel, 863-890. *)
Definition bioDehierStep (periodic : bool) (idxmax ldiff : Z) (a : arr) : arr :=
  let w := powerOfTwo ldiff in
  oddLoop w idxmax qhalf 1%Qc (evenLoop w idxmax (- qquarter)%Qc 1%Qc (bioEndsInv periodic w idxmax a)).

(** The level loops: [for (ldiff = 0; ldiff < lmax - lmin; ++ldiff)] (689, 745) ... *)
Definition upLevels (step : Z -> arr -> arr) (k : Z) (a : arr) : arr :=
  fold_left (fun b ldiff => step ldiff b) (zrange 0 k) a.

(** ... and [for (ldiff = lmax - lmin - 1; ldiff >= 0; --ldiff)] (822, 863). *)
Definition downLevels (step : Z -> arr -> arr) (k : Z) (a : arr) : arr :=
  fold_left (fun b ldiff => step ldiff b) (rev (zrange 0 k)) a.

Definition fwHier (periodic : bool) (lmax lmin : Z) (a : arr) : arr :=
  upLevels (fwHierStep periodic (powerOfTwo lmax)) (lmax - lmin) a.
Definition fwDehier (periodic : bool) (lmax lmin : Z) (a : arr) : arr :=
  downLevels (fwDehierStep periodic (powerOfTwo lmax)) (lmax - lmin) a.
Definition bioHier (periodic : bool) (lmax lmin : Z) (a : arr) : arr :=
  upLevels (bioHierStep periodic (powerOfTwo lmax)) (lmax - lmin) a.
Definition bioDehier (periodic : bool) (lmax lmin : Z) (a : arr) : arr :=
  downLevels (bioDehierStep periodic (powerOfTwo lmax)) (lmax - lmin) a.

(** The basis functions that can be chosen per dimension, src/hierarchization/CombiLinearBasisFunction.hpp:27-74. *)
Inductive basis := Hat | HatPeriodic | FullWeighting | FullWeightingPeriodic | Biorthogonal | BiorthogonalPeriodic.

(** DistributedHierarchization.hpp:1148-1179: the kernel chosen for a basis. The non-periodic biorthogonal basis really
    is dispatched to the full weighting kernel (1166-1169). *)
Definition hierKernel (f : basis) : Z -> Z -> arr -> arr :=
  match f with
  | Hat | HatPeriodic => hatHier
  | FullWeighting => fwHier false
  | FullWeightingPeriodic => fwHier true
  | Biorthogonal => fwHier false
  | BiorthogonalPeriodic => bioHier true
  end.

(** DistributedHierarchization.hpp:1230-1261. *)
Definition dehierKernel (f : basis) : Z -> Z -> arr -> arr :=
  match f with
  | Hat | HatPeriodic => hatDehier
  | FullWeighting => fwDehier false
  | FullWeightingPeriodic => fwDehier true
  | Biorthogonal => fwDehier false
  | BiorthogonalPeriodic => bioDehier true
  end.

(** One point of the loops of hierarchizeNoBoundary (1016-1032, sign -) and dehierarchizeNoBoundary (1098-1114, sign +):
    neighbours outside of the domain count as 0. [n] is the global number of points. *)
Definition noBoundaryPoint (sign : Qc) (n parentOffset idx : Z) (a : arr) : arr :=
  let left := if idx - parentOffset >? 0 then a (idx - parentOffset) else 0%Qc in
  let right := if idx + parentOffset <? n then a (idx + parentOffset) else 0%Qc in
  setA a idx (a idx + sign * qhalf * right + sign * qhalf * left)%Qc.

(** The loop over the points of one level. *)
Definition noBoundaryLevel (sign : Qc) (n parentOffset first bound : Z) (a : arr) : arr :=
  fold_left (fun b idx => noBoundaryPoint sign n parentOffset idx b)
            (zprog first (2 * parentOffset) (forCount first bound (2 * parentOffset))) a.

(** DistributedHierarchization.hpp:627-638, getFirstIndexOfLevel1d on a grid without boundary; the local part of the pole
    is [lo, up). *)
Definition firstIndexOfLevel (L lo up l : Z) : Z :=
  match find (fun i => getLevel 0 L i =? l) (zrange lo up) with Some i => i | None => -1 end.

(** DistributedHierarchization.hpp:1004-1034, kernel of hierarchizeNoBoundary: levels lmax downto 1, local points only. *)
Definition noBoundaryHier (L n lo up : Z) (a : arr) : arr :=
  fold_left (fun b l => let first := firstIndexOfLevel L lo up l in
                        if first >? -1 then noBoundaryLevel (- (1))%Qc n (powerOfTwo (L - l)) first up b else b)
            (rev (zrange 1 (L + 1))) a.

(** DistributedHierarchization.hpp:1086-1116, kernel of dehierarchizeNoBoundary: levels 2 to lmax, all points. *)
Definition noBoundaryDehier (L n : Z) (a : arr) : arr :=
  fold_left (fun b l => noBoundaryLevel 1%Qc n (powerOfTwo (L - l)) (powerOfTwo (L - l) - 1) n b)
            (zrange 2 (L + 1)) a.

(** DistributedHierarchization.hpp:927-943 (and 993-1001, 1075-1084): the work buffer of one pole. [stale] is what the
    thread-local buffer contained before (917, 1063), [remote] the received values by global index, [local] the values of
    the own points [lo, up); one-sided grids ([b] = 1) get a virtual last value. *)
Definition loadPole (b n lo up : Z) (stale : arr) (remote : list (Z * Qc)) (local : arr) : arr :=
  let t1 := fold_left (fun t r => setA t (fst r) (snd r)) remote stale in
  let t2 := fold_left (fun t i => setA t i (local i)) (zrange lo up) t1 in
  if b =? 1 then setA t2 n (t2 0) else t2.

(** DistributedHierarchization.hpp:1145-1184 for one pole: the values of the own points afterwards ([None] is the
    exception for other bases on grids without boundary). *)
Definition hierPole (f : basis) (b L lmin n lo up : Z) (stale : arr) (remote : list (Z * Qc)) (local : arr) : option arr :=
  if lmin >=? L then Some local
  else
    let t := loadPole b n lo up stale remote local in
    if b >? 0 then Some (hierKernel f L lmin t)
    else match f with Hat => Some (noBoundaryHier L n lo up t) | _ => None end.

(** DistributedHierarchization.hpp:1226-1267 for one pole. *)
Definition dehierPole (f : basis) (b L lmin n lo up : Z) (stale : arr) (remote : list (Z * Qc)) (local : arr) : option arr :=
  if lmin >=? L then Some local
  else
    let t := loadPole b n lo up stale remote local in
    if b >? 0 then Some (dehierKernel f L lmin t)
    else match f with Hat => Some (noBoundaryDehier L n t) | _ => None end.
