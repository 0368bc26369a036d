(** Compensated summation as it occurs in DistributedSparseGridUniform.hpp:851-861 (adding a full grid to the sparse grid),
    InterpolationWorker.hpp:25-32 (interpolated values) and ProcessManager.cpp:434-448 (norms of the combined solution). *)
From Verif Require Import Base.
From Coq Require Import QArith Qcanon.
Open Scope Z_scope.

(** One summand; the state is the sum and the compensation. [rnd] is the rounding after each operation; the other models
    take the identity. *)
Definition kahanStep (rnd : Qc -> Qc) (st : Qc * Qc) (x : Qc) : Qc * Qc :=
  let y := rnd (x - snd st)%Qc in
  let t := rnd (fst st + y)%Qc in
  (t, rnd (rnd (t - fst st)%Qc - y)%Qc).

Definition kahanSum (rnd : Qc -> Qc) (xs : list Qc) (st : Qc * Qc) : Qc * Qc := fold_left (kahanStep rnd) xs st.
