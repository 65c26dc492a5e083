(** The older Reich-Moore interface: one resonance, the 3x3 K matrix of one J and its two
    solvers.  Paths are relative to /repo/src/resonanceReconstruction/reichMoore.
    Units are dropped; [None] is a number that is not finite. *)
From Coq Require Import Reals.
From mathcomp Require Import all_ssreflect all_algebra.
From Verif Require Import Cplx.
Set Implicit Arguments.
Unset Strict Implicit.
Unset Printing Implicit Defensive.
Local Open Scope ring_scope.

(** std::sqrt of a double, and 1. / x *)
Definition fsqrt (x : R) : option R := if Rlt_dec x 0%re then None else Some (sqrt x).
Definition frecip (x : R) : option R := if Req_EM_T x 0%re then None else Some (/ x)%re.

(** Resonance.hpp:1-12 *)
Record rm_resonance : Type := mkRM
  { rm_energy : R; rm_rootNeutron : option R; rm_capture : R; rm_rootA : R; rm_rootB : R;
    rm_inverseRoot : option R; rm_flagged : R }.

(** Resonance/src/ctor.hpp:1-16 *)
Definition signed_root (w : R) : R := ((if Rlt_dec w 0 then -1 else 1) * sqrt (Rabs w))%re.
Definition makeRM (energy neutronWidth captureWidth fissionWidthA fissionWidthB
    penetrationFactor flagged : R) : rm_resonance :=
  mkRM energy (fsqrt neutronWidth) captureWidth (signed_root fissionWidthA)
       (signed_root fissionWidthB)
       (if fsqrt penetrationFactor is Some p then frecip p else None) flagged.

(** Matrix3x3: the elements by row and column *)
Definition matrix3 : Type := nat -> nat -> cx.
Definition zero3 : matrix3 := fun _ _ => 0.
(** element += z *)
Definition add_at (K : matrix3) (i j : nat) (z : cx) : matrix3 :=
  fun a b => if (a == i) && (b == j) then K a b + z else K a b.

(** Resonance/src/call.hpp:1-37: the matrix after the call, and the value returned *)
Definition rm_call (r : rm_resonance) (energy rootPenetrationFactor : R) (K : matrix3)
    : option (matrix3 * bool) :=
  if (rm_rootNeutron r, rm_inverseRoot r) is (Some root, Some inverse) then
    let rootNeutronWidth := (root * inverse * rootPenetrationFactor)%re in
    let energyDifference := (rm_energy r - energy)%re in
    if frecip (4 * (energyDifference * energyDifference)
               + rm_capture r * rm_capture r)%re is Some denominator then
      let realFactor := (rm_capture r * denominator)%re in
      let imaginaryFactor := (-2 * energyDifference * denominator)%re in
      let accumulate K i j (width0 width1 : R) :=
        let product := (width0 * width1)%re in
        add_at K i j (Cx (product * realFactor)%re (product * imaginaryFactor)%re) in
      let K := accumulate K 0%N 0%N rootNeutronWidth rootNeutronWidth in
      if Req_EM_T (rm_rootA r) 0%re then
        if Req_EM_T (rm_rootB r) 0%re then Some (K, false)
        else
          let K := accumulate K 0%N 1%N rootNeutronWidth (rm_rootA r) in
          let K := accumulate K 0%N 2%N rootNeutronWidth (rm_rootB r) in
          let K := accumulate K 1%N 1%N (rm_rootA r) (rm_rootA r) in
          let K := accumulate K 1%N 2%N (rm_rootA r) (rm_rootB r) in
          let K := accumulate K 2%N 2%N (rm_rootB r) (rm_rootB r) in
          Some (K, true)
      else
        let K := accumulate K 0%N 1%N rootNeutronWidth (rm_rootA r) in
        let K := accumulate K 0%N 2%N rootNeutronWidth (rm_rootB r) in
        let K := accumulate K 1%N 1%N (rm_rootA r) (rm_rootA r) in
        let K := accumulate K 1%N 2%N (rm_rootA r) (rm_rootB r) in
        let K := accumulate K 2%N 2%N (rm_rootB r) (rm_rootB r) in
        Some (K, true)
    else None
  else None.

(** Lvalue/src/call.hpp:24-33: every resonance of the group adds to the matrix; the results
    are combined with logical_or, which does not skip calls here *)
Fixpoint rm_sum (rs : list rm_resonance) (energy rootPenetrationFactor : R) (K : matrix3)
    (hasFission : bool) : option (matrix3 * bool) :=
  match rs with
  | [::] => Some (K, hasFission)
  | r :: rest =>
      if rm_call r energy rootPenetrationFactor K is Some (K', b)
      then rm_sum rest energy rootPenetrationFactor K' (hasFission || b) else None
  end.

(** rMatrix.triangularView< Eigen::Lower >() = rMatrix.transpose(): the lower triangle and
    the diagonal are assigned *)
Definition copy_lower (K : matrix3) : matrix3 := fun i j => if (j <= i)%N then K j i else K i j.
Definition to_matrix (K : matrix3) : 'M[cx]_3 := \matrix_(i, j) K i j.
Definition o0 : 'I_3 := @Ordinal 3 0 isT.
Definition o1 : 'I_3 := @Ordinal 3 1 isT.
Definition o2 : 'I_3 := @Ordinal 3 2 isT.

(** std::abs of a complex number *)
Definition cabs (z : cx) : R := sqrt (norm2 z).

(** Lvalue/src/solveRmatrix.hpp:1-24: total, elastic, fission and the statistical factor.
    The Eigen inverse is the exact one where it exists. *)
Definition solveRmatrix (rMatrix : matrix3) (cos2Phi sin2Phi statisticalFactor : R)
    : option (R * R * R * R) :=
  let rMatrix := copy_lower rMatrix in
  let M : 'M[cx]_3 := 1%:M + to_matrix rMatrix in
  if M \in unitmx then
    let collisionMatrix := Cx cos2Phi (- sin2Phi)%re *: (rcx 2%re *: invmx M - 1%:M) in
    let u00 : cx := collisionMatrix o0 o0 in
    let u01 : cx := collisionMatrix o0 o1 in
    let u02 : cx := collisionMatrix o0 o2 in
    let a00 := cabs (1 - u00) in
    let a01 := cabs (u01 * u01) in
    let a02 := cabs (u02 * u02) in
    let total := (2 * statisticalFactor * (1 - re u00))%re in
    let elastic := (statisticalFactor * (a00 * a00))%re in
    let fission := (statisticalFactor * (a01 + a02))%re in
    Some (total, elastic, fission, statisticalFactor)
  else None.

(** Lvalue/src/solveRfunction.hpp:20-21: the branch that is taken *)
Definition expands (rMatrix : matrix3) (phaseShift : R) : bool :=
  if Rlt_dec (3 / 10000) (Rabs (re (1 + rMatrix 0%N 0%N))) then false
  else if Rlt_dec (3 / 10000) (Rabs phaseShift) then false else true.

(** Lvalue/src/solveRfunction.hpp:1-54 *)
Definition solveRfunction (rMatrix : matrix3) (cos2Phi sin2Phi statisticalFactor phaseShift : R)
    : option (R * R * R * R) :=
  let rMatrixEntry := 1 + rMatrix 0%N 0%N in
  let conjugateProduct := re (rMatrixEntry * conj rMatrixEntry) in
  if frecip conjugateProduct is Some denominator then
    let real := (re rMatrixEntry * denominator)%re in
    let imaginary := (- im rMatrixEntry * denominator)%re in
    let collisionMatrixElement :=
      Cx (cos2Phi * (2 * real - 1) + 2 * imaginary * sin2Phi)%re
         (- sin2Phi * (2 * real - 1) + 2 * imaginary * cos2Phi)%re in
    if expands rMatrix phaseShift then
      let expansion := (2 * denominator * (re rMatrixEntry + conjugateProduct
                        + sin2Phi * im rMatrixEntry
                        + phaseShift * phaseShift * (1 - conjugateProduct)))%re in
      Some ((2 * statisticalFactor * expansion)%re,
            (statisticalFactor * (expansion * expansion
               + im collisionMatrixElement * im collisionMatrixElement))%re,
            0%re, statisticalFactor)
    else
      let conjugateComplement := 1 - conj collisionMatrixElement in
      Some ((2 * statisticalFactor * re conjugateComplement)%re,
            (statisticalFactor * re (conjugateComplement * conj conjugateComplement)%R)%re,
            0%re, statisticalFactor)
  else None.

(** Lvalue/src/call.hpp:22-42: one group, [front] its first resonance *)
Definition rm_Jgroup (energy rootPenetrationFactor phaseShift : R) (front : rm_resonance)
    (rs : list rm_resonance) : option (R * R * R * R) :=
  let sin2Phi := sin (2 * phaseShift)%re in
  let cos2Phi := cos (2 * phaseShift)%re in
  if rm_sum rs energy rootPenetrationFactor zero3 false is Some (rMatrix, hasFission) then
    let statisticalFactor := Rabs (rm_flagged front) in
    if hasFission then solveRmatrix rMatrix cos2Phi sin2Phi statisticalFactor
    else solveRfunction rMatrix cos2Phi sin2Phi statisticalFactor phaseShift
  else None.
