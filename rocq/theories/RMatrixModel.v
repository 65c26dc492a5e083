(** Evaluation of a Reich-Moore spin group: R matrix, L matrix, R_L = (1 - RL)^-1 R,
    collision matrix, cross sections and T matrix.
    Paths are relative to /repo/src/resonanceReconstruction/rmatrix.

    The channels enter through the numbers their member functions return at the given energy
    (record [values]); SpinGroupModel computes those numbers from the channel data.
    [None] stands for a result that is not finite (a division by zero, the inverse of a
    singular matrix). *)
From Coq Require Import Reals.
From mathcomp Require Import all_ssreflect all_algebra.
From Verif Require Import Cplx.
Set Implicit Arguments.
Unset Strict Implicit.
Unset Printing Implicit Defensive.
Local Open Scope ring_scope.

(** Resonance.hpp:13-16 *)
Record resonance : Type := Resonance
  { rs_energy : R; rs_widths : seq R; rs_eliminated : R }.

(** The numbers returned by a channel at one energy: Channel/src/penetrability.hpp,
    shiftFactor.hpp, phaseShift.hpp, coulombPhaseShift.hpp, belowThreshold.hpp and
    boundaryCondition() of Channel.hpp:75. *)
Record values : Type := Values
  { v_P : R; v_S : R; v_B : R; v_phi : R; v_w : R; v_closed : bool }.
Definition no_values := Values 0%re 0%re 0%re 0%re 0%re false.

(** 1. / std::complex< double >( ... ); not finite for a zero divisor *)
Definition recip (z : cx) : option cx := if z == 0 then None else Some z^-1.

(** Resonance/src/rmatrix.hpp:26-32 *)
Definition terminator (r : resonance) (energy : R) : option cx :=
  let deltaEnergy := (rs_energy r - energy)%re in
  let halfCaptureWidth := (rs_eliminated r * rs_eliminated r)%re in
  recip (Cx deltaEnergy (- halfCaptureWidth)%re).

(** Resonance/src/rmatrix.hpp:34-47: the cartesian product of the widths with themselves in
    row-major order, each product times the terminator, cut in chunks of [size]. *)
Definition rmatrix (r : resonance) (energy : R) : option (seq (seq cx)) :=
  let widths := rs_widths r in
  let size := size widths in
  match terminator r energy with
  | None => None
  | Some t =>
      let flat := [seq rcx (x * y)%re * t | x <- widths, y <- widths] in
      Some (reshape (nseq size size) flat)
  end.

(** rmatrix[c][cprime] *)
Definition entry (m : seq (seq cx)) (c c' : nat) : cx := nth 0 (nth [::] m c) c'.

Fixpoint all_some (A : Type) (l : seq (option A)) : option (seq A) :=
  match l with
  | [::] => Some [::]
  | None :: _ => None
  | Some a :: r => omap (cons a) (all_some r)
  end.

(** LMatrixCalculator/Constant.hpp and LMatrixCalculator/ShiftFactor.hpp *)
Inductive boundary_option := Constant | ShiftFactor.

(** What the calculators store between calls: LMatrixCalculator/Constant.hpp:12,
    RLMatrixCalculator/ReichMoore.hpp:10-12.  A diagonal matrix is its diagonal. *)
Record cache (n : nat) : Type := Cache
  { ca_l : 'rV[cx]_n; ca_r : 'M[cx]_n; ca_rl : 'M[cx]_n }.

(** Assignment to one element of the diagonal. *)
Definition set_diag n (d : 'rV[cx]_n) (i : 'I_n) (z : cx) : 'rV[cx]_n :=
  \row_j (if j == i then z else d 0 j).

(** LMatrixCalculator/Constant/src/call.hpp:10-36, LMatrixCalculator/ShiftFactor/src/
    call.hpp:10-23: setZero, then the elements one by one. *)
Definition lvalue (b : boundary_option) (v : values) : cx :=
  match b with
  | Constant => Cx (v_S v - v_B v)%re (v_P v)
  | ShiftFactor => Cx 0%re (v_P v)
  end.
Definition lmatrix n (b : boundary_option) (vs : seq values) (old : 'rV[cx]_n) : 'rV[cx]_n :=
  let cleared := 0 *: old in
  foldl (fun d i => set_diag d i (lvalue b (nth no_values vs i))) cleared (enum 'I_n).

(** RLMatrixCalculator/ReichMoore/src/call.hpp:24-33; [old] is the stored matrix, which is
    first overwritten with Zero( size, size ). *)
Definition accumulate n (ms : seq (seq (seq cx))) (old : 'M[cx]_n) : 'M[cx]_n :=
  let zero : 'M[cx]_n := 0 *: old in
  foldl (fun (M : 'M[cx]_n) m => \matrix_(c, c') (M c c' + entry m c c')) zero ms.

(** RLMatrixCalculator/ReichMoore/src/call.hpp:43-50 *)
Definition set_zero n (M : 'M[cx]_n) (c : 'I_n) : 'M[cx]_n :=
  \matrix_(i, j) (if (i == c) || (j == c) then 0 else M i j).
Definition zero_thresholds n (vs : seq values) (M : 'M[cx]_n) : 'M[cx]_n :=
  foldl (fun M c => if v_closed (nth no_values vs (val c)) then set_zero M c else M) M (enum 'I_n).

(** RLMatrixCalculator/ReichMoore/src/call.hpp:11-59.  The Eigen inverse is the exact one
    where it exists.  Returns the new stored matrices as well. *)
Definition rl_call n (b : boundary_option) (energy : R) (table : seq resonance)
    (vs : seq values) (s : cache n) : option (cache n * 'M[cx]_n) :=
  match all_some [seq rmatrix r energy | r <- table] with
  | None => None
  | Some ms =>
      let r := zero_thresholds vs (accumulate ms (ca_r s)) in
      let l := lmatrix b vs (ca_l s) in
      let t := 1%:M - r *m diag_mx l in
      if t \in unitmx then
        let rl := invmx t *m r in Some (Cache l r rl, rl)
      else None
  end.

(** SpinGroup/src/sqrtPenetrabilities.hpp:1-8 and omegas.hpp:1-8 *)
Definition sqrtP (vs : seq values) (i : nat) : R := sqrt (v_P (nth no_values vs i)).
Definition omega (vs : seq values) (i : nat) : cx :=
  let v := nth no_values vs i in cis (v_w v - v_phi v)%re.

(** SpinGroup/src/evaluate.hpp:50-52.  Eigen stores matrices by columns: element
    [c * size + j] of the data is element (j, c) of the matrix. *)
Definition data n (M : 'M[cx]_n) (c j : 'I_n) : cx := M j c.

(** SpinGroup/src/evaluate.hpp:61-68 *)
Definition uElements n (vs : seq values) (rl : 'M[cx]_n) (c : 'I_n) : seq cx :=
  [seq omega vs c *
       ((if j == c then 1 else 0) + Cx 0%re 2%re * rcx (sqrtP vs c) * data rl c j * rcx (sqrtP vs j))
       * omega vs j | j <- enum 'I_n].

(** SpinGroup/src/evaluate.hpp:71-81 *)
Definition sigma n (vs : seq values) (rl : 'M[cx]_n) (c : 'I_n) : seq R :=
  let exponential := cis (v_w (nth no_values vs c)) in
  let delta := [seq (if j == c then exponential else 0) | j <- enum 'I_n] in
  [seq norm2 (p.1 - p.2) | p <- zip delta (uElements vs rl c)].

(** SpinGroup/src/evaluate.hpp:84-90 *)
Definition capture n (vs : seq values) (rl : 'M[cx]_n) (c : 'I_n) : R :=
  foldl Rminus 1%re [seq norm2 u | u <- uElements vs rl c].

(** SpinGroup/src/evaluate.hpp:93-97 *)
Definition crossSections n (factor : R) (vs : seq values) (rl : 'M[cx]_n) (c : 'I_n) : seq R :=
  [seq (factor * value)%re | value <- sigma vs rl c ++ [:: capture vs rl c]].

(** std::map; result[ key ] += value starts from zero when the key is absent. *)
Section Maps.
Variables (K : eqType) (V : Type).
Definition map_set (key : K) (value : V) (m : K -> option V) : K -> option V :=
  fun k => if k == key then Some value else m k.
End Maps.
Definition map_add (K : eqType) (m : K -> option R) (kv : K * R) : K -> option R :=
  map_set kv.1 (odflt 0%re (m kv.1) + kv.2)%re m.

(** SpinGroup/src/evaluate.hpp:100-103: accumulate under the reaction identifiers, and
    evaluate.hpp:107 over the incident channels *)
Definition processIncidentChannel (K : eqType) n (identifiers : seq K) (factor : R)
    (vs : seq values) (rl : 'M[cx]_n) (result : K -> option R) (c : 'I_n) : K -> option R :=
  foldl (@map_add K) result (zip identifiers (crossSections factor vs rl c)).
Definition processIncidentChannels (K : eqType) n (identifiers : seq K) (factor : R)
    (vs : seq values) (rl : 'M[cx]_n) (incident : seq 'I_n) (result : K -> option R) :=
  foldl (processIncidentChannel identifiers factor vs rl) result incident.

(** SpinGroup/src/evaluateTMatrix.hpp:29-61: the elements of one row and their assignment *)
Definition tElements n (vs : seq values) (rl : 'M[cx]_n) (c : 'I_n) : seq cx :=
  [seq rcx (sqrtP vs c) * data rl c j * rcx (sqrtP vs j) | j <- enum 'I_n].
Definition processChannel (K : eqType) n (key : 'I_n -> 'I_n -> K) (vs : seq values)
    (rl : 'M[cx]_n) (result : K -> option cx) (c : 'I_n) : K -> option cx :=
  foldl (fun m kv => map_set kv.1 kv.2 m) result
    (zip [seq key c j | j <- enum 'I_n] (tElements vs rl c)).
Definition processChannels (K : eqType) n (key : 'I_n -> 'I_n -> K) (vs : seq values)
    (rl : 'M[cx]_n) (result : K -> option cx) : K -> option cx :=
  foldl (processChannel key vs rl) result (enum 'I_n).
