(** Textbook R-matrix theory, used to state the properties of RMatrixModel. *)
From Coq Require Import Reals.
From mathcomp Require Import all_ssreflect all_algebra.
From Verif Require Import Cplx RMatrixModel.
Set Implicit Arguments.
Unset Strict Implicit.
Unset Printing Implicit Defensive.
Local Open Scope ring_scope.

(** conjugate transpose *)
Definition dag p q (A : 'M[cx]_(p, q)) : 'M[cx]_(q, p) := map_mx conj A^T.

Section Spec.
Variables (n : nat) (b : boundary_option) (energy : R) (table : seq resonance) (vs : seq values).

Definition val_of (i : 'I_n) : values := nth no_values vs i.
Definition width (r : resonance) (i : 'I_n) : R := nth 0%re (rs_widths r) i.
Definition isclosed (i : 'I_n) : bool := v_closed (val_of i).
(** reduced width seen at this energy: zero in a closed channel *)
Definition open_width (r : resonance) (i : 'I_n) : R := if isclosed i then 0%re else width r i.
(** E_r - E - i Gamma/2 *)
Definition denominator (r : resonance) : cx :=
  Cx (rs_energy r - energy)%re (- (rs_eliminated r * rs_eliminated r))%re.

(** R_ij = sum over the resonances of gamma_i gamma_j / ( E_r - E - i Gamma/2 ) *)
Definition R_spec : 'M[cx]_n :=
  \matrix_(i, j) \sum_(r <- table) rcx (open_width r i * open_width r j)%re / denominator r.
(** L = S - B + iP, or iP when B is chosen to be S *)
Definition L_spec : 'M[cx]_n :=
  diag_mx (\row_i Cx (if b is Constant then v_S (val_of i) - v_B (val_of i) else 0)%re
                     (v_P (val_of i))).
(** R_L is the solution of (1 - RL) R_L = R. *)
Definition is_RL (A : 'M[cx]_n) : Prop :=
  (1%:M - R_spec *m L_spec) \in unitmx /\ (1%:M - R_spec *m L_spec) *m A = R_spec.
(** P^1/2, Omega, T = P^1/2 R_L P^1/2 and U = Omega (1 + 2i T) Omega *)
Definition sqrtP_mx : 'M[cx]_n := diag_mx (\row_i rcx (sqrt (v_P (val_of i)))).
Definition omega_mx : 'M[cx]_n := diag_mx (\row_i cis (v_w (val_of i) - v_phi (val_of i))%re).
Definition T_spec (A : 'M[cx]_n) : 'M[cx]_n := sqrtP_mx *m A *m sqrtP_mx.
Definition U_spec (A : 'M[cx]_n) : 'M[cx]_n :=
  omega_mx *m (1%:M + (ci + ci) *: T_spec A) *m omega_mx.

(** What the channels have to satisfy: penetrabilities are not negative, and an open channel
    has a non-zero penetrability or no entry in L. *)
Definition physical : Prop :=
  forall i : 'I_n, (0 <= v_P (val_of i))%re /\
    (isclosed i \/ (0 < v_P (val_of i))%re \/ (b = ShiftFactor)).
(** No resonance is evaluated exactly at its energy without an eliminated width. *)
Definition regular : Prop :=
  forall r, List.In r table -> rs_energy r <> energy \/ rs_eliminated r <> 0%re.
(** Every resonance has a width for every channel (verifyTable). *)
Definition sized : Prop := forall r, List.In r table -> size (rs_widths r) = n.
End Spec.

(** A resonance with the widths of the closed channels set to zero, and channels all open. *)
Definition mask_closed (vs : seq values) (r : resonance) : resonance :=
  Resonance (rs_energy r)
    [seq (if v_closed (nth no_values vs i) then 0%re else nth 0%re (rs_widths r) i)
       | i <- iota 0 (size (rs_widths r))]
    (rs_eliminated r).
Definition open_all (v : values) : values :=
  Values (v_P v) (v_S v) (v_B v) (v_phi v) (v_w v) false.

(** The transition from channel c to channel c': |delta - U|^2 in units of pi/k^2 g *)
Definition transition n (U : 'M[cx]_n) (c c' : 'I_n) : R :=
  norm2 ((if c' == c then 1 else 0) - U c c').
Definition total_of (l : seq R) : R := \big[Rplus/0%re]_(x <- l) x.
