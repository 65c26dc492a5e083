(** The irregular Coulomb function near the turning point rho = 2 eta of l = 0.  With
    rho = 2 eta + (2 eta)^(1/3) x and e = (2 eta)^(-2/3) the Coulomb equation becomes
    (1 + e x) W'' + x W = 0, whose solutions are sought as series in e of
    p_k (x) A (x) + q_k (x) A' (x) with polynomials p_k and q_k and an Airy function A of - x. *)
From Coq Require Import Reals List.
From Coquelicot Require Import Coquelicot.
Import ListNotations.
Open Scope R_scope.

(** A (x) = Ai (- x) or Bi (- x), or a combination of them, with its derivative *)
Definition airy (A A1 : R -> R) : Prop := forall x, is_derive A x (A1 x) /\ is_derive A1 x (- x * A x).

Fixpoint polynomial (l : list R) (x : R) : R :=
  match l with [] => 0 | a :: l => a + x * polynomial l x end.

(** What multiplies A and A' in W'' + x W for W = p A + q A' *)
Definition defect_p (p q : R -> R) (x : R) : R := Derive_n p 2 x - q x - 2 * x * Derive q x.
Definition defect_q (p q : R -> R) (x : R) : R := 2 * Derive p x + Derive_n q 2 x.

(** The Wronskian of the sums for two Airy functions at the turning point is that of the Airy
    functions, times the product of this series *)
Definition wronskian_term (p q : nat -> R -> R) (i j : nat) : R := p i 0 * (p j 0 + Derive (q j) 0) - q i 0 * Derive (p j) 0.

Record turning_expansion (n : nat) (p q : nat -> R -> R) : Prop := {
  te_polynomial : forall k, (k <= n)%nat -> exists l m, forall x, p k x = polynomial l x /\ q k x = polynomial m x;
  te_first : forall x, p 0%nat x = 1 /\ q 0%nat x = 0;
  te_order : forall k x, (k < n)%nat ->
    defect_p (p (S k)) (q (S k)) x + x * (defect_p (p k) (q k) x - x * p k x) = 0 /\
    defect_q (p (S k)) (q (S k)) x + x * (defect_q (p k) (q k) x - x * q k x) = 0;
  te_wronskian : forall k, (k < n)%nat -> sum_f_R0 (fun i => wronskian_term p q i (S k - i)) (S k) = 0
}.

(** The sum of the first orders *)
Definition expansion (n : nat) (p q : nat -> R -> R) (A A1 : R -> R) (e x : R) : R :=
  sum_f_R0 (fun k => e ^ k * (p k x * A x + q k x * A1 x)) n.

(** Euler's limit for the gamma function *)
Fixpoint rising (x : R) (n : nat) : R :=
  match n with O => x | S m => rising x m * (x + INR n) end.
Definition is_Gamma (x g : R) : Prop := is_lim_seq (fun n => INR (fact n) * Rpower (INR n) x / rising x n) g.

(** Bi (0) and Bi' (0), given Gamma (2/3) and Gamma (1/3) *)
Definition Bi_0 (g23 : R) : R := 1 / (Rpower 3 (1 / 6) * g23).
Definition Bi'_0 (g13 : R) : R := Rpower 3 (1 / 6) / g13.

(** G_0 (eta, 2 eta) = sqrt pi (2 eta)^(1/6) (W belonging to A (x) = Bi (- x)) at x = 0, and its
    derivative by rho: the coefficients of eta^(1/6 - 2 k/3) and of eta^(-1/6 - 2 k/3) *)
Definition G_coefficient (p q : nat -> R -> R) (g13 g23 : R) (k : nat) : R :=
  sqrt PI * Rpower 2 (1 / 6 - 2 * INR k / 3) * (p k 0 * Bi_0 g23 - q k 0 * Bi'_0 g13).
Definition G'_coefficient (p q : nat -> R -> R) (g13 g23 : R) (k : nat) : R :=
  sqrt PI * Rpower 2 (- (1 / 6) - 2 * INR k / 3) * (Derive (p k) 0 * Bi_0 g23 - (p k 0 + Derive (q k) 0) * Bi'_0 g13).
