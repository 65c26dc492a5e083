(** Averages over widths that follow chi-square distributions: the integrals the fluctuation
    integrals stand for.  Nothing is taken from the model. *)
From Coq Require Import Reals.
From Coquelicot Require Import Coquelicot.
From Verif Require Import UnresolvedSpec.
Open Scope R_scope.

(** An integral over the positive axis *)
Definition integral (f : R -> R) (v : R) : Prop := is_RInt_gen f (at_right 0) (Rbar_locally p_infty) v.
(** The density of the chi-square distribution with n degrees of freedom and mean one, but for
    its normalisation *)
Definition chi2 (n : nat) (y : R) : R := Rpower y (INR n / 2 - 1) * exp (- (INR n / 2 * y)).
(** The mean of a function of a variable with that distribution *)
Definition mean (n : nat) (f : R -> R) (v : R) : Prop :=
  exists N A, integral (chi2 n) N /\ 0 < N /\ integral (fun y => f y * chi2 n y) A /\ v * N = A.
(** A width that is zero does not fluctuate. *)
Definition mean_of (G : R) (n : nat) (f : R -> R) (v : R) : Prop := (G = 0 -> v = f 1) /\ (G <> 0 -> mean n f v).
(** Mean over three independent widths *)
Definition mean3 (m1 m2 m3 : (R -> R) -> R -> Prop) (f : R -> R -> R -> R) (v : R) : Prop :=
  exists g h, (forall x y, 0 < x -> 0 < y -> m3 (f x y) (g x y)) /\ (forall x, 0 < x -> m2 (g x) (h x)) /\ m1 h v.

(** The means of Gamma_n Gamma_i / Gamma over the widths, where the widths are the average
    widths times independent variables of mean one and the capture width does not fluctuate;
    divided by the average of Gamma_n.  They add up to one. *)
Section Widths.
Variables (Gn Gg Gf Gx : R) (dn df dx : nat).
Definition over_widths : (R -> R -> R -> R) -> R -> Prop := mean3 (mean dn) (mean_of Gf df) (mean_of Gx dx).
Definition total (x y z : R) : R := x * Gn + Gg + y * Gf + z * Gx.
Definition exact_elastic : R -> Prop := over_widths (fun x y z => x * (x * Gn) / total x y z).
Definition exact_capture : R -> Prop := over_widths (fun x y z => x * Gg / total x y z).
Definition exact_fission : R -> Prop := over_widths (fun x y z => x * (y * Gf) / total x y z).
Definition exact_competition : R -> Prop := over_widths (fun x y z => x * (z * Gx) / total x y z).
End Widths.

(** The largest error of the 10 point rules: for the width that is in the numerator, and for
    the others *)
Definition own_error (n : nat) : R := match n with 1%nat => 1 / 10000 | 2%nat => 1 / 400 | 3%nat => 1 / 400000 | _ => 1 / 1500 end.
Definition other_error (n : nat) : R := match n with 1%nat => 1 / 50 | 2%nat => 1 / 450 | 3%nat => 1 / 10000 | _ => 1 / 2000 end.
(** What is allowed for widths with the given averages and degrees of freedom *)
Definition allowed_error (Gf Gx : R) (dn df dx : nat) : R :=
  own_error dn + (if Req_EM_T Gf 0 then 0 else other_error df) + (if Req_EM_T Gx 0 then 0 else other_error dx).

(** The four together *)
Definition exact (Gn Gg Gf Gx : R) (dn df dx : nat) (e c f x : R) : Prop :=
  exact_elastic Gn Gg Gf Gx dn df dx e /\ exact_capture Gn Gg Gf Gx dn df dx c /\
  exact_fission Gn Gg Gf Gx dn df dx f /\ exact_competition Gn Gg Gf Gx dn df dx x.
(** The average parameters of a group with their exact integrals; a width without degrees of
    freedom is given one *)
Definition with_exact (v : averages) (t : R * R * R * R) : Prop :=
  match t with (e, c, f, x) => exact (v_Gn v) (v_Gg v) (v_Gf v) (v_Gx v) (v_n v) (Nat.max 1 (v_f v)) (Nat.max 1 (v_x v)) e c f x end.
Definition part_elastic (t : R * R * R * R) : R := match t with (e, c, f, x) => e end.
Definition part_capture (t : R * R * R * R) : R := match t with (e, c, f, x) => c end.
Definition part_fission (t : R * R * R * R) : R := match t with (e, c, f, x) => f end.
Definition group_error (v : averages) : R := allowed_error (v_Gf v) (v_Gx v) (v_n v) (Nat.max 1 (v_f v)) (Nat.max 1 (v_x v)).
