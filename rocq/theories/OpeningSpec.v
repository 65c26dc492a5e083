(** Fluctuation integrals where a width starts from zero. *)
From Coq Require Import Reals.
From Verif Require Import Outcome UnresolvedModel.
Open Scope R_scope.

(** The elastic and capture integrals tend to two values when a width becomes small but not zero *)
Definition approaches (integrals : R -> outcome (option (data R))) (e c : R) : Prop :=
  forall eps, 0 < eps -> exists d, 0 < d /\ forall G, 0 < G < d -> exists i, integrals G = Ok (Some i) /\ Rabs (d_elastic i - e) < eps /\ Rabs (d_capture i - c) < eps.
(** The integrals are given around a point and do not jump there *)
Definition steady_integrals (integrals : R -> outcome (option (data R))) (E : R) : Prop :=
  exists i, integrals E = Ok (Some i) /\ forall eps, 0 < eps -> exists d, 0 < d /\ forall x, Rabs (x - E) < d -> exists j, integrals x = Ok (Some j) /\
    Rabs (d_elastic j - d_elastic i) < eps /\ Rabs (d_capture j - d_capture i) < eps /\ Rabs (d_fission j - d_fission i) < eps /\ Rabs (d_competition j - d_competition i) < eps.
(** What the ten weights for 1, 2, 3 and 4 degrees of freedom add up to *)
Definition rule_sum (n : nat) : R :=
  match n with 1%nat => 0.999999994145706 | 2%nat => 0.99991003163800000000000000000027453830 | 3%nat => 1.00000000268546 | _ => 1.00023789909630388 end.
