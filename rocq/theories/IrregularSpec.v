(** The irregular Coulomb function for l = 0: the solution of the Coulomb equation that far away is
    the cosine of rho - eta ln (2 rho) + sigma, with the Coulomb phase sigma. *)
From Coq Require Import Reals.
From Coquelicot Require Import Coquelicot.
From Verif Require Import NewmarkSpec AsymptoticSpec SigmaSpec.
Open Scope R_scope.

(** G with slope G1 *)
Record irregular (eta : R) (G G1 : R -> R) : Prop := Irregular
  { ir_slope : forall r, 0 < r -> is_derive G r (G1 r);
    ir_equation : forall r, 0 < r -> is_derive G1 r (acceleration eta r (G r));
    ir_far : forall sigma, coulomb_phase eta sigma ->
      is_lim (fun r => G r - cos (theta eta sigma r)) p_infty 0 /\
      is_lim (fun r => G1 r + sin (theta eta sigma r)) p_infty 0 }.
