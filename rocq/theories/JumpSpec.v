(** Cross sections without jumps. *)
From Coq Require Import Reals.
From Verif Require Import Outcome LegacyModel LegacyProofs.
Open Scope R_scope.

(** A radius is given around an energy and does not jump there *)
Definition settled (radius : R -> outcome R) (E : R) : Prop :=
  exists a, radius E = Ok a /\ forall eps, 0 < eps -> exists d, 0 < d /\ forall e, Rabs (e - E) < d -> exists b, radius e = Ok b /\ Rabs (b - a) < eps.
(** Elastic scattering, capture and fission are given around an energy and do not jump there *)
Definition no_jump (f : R -> outcome (option (R * R * R))) (E : R) : Prop :=
  exists x y z, f E = Ok (Some (x, y, z)) /\ forall eps, 0 < eps -> exists d, 0 < d /\ forall e, Rabs (e - E) < d ->
    exists x' y' z', f e = Ok (Some (x', y', z')) /\ Rabs (x' - x) < eps /\ Rabs (y' - y) < eps /\ Rabs (z' - z) < eps.
(** The same for each cross section in a map; one that is not in the map is zero *)
Definition no_jump_map (F : R -> outcome (option legacy_map)) (E : R) : Prop :=
  exists m, F E = Ok (Some m) /\ forall key eps, 0 < eps -> exists d, 0 < d /\ forall e, Rabs (e - E) < d -> exists m', F e = Ok (Some m') /\ Rabs (mval m' key - mval m key) < eps.
(** A tabulated radius, if there is one, does not jump *)
Definition steady_radii (nro : option (R -> outcome R)) : Prop := forall t, nro = Some t -> forall e, settled t e.
