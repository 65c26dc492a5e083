(** C103: the units of energy and length do not matter for the cross sections of the unresolved range.
    hbar, epsilon0, the neutron mass and the Coulomb wave functions are arbitrary. *)
From Coq Require Import List ZArith Reals Lra Lia.
From Verif Require Import Outcome CoulombModel LegacyModel UnresolvedModel UnresolvedTheorems OpeningProofs RatioProofs UnitsSpec UnitsUnresolvedSpec UnitsUnresolvedProofs.
Open Scope R_scope.

(** A system of neutral channels: energies, spacings and widths multiplied by t^2, reduced neutron widths
    by t, and lengths divided by t divide the cross sections by t^2; errors and numbers that are not finite stay *)
Theorem C103_system : forall t hbar epsilon0 cwf s e m, 0 < t -> (forall g, In g (uy_groups s) -> uncharged (ug_channel g)) ->
  unresolved_system_evaluate hbar epsilon0 cwf (units_usystem t s) (t * t * e) (units_map t m) = units_result t (unresolved_system_evaluate hbar epsilon0 cwf s e m).
Proof. intros t hbar epsilon0 cwf s e m T U. exact (usystem_units t T hbar epsilon0 cwf s e m U). Qed.
Print Assumptions C103_system.
Theorem C103_made : forall t gs, makeUnresolvedSystem (map (units_ugroup t) gs) =
  match makeUnresolvedSystem gs with Ok s => Ok (units_usystem t s) | Throw e => Throw e | UB e => UB e | Diverge => Diverge end.
Proof. exact umake_units. Qed.
Print Assumptions C103_made.
(** Every system made from a file has neutral channels and can be made in the other units *)
Theorem C103_file : forall t hbar epsilon0 cwf mn incident target spin ap nro naps grid lower upper uls s e m, 0 < t ->
  makeLegacyUnresolvedSystem mn incident target spin ap nro naps grid lower upper uls = Ok s ->
  makeUnresolvedSystem (map (units_ugroup t) (uy_groups s)) = Ok (units_usystem t s) /\
  unresolved_system_evaluate hbar epsilon0 cwf (units_usystem t s) (t * t * e) (units_map t m) = units_result t (unresolved_system_evaluate hbar epsilon0 cwf s e m).
Proof.
  intros t hbar epsilon0 cwf mn incident target spin ap nro naps grid lower upper uls s e m T H. split.
  - rewrite C103_made, (made_again _ _ _ _ _ _ _ _ _ _ _ _ H). reflexivity.
  - exact (C103_system t hbar epsilon0 cwf s e m T (ufile_uncharged _ _ _ _ _ _ _ _ _ _ _ s H)).
Qed.
Print Assumptions C103_file.

(** The file of C46 in units 9 times smaller for energies and 3 times larger for lengths: three groups are evaluated at 18 units *)
Example case_units epsilon0 cwf m : exists s m', case_system = Ok s /\ unresolved_system_evaluate 1 epsilon0 cwf s 2 m = Ok (Some m') /\
  unresolved_system_evaluate 1 epsilon0 cwf (units_usystem 3 s) (3 * 3 * 2) (units_map 3 m) = Ok (Some (units_map 3 m')).
Proof.
  destruct (case_evaluated 1 epsilon0 cwf m eq_refl) as (s & m' & Hs & Hm). exists s, m'. split; [exact Hs|]. split; [exact Hm|].
  destruct (C103_file 3 1 epsilon0 cwf _ _ _ _ _ _ _ _ _ _ _ s 2 m ltac:(lra) Hs) as [_ H]. rewrite H, Hm. reflexivity.
Qed.
