(** C93: the T matrix of a compound system. *)
From Coq Require Import Reals String ZArith List Permutation.
From mathcomp Require Import all_ssreflect all_algebra.
From Verif Require Import Outcome QuantumModel QuantumSpec KinematicsModel CoulombModel Cplx RMatrixModel RMatrixSpec ChannelModel SpinGroupModel SpinGroupSpec SpinGroupExample AssemblyModel
  SystemTSpec SystemTProofs SystemTCases.
Set Implicit Arguments.
Unset Strict Implicit.
Unset Printing Implicit Defensive.
Local Open Scope ring_scope.

(** Groups with the identifiers that the constructors make, in a system that the constructor accepts,
    have no channel identifier in common *)
Theorem C93_identifiers gs : (forall g, List.In g gs -> exists channels rs, constructed channels rs g) ->
  (forall g c, List.In g gs -> List.In c (g_channels g) -> default_id c) -> makeSystem gs = Ok gs -> apart gs.
Proof. exact: default_apart. Qed.
Print Assumptions C93_identifiers.

(** Every element of every group is in the map, nothing else changes, and the cross sections of the reactions
    that are not elastic scattering or capture are those of the elements in the map *)
Theorem C93_elements hbar epsilon0 cwf b energy (gs : seq object) :
  let groups := [seq projT1 o | o <- gs] in
  (forall o, List.In o gs -> ready hbar epsilon0 cwf b energy (projT1 o)) -> apart groups -> forall t m,
  exists gs1 t' gs2 m', evaluateTSystem hbar epsilon0 cwf b gs energy t = Ok (Some (gs1, t')) /\
    evaluateSystem hbar epsilon0 cwf b gs energy m = Ok (Some (gs2, m')) /\
    [seq projT1 o | o <- gs1] = groups /\
    (forall g, List.In g groups -> holds hbar epsilon0 cwf b energy g t') /\
    (forall k, (forall g, List.In g groups -> forall c j : 'I_(gsize g), k <> key c j) -> t' k = t k) /\
    (forall k, (forall g, List.In g groups -> transfer_only g k) ->
      m' k = if has (fun g => written g k) groups
             then Some (odflt 0 (m k) + \big[Rplus/0]_(g <- groups) from_T hbar energy t' g k)%re else m k).
Proof. exact: system_both. Qed.
Print Assumptions C93_elements.

(** The order of the groups does not matter *)
Theorem C93_order hbar epsilon0 cwf b energy (gs1 gs2 : seq object) :
  (forall o, List.In o gs1 -> ready hbar epsilon0 cwf b energy (projT1 o)) -> apart [seq projT1 o | o <- gs1] -> Permutation gs1 gs2 ->
  forall t, exists r1 r2 t', evaluateTSystem hbar epsilon0 cwf b gs1 energy t = Ok (Some (r1, t')) /\
    evaluateTSystem hbar epsilon0 cwf b gs2 energy t = Ok (Some (r2, t')).
Proof. exact: system_T_order. Qed.
Print Assumptions C93_order.

(** Two groups with two channels and two resonances each *)
Example C93_case hbar epsilon0 cwf b energy : (0 < hbar)%re -> energy <> 0%re -> energy <> 10%re -> energy <> 20%re ->
  (forall g, List.In g two_groups -> ready hbar epsilon0 cwf b energy g) /\ makeSystem two_groups = Ok two_groups /\
  (forall g, List.In g two_groups -> exists channels rs, constructed channels rs g) /\
  (forall g c, List.In g two_groups -> List.In c (g_channels g) -> default_id c) /\ apart two_groups /\
  (forall g, List.In g two_groups -> transfer_only g (c_reaction ex_fission) /\ written g (c_reaction ex_fission)).
Proof.
  move=> hb ne n1 n2; split; first exact: two_ready.
  split; first exact: two_system. split; first exact: two_made. split; first exact: two_ids. split; [exact: two_apart | exact: two_fission].
Qed.
