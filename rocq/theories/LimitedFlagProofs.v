(** Capture in a spin group with one channel and one line. *)
From Coq Require Import Reals Lra Lia ZArith String.
From mathcomp Require Import all_ssreflect all_algebra.
From Verif Require Import Outcome QuantumModel HardSphereModel KinematicsModel CoulombModel Cplx RMatrixModel RMatrixSpec
  KMatrixModel KMatrixSpec ChannelModel SpinGroupModel SpinGroupSpec SpinGroupProofs SpinGroupEvalProofs SpinGroupChannelProofs SpinGroupTheorems
  SingleLevelSpec SingleLevelProofs.
Set Implicit Arguments.
Unset Strict Implicit.
Unset Printing Implicit Defensive.
Local Open Scope R_scope.

Section One.
Variables (hbar epsilon0 : R) (cwf : nat -> R -> R -> outcome coulomb) (b : boundary_option).
Lemma one_capture G c e w x energy vs A factor p s : g_channels G = [:: c] -> c_type c = Neutron ->
  isIncidentChannel c -> c_reaction c <> Transfer (pp_id (c_incident c)) "capture"%string ->
  channelBelowThreshold c energy = false -> channelPenetrability hbar epsilon0 cwf c energy = Ok (Some p) -> 0 < p ->
  channelShiftFactor hbar epsilon0 cwf c energy = Ok (Some s) -> x <> 0 ->
  @evaluated hbar epsilon0 cwf b [:: Resonance e [:: w] x] G energy vs A factor ->
  contribution vs A factor (Transfer (pp_id (c_incident c)) "capture"%string) =
  factor * (2 * p * (w * w) * (2 * (x * x)) /
    ((energy - (e - (if b is Constant then s - c_boundary c else 0) * (w * w))) * (energy - (e - (if b is Constant then s - c_boundary c else 0) * (w * w))) +
     (2 * (x * x) + 2 * p * (w * w)) * (2 * (x * x) + 2 * p * (w * w)) / 4)).
Proof.
  case: G A => [re inc ch t] A /= Ec; subst ch => ty isin nr nb Ep p0 Es x0 [Ev [_ rl]].
  have Hv : exists v, vs = [:: v] /\ v_P v = p /\ v_S v = (if b is Constant then s else 0) /\ v_B v = c_boundary c /\ v_closed v = false.
    move: Ev; rewrite /groupValues /channelValues /= Ep /= Es.
    have -> : channelCoulombShift hbar epsilon0 c energy = Some 0 by rewrite /channelCoulombShift ty.
    by case: b; rewrite /= ; case: (channelPhaseShift _ _ _ _ _) => //= -[phi|] //= [<-]; rewrite nb; eexists; split; try reflexivity.
  have [v [Evs [EP [ES [EB Ecl]]]]] := Hv; subst vs.
  have P0 (i : 'I_(gsize (mkGroup re inc [:: c] t))) : 0 <= v_P (val_of [:: v] i).
    by rewrite /gsize /= in i *; rewrite (ord1 i) /val_of /= EP; lra.
  have reg : regular energy [:: Resonance e [:: w] x] by move=> r [<-|[]]; right.
  rewrite (single_contribution factor _ Ev P0 reg rl); last by move=> c' [<-|[]]; rewrite ty.
  rewrite /single_level /gsize /= big_mkcond big_ord1 /= isin big_mkcond big_ord1 /=.
  have -> : (c_reaction c == Transfer (pp_id (c_incident c)) "capture"%string) = false by apply/eqP.
  rewrite eqxx Rplus_0_l /captured /resonant /distance /shifted /full /eliminated !big_ord1 /partial /open_width /isclosed /width /val_of /= Ecl EP ES EB.
  by case: b; rewrite ?Rminus_0_r ?Rmult_0_l.
Qed.
End One.
