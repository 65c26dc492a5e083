(** A concrete spin group: elastic neutron scattering, a fission channel, two resonances. *)
From Coq Require Import Reals Lra String ZArith.
From mathcomp Require Import all_ssreflect all_algebra.
From Verif Require Import Outcome QuantumModel SpinFactorModel HardSphereModel
  KinematicsModel CoulombModel Cplx RMatrixModel RMatrixSpec
  RMatrixCodeProofs RMatrixObservableProofs ChannelModel SpinGroupModel SpinGroupSpec SpinGroupProofs
  SpinGroupEvalProofs SpinGroupSystemProofs SpinGroupChannelProofs SpinGroupTheorems.
Set Implicit Arguments.
Unset Strict Implicit.
Unset Printing Implicit Defensive.
Import GRing.Theory.
Local Open Scope ring_scope.

Definition ex_neutron := mkParticle "n" 1%re 0%re (Zpos 1) (Zpos 1).
Definition ex_target := mkParticle "U235" 235%re 92%re (Zpos 7) (Zneg 1).
Definition ex_pair := makeParticlePair ex_neutron ex_target "n,U235".
Definition ex_fission_pair := makeParticlePair ex_neutron ex_target "fission".
Definition ex_numbers := mkQ 0 (Zpos 7) (Zpos 6) (Zneg 1).
Definition ex_elastic := makeChannel Neutron ex_pair ex_pair "n,U235" 0%re ex_numbers
  (radii2 (Fixed 1%re) (Fixed 2%re)) 0%re.
Definition ex_fission := makeChannel Fission ex_pair ex_fission_pair "fission" 100%re
  (mkQ 0 Z0 (Zpos 6) (Zneg 1)) (radii1 (Fixed 0%re)) 0%re.
Definition ex_channels := [:: ex_elastic; ex_fission].
Definition ex_resonances (eliminated : R) :=
  [:: Resonance 10%re [:: 1%re; 2%re] eliminated; Resonance 20%re [:: (-1)%re; 3%re] eliminated].
Definition ex_table (e : R) := mkTable [seq c_id c | c <- ex_channels] (ex_resonances e).
Definition ex_group_of (t : table) := mkGroup
  [:: c_reaction ex_elastic; c_reaction ex_fission; Transfer "n,U235" "capture"]
  [:: 0%N] ex_channels t.
Definition ex_group (e : R) := ex_group_of (ex_table e).

Lemma ex_make_group t : t_channels t = [seq c_id c | c <- ex_channels] ->
  makeGroup ex_channels t = Ok (ex_group_of t).
Proof. by case: t => cs rs /= ->. Qed.
Lemma ex_constructed e : constructed ex_channels (ex_resonances e) (ex_group e).
Proof. by exists [seq c_id c | c <- ex_channels], (ex_table e); split=> //; apply: ex_make_group. Qed.
Lemma ex_constructed_empty : constructed ex_channels [::] (ex_group_of (mkTable [seq c_id c | c <- ex_channels] [::])).
Proof. by exists [seq c_id c | c <- ex_channels], (mkTable [seq c_id c | c <- ex_channels] [::]); split=> //; apply: ex_make_group. Qed.

Lemma ex_mu : pp_reduced ex_pair = Some (235 / 236)%re.
Proof. rewrite /= /fdiv; case: Req_EM_T => H; [lra | congr Some; field]. Qed.
Lemma ex_ratio : pp_ratio ex_pair = Some (235 / 236)%re.
Proof. rewrite /= /fdiv; case: Req_EM_T => H; [lra | congr Some; field]. Qed.
Lemma ex_neutral t energy : energy <> 0%re -> neutral_channels energy (ex_group_of t).
Proof.
  move=> ne c [<- | [<- | []]]; last by left; exists 0%re.
  split=> //; split; first by rewrite /=; ring.
  split; last by exists 1%re, 2%re; split=> //; lra.
  exists (235 / 236)%re, (235 / 236)%re; split; first exact: ex_mu.
  by split; [lra | split; [exact: ex_ratio | rewrite /=; lra]].
Qed.
Lemma ex_regular e energy : energy <> 10%re -> energy <> 20%re -> regular energy (ex_resonances e).
Proof. by move=> H1 H2 r [<- | [<- | []]] /=; left => E; [apply: H1 | apply: H2]. Qed.
Lemma ex_spin : spinFactor ex_elastic = (7 / 16)%re.
Proof. by rewrite /spinFactor /statisticalSpinFactor /spin_value /=; field. Qed.
Lemma ex_factor hbar t energy : (0 < hbar)%re -> energy <> 0%re ->
  exists f, channelFactor hbar (first_incident (ex_group_of t)) energy = Some f /\ (0 < f)%re.
Proof.
  move=> hb ne; have ne' : (energy * (235 / 236) + 0 <> 0)%re by lra.
  have := @factor_pos hbar (first_incident (ex_group_of t)) energy (235/236)%re (235/236)%re hb ex_mu ltac:(lra) ex_ratio ne'.
  move=> ->; eexists; split; first reflexivity.
  have kp := wave_pos (q := 0%re) (ratio := (235/236)%re) (mu := (235/236)%re) hb ltac:(lra) ne'.
  apply: Rmult_lt_0_compat; last by rewrite /first_incident /= ex_spin; lra.
  by apply: Rdiv_lt_0_compat; [exact: pi_value_pos | apply: Rmult_lt_0_compat].
Qed.

Lemma ex_evaluates hbar epsilon0 cwf b t rs energy : (0 < hbar)%re -> energy <> 0%re ->
  constructed ex_channels rs (ex_group_of t) -> regular energy rs ->
  forall (s : cache (gsize (ex_group_of t))) m, exists s' m',
    evaluateGroup hbar epsilon0 cwf b energy s m = Ok (Some (s', m')).
Proof.
  move=> hb ne con reg.
  have [vs [Ev [ph _]]] := tame_group epsilon0 cwf b hb (ex_neutral (t := t) ne).
  have [f [Ef _]] := ex_factor t hb ne.
  exact: (evaluate_succeeds con Ev Ef ph reg).
Qed.
