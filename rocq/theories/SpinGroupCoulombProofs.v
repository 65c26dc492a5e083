(** C25: the elastic cross section of a charged incident channel. *)
From Coq Require Import Reals Lra String ZArith.
From mathcomp Require Import all_ssreflect all_algebra.
From Verif Require Import Outcome QuantumModel SpinFactorModel HardSphereModel
  KinematicsModel CoulombModel Cplx RMatrixModel RMatrixSpec
  RMatrixCodeProofs RMatrixObservableProofs ChannelModel SpinGroupModel SpinGroupSpec SpinGroupProofs
  SpinGroupEvalProofs SpinGroupSystemProofs SpinGroupChannelProofs SpinGroupTheorems.
Set Implicit Arguments.
Unset Strict Implicit.
Unset Printing Implicit Defensive.
Import GRing.Theory.
Local Open Scope ring_scope.

Lemma empty_elastic hbar epsilon0 cwf b channels g energy (s s' : cache (gsize g)) m m' :
  constructed channels [::] g ->
  evaluateGroup hbar epsilon0 cwf b energy s m = Ok (Some (s', m')) ->
  exists vs factor, groupValues hbar epsilon0 cwf b g energy = Ok (Some vs) /\
    channelFactor hbar (first_incident g) energy = Some factor /\
    forall k, written g k -> m' k = Some (odflt 0 (m k) + factor *
      \big[Rplus/0]_(c : 'I_(gsize g) | isIncidentChannel (chan c) && (c_reaction (chan c) == k))
         (4 * (sin (v_phi (val_of vs c) - v_w (val_of vs c) / 2) *
               sin (v_phi (val_of vs c) - v_w (val_of vs c) / 2))))%re.
Proof.
  move=> con ev; have [vs [A [factor [[Ev [Ef rl]] ad]]]] := evaluate_inv con ev.
  exists vs, factor; split=> //; split=> // k wr; rewrite ad wr /contribution (empty_RL rl).
  congr (Some (_ + _ * _))%re; rewrite [RHS]big_mkcondr /=; apply: eq_bigr => c _.
  have -> : (if k == capture_id g then 1 - \big[Rplus/0]_j norm2 (U_spec vs 0 c j) else 0)%re = 0%re.
    case: ifP => // _; rewrite (bigD1 c) //= U_zero eqxx norm2_cis big1; first by ring.
    by move=> j /negbTE ne; rewrite U_zero ne /norm2 /=; ring.
  rewrite Rplus_0_r.
  have z (j : 'I_(gsize g)) : j != c -> norm2 ((if j == c then cis (v_w (val_of vs c)) else 0) - U_spec vs 0 c j) = 0%re.
    by move=> /negbTE ne; rewrite U_zero ne /norm2 /=; ring.
  case: eqP => Hc.
    rewrite (bigD1 c) /=; last by apply/eqP.
    rewrite big1; last by move=> j /andP [_ /z].
    rewrite Rplus_0_r eqxx U_zero eqxx dist_cis; set w := v_w _; set p := v_phi _.
    by have -> : ((w - 2 * (w - p)) / 2 = p - w / 2)%re by field.
  by rewrite big1 // => j /eqP Hj; apply: z; apply/eqP => E; rewrite E in Hj.
Qed.

(** two unit charges, l = 1, at the energy where the Sommerfeld parameter is pi/4 *)
Definition co_a := mkParticle "p" 1%re 1%re (Zpos 1) (Zpos 1).
Definition co_b := mkParticle "H1" 1%re 1%re (Zpos 1) (Zpos 1).
Definition co_pair := makeParticlePair co_a co_b "p,H1".
Definition co_channel := makeChannel ChargedParticle co_pair co_pair "p,H1" 0%re
  (mkQ 1 (Zpos 2) (Zpos 2) (Zneg 1)) (radii1 (Fixed 1%re)) 0%re.
Definition co_table := mkTable [:: c_id co_channel] [::].
Definition co_group := mkGroup [:: c_reaction co_channel; Transfer "p,H1" "capture"] [:: 0%N] [:: co_channel] co_table.
Definition co_energy : R := (8 / (PI * PI))%re.
(* a regular wave at a node: no hard-sphere phase *)
Definition co_waves (l : nat) (rho eta : R) : outcome coulomb := Ok (mkCoulomb 1%re 0%re 0%re 1%re).

Lemma co_constructed : constructed [:: co_channel] [::] co_group.
Proof. by exists [:: c_id co_channel], co_table. Qed.
Lemma co_k : channelWaveNumber 1%re co_channel co_energy = Some (2 / PI)%re.
Proof.
  have pp := PI_RGT_0.
  rewrite /channelWaveNumber /= /fdiv; case: Req_EM_T => H; first by lra.
  congr Some; rewrite /waveNumber /co_energy.
  have -> : (2 * (1 * 1 / (1 + 1)) * Rabs (8 / (PI * PI) * (1 / (1 + 1)) + 0) = (2 / PI) * (2 / PI))%re.
    rewrite Rabs_right; first by field; lra.
    have : (0 < 8 / (PI * PI))%re by apply: Rdiv_lt_0_compat; [lra | apply: Rmult_lt_0_compat].
    lra.
  rewrite sqrt_square; first by field; lra.
  by apply: Rlt_le; apply: Rdiv_lt_0_compat => //; lra.
Qed.
Lemma co_eta : channelEta 1%re (1 / (4 * pi_value))%re co_channel co_energy = Some (PI / 4)%re.
Proof.
  have pp := PI_RGT_0; have pv := pi_value_pos.
  rewrite /channelEta co_k /= Rmult_1_r; case: Req_EM_T => [H|_]; first by lra.
  rewrite /fdiv; case: Req_EM_T => [H|_]; first by lra.
  rewrite /sommerfeldParameter Rmult_1_r; case: Req_EM_T => [H|_]; first by lra.
  rewrite /fdiv; case: Req_EM_T => [H|_]; first by lra.
  case: Req_EM_T => [H|_].
    have : (0 < 1 * 1 * (2 / PI) / (1 * 1 / (1 + 1)))%re.
      by have : (0 < 2 / PI)%re by [apply: Rdiv_lt_0_compat => //; lra]; lra.
    by rewrite ?Rmult_1_r in H *; lra.
  by congr Some; field; split; lra.
Qed.

Lemma co_refuted : exists hbar epsilon0 cwf b channels g energy (s s' : cache (gsize g)) m m' vs,
  constructed channels [::] g /\
  evaluateGroup hbar epsilon0 cwf b energy s m = Ok (Some (s', m')) /\
  groupValues hbar epsilon0 cwf b g energy = Ok (Some vs) /\
  (forall c : 'I_(gsize g), v_phi (val_of vs c) = 0%re) /\
  m (Elastic "p" "H1") = Some 0%re /\ m' (Elastic "p" "H1") <> Some 0%re.
Proof.
  have pp := PI_RGT_0.
  pose e0 := (1 / (4 * pi_value))%re.
  pose vs := [:: Values (2 / PI) 0 0 0 1 false].
  have Ev : groupValues 1%re e0 co_waves ShiftFactor co_group co_energy = Ok (Some vs).
    rewrite /groupValues /= /channelValues /channelPenetrability /channelPhaseShift /channelCoulombShift /channelFunction /=.
    rewrite co_k co_eta /= /penetrability_charged /phase_charged /=.
    case: Req_EM_T => //= _; case: Req_EM_T => /= [H | _]; first by lra.
    rewrite /fdiv; have -> : (PI / 4 / 1 = PI / 4)%re by field.
    rewrite tan_PI4; case: Req_EM_T => [H|_] /=; first by lra.
    rewrite /Outcome.omap /= /vs; congr (Ok (Some [:: Values _ _ _ _ _ _])).
    - by field; lra.
    - have -> : (1 / sqrt (0 * 0 + 1 * 1) = 1)%re.
        by have -> : (0 * 0 + 1 * 1 = 1)%re by [ring]; rewrite sqrt_1; field.
      by rewrite acos_1.
    - by field.
    - rewrite /channelBelowThreshold /= /fdiv; case: Req_EM_T => [H|_] //=.
      rewrite /belowThreshold; case: Rlt_dec => // H; exfalso; move: H; rewrite /co_energy.
      have : (0 < 8 / (PI * PI))%re by apply: Rdiv_lt_0_compat; [lra | apply: Rmult_lt_0_compat].
      lra.
  have [f Ef] : exists f, channelFactor 1%re (first_incident co_group) co_energy = Some f.
    rewrite /channelFactor /first_incident /= co_k /fdiv; case: Req_EM_T => [H|_] /=; last by eexists.
    have kp : (0 < 2 / PI)%re by apply: Rdiv_lt_0_compat => //; lra.
    by move: (Rmult_lt_0_compat _ _ kp kp); lra.
  have fp : (0 < f)%re.
    move: Ef; rewrite /channelFactor /first_incident /= co_k /fdiv; case: Req_EM_T => [H|_] //= [<-].
    have kp : (0 < 2 / PI)%re by apply: Rdiv_lt_0_compat => //; lra.
    apply: Rmult_lt_0_compat; first by apply: Rdiv_lt_0_compat; [exact: pi_value_pos | apply: Rmult_lt_0_compat].
    by rewrite /spinFactor /statisticalSpinFactor /spin_value /=; lra.
  have ph : physical (gsize co_group) ShiftFactor vs.
    move=> i; split; last by right; right.
    have -> : i = ord0 by apply: val_inj; case: i => -[].
    by rewrite /val_of /=; apply: Rlt_le; apply: Rdiv_lt_0_compat => //; lra.
  pose s0 : cache (gsize co_group) := Cache 0 0 0.
  pose m0 : reaction_map := fun _ => Some 0%re.
  have reg : regular co_energy [::] by [].
  have [s' [m' E]] := evaluate_succeeds co_constructed Ev Ef ph reg s0 m0.
  exists 1%re, e0, co_waves, ShiftFactor, [:: co_channel], co_group, co_energy, s0, s', m0, m', vs.
  split; first exact: co_constructed. split=> //. split=> //.
  split; first by move=> c; have -> : c = ord0 by [apply: val_inj; case: c => -[]].
  split=> //.
  have [vs2 [f2 [Ev2 [Ef2 H]]]] := empty_elastic co_constructed E.
  rewrite Ev in Ev2; case: Ev2 => Evs; subst vs2; rewrite Ef in Ef2; case: Ef2 => Eff; subst f2.
  rewrite H; last by [].
  rewrite /m0 /= (big_pred1 (ord0 : 'I_(gsize co_group))); last first.
    by move=> i; have -> : i = ord0 by [apply: val_inj; case: i => -[]].
  rewrite /val_of /=; case=> E0.
  have : (0 < sin (1 / 2))%re by apply: sin_gt_0; have := PI2_1; lra.
  move=> sp; move: E0; have -> : (0 - 1 / 2 = - (1 / 2))%re by ring.
  rewrite sin_neg => E0.
  have := Rmult_lt_0_compat _ _ fp (Rmult_lt_0_compat _ _ sp sp); lra.
Qed.
