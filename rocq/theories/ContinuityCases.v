(** A cross section with a jump at a threshold: an exit channel with l = 1 whose boundary
    condition is 0, not -1. *)
From Coq Require Import Reals Lra String ZArith.
From mathcomp Require Import all_ssreflect all_algebra.
From Verif Require Import Outcome QuantumModel SpinFactorModel HardSphereModel KinematicsModel CoulombModel Cplx RMatrixModel RMatrixSpec
  ChannelModel SpinGroupModel SpinGroupSpec SpinGroupProofs SpinGroupEvalProofs SpinGroupChannelProofs SpinGroupTheorems
  SingleLevelSpec SingleLevelProofs ContinuitySpec ContinuityProofs ContinuityChannelProofs ContinuityTheorems.
Set Implicit Arguments.
Unset Strict Implicit.
Unset Printing Implicit Defensive.
Import GRing.Theory.
Local Open Scope ring_scope.

Definition jp_neutron := mkParticle "n" 1%re 0%re (Zpos 1) (Zpos 1).
Definition jp_target := mkParticle "X" 1%re 0%re Z0 (Zpos 1).
Definition jp_excited := mkParticle "X*" 1%re 0%re Z0 (Zneg 1).
Definition jp_in := makeParticlePair jp_neutron jp_target "n,X".
Definition jp_out := makeParticlePair jp_neutron jp_excited "n,X*".
Definition jp_elastic := makeChannel Neutron jp_in jp_in "n,X" 0%re (mkQ 0 (Zpos 1) (Zpos 1) (Zpos 1))
  (radii2 (Fixed 1%re) (Fixed 1%re)) 0%re.
(* threshold at an energy of 2 *)
Definition jp_inelastic (boundary : R) := makeChannel Neutron jp_in jp_out "n,X*" (-1)%re (mkQ 1 (Zpos 1) (Zpos 1) (Zpos 1))
  (radii2 (Fixed 1%re) (Fixed 1%re)) boundary.
Definition jp_channels (boundary : R) := [:: jp_elastic; jp_inelastic boundary].
Definition jp_level := Resonance 1%re [:: 1%re; 1%re] 1%re.
Definition jp_table := mkTable [seq c_id c | c <- jp_channels 0%re] [:: jp_level].
Definition jp_group (boundary : R) := mkGroup
  [:: c_reaction jp_elastic; c_reaction (jp_inelastic 0%re); Transfer "n,X" "capture"] [:: 0%N] (jp_channels boundary) jp_table.
Lemma jp_constructed boundary : constructed (jp_channels boundary) [:: jp_level] (jp_group boundary).
Proof. by exists [seq c_id c | c <- jp_channels 0%re], jp_table. Qed.
Lemma jp_mu : pp_reduced jp_in = Some (1 / 2)%re /\ pp_ratio jp_in = Some (1 / 2)%re /\ pp_reduced jp_out = Some (1 / 2)%re.
Proof. by rewrite /= /fdiv; case: Req_EM_T => H; [lra | split; [|split]; congr Some; field]. Qed.
Lemma jp_plain b boundary energy : (0 < energy)%re -> energy <> 2%re \/ b = ShiftFactor \/ boundary = (-1)%re ->
  forall c, List.In c (jp_channels boundary) -> plain b energy c.
Proof.
  have [m1 [m2 m3]] := jp_mu; move=> e0 H c [<-|[<-|[]]].
  - split=> //; split; first by rewrite /=; ring.
    split; last by exists 1%re, 1%re; split=> //; lra.
    exists (1/2)%re, (1/2)%re; do 3 (split=> //; try lra).
    by left; rewrite /=; lra.
  - split=> //; split; first by rewrite /=; ring.
    split; last by exists 1%re, 1%re; split=> //; lra.
    exists (1/2)%re, (1/2)%re; do 3 (split=> //; try lra).
    case: H => [h|h]; first by left; rewrite /=; lra.
    by right; split.
Qed.

Section Jump.
Variables (epsilon0 : R) (cwf : nat -> R -> R -> outcome coulomb).
Notation g := (jp_group 0%re).
Let k1 := waveNumber 1%re (1/2)%re (1/2)%re 0%re.
Let k2 := waveNumber 1%re (1/2)%re (1/2)%re (-1)%re.
Let v1 e := Values (k1 e * 1)%re 0%re 0%re (k1 e * 1)%re 0%re (belowThreshold (1/2)%re 0%re e).
Let v2 e := Values (Pv 1 (k2 e * 1)) (Sv 1 (k2 e * 1)) 0%re (phiv 1 (k2 e * 1)) 0%re (belowThreshold (1/2)%re (-1)%re e).
Let Ev e : groupValues 1%re epsilon0 cwf Constant g e = Ok (Some [:: v1 e; v2 e]).
Proof.
  have [m1 [m2 m3]] := jp_mu.
  rewrite /groupValues [mapM _ _]/=.
  rewrite (@neutron_values 1%re epsilon0 cwf Constant jp_elastic (1/2)%re (1/2)%re 1%re 1%re e) //; last by rewrite /=; ring.
  rewrite (@neutron_values 1%re epsilon0 cwf Constant (jp_inelastic 0%re) (1/2)%re (1/2)%re 1%re 1%re e) //; last by rewrite /=; ring.
Qed.
Let k1_2 : k1 2%re = 1%re.
Proof.
  rewrite /k1 /waveNumber.
  have -> : (2 * (1 / 2) * Rabs (2 * (1 / 2) + 0) = 1)%re by rewrite Rabs_right; lra.
  by rewrite sqrt_1; field.
Qed.
Let k2_2 : k2 2%re = 0%re.
Proof.
  rewrite /k2 /waveNumber.
  have -> : (2 * (1 / 2) * Rabs (2 * (1 / 2) + -1) = 0)%re.
    by have -> : (2 * (1 / 2) + -1 = 0)%re by [lra]; rewrite Rabs_R0; lra.
  by rewrite sqrt_0; field.
Qed.
Let k1_pos e : (0 < e)%re -> (0 < k1 e)%re.
Proof. by move=> h; apply: wave_pos; lra. Qed.
Let vs e := [:: v1 e; v2 e].
Let open1 e : (0 < e)%re -> belowThreshold (1/2)%re 0%re e = false.
Proof. by rewrite /belowThreshold => h; case: Rlt_dec => //; lra. Qed.
Let closed2 e : (e < 2)%re -> belowThreshold (1/2)%re (-1)%re e.
Proof. by rewrite /belowThreshold => h; case: Rlt_dec => //; lra. Qed.
Let open2 : belowThreshold (1/2)%re (-1)%re 2%re = false.
Proof. by rewrite /belowThreshold; case: Rlt_dec => //; lra. Qed.
Notation part := (@partial (gsize g) jp_level).
Let below e : (0 < e < 2)%re -> part (vs e) ord0 = (2 * k1 e)%re /\ full (gsize g) jp_level (vs e) = (2 + 2 * k1 e)%re /\
  shifted (gsize g) Constant jp_level (vs e) = 1%re.
Proof.
  move=> [h1 h2]; rewrite /full /shifted !big_ord_recl !big_ord0 /partial /open_width /isclosed /width /val_of /= open1 // closed2 //= /eliminated /=.
  by split; [|split]; ring.
Qed.
Let at2 : part (vs 2%re) ord0 = 2%re /\ full (gsize g) jp_level (vs 2%re) = 4%re /\
  shifted (gsize g) Constant jp_level (vs 2%re) = 2%re.
Proof.
  rewrite /full /shifted !big_ord_recl !big_ord0 /partial /open_width /isclosed /width /val_of /= open1 ?open2 /=; last lra.
  rewrite k1_2 k2_2 Rmult_0_l /Pv /Sv /eliminated /=.
  by split; [|split]; field.
Qed.
Notation capture := (capture_id g).
Let written_capture : written g capture.
Proof. by rewrite /written eqxx. Qed.
Let single_capture e f : single_level Constant e jp_level g (vs e) f capture =
  (f * captured Constant e jp_level (vs e) (ord0 : 'I_(gsize g)))%re.
Proof.
  rewrite /single_level; congr (_ * _)%re.
  rewrite big_mkcond !big_ord_recl big_ord0 /=.
  by rewrite [X in (X + _ + _)%re]big_mkcond !big_ord_recl big_ord0 /=; ring.
Qed.
Let P0 e (i : 'I_(gsize g)) : (0 < e)%re -> (0 <= v_P (val_of (vs e) i))%re.
Proof.
  move=> e0; case: i => -[|[|i]] Hi //; rewrite /val_of /=.
  - by have := k1_pos e0; lra.
  - have k0 : (0 <= k2 e)%re by apply: Rmult_le_pos; [exact: sqrt_pos | rewrite Rinv_1; lra].
    rewrite /Pv /= Rmult_1_r; move: k0; move: (k2 e) => x x0.
    have x2 : (0 <= x * x)%re by nra.
    by apply: Rmult_le_pos; [nra | apply: Rlt_le; apply: Rinv_0_lt_compat; lra].
Qed.
Let factor_at e : (0 < e)%re -> exists f, channelFactor 1%re (first_incident g) e = Some f /\ (0 < f)%re.
Proof.
  have [m1 [m2 m3]] := jp_mu; move=> h.
  rewrite (@factor_pos 1%re (first_incident g) e (1/2)%re (1/2)%re) //=; try lra.
  eexists; split; first reflexivity.
  have kp := k1_pos h; rewrite -/(k1 e).
  apply: Rmult_lt_0_compat; first by apply: Rdiv_lt_0_compat; [exact: pi_value_pos | apply: Rmult_lt_0_compat].
  by rewrite /spinFactor /statisticalSpinFactor /spin_value /=; lra.
Qed.
Definition jump_values := Ev.
Definition jump_P := P0.
Definition jump_factor := factor_at.
Lemma jump_evaluates e : (0 < e <= 2)%re -> forall (s : cache (gsize g)) m, exists s' m',
  evaluateGroup 1%re epsilon0 cwf Constant e s m = Ok (Some (s', m')).
Proof.
  move=> [h1 h2] s m; have [f [Ef _]] := factor_at h1.
  apply/(single_exists s m (jp_constructed 0%re) (Ev e) Ef); split; first by right=> /=; lra.
  rewrite /resonant /distance; case: (Req_EM_T e 2) => [->|ne].
  - by have [_ [-> ->]] := at2; lra.
  - have lt : (0 < e < 2)%re by lra.
    by have [_ [-> ->]] := below lt; have := k1_pos h1; nra.
Qed.

Lemma jump : ~ continuous_at 1%re epsilon0 cwf Constant g 2%re.
Proof.
  move=> [x [[d [d0 Hx]] Hc]]; move: {Hc}(Hc capture) => Hc.
  have xE e : (Rabs (e - 2) < d)%re -> (0 < e)%re -> exists f, channelFactor 1%re (first_incident g) e = Some f /\
      x e capture = (f * captured Constant e jp_level (vs e) (ord0 : 'I_(gsize g)))%re.
    move=> he e0; have [f [Ef _]] := factor_at e0; exists f; split=> //.
    have [s' [m' [ev ad]]] := Hx e he (Cache 0 0 0) (fun _ => None).
    have nc c : List.In c (jp_channels 0%re) -> c_type c <> ChargedParticle by move=> [<-|[<-|[]]].
    have ad' := single (jp_constructed 0%re) nc (Ev e) (fun i => P0 i e0) Ef ev.
    by move: (ad capture); rewrite (ad' capture) written_capture single_capture => -[]; lra.
  pose z e := (pi_value / (k1 e * k1 e) * spinFactor (first_incident g) * (2 * k1 e * 2 / ((e - 1) * (e - 1) + (2 + 2 * k1 e) * (2 + 2 * k1 e) / 4)))%re.
  have kc : continuity_pt k1 2%re by apply: wave_cont; lra.
  have zc : continuity_pt z 2%re.
    apply: cont_mul.
      apply: cont_mul; last exact: cont_const.
      apply: cont_div; [exact: cont_const | exact: cont_mul | by rewrite k1_2; lra].
    apply: cont_div.
    + apply: cont_mul; last exact: cont_const.
      by apply: cont_mul => //; exact: cont_const.
    + have c1 : continuity_pt (fun e => e - 1)%re 2%re by apply: cont_sub; [exact: cont_id | exact: cont_const].
      have c2 : continuity_pt (fun e => 2 + 2 * k1 e)%re 2%re.
        by apply: cont_add; [exact: cont_const | apply: cont_mul => //; exact: cont_const].
      apply: cont_add; first exact: cont_mul.
      by apply: cont_div; [exact: cont_mul | exact: cont_const | lra].
    + by rewrite k1_2; lra.
  have fE e f : (0 < e)%re -> channelFactor 1%re (first_incident g) e = Some f -> f = (pi_value / (k1 e * k1 e) * spinFactor (first_incident g))%re.
    have [m1 [m2 m3]] := jp_mu; move=> h.
    by rewrite (@factor_pos 1%re (first_incident g) e (1/2)%re (1/2)%re) //=; try lra; move=> [<-].
  have same e : (Rabs (e - 2) < d)%re -> (0 < e < 2)%re -> x e capture = z e.
    move=> he h; have [f [Ef ->]] := xE e he (proj1 h); rewrite (fE _ _ (proj1 h) Ef) /z; congr (_ * _)%re.
    by rewrite /captured /resonant /distance; have [-> [-> ->]] := below h; rewrite /eliminated /=; congr (_ / _)%re; ring.
  have z2 : x 2%re capture = z 2%re.
    have dc : continuity_pt (fun e => x e capture - z e)%re 2%re by apply: cont_sub.
    case: (Req_EM_T (x 2%re capture - z 2%re) 0) => [|n0]; first lra.
    have [a [a0 Ha]] := pos_near dc n0.
    pose t := Rmin (a / 2) (Rmin (d / 2) 1).
    have t0 : (0 < t)%re by apply: Rmin_pos; [lra | apply: Rmin_pos; lra].
    have ta : (t <= a / 2)%re by exact: Rmin_l.
    have td : (t <= d / 2)%re by apply: Rle_trans (Rmin_r _ _) (Rmin_l _ _).
    have t1 : (t <= 1)%re by apply: Rle_trans (Rmin_r _ _) (Rmin_r _ _).
    have ab : Rabs (2 - t - 2) = t by rewrite Rabs_left; lra.
    have := Ha (2 - t)%re; rewrite ab => h; case: h; first lra.
    by rewrite same; [ring | rewrite ab; lra | lra].
  have x2 : x 2%re capture = (pi_value / (k1 2 * k1 2) * spinFactor (first_incident g))%re.
    have e2 : (Rabs (2 - 2) < d)%re by rewrite Rminus_diag_eq // Rabs_R0.
    have [f [Ef ->]] := xE 2%re e2 ltac:(lra); rewrite (fE 2%re f ltac:(lra) Ef).
    by rewrite /captured /resonant /distance; have [-> [-> ->]] := at2; rewrite /eliminated /= k1_2; field.
  have [f [Ef fp]] := factor_at (ltac:(lra) : (0 < 2)%re).
  rewrite (fE 2%re f ltac:(lra) Ef) in fp; move: z2; rewrite x2 /z; move: fp; rewrite k1_2.
  set F := (_ / _ * _)%re => fp E.
  have : (F * (1 / 5) = 0)%re.
    by have -> : (F * (1/5) = F - F * (2 * 1 * 2 / ((2 - 1) * (2 - 1) + (2 + 2 * 1) * (2 + 2 * 1) / 4)))%re by [field]; rewrite -E; ring.
  lra.
Qed.
End Jump.
