(** An accurate arc tangent exists; what the error means for a cross section; relative accuracy fails. *)
From Coq Require Import String List ZArith Reals Lra Lia Bool Psatz.
From Flocq Require Import Core.Core Relative IEEE754.BinarySingleNaN.
From Verif Require Import Outcome HardSphereModel HardSphereSpec HardSphereProofs DoubleModel DoubleSpec DoubleProofs RoundingModel RoundingSpec RoundingProofs PhaseRoundingModel PhaseRoundingSpec PhaseRoundingProofs.
Import ListNotations.
Open Scope R_scope.

(** The double nearest to a real number *)
Definition nearest (v : R) : double := binary_normalize 53 1024 eq_refl eq_refl mode_NE (ZnearestE (scaled_mantissa radix2 fexp64 v)) (cexp radix2 fexp64 v) false.
Lemma nearest_value v : Rabs v <= 2 -> is_finite (nearest v) = true /\ B2R (nearest v) = rnd v.
Proof.
  intros H. pose proof (binary_normalize_correct 53 1024 eq_refl eq_refl mode_NE (ZnearestE (scaled_mantissa radix2 fexp64 v)) (cexp radix2 fexp64 v) false) as C. cbv zeta in C. fold fexp64 in C. fold rnd in C.
  change (F2R (Float radix2 (ZnearestE (scaled_mantissa radix2 fexp64 v)) (cexp radix2 fexp64 v))) with (rnd v) in C.
  assert (I : rnd (rnd v) = rnd v). { apply round_generic; [apply valid_rnd_N|]. apply generic_format_round; [apply FLT_exp_valid; reflexivity | apply valid_rnd_N]. }
  rewrite I in C. pose proof (rnd_error v) as E. pose proof u_small as U.
  assert (T : tiny <= 1) by (change 1 with (bpow radix2 0); apply bpow_le; lia).
  assert (B : Rabs (rnd v) < bpow radix2 1024).
  { apply Rle_lt_trans with (bpow radix2 3); [|apply bpow_lt; lia]. change (bpow radix2 3) with 8. replace (rnd v) with (rnd v - v + v) by ring. apply Rle_trans with (1 := Rabs_triang _ _). nra. }
  rewrite Rlt_bool_true in C by exact B. destruct C as (C1 & C2 & _). split; assumption.
Qed.
Lemma atan_exists : accurate (fun q => nearest (angle q)).
Proof.
  intros q Hq. destruct (nearest_value (angle q) (angle_bound q Hq)) as [F E]. split; [exact F|]. rewrite E. apply Rle_trans with (1 := rnd_error _).
  apply Rplus_le_compat; [|apply bpow_le; lia]. apply Rmult_le_compat_r; [apply Rabs_pos|]. apply bpow_le. lia.
Qed.

(** The double angle, which is all a cross section sees *)
Lemma lipschitz (f g : R -> R) a b : (forall x, derivable_pt_lim f x (g x)) -> (forall x, Rabs (g x) <= 1) -> Rabs (f a - f b) <= Rabs (a - b).
Proof.
  intros D B. assert (K : forall a b, a < b -> Rabs (f a - f b) <= Rabs (a - b)).
  { clear a b. intros a b L. destruct (MVT_cor2 f g a b L (fun c _ => D c)) as (c & E & _). rewrite <- (Rabs_Ropp (f a - f b)), <- (Rabs_Ropp (a - b)). replace (- (f a - f b)) with (g c * (b - a)) by lra. rewrite Rabs_mult.
    replace (- (a - b)) with (b - a) by ring. rewrite <- (Rmult_1_l (Rabs (b - a))) at 2. apply Rmult_le_compat_r; [apply Rabs_pos | apply B]. }
  destruct (Rtotal_order a b) as [L|[->|L]].
  - apply K. exact L.
  - rewrite !Rminus_diag_eq by reflexivity. lra.
  - rewrite <- (Rabs_Ropp (f a - f b)), <- (Rabs_Ropp (a - b)). replace (- (f a - f b)) with (f b - f a) by ring. replace (- (a - b)) with (b - a) by ring. apply K. exact L.
Qed.
Lemma cos_lipschitz a b : Rabs (cos a - cos b) <= Rabs (a - b).
Proof. apply (lipschitz cos (fun x => - sin x)); [apply derivable_pt_lim_cos | intros x; rewrite Rabs_Ropp; apply Rabs_le, SIN_bound]. Qed.
Lemma sin_lipschitz a b : Rabs (sin a - sin b) <= Rabs (a - b).
Proof. apply (lipschitz sin cos); [apply derivable_pt_lim_sin | intros x; apply Rabs_le, COS_bound]. Qed.
Lemma double_angle l r phi p e : is_phase l r phi -> Rabs (p - phi) <= e ->
  Rabs (cos (2 * p) - (waveG l r ^ 2 - waveF l r ^ 2) / amplitude2 l r) <= 2 * e /\ Rabs (sin (2 * p) - 2 * waveF l r * waveG l r / amplitude2 l r) <= 2 * e.
Proof.
  intros H E. destruct (is_phase_double l r phi H) as [<- <-]. assert (A : Rabs (2 * p - 2 * phi) <= 2 * e).
  { replace (2 * p - 2 * phi) with (2 * (p - phi)) by ring. rewrite Rabs_mult, (Rabs_pos_eq 2) by lra. lra. }
  split; apply Rle_trans with (2 := A); [apply cos_lipschitz | apply sin_lipschitz].
Qed.
Lemma phase_double atan64 l x : accurate atan64 -> in_range x -> (l <= 4)%nat -> exists p p', phase64 atan64 l x = Ok p /\ phaseShift64 atan64 (Z.of_nat l) x = Ok p' /\
  forall q, q = p \/ q = p' ->
    Rabs (cos (2 * B2R q) - (waveG l (B2R x) ^ 2 - waveF l (B2R x) ^ 2) / amplitude2 l (B2R x)) <= 240 * bpow radix2 (-53) * (1 + B2R x) /\
    Rabs (sin (2 * B2R q) - 2 * waveF l (B2R x) * waveG l (B2R x) / amplitude2 l (B2R x)) <= 240 * bpow radix2 (-53) * (1 + B2R x).
Proof.
  intros Ha Hx Hl. destruct (phase_64 atan64 l x Ha Hx Hl) as (p & phi & E1 & _ & H1 & B1), (phaseShift_64 atan64 l x Ha Hx Hl) as (p' & phi' & E2 & _ & H2 & B2).
  exists p, p'. split; [exact E1|]. split; [exact E2|]. replace (240 * bpow radix2 (-53) * (1 + B2R x)) with (2 * (120 * u * (1 + B2R x))) by (unfold u; ring).
  intros q [-> | ->]; [apply (double_angle l (B2R x) phi) | apply (double_angle l (B2R x) phi')]; assumption.
Qed.

(** * No relative accuracy *)
Lemma small_range : in_range (power2 (-40)) /\ B2R (power2 (-40)) = bpow radix2 (-40).
Proof.
  assert (E : power2 (-40) = @B754_finite 53 1024 false 4503599627370496 (-92) eq_refl) by (apply B2SF_inj; vm_compute; reflexivity). rewrite E.
  assert (V : B2R (@B754_finite 53 1024 false 4503599627370496 (-92) eq_refl) = bpow radix2 (-40)).
  { cbn [B2R cond_Zopp]. unfold F2R. cbn [Fnum Fexp]. change (-40)%Z with (52 + -92)%Z. rewrite bpow_plus. reflexivity. }
  split; [|exact V]. split; [reflexivity|]. rewrite V. split; apply bpow_le; lia.
Qed.
Lemma atan_cubic r : 0 < r -> 0 < r - atan r <= r * r * r.
Proof.
  intros H. destruct (MVT_cor2 atan (fun z => / (1 + z ^ 2)) 0 r H) as (c & E & [C1 C2]); [intros c _; apply derivable_pt_lim_atan|].
  rewrite atan_0, !Rminus_0_r in E. rewrite E. assert (Q : 0 < c * c) by nra. replace (1 + c ^ 2) with (1 + c * c) by ring.
  replace (r - / (1 + c * c) * r) with (r * (c * c) / (1 + c * c)) by (field; lra). split; [apply Rdiv_lt_0_compat; nra|].
  apply (Rmult_le_reg_r (1 + c * c)); [lra|]. replace (r * (c * c) / (1 + c * c) * (1 + c * c)) with (r * (c * c)) by (field; lra).
  assert (c * c <= r * r) by nra. assert (0 < r * r * r) by (repeat apply Rmult_lt_0_compat; exact H). nra.
Qed.
Lemma below (A : double) : is_finite A = true -> B2R A < bpow radix2 (-40) -> B2R A <= bpow radix2 (-40) - bpow radix2 (-93).
Proof.
  intros F L. assert (V : Valid_exp fexp64) by (apply FLT_exp_valid; reflexivity).
  assert (G : generic_format radix2 fexp64 (bpow radix2 (-40))) by (apply generic_format_bpow; cbn; lia).
  pose proof (pred_ge_gt radix2 fexp64 (B2R A) (bpow radix2 (-40)) (generic_format_B2R 53 1024 A) G L) as P. rewrite pred_bpow in P. exact P.
Qed.
Lemma relative_fails : exists x, in_range x /\ forall atan64, accurate atan64 -> exists p phi, phase64 atan64 1 x = Ok p /\ phaseShift64 atan64 1 x = Ok p /\
  phase_neutron 1 (B2R x) = Ok phi /\ 0 < phi /\ phi <= Rabs (B2R p - phi).
Proof.
  destruct small_range as [Hx V]. exists (power2 (-40)). split; [exact Hx|]. intros atan64 Ha. set (x := power2 (-40)) in *.
  exists (minus x (atan64 x)), (B2R x - atan (B2R x)). split; [reflexivity|]. split.
  { unfold phaseShift64. cbn [Z.eqb Pos.eqb]. assert (E1 : mult x (double_of 1) = x) by (apply B2SF_inj; vm_compute; reflexivity). rewrite E1. reflexivity. }
  split; [reflexivity|]. assert (P : 0 < B2R x) by (rewrite V; apply bpow_gt_0). destruct (atan_cubic (B2R x) P) as [C1 C2]. split; [exact C1|].
  assert (Nx : is_nan x = false) by reflexivity. destruct (phase_final atan64 x x (angle x) Ha Hx Nx) as [Fp Ep]; [rewrite Rminus_diag_eq, Rabs_R0 by reflexivity; pose proof u_small; lra|].
  destruct (Ha x Nx) as [Fa Ea]. destruct Hx as [Fx _]. pose proof (Bminus_correct 53 1024 eq_refl eq_refl mode_NE x (atan64 x) Fx Fa) as C. fold fexp64 in C. fold rnd in C.
  assert (B : Rabs (rnd (B2R x - B2R (atan64 x))) < bpow radix2 1024).
  { apply Rnot_le_lt. intros L. rewrite Rlt_bool_false in C by exact L. destruct C as [C _]. apply overflow_inf in C. unfold minus in Fp. destruct C as [C _]. rewrite C in Fp. discriminate. }
  rewrite Rlt_bool_true in C by exact B. destruct C as (Cv & _). unfold minus. rewrite Cv. set (A := B2R (atan64 x)) in *.
  assert (VE : Valid_exp fexp64) by (apply FLT_exp_valid; reflexivity).
  assert (C3 : B2R x * B2R x * B2R x <= bpow radix2 (-95)). { rewrite V, <- !bpow_plus. apply bpow_le. lia. }
  destruct (Rlt_dec A (B2R x)) as [L|L].
  - assert (L' : bpow radix2 (-93) <= B2R x - A). { rewrite V in L |- *. pose proof (below (atan64 x) Fa L) as Q. fold A in Q. lra. }
    assert (G : generic_format radix2 fexp64 (bpow radix2 (-93))) by (apply generic_format_bpow; cbn; lia).
    pose proof (round_ge_generic radix2 fexp64 (round_mode mode_NE) _ _ G L') as Q. fold rnd in Q.
    assert (bpow radix2 (-93) = 4 * bpow radix2 (-95)) by (change 4 with (bpow radix2 2); rewrite <- bpow_plus; reflexivity).
    rewrite Rabs_pos_eq by lra. lra.
  - assert (Q : rnd (B2R x - A) <= 0). { rewrite <- (round_0 radix2 fexp64 (round_mode mode_NE)). apply round_le; [exact VE | apply valid_rnd_N | lra]. }
    rewrite Rabs_left1 by lra. lra.
Qed.
