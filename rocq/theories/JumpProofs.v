(** The older Breit-Wigner cross sections are continuous functions of the energy. *)
From Coq Require Import String List ZArith Reals Lra Lia Bool.
From Coquelicot Require Import Coquelicot.
From Verif Require Import Outcome QuantumModel SpinFactorModel HardSphereModel KinematicsModel RMatrixModel ChannelModel BreitWignerModel JumpSpec.
Import ListNotations.
Open Scope R_scope.

Lemma c_const c x : continuity_pt (fun _ => c) x.
Proof. apply continuity_pt_const. intros a b. reflexivity. Qed.
Lemma c_id x : continuity_pt (fun e => e) x.
Proof. apply derivable_continuous_pt, derivable_pt_id. Qed.
Lemma c_plus f g x : continuity_pt f x -> continuity_pt g x -> continuity_pt (fun e => f e + g e) x.
Proof. exact (continuity_pt_plus f g x). Qed.
Lemma c_minus f g x : continuity_pt f x -> continuity_pt g x -> continuity_pt (fun e => f e - g e) x.
Proof. exact (continuity_pt_minus f g x). Qed.
Lemma c_mult f g x : continuity_pt f x -> continuity_pt g x -> continuity_pt (fun e => f e * g e) x.
Proof. exact (continuity_pt_mult f g x). Qed.
Lemma c_opp f x : continuity_pt f x -> continuity_pt (fun e => - f e) x.
Proof. exact (continuity_pt_opp f x). Qed.
Lemma c_div f g x : continuity_pt f x -> continuity_pt g x -> g x <> 0 -> continuity_pt (fun e => f e / g e) x.
Proof. intros F G N. exact (continuity_pt_div f g x F G N). Qed.
Lemma c_comp f g x : continuity g -> continuity_pt f x -> continuity_pt (fun e => g (f e)) x.
Proof. intros G F. exact (continuity_pt_comp f g x F (G (f x))). Qed.
Lemma c_sin f x : continuity_pt f x -> continuity_pt (fun e => sin (f e)) x.
Proof. apply c_comp, continuity_sin. Qed.
Lemma c_cos f x : continuity_pt f x -> continuity_pt (fun e => cos (f e)) x.
Proof. apply c_comp, continuity_cos. Qed.
Lemma c_abs f x : continuity_pt f x -> continuity_pt (fun e => Rabs (f e)) x.
Proof. apply c_comp, Rcontinuity_abs. Qed.
Lemma c_sqrt f x : continuity_pt f x -> continuity_pt (fun e => sqrt (Rabs (f e))) x.
Proof. intros F. apply (continuity_pt_comp (fun e => Rabs (f e)) sqrt); [apply c_abs, F | apply continuity_pt_sqrt, Rabs_pos]. Qed.
Create HintDb cont.
Hint Resolve c_const c_id c_plus c_minus c_mult c_opp c_sin c_cos c_abs c_sqrt : cont.

(** What holds near a point *)
Lemma near_not_zero f x : continuity_pt f x -> f x <> 0 -> locally x (fun e => f e <> 0).
Proof. intros F N. apply continuity_pt_filterlim in F. apply (F (fun y => y <> 0)). apply open_neq, N. Qed.
Lemma near_at (P : R -> Prop) x : locally x P -> P x.
Proof. exact (locally_singleton x P). Qed.
Lemma shifted (P : R -> Prop) x q : locally (x + q) P -> locally x (fun e => P (e + q)).
Proof. intros [d H]. exists d. intros y Y. apply H. unfold ball in *. cbn in *. unfold AbsRing_ball, abs, minus, plus, opp in *. cbn in *. replace (y + q + - (x + q)) with (y + - x) by ring. exact Y. Qed.
Lemma c_shifted f x q : continuity_pt f (x + q) -> continuity_pt (fun e => f (e + q)) x.
Proof. intros F. apply (continuity_pt_comp (fun e => e + q) f); [auto with cont | exact F]. Qed.

(** Penetrability and shift factor *)
Lemma positive_part x : (if Rlt_dec 0 x then 1 else 0) * x = (x + Rabs x) / 2.
Proof. destruct (Rlt_dec 0 x); [rewrite Rabs_right by lra; lra | rewrite Rabs_left1 by lra; lra]. Qed.
Lemma factor_form a r x : (if Rlt_dec 0 x then 1 else 0) * x * a / r = (x + Rabs x) / 2 * a / r.
Proof. now rewrite positive_part. Qed.

Lemma penetration_continuous l rho E : continuity_pt rho E -> (exists v, penetrationShift (Z.of_nat l) (rho E) = Ok v) ->
  exists P S, continuity_pt P E /\ continuity_pt S E /\ forall e, penetrationShift (Z.of_nat l) (rho e) = Ok (P e, S e).
Proof.
  intros C [v V].
  assert (two : continuity_pt (fun e => (rho e + Rabs (rho e)) / 2) E) by (apply c_div; auto with cont; lra).
  assert (H : forall a r b, (forall x, r x <> 0) -> continuity_pt a E -> continuity_pt r E -> continuity_pt b E ->
    continuity_pt (fun e => (rho e + Rabs (rho e)) / 2 * a e / r e) E /\ continuity_pt (fun e => - b e / r e) E).
  { intros a r b N A R0 B. split; apply c_div; auto with cont. }
  destruct l as [|[|[|[|[|l]]]]].
  - exists (fun e => (rho e + Rabs (rho e)) / 2 * 1 / 1), (fun e => - 0 / 1). destruct (H (fun _ => 1) (fun _ => 1) (fun _ => 0)); auto with cont; try (intros; lra).
    split; [assumption|]. split; [assumption|]. intros e. unfold penetrationShift. cbn. now rewrite factor_form.
  - set (r := fun e => 1 + rho e * rho e). set (a := fun e => rho e * rho e).
    exists (fun e => (rho e + Rabs (rho e)) / 2 * a e / r e), (fun e => - 1 / r e). destruct (H a r (fun _ => 1)); unfold a, r; auto 20 with cont; try (intros; nra).
    split; [assumption|]. split; [assumption|]. intros e. unfold penetrationShift. cbn. now rewrite factor_form.
  - set (r := fun e => 9 + rho e * rho e * (3 + rho e * rho e)). set (a := fun e => rho e * rho e * (rho e * rho e)). set (b := fun e => 18 + rho e * rho e * 3).
    exists (fun e => (rho e + Rabs (rho e)) / 2 * a e / r e), (fun e => - b e / r e). destruct (H a r b); unfold a, b, r; auto 20 with cont.
    { intros x. pose proof (Rle_0_sqr (rho x)). unfold Rsqr in *. nra. }
    split; [assumption|]. split; [assumption|]. intros e. unfold penetrationShift. cbn. now rewrite factor_form.
  - set (q := fun e => rho e * rho e). assert (Q : continuity_pt q E) by (unfold q; auto with cont).
    set (r := fun e => 225 + q e * (45 + q e * (6 + q e))). set (a := fun e => q e * q e * q e). set (b := fun e => 675 + q e * (90 + q e * 6)).
    exists (fun e => (rho e + Rabs (rho e)) / 2 * a e / r e), (fun e => - b e / r e). destruct (H a r b); unfold a, b, r; auto 20 with cont.
    { intros x. assert (0 <= q x) by (apply Rle_0_sqr). assert (0 <= q x * (6 + q x)) by nra. assert (0 <= q x * (45 + q x * (6 + q x))) by nra. lra. }
    split; [assumption|]. split; [assumption|]. intros e. unfold penetrationShift. cbn. now rewrite factor_form.
  - set (q := fun e => rho e * rho e). assert (Q : continuity_pt q E) by (unfold q; auto with cont).
    set (r := fun e => 11025 + q e * (1575 + q e * (135 + q e * (10 + q e)))). set (a := fun e => q e * q e * (q e * q e)). set (b := fun e => 44100 + q e * (4725 + q e * (270 + q e * 10))).
    exists (fun e => (rho e + Rabs (rho e)) / 2 * a e / r e), (fun e => - b e / r e). destruct (H a r b); unfold a, b, r; auto 30 with cont.
    { intros x. assert (0 <= q x) by (apply Rle_0_sqr). assert (0 <= q x * (10 + q x)) by nra. assert (0 <= q x * (135 + q x * (10 + q x))) by nra.
      assert (0 <= q x * (1575 + q x * (135 + q x * (10 + q x)))) by nra. lra. }
    split; [assumption|]. split; [assumption|]. intros e. unfold penetrationShift. cbn. now rewrite factor_form.
  - exfalso. unfold penetrationShift in V. replace (Z.of_nat (S (S (S (S (S l)))))) with (5 + Z.of_nat l)%Z in V by lia.
    repeat match type of V with context [if (?a =? ?b)%Z then _ else _] => destruct (Z.eqb_spec a b); [lia|] end. discriminate.
Qed.

(** The phase shift may jump by pi; the functions of it that count do not *)
Lemma angle_sin x n d : n * n + d * d <> 0 -> forall t, (d <> 0 /\ t = atan (n / d)) \/ (d = 0 /\ (t = PI / 2 \/ t = - (PI / 2))) ->
  sin (x - t) * sin (x - t) = (d * sin x - n * cos x) * (d * sin x - n * cos x) / (n * n + d * d) /\
  sin (2 * (x - t)) = 2 * (d * sin x - n * cos x) * (d * cos x + n * sin x) / (n * n + d * d).
Proof.
  intros N t H.
  assert (K : exists s, s * s * (n * n + d * d) = 1 /\ sin t = s * n /\ cos t = s * d).
  { destruct H as [[D ->]|[-> [->| ->]]].
    - assert (P : 0 < 1 + (n / d)²) by (pose proof (Rle_0_sqr (n / d)); lra). assert (S0 : sqrt (1 + (n / d)²) <> 0) by (apply Rgt_not_eq, sqrt_lt_R0, P).
      assert (SS : sqrt (1 + (n / d)²) * sqrt (1 + (n / d)²) = 1 + (n / d)²) by (apply sqrt_sqrt; lra).
      exists (/ (sqrt (1 + (n / d)²) * d)). split; [|split].
      + apply (Rmult_eq_reg_r ((sqrt (1 + (n / d)²) * sqrt (1 + (n / d)²)) * (d * d))).
        * rewrite SS at 2. transitivity (n * n + d * d); [field; split; assumption|]. unfold Rsqr. field. exact D.
        * apply Rmult_integral_contrapositive_currified; apply Rmult_integral_contrapositive_currified; assumption.
      + rewrite sin_atan. field. split; assumption.
      + rewrite cos_atan. field. split; assumption.
    - assert (n <> 0) by (intros ->; apply N; ring). exists (/ n). rewrite sin_PI2, cos_PI2. repeat split; field; assumption.
    - assert (n <> 0) by (intros ->; apply N; ring). exists (- / n). rewrite sin_neg, cos_neg, sin_PI2, cos_PI2. repeat split; field; assumption. }
  destruct K as (s & S2 & S1 & C1). assert (E : s * s = / (n * n + d * d)) by (apply (Rmult_eq_reg_r (n * n + d * d)); [rewrite S2; field; exact N | exact N]).
  rewrite sin_2a, sin_minus, cos_minus, S1, C1. unfold Rdiv. rewrite <- E. split; ring.
Qed.
Lemma scaled_angle x n d : atan_scaled x n d = atan (x * n / d) /\ d <> 0 \/ d = 0 /\ (atan_scaled x n d = PI / 2 \/ atan_scaled x n d = - (PI / 2)).
Proof. unfold atan_scaled. destruct (Req_EM_T d 0); [right; split; [assumption|]; destruct (Rlt_dec n 0); tauto | left; split; [f_equal; field; assumption | assumption]]. Qed.

Lemma phase_continuous l rho E : continuity_pt rho E -> (exists v, phaseShift (Z.of_nat l) (rho E) = Ok v) ->
  exists A B, continuity_pt A E /\ continuity_pt B E /\ forall e, exists phi, phaseShift (Z.of_nat l) (rho e) = Ok phi /\ sin phi * sin phi = A e /\ sin (2 * phi) = B e.
Proof.
  intros C [v V].
  assert (H : forall n d (t : R -> R), (forall e, n e * n e + d e * d e <> 0) -> continuity_pt n E -> continuity_pt d E ->
    (forall e, d e <> 0 /\ t e = atan (n e / d e) \/ d e = 0 /\ (t e = PI / 2 \/ t e = - (PI / 2))) ->
    exists A B, continuity_pt A E /\ continuity_pt B E /\ forall e, exists phi, Ok (rho e - t e) = Ok phi /\ sin phi * sin phi = A e /\ sin (2 * phi) = B e).
  { intros n d t N Cn Cd T.
    exists (fun e => (d e * sin (rho e) - n e * cos (rho e)) * (d e * sin (rho e) - n e * cos (rho e)) / (n e * n e + d e * d e)),
      (fun e => 2 * (d e * sin (rho e) - n e * cos (rho e)) * (d e * cos (rho e) + n e * sin (rho e)) / (n e * n e + d e * d e)).
    split; [apply c_div; auto 20 with cont|]. split; [apply c_div; auto 20 with cont|]. intros e. exists (rho e - t e). split; [reflexivity|]. apply angle_sin; [apply N | apply T]. }
  assert (K : forall n d, (forall e, rho e * n e * (rho e * n e) + d e * d e <> 0) -> continuity_pt n E -> continuity_pt d E ->
    exists A B, continuity_pt A E /\ continuity_pt B E /\ forall e, exists phi, Ok (rho e - atan_scaled (rho e) (n e) (d e)) = Ok phi /\ sin phi * sin phi = A e /\ sin (2 * phi) = B e).
  { intros n d N Cn Cd. apply (H (fun e => rho e * n e) d (fun e => atan_scaled (rho e) (n e) (d e))); auto with cont.
    intros e. destruct (scaled_angle (rho e) (n e) (d e)) as [[A D]|A]; [left | right]; tauto. }
  destruct l as [|[|[|[|[|l]]]]].
  - exists (fun e => sin (rho e) * sin (rho e)), (fun e => sin (2 * rho e)). split; [auto with cont|]. split; [auto with cont|]. intros e. exists (rho e). repeat split; reflexivity.
  - apply (H rho (fun _ => 1) (fun e => atan (rho e * 1))); auto with cont; intros e; [nra|]. left. split; [lra|]. f_equal. field.
  - apply (K (fun _ => 3) (fun e => 3 - rho e * rho e)); auto with cont. intros e. assert (0 <= rho e * rho e) by apply Rle_0_sqr. nra.
  - apply (K (fun e => 15 - rho e * rho e) (fun e => 15 - 6 * (rho e * rho e))); auto with cont. intros e Z. set (q := rho e * rho e) in *. assert (0 <= q) by apply Rle_0_sqr.
    replace (rho e * (15 - q) * (rho e * (15 - q))) with (q * ((15 - q) * (15 - q))) in Z by (unfold q; ring). pose proof (Rle_0_sqr (15 - q)). pose proof (Rle_0_sqr (15 - 6 * q)). unfold Rsqr in *.
    assert ((15 - 6 * q) * (15 - 6 * q) = 0) by nra. assert (15 - 6 * q = 0) by nra. nra.
  - apply (K (fun e => 105 - 10 * (rho e * rho e)) (fun e => 105 + rho e * rho e * (rho e * rho e - 45))); auto 20 with cont. intros e Z. set (q := rho e * rho e) in *. assert (0 <= q) by apply Rle_0_sqr.
    replace (rho e * (105 - 10 * q) * (rho e * (105 - 10 * q))) with (q * ((105 - 10 * q) * (105 - 10 * q))) in Z by (unfold q; ring).
    pose proof (Rle_0_sqr (105 - 10 * q)). pose proof (Rle_0_sqr (105 + q * (q - 45))). unfold Rsqr in *. assert (0 <= q * ((105 - 10 * q) * (105 - 10 * q))) by (apply Rmult_le_pos; assumption).
    assert (A : (105 + q * (q - 45)) * (105 + q * (q - 45)) = 0) by lra. assert (B : q * ((105 - 10 * q) * (105 - 10 * q)) = 0) by lra.
    apply Rmult_integral in B. destruct B as [B|B]; [rewrite B in A; nra|]. assert (105 - 10 * q = 0) by nra. assert (q = 105 / 10) by lra. subst q. replace (rho e * rho e) with (105 / 10) in A by lra. lra.
  - exfalso. unfold phaseShift in V. replace (Z.of_nat (S (S (S (S (S l)))))) with (5 + Z.of_nat l)%Z in V by lia.
    repeat match type of V with context [if (?a =? ?b)%Z then _ else _] => destruct (Z.eqb_spec a b); [lia|] end. discriminate.
Qed.
