(** From the turning point to rho. *)
From Coq Require Import String List ZArith Reals Bool Lia Lra Psatz.
From Coquelicot Require Import Coquelicot.
From Verif Require Import Outcome CoulombWaveModel CoulombWaveSpec CoulombExactModel CoulombExactProofs CoulombRealProofs CoulombMeshProofs NewmarkSpec NewmarkProofs NewmarkErrorProofs.
Open Scope R_scope.

(** Towards the origin from the turning point, a positive value with a negative slope only grows *)
Lemma step_grows w0 w1 h g0 f0 g1 f1 a1 : 0 < h <= 1 -> 0 <= w0 -> 0 < w1 -> h ^ 2 * w1 <= 1 -> 1 <= g0 -> f0 <= 0 ->
  ten_digits a1 (w1 * g1) -> newmark (- h) g0 f0 (w0 * g0) g1 f1 a1 -> g0 <= g1 /\ f1 <= f0.
Proof.
  intros Hh H0 H1 Hq Hg Hf [T1 T2] [Nf Ng].
  assert (W0 : 0 <= w0 * g0) by (apply Rmult_le_pos; lra). assert (Hs : 0 < h ^ 2) by (apply pow_lt; lra). assert (Hs1 : h ^ 2 <= 1) by nra. replace ((- h) ^ 2) with (h ^ 2) in Ng by ring.
  assert (P : 0 <= h * - f0) by (apply Rmult_le_pos; lra). assert (P0 : 0 <= h ^ 2 * (w0 * g0)) by (apply Rmult_le_pos; lra).
  assert (Lo : g0 + 1 / 10 * (h ^ 2 * a1) <= g1) by lra.
  assert (A : 0 <= a1).
  { destruct (Rtotal_order g1 0) as [L|[L|L]].
    - exfalso. assert (Z : w1 * g1 < 0) by nra. specialize (T1 ltac:(lra)). rewrite (Rabs_left (w1 * g1)) in T1 by exact Z. apply le_abs in T1.
      assert (Q : 101 / 100 * (h ^ 2 * (w1 * g1)) <= h ^ 2 * a1) by (replace (101 / 100 * (h ^ 2 * (w1 * g1))) with (h ^ 2 * (101 / 100 * (w1 * g1))) by ring; apply Rmult_le_compat_l; lra).
      assert (g1 <= h ^ 2 * (w1 * g1)) by (replace (h ^ 2 * (w1 * g1)) with (h ^ 2 * w1 * g1) by ring; nra). lra.
    - exfalso. specialize (T2 ltac:(rewrite L; ring)). apply le_abs in T2. assert (h ^ 2 * - / 10000000000 <= h ^ 2 * a1) by (apply Rmult_le_compat_l; lra). lra.
    - assert (Z : 0 < w1 * g1) by (apply Rmult_lt_0_compat; lra). specialize (T1 ltac:(lra)). rewrite (Rabs_right (w1 * g1)) in T1 by lra. apply le_abs in T1. lra. }
  assert (0 <= h ^ 2 * a1) by (apply Rmult_le_pos; lra). split; [lra|]. rewrite Nf. assert (0 <= h / 2 * (w0 * g0 + a1)) by (apply Rmult_le_pos; lra). lra.
Qed.
Lemma integration_grows eta x h p0 p1 n g f : 0 < h <= 1 -> 1 <= p0 -> p1 <= 0 ->
  (forall k, (k <= n)%nat -> 0 <= 2 * eta / (x - INR k * h) - 1) -> (forall k, (0 < k <= n)%nat -> 0 < 2 * eta / (x - INR k * h) - 1 /\ h ^ 2 * (2 * eta / (x - INR k * h) - 1) <= 1) ->
  integration eta x h p0 p1 n g f -> forall k, (k <= n)%nat -> 1 <= g k /\ f k <= 0.
Proof.
  intros Hh Hp0 Hp1 Hw Hw1 [[G0 F0] St]. induction k as [|k IH]; intros Hk; [rewrite G0, F0; split; assumption|].
  destruct (IH ltac:(lia)) as [Hg Hf]. destruct (St k ltac:(lia)) as (a1 & T & N). destruct (Hw1 (S k) ltac:(lia)) as [W1 W2].
  destruct (step_grows _ _ _ _ _ _ _ _ Hh (Hw k ltac:(lia)) W1 W2 Hg Hf T N). lra.
Qed.
Lemma not_vanishing eta x h p0 p1 n : 0 < h <= 1 -> 1 <= p0 -> p1 <= 0 ->
  (forall k, (k <= n)%nat -> 0 <= 2 * eta / (x - INR k * h) - 1) -> (forall k, (0 < k <= n)%nat -> 0 < 2 * eta / (x - INR k * h) - 1 /\ h ^ 2 * (2 * eta / (x - INR k * h) - 1) <= 1) ->
  (forall k, (k < n)%nat -> 2 * eta / (x - INR k * h) <= 2 * eta / (x - INR (S k) * h)) -> ~ vanishing eta x h p0 p1 n.
Proof.
  intros Hh Hp0 Hp1 Hw Hw1 Hi (k & g & f & Hk & I & V). cbv zeta in V. destruct V as (V1 & _ & V).
  destruct (integration_grows eta x h p0 p1 k g f Hh Hp0 Hp1 ltac:(intros; apply Hw; lia) ltac:(intros; apply Hw1; lia) I k ltac:(lia)) as [G F].
  pose proof (Hw k ltac:(lia)) as W0. pose proof (Hi k Hk) as W1. unfold acceleration in *. set (w0 := 2 * eta / (x - INR k * h) - 1) in *. set (w1 := 2 * eta / (x - INR (S k) * h) - 1) in *.
  assert (L : w0 <= w1) by (unfold w0, w1; lra). assert (A : 0 <= w0 * g k) by (apply Rmult_le_pos; lra).
  set (q := predicted (- h) (g k) (f k) (w0 * g k)) in *.
  assert (Q : g k <= q). { unfold q, predicted. assert (0 <= h * - f k) by (apply Rmult_le_pos; lra). assert (0 <= (- h) ^ 2 * ((1 / 2 - 1 / 10) * (w0 * g k))) by (apply Rmult_le_pos; [apply pow2_ge_0 | lra]). lra. }
  assert (M : w0 * g k <= w1 * q) by (apply Rmult_le_compat; lra). rewrite !Rabs_pos_eq in V by lra.
  assert (/ 10 ^ 80 <= / 10) by (apply Rinv_le_contravar; [lra | rewrite <- (pow_1 10) at 1; apply Rle_pow; [lra | lia]]).
  assert (/ 10 ^ 80 * (w0 * g k) <= / 10 * (w0 * g k)) by (apply Rmult_le_compat_r; lra). lra.
Qed.
Lemma turning_value y : 1 <= y -> 1 <= fst (at_turning y).
Proof.
  intros Hy. unfold at_turning, omGcase2. cbn [fst snd]. cbn [real num dec add sub mul div fpow]. unfold real_dec.
  pose proof (Rpower_small y (-4 / 3) Hy ltac:(lra)) as A1. pose proof (Rpower_small y (-2) Hy ltac:(lra)) as A2. pose proof (Rpower_small y (-10 / 3) Hy ltac:(lra)) as A3. pose proof (Rpower_small y (-4) Hy ltac:(lra)) as A4.
  pose proof (Rpower_small y (-16 / 3) Hy ltac:(lra)) as A5.
  change (10 ^ 9)%Z with 1000000000%Z. change (10 ^ 10)%Z with 10000000000%Z. change (10 ^ 11)%Z with 100000000000%Z. change (10 ^ 12)%Z with 1000000000000%Z. change (10 ^ 13)%Z with 10000000000000%Z.
  assert (P1 : 1 <= Rpower y (1 / 6)). { apply Rle_trans with (Rpower y 0); [rewrite Rpower_O; lra|]. apply Rle_Rpower; lra. }
  apply Rle_trans with (11 / 10 * (19 / 20)); [lra|]. apply Rmult_le_compat; [lra | lra | | lra]. rewrite <- (Rmult_1_r (11 / 10)). apply Rmult_le_compat; lra.
Qed.
(** The coefficient between 5 eta / 3 - 5 and the turning point *)
Lemma coefficient_small y x : 15 <= y -> 16 < x -> 5 * y / 3 - 5 < x <= 2 * y -> 0 <= 2 * y / x - 1 <= 1 / 2 /\ Rabs (2 * y / x ^ 2) <= 1 / 2 /\ Rabs (4 * y / x ^ 3) <= 1 / 2.
Proof.
  intros Hy Hx H. assert (x0 : 0 < x) by lra. assert (E : 2 * y <= 3 / 2 * x) by lra.
  assert (E1 : 2 * y / x <= 3 / 2) by (apply (Rmult_le_reg_r x); [exact x0|]; unfold Rdiv; rewrite (Rmult_assoc (2 * y)), Rinv_l by lra; lra).
  assert (E2 : 1 <= 2 * y / x) by (apply (Rmult_le_reg_r x); [exact x0|]; unfold Rdiv; rewrite (Rmult_assoc (2 * y)), Rinv_l by lra; lra).
  assert (I : 0 < / x <= / 16) by (split; [apply Rinv_0_lt_compat; exact x0 | apply Rinv_le_contravar; lra]).
  assert (E3 : 2 * y / x ^ 2 = 2 * y / x * / x) by (field; lra). assert (E4 : 4 * y / x ^ 3 = 2 * (2 * y / x * / x * / x)) by (field; lra).
  assert (E5 : 0 <= 2 * y / x * / x <= 3 / 2 * / 16) by (split; [apply Rmult_le_pos; lra | apply Rmult_le_compat; lra]).
  assert (E6 : 0 <= 2 * y / x * / x * / x <= 3 / 2 * / 16 * / 16) by (split; [apply Rmult_le_pos; lra | apply Rmult_le_compat; lra]).
  split; [lra|]. rewrite E3, E4, !Rabs_pos_eq by lra. lra.
Qed.
Theorem carried r y s u u1 U : 15 <= y -> 16 < r -> 5 * y / 3 - 5 < r < 2 * y -> 2 * y - r < 9000 ->
  solution y r (2 * y) u u1 -> (forall x, r <= x <= 2 * y -> Rabs (u x) <= U /\ Rabs (u1 x) <= U) ->
  exists p0 p1 g f, omGcase2 exact (Fin y) = (Fin p0, Fin p1) /\ omAsymptotic exact (Fin r) (Fin y) s = Ok (Fin g, Fin f) /\
    Rabs (g - u r) + Rabs (f - u1 r) <= exp (5 / 2 * (2 * y - r)) *
      (Rabs (p0 - u (2 * y)) + Rabs (p1 - u1 (2 * y)) + (2 * y - r) * (/ 10000000000 * (1 + U / 2) + 9 / 4 * / 10000 * U)).
Proof.
  intros Hy Hr H1 H2 S HU. destruct (inward_steps r y s Hy Hr H1 H2) as [E (n & h & En & Hn & Hnh & Hh)]. set (p0 := fst (at_turning y)) in *. set (p1 := snd (at_turning y)) in *.
  pose proof (turning_value y ltac:(lra) : 1 <= p0) as P0. pose proof (proj2 (at_turning_signs y ltac:(lra)) : p1 < 0) as P1.
  set (m := Z.to_nat n). assert (Em : INR m = IZR n) by (unfold m; rewrite INR_IZR_INZ, Z2Nat.id by lia; reflexivity). rewrite <- Em in Hnh.
  assert (M0 : 1 <= INR m) by (change 1 with (INR 1); apply le_INR; lia).
  assert (h0 : 0 < h) by (destruct (Rlt_le_dec 0 h); [assumption | exfalso; nra]). rewrite Rabs_pos_eq in Hh by lra.
  assert (X : forall k, (k <= m)%nat -> r <= 2 * y - INR k * h <= 2 * y) by (intros k Hk; pose proof (le_INR _ _ Hk); pose proof (pos_INR k); assert (INR k * h <= INR m * h) by (apply Rmult_le_compat_r; lra); assert (0 <= INR k * h) by (apply Rmult_le_pos; lra); lra).
  assert (C : forall k, (k <= m)%nat -> 0 <= 2 * y / (2 * y - INR k * h) - 1 <= 1 / 2) by (intros k Hk; pose proof (X k Hk); apply coefficient_small; lra).
  assert (D : forall a b, r <= a -> a <= b -> 2 * y / b <= 2 * y / a) by (intros a b Ha Hb; unfold Rdiv; apply Rmult_le_compat_l; [lra | apply Rinv_le_contravar; lra]).
  assert (h2 : h ^ 2 <= / 10000) by nra. assert (h2' : 0 <= h ^ 2) by apply pow2_ge_0.
  assert (V : ~ vanishing y (2 * y) h p0 p1 m).
  { apply not_vanishing; try lra.
    - intros k Hk. apply C, Hk.
    - intros k [Hk Hk1]. pose proof (C k Hk1). split; [|nra]. pose proof (X k Hk1) as Xk. pose proof (lt_0_INR k Hk). assert (0 < INR k * h) by (apply Rmult_lt_0_compat; lra).
      assert (1 < 2 * y / (2 * y - INR k * h)) by (apply (Rmult_lt_reg_r (2 * y - INR k * h)); [lra|]; unfold Rdiv; rewrite (Rmult_assoc (2 * y)), Rinv_l by lra; lra). lra.
    - intros k Hk. apply D; [apply X; lia|]. rewrite S_INR. lra. }
  destruct (newmark_exact n h y (2 * y) p0 p1 ltac:(lia) ltac:(intros k Hk; pose proof (X k Hk); lra)) as (a & b & Eo & [(g & f & I & Ea & Eb)|(_ & _ & Hv)]).
  2: { exfalso. apply V, Hv. intros k Hk. pose proof (C k Hk). rewrite Rabs_pos_eq by lra. nra. }
  exists p0, p1, (g m), (f m). split; [exact E|]. split; [rewrite En, Eo, Ea, Eb; reflexivity|].
  assert (B : bounded y r (2 * y) (1 / 2) U u u1).
  { split; [|exact HU]. intros x Hx. pose proof (coefficient_small y x Hy ltac:(lra) ltac:(lra)) as (Q1 & Q2 & Q3). split; [rewrite Rabs_pos_eq by lra; lra | split; assumption]. }
  pose proof (integration_error y r (2 * y) (1 / 2) U u u1 ltac:(lra) S B (2 * y) h p0 p1 m g f ltac:(rewrite Rabs_pos_eq; lra) ltac:(rewrite Rabs_pos_eq; lra) X I m (le_n m)) as Er. cbv beta zeta in Er.
  rewrite Hnh, (Rabs_pos_eq h) in Er by lra. replace (INR m * h) with (2 * y - r) in Er by lra. replace ((2 * y - r) * (1 + 3 * (1 / 2))) with (5 / 2 * (2 * y - r)) in Er by field.
  eapply Rle_trans; [exact Er|]. apply Rmult_le_compat_l; [left; apply exp_pos|]. apply Rplus_le_compat_l. apply Rmult_le_compat_l; [lra|].
  assert (U0 : 0 <= U) by (destruct (HU r ltac:(lra)) as [Q _]; pose proof (Rabs_pos (u r)); lra).
  assert (h ^ 2 * ((4 + 1 / 2) * (1 / 2) * U) <= / 10000 * ((4 + 1 / 2) * (1 / 2) * U)) by (apply Rmult_le_compat_r; lra). lra.
Qed.
(** A solution is bounded between two positions *)
Lemma solution_bounded eta lo hi u u1 : 0 < lo <= hi -> solution eta lo hi u u1 -> exists U, forall x, lo <= x <= hi -> Rabs (u x) <= U /\ Rabs (u1 x) <= U.
Proof.
  intros H [S1 S2].
  assert (M : forall F d, (forall x, lo <= x <= hi -> is_derive F x (d x)) -> exists U, forall x, lo <= x <= hi -> Rabs (F x) <= U).
  { intros F d D. destruct (continuity_ab_maj (fun x => Rabs (F x)) lo hi ltac:(lra)) as (m & Hm & _).
    - intros c Hc. apply (continuity_pt_comp F Rabs); [apply derivable_continuous_pt; exists (d c); apply is_derive_Reals, D, Hc | apply Rcontinuity_abs].
    - exists (Rabs (F m)). exact Hm. }
  destruct (M _ _ S1) as [A HA]. destruct (M _ _ S2) as [B HB]. exists (Rmax A B). intros x Hx. split; [eapply Rle_trans; [apply HA, Hx | apply Rmax_l] | eapply Rle_trans; [apply HB, Hx | apply Rmax_r]].
Qed.
