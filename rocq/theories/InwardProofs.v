(** The error of Newmark's method in the norm of the oscillator. *)
From Coq Require Import Reals Lia Lra Psatz.
From Coquelicot Require Import Coquelicot.
From Verif Require Import NewmarkSpec NewmarkErrorProofs InwardSpec.
Open Scope R_scope.

(** * Truncation errors with their right constants *)
(** If |F'| <= c s^n then |F| <= c s^(n+1)/(n+1), for n = 1 and 2 *)
Lemma grows1 F dF c : F 0 = 0 -> (forall t, 0 <= t <= 1 -> is_derive F t (dF t)) -> (forall t, 0 <= t <= 1 -> Rabs (dF t) <= c * t) -> forall t, 0 <= t <= 1 -> Rabs (F t) <= c / 2 * t ^ 2.
Proof.
  intros F0 D B t Ht. apply abs_le.
  assert (P : forall G dG, G 0 = 0 -> (forall t, 0 <= t <= 1 -> is_derive G t (dG t)) -> (forall t, 0 <= t <= 1 -> 0 <= dG t) -> 0 <= G t).
  { intros G dG G0 DG Pos. destruct (mean G dG 0 t ltac:(lra) ltac:(lra) ltac:(lra) DG) as (k & Hk & E). pose proof (Pos k ltac:(lra)). rewrite G0 in E. nra. }
  split.
  - pose proof (P (fun t => c / 2 * t ^ 2 + F t) (fun t => c * t + dF t)) as Q. cbv beta in Q. rewrite F0 in Q. enough (0 <= c / 2 * t ^ 2 + F t) by lra. apply Q; [ring | |].
    + intros s Hs. pose proof (D s Hs) as Ds. auto_derive; [eexists; exact Ds|]. rewrite (derived _ _ _ Ds). field.
    + intros s Hs. pose proof (le_abs _ _ (B s Hs)). lra.
  - pose proof (P (fun t => c / 2 * t ^ 2 - F t) (fun t => c * t - dF t)) as Q. cbv beta in Q. rewrite F0 in Q. enough (0 <= c / 2 * t ^ 2 - F t) by lra. apply Q; [ring | |].
    + intros s Hs. pose proof (D s Hs) as Ds. auto_derive; [eexists; exact Ds|]. rewrite (derived _ _ _ Ds). field.
    + intros s Hs. pose proof (le_abs _ _ (B s Hs)). lra.
Qed.
Lemma grows2 F dF c : F 0 = 0 -> (forall t, 0 <= t <= 1 -> is_derive F t (dF t)) -> (forall t, 0 <= t <= 1 -> Rabs (dF t) <= c * t ^ 2) -> forall t, 0 <= t <= 1 -> Rabs (F t) <= c / 3 * t ^ 3.
Proof.
  intros F0 D B t Ht. apply abs_le.
  assert (P : forall G dG, G 0 = 0 -> (forall t, 0 <= t <= 1 -> is_derive G t (dG t)) -> (forall t, 0 <= t <= 1 -> 0 <= dG t) -> 0 <= G t).
  { intros G dG G0 DG Pos. destruct (mean G dG 0 t ltac:(lra) ltac:(lra) ltac:(lra) DG) as (k & Hk & E). pose proof (Pos k ltac:(lra)). rewrite G0 in E. nra. }
  split.
  - pose proof (P (fun t => c / 3 * t ^ 3 + F t) (fun t => c * t ^ 2 + dF t)) as Q. cbv beta in Q. rewrite F0 in Q. enough (0 <= c / 3 * t ^ 3 + F t) by lra. apply Q; [ring | |].
    + intros s Hs. pose proof (D s Hs) as Ds. auto_derive; [eexists; exact Ds|]. rewrite (derived _ _ _ Ds). field.
    + intros s Hs. pose proof (le_abs _ _ (B s Hs)). lra.
  - pose proof (P (fun t => c / 3 * t ^ 3 - F t) (fun t => c * t ^ 2 - dF t)) as Q. cbv beta in Q. rewrite F0 in Q. enough (0 <= c / 3 * t ^ 3 - F t) by lra. apply Q; [ring | |].
    + intros s Hs. pose proof (D s Hs) as Ds. auto_derive; [eexists; exact Ds|]. rewrite (derived _ _ _ Ds). field.
    + intros s Hs. pose proof (le_abs _ _ (B s Hs)). lra.
Qed.
Lemma grows0 F dF c : F 0 = 0 -> (forall t, 0 <= t <= 1 -> is_derive F t (dF t)) -> (forall t, 0 <= t <= 1 -> Rabs (dF t) <= c) -> forall t, 0 <= t <= 1 -> Rabs (F t) <= c * t.
Proof.
  intros F0 D B t Ht. destruct (mean F dF 0 t ltac:(lra) ltac:(lra) ltac:(lra) D) as (k & Hk & E). rewrite F0 in E. replace (F t) with (dF k * t) by lra.
  rewrite Rabs_mult, (Rabs_pos_eq t) by lra. apply Rmult_le_compat_r; [lra | apply B; lra].
Qed.
Lemma value_sharp v v1 v2 v3 A : (forall t, 0 <= t <= 1 -> is_derive v t (v1 t)) -> (forall t, 0 <= t <= 1 -> is_derive v1 t (v2 t)) -> (forall t, 0 <= t <= 1 -> is_derive v2 t (v3 t)) ->
  (forall t, 0 <= t <= 1 -> Rabs (v3 t) <= A) -> Rabs (v 0 + v1 0 + ((1 / 2 - 1 / 10) * v2 0 + 1 / 10 * v2 1) - v 1) <= 4 / 15 * A.
Proof.
  intros D0 D1 D2 B.
  assert (Q2 : forall t, 0 <= t <= 1 -> Rabs (v2 t - v2 0) <= A * t).
  { apply (grows0 (fun t => v2 t - v2 0) v3); [ring | | exact B]. intros t Ht. pose proof (D2 t Ht) as D. auto_derive; [eexists; exact D|]. rewrite (derived _ _ _ D). ring. }
  assert (Q1 : forall t, 0 <= t <= 1 -> Rabs (v1 t - v1 0 - t * v2 0) <= A / 2 * t ^ 2).
  { apply (grows1 (fun t => v1 t - v1 0 - t * v2 0) (fun t => v2 t - v2 0)); [ring | | exact Q2]. intros t Ht. pose proof (D1 t Ht) as D. auto_derive; [eexists; exact D|]. rewrite (derived _ _ _ D). ring. }
  pose proof (grows2 (fun t => v t - v 0 - t * v1 0 - t ^ 2 / 2 * v2 0) (fun t => v1 t - v1 0 - t * v2 0) (A / 2)) as Q0. cbv beta in Q0.
  specialize (Q0 ltac:(field)). assert (T : forall t, 0 <= t <= 1 -> is_derive (fun t => v t - v 0 - t * v1 0 - t ^ 2 / 2 * v2 0) t (v1 t - v1 0 - t * v2 0)).
  { intros t Ht. pose proof (D0 t Ht) as D. auto_derive; [eexists; exact D|]. rewrite (derived _ _ _ D). field. }
  specialize (Q0 T Q1 1 ltac:(lra)). specialize (Q2 1 ltac:(lra)). apply le_abs in Q0. apply le_abs in Q2. apply abs_le. lra.
Qed.
Lemma slope_sharp v1 v2 v3 v4 B : (forall t, 0 <= t <= 1 -> is_derive v1 t (v2 t)) -> (forall t, 0 <= t <= 1 -> is_derive v2 t (v3 t)) -> (forall t, 0 <= t <= 1 -> is_derive v3 t (v4 t)) ->
  (forall t, 0 <= t <= 1 -> Rabs (v4 t) <= B) -> Rabs (v1 0 + 1 / 2 * (v2 0 + v2 1) - v1 1) <= 1 / 12 * B.
Proof.
  intros D1 D2 D3 HB.
  assert (Q1 : forall t, 0 <= t <= 1 -> Rabs (1 / 2 * (v2 t - v2 0) - t / 2 * v3 t) <= B / 2 / 2 * t ^ 2).
  { apply (grows1 (fun t => 1 / 2 * (v2 t - v2 0) - t / 2 * v3 t) (fun t => - (t / 2 * v4 t))); [field | |].
    - intros t Ht. pose proof (D2 t Ht) as D. pose proof (D3 t Ht) as D'. auto_derive; [split; [eexists; exact D|]; split; [eexists; exact D' | exact I]|]. rewrite (derived _ _ _ D), (derived _ _ _ D'). field.
    - intros t Ht. rewrite Rabs_Ropp, Rabs_mult, (Rabs_pos_eq (t / 2)) by lra. pose proof (HB t Ht). nra. }
  pose proof (grows2 (fun t => v1 t - v1 0 - t / 2 * (v2 0 + v2 t)) (fun t => 1 / 2 * (v2 t - v2 0) - t / 2 * v3 t) (B / 2 / 2)) as Q0. cbv beta in Q0. specialize (Q0 ltac:(field)).
  assert (T : forall t, 0 <= t <= 1 -> is_derive (fun t => v1 t - v1 0 - t / 2 * (v2 0 + v2 t)) t (1 / 2 * (v2 t - v2 0) - t / 2 * v3 t)).
  { intros t Ht. pose proof (D1 t Ht) as D. pose proof (D2 t Ht) as D'. auto_derive; [split; [eexists; exact D|]; split; [eexists; exact D' | exact I]|]. rewrite (derived _ _ _ D), (derived _ _ _ D'). field. }
  specialize (Q0 T Q1 1 ltac:(lra)). apply le_abs in Q0. apply abs_le. lra.
Qed.

(** * Sizes of errors *)
Lemma gap_nonneg d e : 0 <= gap d e.
Proof. apply sqrt_pos. Qed.
Lemma gap_sq d e : gap d e ^ 2 = d ^ 2 + e ^ 2.
Proof. unfold gap. apply pow2_sqrt. nra. Qed.
Lemma gap_fst d e : Rabs d <= gap d e.
Proof. unfold gap. rewrite <- (sqrt_Rsqr_abs d). apply sqrt_le_1_alt. unfold Rsqr. nra. Qed.
Lemma gap_snd d e : Rabs e <= gap d e.
Proof. unfold gap. rewrite <- (sqrt_Rsqr_abs e). apply sqrt_le_1_alt. unfold Rsqr. nra. Qed.
Lemma gap_le d e c : 0 <= c -> d ^ 2 + e ^ 2 <= c ^ 2 -> gap d e <= c.
Proof. intros Hc H. unfold gap. rewrite <- (sqrt_pow2 c Hc). apply sqrt_le_1_alt. exact H. Qed.
Lemma gap_sum d e : gap d e <= Rabs d + Rabs e.
Proof.
  apply gap_le; [pose proof (Rabs_pos d); pose proof (Rabs_pos e); lra|]. rewrite <- (pow2_abs d), <- (pow2_abs e). pose proof (Rabs_pos d). pose proof (Rabs_pos e). nra.
Qed.
Lemma gap_triangle d e p q : gap (d + p) (e + q) <= gap d e + (Rabs p + Rabs q).
Proof.
  pose proof (gap_nonneg d e) as N. pose proof (Rabs_pos p). pose proof (Rabs_pos q). apply gap_le; [lra|].
  pose proof (gap_sq d e) as Q. pose proof (gap_fst d e) as A. pose proof (gap_snd d e) as B. set (n := gap d e) in *.
  assert (d * p <= n * Rabs p) by (eapply Rle_trans; [apply Rle_abs|]; rewrite Rabs_mult; apply Rmult_le_compat_r; assumption).
  assert (e * q <= n * Rabs q) by (eapply Rle_trans; [apply Rle_abs|]; rewrite Rabs_mult; apply Rmult_le_compat_r; assumption).
  assert (P : 0 <= Rabs p * Rabs q) by (apply Rmult_le_pos; assumption).
  replace ((d + p) ^ 2 + (e + q) ^ 2) with (n ^ 2 + 2 * (d * p) + 2 * (e * q) + p ^ 2 + q ^ 2) by (rewrite Q; ring). rewrite <- (pow2_abs p), <- (pow2_abs q). nra.
Qed.
(** One step of the oscillator *)
Lemma rotation d e h w c W : 0 <= h -> 1 + w = 2 * c -> 0 <= c -> Rabs w <= W -> 1 <= W -> gap (d + - h * e) (e + - h * (w * d)) <= gap d e * (1 + h * c + h ^ 2 * W ^ 2 / 2).
Proof.
  intros Hh E Hc Hw HW. pose proof (gap_nonneg d e) as N. pose proof (gap_sq d e) as Q. set (n := gap d e) in *. apply gap_le; [apply Rmult_le_pos; [exact N|]; assert (0 <= h * c) by (apply Rmult_le_pos; lra); nra|].
  assert (X : - (2 * (d * e)) <= n ^ 2) by (pose proof (pow2_ge_0 (d + e)) as SQ; replace ((d + e) ^ 2) with (d ^ 2 + e ^ 2 + 2 * (d * e)) in SQ by ring; lra). assert (Y : w ^ 2 <= W ^ 2) by (rewrite <- (pow2_abs w); pose proof (Rabs_pos w); nra). assert (Y1 : 1 <= W ^ 2) by nra.
  replace ((d + - h * e) ^ 2 + (e + - h * (w * d)) ^ 2) with (n ^ 2 + h * (1 + w) * - (2 * (d * e)) + h ^ 2 * (e ^ 2 + w ^ 2 * d ^ 2)) by (rewrite Q; ring). rewrite E.
  assert (H1 : h * (2 * c) * - (2 * (d * e)) <= h * (2 * c) * n ^ 2) by (apply Rmult_le_compat_l; [apply Rmult_le_pos; lra | exact X]).
  assert (H2 : h ^ 2 * (e ^ 2 + w ^ 2 * d ^ 2) <= h ^ 2 * (W ^ 2 * n ^ 2)) by (apply Rmult_le_compat_l; [apply pow2_ge_0|]; rewrite Q; pose proof (pow2_ge_0 d); pose proof (pow2_ge_0 e); nra).
  set (z := h * c + h ^ 2 * W ^ 2 / 2). replace (n * (1 + h * c + h ^ 2 * W ^ 2 / 2)) with (n * (1 + z)) by (unfold z; ring). replace ((n * (1 + z)) ^ 2) with (n ^ 2 + n ^ 2 * (2 * z) + n ^ 2 * z ^ 2) by ring.
  assert (0 <= n ^ 2 * z ^ 2) by (apply Rmult_le_pos; apply pow2_ge_0). unfold z in *. lra.
Qed.

(** The arithmetic of a step *)
Lemma step_arithmetic n0 h W c U D1 T P Q V K : 0 <= n0 -> 0 <= h <= 1 / 100 -> 1 <= W -> h * W <= 1 / 10 -> 0 <= c -> 0 <= U -> 0 <= P -> 0 <= D1 -> 0 <= T ->
  D1 <= n0 + h * n0 + P -> T <= / 10000000000 * (1 + W * (U + D1)) -> P <= h ^ 2 * (2 / 5 * (W * n0) + 1 / 10 * (W * D1 + T)) + V -> Q <= h / 2 * (h * c * n0 + W * (h * n0 + P) + T) + K ->
  P + Q <= n0 * (h ^ 2 * (3 / 2 * W ^ 2 + c) + h * (/ 10 ^ 9 * W)) + h * (/ 10 ^ 10 * (1 + W * U)) + 11 / 10 * V + K.
Proof.
  intros Hn Hh HW HhW Hc HU HP HD HT B1 B2 B3 B4. replace (/ 10 ^ 9) with (/ 1000000000) by (f_equal; lra). replace (/ 10 ^ 10) with (/ 10000000000) by (f_equal; lra).
  set (t := / 10000000000) in *. assert (Ht : 0 < t <= / 1000) by (unfold t; lra).
  assert (h2 : 0 <= h ^ 2 <= 1 / 100 * h) by nra. assert (hW : 0 <= h * W) by (apply Rmult_le_pos; lra). assert (h2W : 0 <= h ^ 2 * W <= 1 / 1000) by (replace (h ^ 2 * W) with (h * (h * W)) by ring; nra).
  set (X1 := h ^ 2 * W * n0) in *. set (X2 := h ^ 2 * c * n0). set (X3 := h * W * n0). set (Y := h * (1 + W * U)).
  assert (X1p : 0 <= X1) by (apply Rmult_le_pos; lra). assert (X2p : 0 <= X2) by (apply Rmult_le_pos; [apply Rmult_le_pos; lra | lra]). assert (X3p : 0 <= X3) by (apply Rmult_le_pos; lra).
  assert (WU : 0 <= W * U) by (apply Rmult_le_pos; lra). assert (Yp : 0 <= Y) by (apply Rmult_le_pos; lra).
  assert (hn : h * n0 <= 1 / 100 * n0) by (apply Rmult_le_compat_r; lra).
  assert (D2 : D1 <= 101 / 100 * n0 + P) by lra.
  assert (Z1 : h ^ 2 * W * D1 <= 101 / 100 * X1 + 1 / 1000 * P).
  { apply Rle_trans with (h ^ 2 * W * (101 / 100 * n0 + P)); [apply Rmult_le_compat_l; lra|]. assert (h ^ 2 * W * P <= 1 / 1000 * P) by (apply Rmult_le_compat_r; lra). unfold X1. lra. }
  assert (Z2 : h * W * D1 <= 101 / 100 * X3 + 1 / 10 * P).
  { apply Rle_trans with (h * W * (101 / 100 * n0 + P)); [apply Rmult_le_compat_l; lra|]. assert (h * W * P <= 1 / 10 * P) by (apply Rmult_le_compat_r; lra). unfold X3. lra. }
  assert (Z3 : h * T <= t * Y + t * (h * W * D1)).
  { apply Rle_trans with (h * (t * (1 + W * (U + D1)))); [apply Rmult_le_compat_l; lra|]. unfold Y. right. ring. }
  assert (Z4 : h ^ 2 * T <= 1 / 100 * (h * T)) by (rewrite <- Rmult_assoc; apply Rmult_le_compat_r; lra).
  assert (Z5 : h * W * P <= 1 / 10 * P) by (apply Rmult_le_compat_r; lra).
  assert (Z6 : t * (h * W * D1) <= t * (101 / 100 * X3 + 1 / 10 * P)) by (apply Rmult_le_compat_l; lra).
  assert (C1 : P <= 2 / 5 * X1 + 1 / 10 * (h ^ 2 * W * D1 + h ^ 2 * T) + V) by (unfold X1; lra).
  assert (C2 : Q <= 1 / 2 * (X2 + X1 + h * W * P + h * T) + K) by (unfold X1, X2; lra).
  assert (X1' : X1 <= h ^ 2 * W ^ 2 * n0) by (unfold X1; apply Rmult_le_compat_r; [lra|]; apply Rmult_le_compat_l; [lra | nra]).
  replace (n0 * (h ^ 2 * (3 / 2 * W ^ 2 + c) + h * (/ 1000000000 * W)) + h * (t * (1 + W * U)) + 11 / 10 * V + K) with (3 / 2 * (h ^ 2 * W ^ 2 * n0) + X2 + 10 * t * X3 + t * Y + 11 / 10 * V + K) by (unfold X2, X3, Y, t; field).
  unfold t in *. clear - C1 C2 X1' Z1 Z2 Z3 Z4 Z5 Z6 X1p X2p X3p Yp HP HT. lra.
Qed.

Section Inward.
Variables (eta lo hi W U : R) (u u1 : R -> R).
Hypothesis S : solution eta lo hi u u1.
Hypothesis L : limits eta lo hi W U u u1.
Let c1 := 2 * eta / lo ^ 2.
Let c2 := 4 * eta / lo ^ 3.

Lemma lo_pos : 0 < lo. Proof. exact (proj1 (li_order _ _ _ _ _ _ _ L)). Qed.
Lemma eta_pos : 0 <= eta. Proof. exact (proj2 (li_order _ _ _ _ _ _ _ L)). Qed.
Lemma W_one : 1 <= W. Proof. exact (proj1 (li_coefficient _ _ _ _ _ _ _ L)). Qed.
Lemma U_pos x : lo <= x <= hi -> 0 <= U.
Proof. intros H. destruct (li_solution _ _ _ _ _ _ _ L x H) as [Q _]. pose proof (Rabs_pos (u x)). lra. Qed.
Lemma inverse_le n x : lo <= x -> 0 < / x ^ n <= / lo ^ n.
Proof.
  intros H. pose proof lo_pos. split; [apply Rinv_0_lt_compat, pow_lt; lra|]. apply Rinv_le_contravar; [apply pow_lt; lra | apply pow_incr; lra].
Qed.
Lemma c1_pos : 0 <= c1.
Proof. unfold c1, Rdiv. pose proof eta_pos. destruct (inverse_le 2 lo ltac:(lra)). apply Rmult_le_pos; lra. Qed.
Lemma c2_pos : 0 <= c2.
Proof. unfold c2, Rdiv. pose proof eta_pos. destruct (inverse_le 3 lo ltac:(lra)). apply Rmult_le_pos; lra. Qed.
Lemma w_bound x : lo <= x -> 0 <= 2 * eta / x /\ Rabs (w eta x) <= W.
Proof.
  intros H. pose proof lo_pos. pose proof eta_pos. pose proof W_one. pose proof (proj2 (li_coefficient _ _ _ _ _ _ _ L)) as B. destruct (inverse_le 1 x H) as [I1 I2]. rewrite !pow_1 in *.
  assert (0 <= 2 * eta / x) by (unfold Rdiv; apply Rmult_le_pos; lra). assert (2 * eta / x <= 2 * eta / lo) by (unfold Rdiv; apply Rmult_le_compat_l; lra).
  split; [assumption|]. unfold w. apply abs_le. lra.
Qed.
Lemma w1_bound x : lo <= x -> Rabs (2 * eta / x ^ 2) <= c1.
Proof.
  intros H. pose proof eta_pos. destruct (inverse_le 2 x H) as [I1 I2]. unfold c1, Rdiv. rewrite Rabs_pos_eq by (apply Rmult_le_pos; lra). apply Rmult_le_compat_l; lra.
Qed.
Lemma w2_bound x : lo <= x -> Rabs (4 * eta / x ^ 3) <= c2.
Proof.
  intros H. pose proof eta_pos. destruct (inverse_le 3 x H) as [I1 I2]. unfold c2, Rdiv. rewrite Rabs_pos_eq by (apply Rmult_le_pos; lra). apply Rmult_le_compat_l; lra.
Qed.
Lemma w_difference x h : 0 <= h -> lo <= x - h -> Rabs (w eta (x - h) - w eta x) <= h * c1.
Proof.
  intros Hh Hx. pose proof lo_pos. pose proof eta_pos. unfold w. replace (2 * eta / (x - h) - 1 - (2 * eta / x - 1)) with (h * (2 * eta * (/ (x - h) * / x))) by (field; lra).
  assert (0 < / (x - h) <= / lo) by (split; [apply Rinv_0_lt_compat; lra | apply Rinv_le_contravar; lra]). assert (0 < / x <= / lo) by (split; [apply Rinv_0_lt_compat; lra | apply Rinv_le_contravar; lra]).
  assert (P : 0 <= / (x - h) * / x <= / lo * / lo) by (split; [apply Rmult_le_pos; lra | apply Rmult_le_compat; lra]).
  rewrite Rabs_pos_eq by (apply Rmult_le_pos; [lra | apply Rmult_le_pos; lra]). apply Rmult_le_compat_l; [lra|]. unfold c1. replace (2 * eta / lo ^ 2) with (2 * eta * (/ lo * / lo)) by (field; lra). apply Rmult_le_compat_l; lra.
Qed.
Lemma sharp_3 x : lo <= x <= hi -> Rabs (u3 eta u u1 x) <= (c1 + W) * U.
Proof.
  intros H. destruct (li_solution _ _ _ _ _ _ _ L x H) as [Q0 Q1]. pose proof (proj2 (w_bound x (proj1 H))) as B0. pose proof (w1_bound x (proj1 H)) as B1.
  unfold u3. eapply Rle_trans; [apply Rabs_triang|]. rewrite !Rabs_mult, Rabs_Ropp.
  pose proof (Rmult_le_compat _ _ _ _ (Rabs_pos _) (Rabs_pos _) B1 Q0). pose proof (Rmult_le_compat _ _ _ _ (Rabs_pos _) (Rabs_pos _) B0 Q1). lra.
Qed.
Lemma sharp_4 x : lo <= x <= hi -> Rabs (u4 eta u u1 x) <= (c2 + 2 * c1 + W ^ 2) * U.
Proof.
  intros H. destruct (li_solution _ _ _ _ _ _ _ L x H) as [Q0 Q1]. pose proof (proj2 (w_bound x (proj1 H))) as B0. pose proof (w1_bound x (proj1 H)) as B1. pose proof (w2_bound x (proj1 H)) as B2.
  unfold u4. eapply Rle_trans; [apply Rabs_triang|]. eapply Rle_trans; [apply Rplus_le_compat_r, Rabs_triang|]. rewrite (Rabs_mult (4 * eta / x ^ 3)), (Rabs_mult (2 * _)), (Rabs_mult 2), Rabs_Ropp, (Rabs_mult (w eta x)), (Rabs_mult (w eta x)), (Rabs_pos_eq 2) by lra.
  pose proof (Rmult_le_compat _ _ _ _ (Rabs_pos _) (Rabs_pos _) B2 Q0). pose proof (Rmult_le_compat _ _ _ _ (Rabs_pos _) (Rabs_pos _) B1 Q1). pose proof (Rmult_le_compat _ _ _ _ (Rabs_pos _) (Rabs_pos _) B0 Q0) as Q.
  pose proof (Rmult_le_compat _ _ _ _ (Rabs_pos _) (Rmult_le_pos _ _ (Rabs_pos _) (Rabs_pos _)) B0 Q). lra.
Qed.
Lemma sharp_value x h : 0 <= h -> lo <= x <= hi -> lo <= x - h <= hi ->
  Rabs (u x + - h * u1 x + (- h) ^ 2 * ((1 / 2 - 1 / 10) * (w eta x * u x) + 1 / 10 * (w eta (x - h) * u (x - h))) - u (x - h)) <= 4 / 15 * (h ^ 3 * ((c1 + W) * U)).
Proof.
  intros Hh H0 H1.
  pose proof (value_sharp (fun t => 1 * u (x - t * h)) (fun t => 1 * - h * u1 (x - t * h)) (fun t => 1 * - h * - h * (w eta (x - t * h) * u (x - t * h))) (fun t => 1 * - h * - h * - h * u3 eta u u1 (x - t * h)) (h ^ 3 * ((c1 + W) * U))) as V.
  cbv beta in V. rewrite Rmult_0_l, Rminus_0_r, (Rmult_1_l h) in V. replace (u x + - h * u1 x + (- h) ^ 2 * ((1 / 2 - 1 / 10) * (w eta x * u x) + 1 / 10 * (w eta (x - h) * u (x - h))) - u (x - h)) with (1 * u x + 1 * - h * u1 x + ((1 / 2 - 1 / 10) * (1 * - h * - h * (w eta x * u x)) + 1 / 10 * (1 * - h * - h * (w eta (x - h) * u (x - h)))) - 1 * u (x - h)) by ring.
  apply V; intros t Ht; assert (Hx : lo <= x - t * h <= hi) by nra.
  - apply (scaled u). apply (so_slope _ _ _ _ _ S _ Hx).
  - apply (scaled u1). apply (so_equation _ _ _ _ _ S _ Hx).
  - apply (scaled (fun x => w eta x * u x)). apply (derive_2 eta lo hi u u1 lo_pos S), Hx.
  - rewrite !Rabs_mult, !Rabs_Ropp, Rabs_R1, (Rabs_pos_eq h Hh). pose proof (sharp_3 _ Hx). replace (1 * h * h * h) with (h ^ 3) by ring. apply Rmult_le_compat_l; [apply pow_le, Hh | assumption].
Qed.
Lemma sharp_slope x h : 0 <= h -> lo <= x <= hi -> lo <= x - h <= hi ->
  Rabs (u1 x + - h / 2 * (w eta x * u x + w eta (x - h) * u (x - h)) - u1 (x - h)) <= 1 / 12 * (h ^ 3 * ((c2 + 2 * c1 + W ^ 2) * U)).
Proof.
  intros Hh H0 H1.
  pose proof (slope_sharp (fun t => 1 * u1 (x - t * h)) (fun t => 1 * - h * (w eta (x - t * h) * u (x - t * h))) (fun t => 1 * - h * - h * u3 eta u u1 (x - t * h)) (fun t => 1 * - h * - h * - h * u4 eta u u1 (x - t * h)) (h ^ 3 * ((c2 + 2 * c1 + W ^ 2) * U))) as V.
  cbv beta in V. rewrite Rmult_0_l, Rminus_0_r, (Rmult_1_l h) in V. replace (u1 x + - h / 2 * (w eta x * u x + w eta (x - h) * u (x - h)) - u1 (x - h)) with (1 * u1 x + 1 / 2 * (1 * - h * (w eta x * u x) + 1 * - h * (w eta (x - h) * u (x - h))) - 1 * u1 (x - h)) by field.
  apply V; intros t Ht; assert (Hx : lo <= x - t * h <= hi) by nra.
  - apply (scaled u1). apply (so_equation _ _ _ _ _ S _ Hx).
  - apply (scaled (fun x => w eta x * u x)). apply (derive_2 eta lo hi u u1 lo_pos S), Hx.
  - apply (scaled (u3 eta u u1)). apply (derive_3 eta lo hi u u1 lo_pos S), Hx.
  - rewrite !Rabs_mult, !Rabs_Ropp, Rabs_R1, (Rabs_pos_eq h Hh). pose proof (sharp_4 _ Hx). replace (1 * h * h * h) with (h ^ 3) by ring. apply Rmult_le_compat_l; [apply pow_le, Hh | assumption].
Qed.
(** The error of a step from those before it *)
Lemma step_gap x h g0 f0 g1 f1 a1 : lo <= x <= hi -> lo <= x - h <= hi -> 0 <= h <= 1 / 100 -> h * W <= 1 / 10 ->
  ten_digits a1 (acceleration eta (x - h) g1) -> newmark (- h) g0 f0 (acceleration eta x g0) g1 f1 a1 ->
  gap (g1 - u (x - h)) (f1 - u1 (x - h)) <= gap (g0 - u x) (f0 - u1 x) * (1 + h * (eta / x) + h * step_growth eta lo W h) + h * step_loss eta lo W U h.
Proof.
  intros Hx Hx1 Hh HW T [Nf Ng]. pose proof W_one as W1. pose proof (U_pos x Hx) as U0. pose proof c1_pos as C1p. pose proof eta_pos as Ep. pose proof lo_pos as Lp.
  pose proof (sharp_value x h (proj1 Hh) Hx Hx1) as V. pose proof (sharp_slope x h (proj1 Hh) Hx Hx1) as Ls. pose proof (w_difference x h (proj1 Hh) (proj1 Hx1)) as Wd.
  destruct (w_bound x (proj1 Hx)) as [E0 C0]. destruct (w_bound (x - h) (proj1 Hx1)) as [_ C1]. destruct (li_solution _ _ _ _ _ _ _ L (x - h) Hx1) as (Su & _).
  unfold acceleration in *. fold (w eta x) in *. fold (w eta (x - h)) in *.
  set (d0 := g0 - u x) in *. set (e0 := f0 - u1 x) in *. set (d1 := g1 - u (x - h)) in *. set (e1 := f1 - u1 (x - h)) in *.
  set (ta := a1 - w eta (x - h) * g1) in *.
  set (rv := u x + - h * u1 x + (- h) ^ 2 * ((1 / 2 - 1 / 10) * (w eta x * u x) + 1 / 10 * (w eta (x - h) * u (x - h))) - u (x - h)) in *.
  set (rs := u1 x + - h / 2 * (w eta x * u x + w eta (x - h) * u (x - h)) - u1 (x - h)) in *.
  set (w0 := w eta x) in *. set (w1 := w eta (x - h)) in *.
  set (p := h ^ 2 * (2 / 5 * (w0 * d0) + 1 / 10 * (w1 * d1 + ta)) + rv). set (q := - (h / 2 * ((w1 - w0) * d0 + w1 * (d1 - d0) + ta)) + rs).
  assert (D : d1 = d0 + - h * e0 + p) by (unfold d1 at 1; rewrite Ng; unfold p, rv, d0, e0, d1, ta; field).
  assert (E : e1 = e0 + - h * (w0 * d0) + q) by (unfold e1; rewrite Nf; unfold q, rs, d0, e0, d1, ta; field).
  assert (Ht : Rabs ta <= / 10000000000 * (1 + W * (U + Rabs d1))).
  { set (t := / 10000000000) in *. assert (Tp : 0 < t) by (unfold t; lra). assert (G : Rabs (w1 * g1) <= W * (U + Rabs d1)).
    { rewrite Rabs_mult. apply Rmult_le_compat; try apply Rabs_pos; [exact C1|]. replace g1 with (u (x - h) + d1) by (unfold d1; ring). eapply Rle_trans; [apply Rabs_triang|]. lra. }
    destruct T as [T1 T2]. unfold ta. destruct (Req_dec (w1 * g1) 0) as [Z|Z].
    - specialize (T2 Z). fold t in T2. rewrite Z, Rminus_0_r. pose proof (Rabs_pos (w1 * g1)). assert (t * 1 <= t * (1 + W * (U + Rabs d1))) by (apply Rmult_le_compat_l; lra). lra.
    - specialize (T1 Z). fold t in T1. assert (t * Rabs (w1 * g1) <= t * (1 + W * (U + Rabs d1))) by (apply Rmult_le_compat_l; lra). lra. }
  pose proof (gap_nonneg d0 e0) as N0. pose proof (gap_fst d0 e0) as Nd. pose proof (gap_snd d0 e0) as Ne.
  assert (M : forall a b c d, Rabs a <= c -> Rabs b <= d -> Rabs (a * b) <= c * d) by (intros a b c d Ha Hb; rewrite Rabs_mult; apply Rmult_le_compat; (apply Rabs_pos || assumption)).
  assert (Eh : Rabs (- h * e0) <= h * gap d0 e0) by (apply M; [rewrite Rabs_Ropp, Rabs_pos_eq; lra | exact Ne]).
  assert (B1 : Rabs d1 <= gap d0 e0 + h * gap d0 e0 + Rabs p).
  { rewrite D at 1. eapply Rle_trans; [apply Rabs_triang|]. apply Rplus_le_compat_r. eapply Rle_trans; [apply Rabs_triang|]. lra. }
  assert (B1' : Rabs (d1 - d0) <= h * gap d0 e0 + Rabs p) by (replace (d1 - d0) with (- h * e0 + p) by lra; eapply Rle_trans; [apply Rabs_triang|]; lra).
  assert (B3 : Rabs p <= h ^ 2 * (2 / 5 * (W * gap d0 e0) + 1 / 10 * (W * Rabs d1 + Rabs ta)) + Rabs rv).
  { unfold p. eapply Rle_trans; [apply Rabs_triang|]. apply Rplus_le_compat_r. apply M; [rewrite Rabs_pos_eq; [lra | apply pow2_ge_0]|]. eapply Rle_trans; [apply Rabs_triang|]. apply Rplus_le_compat.
    - apply M; [rewrite Rabs_pos_eq; lra|]. apply M; assumption.
    - apply M; [rewrite Rabs_pos_eq; lra|]. eapply Rle_trans; [apply Rabs_triang|]. apply Rplus_le_compat_r. apply M; [assumption | lra]. }
  assert (B4 : Rabs q <= h / 2 * (h * c1 * gap d0 e0 + W * (h * gap d0 e0 + Rabs p) + Rabs ta) + Rabs rs).
  { unfold q. eapply Rle_trans; [apply Rabs_triang|]. apply Rplus_le_compat_r. rewrite Rabs_Ropp. apply M; [rewrite Rabs_pos_eq; lra|]. eapply Rle_trans; [apply Rabs_triang|]. apply Rplus_le_compat_r. eapply Rle_trans; [apply Rabs_triang|]. apply Rplus_le_compat; apply M; assumption. }
  pose proof (step_arithmetic _ h W c1 U (Rabs d1) (Rabs ta) (Rabs p) (Rabs q) (Rabs rv) (Rabs rs) N0 Hh W1 HW C1p U0 (Rabs_pos p) (Rabs_pos d1) (Rabs_pos ta) B1 Ht B3 B4) as A.
  pose proof (rotation d0 e0 h w0 (eta / x) W (proj1 Hh) ltac:(unfold w0, w; field; lra) ltac:(unfold Rdiv in *; lra) C0 W1) as Ro.
  pose proof (gap_triangle (d0 + - h * e0) (e0 + - h * (w0 * d0)) p q) as Tr. rewrite <- D, <- E in Tr.
  eapply Rle_trans; [exact Tr|]. eapply Rle_trans; [apply Rplus_le_compat; [exact Ro | exact A]|].
  assert (Pc : 0 <= h ^ 3 * ((c2 + 2 * c1 + W ^ 2) * U)). { apply Rmult_le_pos; [apply pow_le; lra|]. pose proof c2_pos. apply Rmult_le_pos; [nra | lra]. }
  assert (Pa : 0 <= h ^ 3 * ((c1 + W) * U)) by (apply Rmult_le_pos; [apply pow_le; lra|]; apply Rmult_le_pos; lra).
  unfold step_growth, step_loss. fold c1. fold c2.
  replace (gap d0 e0 * (1 + h * (eta / x) + h * (h * (2 * W ^ 2 + c1) + / 10 ^ 9 * W)) + h * (/ 10 ^ 10 * (1 + W * U) + h ^ 2 * (3 / 10 * ((c1 + W) * U) + 1 / 10 * ((c2 + 2 * c1 + W ^ 2) * U)))) with
    (gap d0 e0 * (1 + h * (eta / x) + h ^ 2 * W ^ 2 / 2) + gap d0 e0 * (h ^ 2 * (3 / 2 * W ^ 2 + c1) + h * (/ 10 ^ 9 * W)) + h * (/ 10 ^ 10 * (1 + W * U)) + 3 / 10 * (h ^ 3 * ((c1 + W) * U)) + 1 / 10 * (h ^ 3 * ((c2 + 2 * c1 + W ^ 2) * U))) by (set (t9 := / 10 ^ 9); set (t10 := / 10 ^ 10); set (ex := eta / x); field).
  lra.
Qed.
Lemma growth_step a b : 0 < b -> b <= a -> 1 + (a - b) * (eta / a) <= growth eta b a.
Proof.
  intros Hb Hab. pose proof eta_pos as Ep. unfold growth, Rpower. eapply Rle_trans; [|apply exp_ineq1_le]. apply Rplus_le_compat_l.
  replace ((a - b) * (eta / a)) with (eta * (1 - b / a)) by (field; lra). apply Rmult_le_compat_l; [exact Ep|].
  replace (a / b) with (/ (b / a)) by (field; lra). rewrite ln_Rinv by (apply Rdiv_lt_0_compat; lra).
  pose proof (exp_ineq1_le (ln (b / a))) as X. rewrite exp_ln in X by (apply Rdiv_lt_0_compat; lra). lra.
Qed.
Lemma growth_compose a b c : 0 < a -> 0 < b -> 0 < c -> growth eta a b * growth eta b c = growth eta a c.
Proof.
  intros Ha Hb Hc. unfold growth. rewrite Rpower_mult_distr by (apply Rdiv_lt_0_compat; lra). f_equal. field. lra.
Qed.
Lemma growth_one a b : 0 < a -> a <= b -> 1 <= growth eta a b.
Proof.
  intros Ha Hb. pose proof (growth_step b a Ha Hb). assert (0 <= (b - a) * (eta / b)) by (apply Rmult_le_pos; [lra | apply Rdiv_le_0_compat; [exact eta_pos | lra]]). lra.
Qed.
Theorem integration_gap h p0 p1 n g f : 0 <= h <= 1 / 100 -> h * W <= 1 / 10 -> (forall k, (k <= n)%nat -> lo <= hi - INR k * h) -> integration eta hi h p0 p1 n g f ->
  forall k, (k <= n)%nat -> gap (g k - u (hi - INR k * h)) (f k - u1 (hi - INR k * h)) <=
    growth eta (hi - INR k * h) hi * exp (INR k * h * step_growth eta lo W h) * (gap (p0 - u hi) (p1 - u1 hi) + INR k * h * step_loss eta lo W U h).
Proof.
  intros Hh HW Hx [[G0 F0] St]. pose proof lo_pos as Lp. pose proof W_one as W1. pose proof c1_pos as C1p. pose proof c2_pos as C2p. assert (Hhi : lo <= hi) by (specialize (Hx O ltac:(lia)); cbn [INR] in Hx; lra). pose proof (U_pos hi ltac:(lra)) as U0.
  set (K := step_growth eta lo W h). set (M := step_loss eta lo W U h).
  assert (K0 : 0 <= K). { unfold K, step_growth. fold c1. assert (0 <= h * (2 * W ^ 2 + c1)) by (apply Rmult_le_pos; [lra | nra]). assert (0 < / 10 ^ 9) by (apply Rinv_0_lt_compat, pow_lt; lra). nra. }
  assert (M0 : 0 <= M).
  { unfold M, step_loss. fold c1. fold c2. assert (0 < / 10 ^ 10) by (apply Rinv_0_lt_compat, pow_lt; lra). assert (0 <= W * U) by (apply Rmult_le_pos; lra). assert (0 <= (c1 + W) * U) by (apply Rmult_le_pos; lra). assert (0 <= (c2 + 2 * c1 + W ^ 2) * U) by (apply Rmult_le_pos; [nra | lra]).
    apply Rplus_le_le_0_compat; [apply Rmult_le_pos; lra | apply Rmult_le_pos; [apply pow2_ge_0 | lra]]. }
  induction k as [|k IH]; intros Hk.
  - cbn [INR]. rewrite !Rmult_0_l, Rminus_0_r, exp_0, G0, F0. pose proof (growth_one hi hi ltac:(lra) ltac:(lra)). pose proof (gap_nonneg (p0 - u hi) (p1 - u1 hi)). nra.
  - specialize (IH ltac:(lia)). destruct (St k ltac:(lia)) as (a1 & T & N).
    assert (P : hi - INR (Datatypes.S k) * h = hi - INR k * h - h) by (rewrite S_INR; ring). pose proof (Hx k ltac:(lia)) as X0. pose proof (Hx (Datatypes.S k) ltac:(lia)) as X1.
    pose proof (pos_INR k) as K1. assert (kh : 0 <= INR k * h) by (apply Rmult_le_pos; lra). rewrite P in X1, T |- *.
    assert (X0' : lo <= hi - INR k * h <= hi) by lra. assert (X1' : lo <= hi - INR k * h - h <= hi) by lra.
    pose proof (step_gap _ _ _ _ _ _ _ X0' X1' Hh HW T N) as Q. fold K in Q. fold M in Q.
    set (x := hi - INR k * h) in *. set (n0 := gap (g k - u x) (f k - u1 x)) in *. set (n1 := gap (g (Datatypes.S k) - _) _) in *. set (s := gap (p0 - u hi) (p1 - u1 hi)) in *.
    pose proof (gap_nonneg _ _ : 0 <= n0) as N0. pose proof (gap_nonneg _ _ : 0 <= s) as S0.
    assert (Gr : 1 + h * (eta / x) + h * K <= growth eta (x - h) x * exp (h * K)).
    { pose proof (growth_step x (x - h) ltac:(lra) ltac:(lra)) as A. replace (x - (x - h)) with h in A by ring. pose proof (exp_ineq1_le (h * K)) as B.
      assert (0 <= h * K) by (apply Rmult_le_pos; lra). assert (0 <= h * (eta / x)) by (apply Rmult_le_pos; [lra | apply Rdiv_le_0_compat; [exact eta_pos | lra]]).
      apply Rle_trans with ((1 + h * (eta / x)) * (1 + h * K)); [nra|]. apply Rmult_le_compat; lra. }
    assert (Y : growth eta (x - h) hi * exp (INR (Datatypes.S k) * h * K) = growth eta (x - h) x * exp (h * K) * (growth eta x hi * exp (INR k * h * K))).
    { rewrite <- (growth_compose (x - h) x hi) by lra. replace (INR (Datatypes.S k) * h * K) with (h * K + INR k * h * K) by (rewrite S_INR; ring). rewrite exp_plus. ring. }
    assert (Y1 : 1 <= growth eta (x - h) hi * exp (INR (Datatypes.S k) * h * K)).
    { pose proof (growth_one (x - h) hi ltac:(lra) ltac:(lra)). assert (1 <= exp (INR (Datatypes.S k) * h * K)) by (rewrite <- exp_0; apply exp_mono; rewrite S_INR; assert (0 <= (INR k + 1) * h) by (apply Rmult_le_pos; lra); apply Rmult_le_pos; lra). nra. }
    eapply Rle_trans; [exact Q|].
    replace (growth eta (x - h) hi * exp (INR (Datatypes.S k) * h * K) * (s + INR (Datatypes.S k) * h * M)) with (growth eta (x - h) x * exp (h * K) * (growth eta x hi * exp (INR k * h * K) * (s + INR k * h * M)) + growth eta (x - h) hi * exp (INR (Datatypes.S k) * h * K) * (h * M)) by (rewrite Y, S_INR; ring).
    apply Rplus_le_compat.
    + rewrite Rmult_comm. apply Rmult_le_compat; [| exact N0 | exact Gr | exact IH]. assert (0 <= h * K) by (apply Rmult_le_pos; lra). assert (0 <= h * (eta / x)) by (apply Rmult_le_pos; [lra | apply Rdiv_le_0_compat; [exact eta_pos | lra]]). lra.
    + assert (0 <= h * M) by (apply Rmult_le_pos; lra). nra.
Qed.
End Inward.
