(** Rounding errors from the energy to the penetrability. *)
From Coq Require Import String List ZArith Reals Lra Lia Bool Psatz.
From Flocq Require Import Core.Core Relative IEEE754.BinarySingleNaN.
From Verif Require Import Outcome HardSphereModel HardSphereSpec HardSphereProofs DoubleModel DoubleSpec DoubleProofs RoundingModel RoundingSpec RoundingProofs
  ChannelRoundingModel ChannelRoundingSpec.
Import ListNotations.
Open Scope R_scope.

Lemma near_widen n lo hi lo' hi' x r : near n lo hi x r -> (lo' <= lo)%Z -> (hi <= hi')%Z -> near n lo' hi' x r.
Proof.
  intros (F & B & V) H1 H2. split; [exact F|]. split; [|exact V]. pose proof (bpow_le radix2 _ _ H1). pose proof (bpow_le radix2 _ _ H2). lra.
Qed.
Lemma sqrt_bpow k : sqrt (bpow radix2 (2 * k)) = bpow radix2 k.
Proof. replace (2 * k)%Z with (k + k)%Z by lia. rewrite bpow_plus. apply sqrt_square, bpow_ge_0. Qed.
Lemma near_sqrt m lo hi x r : near (2 * m) (2 * lo) (2 * hi) x r -> (-900 <= lo)%Z -> (hi <= 900)%Z -> (m <= 99)%nat -> near (S m) lo hi (root x) (sqrt r).
Proof.
  intros Hx H1 H2 H3. destruct (near_pos _ _ _ _ _ Hx) as [Pr Px]. destruct Hx as (F & B & V1 & V2). pose proof u_small as U.
  apply (near_round _ _ _ (sqrt (B2R x))); try assumption.
  - split; [rewrite <- (sqrt_bpow lo) | rewrite <- (sqrt_bpow hi)]; apply sqrt_le_1_alt; lra.
  - assert (Q : forall a, 0 <= a -> sqrt r * a ^ m = sqrt (r * a ^ (2 * m))).
    { intros a Ha. rewrite Nat.mul_comm, pow_mult. rewrite <- Rsqr_pow2, sqrt_mult by (try lra; apply Rle_0_sqr). rewrite sqrt_Rsqr by (apply pow_le; lra). reflexivity. }
    rewrite !Q by lra. split; apply sqrt_le_1_alt; lra.
  - intros _. destruct (Bsqrt_correct 53 1024 eq_refl eq_refl mode_NE x) as (C1 & C2 & _). fold fexp64 in C1. fold rnd in C1. split; [|exact C1].
    unfold root. rewrite C2. destruct x as [s|s| |s me e He]; try reflexivity; try discriminate. destruct s; [|reflexivity].
    exfalso. cbn [B2R] in Px. pose proof (F2R_lt_0 radix2 (Float radix2 (Zneg me) e) ltac:(reflexivity)). cbn [cond_Zopp] in Px. cbn in Px, H. lra.
Qed.
(** The first factor may be negative *)
Lemma near_mult_opp n m lo hi lo' hi' x y r s : near n lo hi (opp x) r -> near m lo' hi' y s -> (-900 <= lo + lo')%Z -> (hi + hi' <= 900)%Z -> (n + m <= 99)%nat ->
  near (S (n + m)) (lo + lo') (hi + hi') (opp (mult x y)) (r * s).
Proof.
  intros Hx Hy H1 H2 H3. destruct (near_pos _ _ _ _ _ Hx) as [Pr Px], (near_pos _ _ _ _ _ Hy) as [Ps Py]. destruct Hx as (Fx & Bx & V1 & V2), Hy as (Fy & By & W1 & W2).
  unfold opp in Fx, Px, V1, V2. rewrite is_finite_Bopp in Fx. rewrite B2R_Bopp in Px, V1, V2.
  apply (near_round _ _ _ (- B2R x * B2R y)); try assumption.
  - rewrite !bpow_plus. pose proof (bpow_ge_0 radix2 lo). pose proof (bpow_ge_0 radix2 lo'). split; apply Rmult_le_compat; lra.
  - rewrite !pow_add. pose proof (down_pow n). pose proof (down_pow m). pose proof (up_pow n). pose proof (up_pow m). split.
    + replace (r * s * ((1 - u) ^ n * (1 - u) ^ m)) with (r * (1 - u) ^ n * (s * (1 - u) ^ m)) by ring. apply Rmult_le_compat; try assumption; apply Rmult_le_pos; lra.
    + replace (r * s * ((1 + u) ^ n * (1 + u) ^ m)) with (r * (1 + u) ^ n * (s * (1 + u) ^ m)) by ring. apply Rmult_le_compat; lra.
  - replace (- B2R x * B2R y) with (- (B2R x * B2R y)) by ring. rewrite rnd_opp, Rabs_Ropp. intros B.
    pose proof (Bmult_correct 53 1024 eq_refl eq_refl mode_NE x y) as C. fold fexp64 in C. fold rnd in C. rewrite Rlt_bool_true in C by exact B.
    destruct C as (C1 & C2 & _). unfold opp. rewrite is_finite_Bopp, B2R_Bopp. unfold mult. rewrite C1, C2, Fx, Fy. split; reflexivity.
Qed.
(** One rounding of a number that may be negative *)
Lemma rnd_abs v : Rabs (rnd v) = rnd (Rabs v).
Proof.
  assert (P : forall w, 0 <= w -> 0 <= rnd w). { intros w Hw. unfold rnd. rewrite <- (round_0 radix2 fexp64 (round_mode mode_NE)). apply round_le; [apply (fexp_correct 53 1024 eq_refl) | apply valid_rnd_round_mode | exact Hw]. }
  destruct (Rle_or_lt 0 v) as [H|H].
  - rewrite (Rabs_pos_eq v H). apply Rabs_pos_eq, P, H.
  - rewrite (Rabs_left v H). rewrite rnd_opp. apply Rabs_left1. pose proof (P (- v) ltac:(lra)) as Q. rewrite rnd_opp in Q. lra.
Qed.
Lemma near_abs_plus lo hi x y : is_finite x = true -> is_finite y = true -> (-900 <= lo)%Z -> (hi <= 900)%Z -> bpow radix2 lo <= Rabs (B2R x + B2R y) <= bpow radix2 hi ->
  near 1 lo hi (Babs (plus x y)) (Rabs (B2R x + B2R y)).
Proof.
  intros Fx Fy H1 H2 B. apply (near_round 0 _ _ (Rabs (B2R x + B2R y))); [assumption | assumption | lia | assumption | cbn; lra |].
  rewrite <- rnd_abs, Rabs_Rabsolu. intros L. pose proof (Bplus_correct 53 1024 eq_refl eq_refl mode_NE x y Fx Fy) as C. fold fexp64 in C. fold rnd in C. rewrite Rlt_bool_true in C by exact L.
  destruct C as (C1 & C2 & _). rewrite is_finite_Babs, B2R_Babs. unfold plus. rewrite C1, C2. split; reflexivity.
Qed.
Lemma near_moderate x : moderate x -> near 0 (-100) 100 x (B2R x).
Proof. intros [F B]. apply near_exact; auto. Qed.
Lemma near_ratio ma mb : moderate ma -> moderate mb -> near 3 (-201) 200 (ratio64 ma mb) (B2R mb / (B2R ma + B2R mb)).
Proof.
  intros Ha Hb. apply near_moderate in Ha, Hb. unfold ratio64. eapply near_more; [|eapply near_widen; [near_step | cbn; lia | cbn; lia]]; cbn; lia.
Qed.
Lemma near_reduced ma mb : moderate ma -> moderate mb -> near 4 (-301) 300 (reduced64 ma mb) (B2R ma * B2R mb / (B2R ma + B2R mb)).
Proof.
  intros Ha Hb. apply near_moderate in Ha, Hb. unfold reduced64. eapply near_more; [|eapply near_widen; [near_step | cbn; lia | cbn; lia]]; cbn; lia.
Qed.
Lemma near_4 lo hi x r : near 4 lo hi x r -> Rabs (B2R x - r) <= 41 / 10 * u * r.
Proof.
  intros H. destruct (near_pos _ _ _ _ _ H) as [P _]. destruct H as (_ & _ & V1 & V2). pose proof u_small.
  pose proof (up_tight 4 ltac:(lia)) as A. pose proof (bernoulli 4) as B. replace (INR 4) with 4 in * by (rewrite INR_IZR_INZ; reflexivity).
  apply Rabs_le. split; nra.
Qed.
(** The energy before the reaction *)
Lemma before_64 ma mb energy : moderate ma -> moderate mb -> moderate_energy energy ->
  is_finite (mult energy (ratio64 ma mb)) = true /\ bpow radix2 (-301) <= Rabs (before ma mb energy) <= bpow radix2 300 /\
  Rabs (B2R (mult energy (ratio64 ma mb)) - before ma mb energy) <= 41 / 10 * u * Rabs (before ma mb energy).
Proof.
  intros Ha Hb [Fe Be]. pose proof (near_ratio ma mb Ha Hb) as N. destruct (near_pos _ _ _ _ _ N) as [Pr _]. set (r := B2R mb / (B2R ma + B2R mb)) in *.
  assert (E : before ma mb energy = B2R energy * r) by (unfold before, r, Rdiv; ring). rewrite E.
  destruct (Rle_or_lt 0 (B2R energy)) as [H|H].
  - rewrite (Rabs_pos_eq _ H) in Be. assert (M : near 0 (-100) 100 energy (B2R energy)) by (apply near_exact; auto).
    pose proof (near_mult _ _ _ _ _ _ _ _ _ _ M N ltac:(lia) ltac:(lia) ltac:(lia)) as Q. cbn in Q. rewrite Rabs_pos_eq by (apply Rmult_le_pos; lra).
    split; [exact (proj1 Q)|]. split; [exact (proj1 (proj2 Q)) | exact (near_4 _ _ _ _ Q)].
  - rewrite (Rabs_left _ H) in Be. assert (M : near 0 (-100) 100 (opp energy) (- B2R energy)).
    { apply near_exact; [unfold opp; rewrite is_finite_Bopp; exact Fe | unfold opp; apply B2R_Bopp | exact Be]. }
    pose proof (near_mult_opp _ _ _ _ _ _ _ _ _ _ M N ltac:(lia) ltac:(lia) ltac:(lia)) as Q. cbn in Q. assert (Z : B2R energy * r < 0) by nra. rewrite Rabs_left by exact Z.
    replace (- (B2R energy * r)) with (- B2R energy * r) by ring. split; [pose proof (proj1 Q) as G; unfold opp in G; rewrite is_finite_Bopp in G; exact G|].
    split; [exact (proj1 (proj2 Q))|]. pose proof (near_4 _ _ _ _ Q) as G. unfold opp in G. rewrite B2R_Bopp in G.
    replace (B2R (mult energy (ratio64 ma mb)) - B2R energy * r) with (- (- B2R (mult energy (ratio64 ma mb)) - - B2R energy * r)) by ring. rewrite Rabs_Ropp. exact G.
Qed.
(** * Channel ratio *)
Lemma near_8 lo hi x r : near 8 lo hi x r -> r * (1 - 8 * u) <= B2R x <= r * (1 + 41 / 5 * u).
Proof.
  intros H. destruct (near_pos _ _ _ _ _ H) as [P _]. destruct H as (_ & _ & V1 & V2).
  pose proof (up_tight 8 ltac:(lia)) as A. pose proof (bernoulli 8) as B. replace (INR 8) with 8 in * by (rewrite INR_IZR_INZ; reflexivity).
  split; nra.
Qed.
Lemma sqrt_perturbed s t e : 0 < t -> 0 <= e <= / 100 -> t * (1 - e) <= s <= t * (1 + e) -> sqrt t * (1 - 51 / 100 * e) <= sqrt s <= sqrt t * (1 + e / 2).
Proof.
  intros T E [S1 S2]. assert (Q : forall a, 0 <= a -> sqrt t * a = sqrt (t * a ^ 2)).
  { intros a Ha. rewrite <- Rsqr_pow2, sqrt_mult by (try lra; apply Rle_0_sqr). rewrite sqrt_Rsqr by exact Ha. reflexivity. }
  rewrite !Q by lra. split; apply sqrt_le_1_alt.
  - apply Rle_trans with (2 := S1). apply Rmult_le_compat_l; [lra|]. nra.
  - apply Rle_trans with (1 := S2). apply Rmult_le_compat_l; [lra|]. nra.
Qed.
Definition eps (kappa : R) : R := 41 / 10 * u * kappa.
Lemma eps_small kappa : 1 <= kappa <= bpow radix2 30 -> 0 < eps kappa <= / 1000000 /\ kappa * u <= / 8000000.
Proof.
  intros K. unfold eps. pose proof u_small. assert (B : kappa * u <= / 8000000).
  { apply Rle_trans with (bpow radix2 30 * u); [apply Rmult_le_compat_r; lra|]. unfold u. rewrite <- bpow_plus. change (bpow radix2 (30 + -53)) with (/ 8388608). lra. }
  split; [|exact B]. split; [|lra]. apply Rmult_lt_0_compat; lra.
Qed.
Section Ratio.
Variables (hbar unit ma mb mc md q radius energy : double) (kappa : R).
Hypotheses (Hh : moderate hbar) (Hu : moderate unit) (Ha : moderate ma) (Hb : moderate mb) (Hc : moderate mc) (Hd : moderate md) (Hq : moderate_Q q) (Hr : moderate radius)
  (He : moderate_energy energy) (Hk : cancellation ma mb q energy kappa).
Let x := mult energy (ratio64 ma mb).
Lemma centre_64 : 0 < Rabs (after ma mb q energy) /\ Rabs (B2R x + B2R q - after ma mb q energy) <= eps kappa * Rabs (after ma mb q energy) /\
  Rabs (after ma mb q energy) * (1 - eps kappa) <= Rabs (B2R x + B2R q) <= Rabs (after ma mb q energy) * (1 + eps kappa) /\
  near 1 (-332) 302 (Babs (plus x q)) (Rabs (B2R x + B2R q)).
Proof.
  destruct Hk as [K1 K2]. destruct (before_64 ma mb energy Ha Hb He) as (F & B & E). fold x in F, E. destruct (eps_small kappa K2) as [[E1 E2] _]. set (t := Rabs (after ma mb q energy)) in *.
  pose proof (bpow_gt_0 radix2 (-301)) as P301. assert (T : 0 < t) by (pose proof (Rabs_pos (after ma mb q energy)); unfold t in *; nra).
  assert (D : Rabs (B2R x + B2R q - after ma mb q energy) <= eps kappa * t).
  { unfold after. replace (B2R x + B2R q - (before ma mb energy + B2R q)) with (B2R x - before ma mb energy) by ring. apply Rle_trans with (1 := E). unfold eps.
    replace (41 / 10 * u * kappa * t) with (41 / 10 * u * (kappa * t)) by ring. apply Rmult_le_compat_l; [pose proof u_small; lra | exact K1]. }
  assert (V : t * (1 - eps kappa) <= Rabs (B2R x + B2R q) <= t * (1 + eps kappa)).
  { pose proof (Rabs_triang_inv (B2R x + B2R q) (after ma mb q energy)) as A1. pose proof (Rabs_triang_inv (after ma mb q energy) (B2R x + B2R q)) as A2.
    rewrite (Rabs_minus_sym (after ma mb q energy)) in A2. fold t in A1, A2. lra. }
  split; [exact T|]. split; [exact D|]. split; [exact V|]. apply near_abs_plus; [exact F | exact (proj1 Hq) | lia | lia|].
  assert (T1 : bpow radix2 (-331) <= t).
  { assert (bpow radix2 (-301) <= bpow radix2 30 * t) by (apply Rle_trans with (1 := proj1 B); apply Rle_trans with (1 := K1); apply Rmult_le_compat_r; lra).
    change (-331)%Z with (-301 + -30)%Z. rewrite bpow_plus. apply (Rmult_le_reg_l (bpow radix2 30)); [apply bpow_gt_0|].
    replace (bpow radix2 30 * (bpow radix2 (-301) * bpow radix2 (-30))) with (bpow radix2 (-301) * (bpow radix2 30 * bpow radix2 (-30))) by ring.
    rewrite <- (bpow_plus radix2 30 (-30)). change (bpow radix2 (30 + -30)) with 1. lra. }
  assert (T2 : t <= bpow radix2 301).
  { unfold t, after. apply Rle_trans with (1 := Rabs_triang _ _). change 301%Z with (1 + 300)%Z. rewrite bpow_plus. change (bpow radix2 1) with 2.
    pose proof (bpow_le radix2 100 300 ltac:(lia)). destruct Hq as [_ Q]. lra. }
  change (-332)%Z with (-331 + -1)%Z. change 302%Z with (301 + 1)%Z. rewrite !bpow_plus. change (bpow radix2 (-1)) with (/ 2). change (bpow radix2 1) with 2. nra.
Qed.
Lemma ratio_64 : let rho := rho_exact hbar unit ma mb mc md q radius energy in let y := channelRatio64 hbar unit ma mb mc md q radius energy in
  is_finite y = true /\ 0 < rho /\ Rabs (B2R y - rho) <= (17 / 2 + 23 / 10 * kappa) * u * rho.
Proof.
  cbv zeta. destruct centre_64 as (T & _ & V & N). destruct Hk as [_ K]. destruct (eps_small kappa K) as [[E1 E2] E3]. pose proof u_small as U.
  pose proof (near_reduced mc md Hc Hd) as M. destruct (near_pos _ _ _ _ _ M) as [PM _]. unfold rho_exact. set (mu := B2R mc * B2R md / (B2R mc + B2R md)) in *. set (t := Rabs (after ma mb q energy)) in *.
  apply near_moderate in Hh, Hu, Hr. destruct (near_pos _ _ _ _ _ Hh) as [Ph _], (near_pos _ _ _ _ _ Hu) as [Pu _], (near_pos _ _ _ _ _ Hr) as [Pr _].
  assert (N1 : near 8 (2 * -317) (2 * 309) (#2 * reduced64 mc md * Babs (plus x q))%D (2 * mu * Rabs (B2R x + B2R q))).
  { eapply near_more; [|eapply near_widen; [near_step | cbn; lia | cbn; lia]]. cbn. lia. }
  apply (near_sqrt 4 (-317) 309) in N1; [|lia|lia|lia].
  assert (N2 : near 8 (-617) 609 (channelRatio64 hbar unit ma mb mc md q radius energy) (sqrt (2 * mu * Rabs (B2R x + B2R q)) / B2R hbar * B2R unit * B2R radius)).
  { unfold channelRatio64, wave64. fold x. eapply near_more; [|eapply near_widen; [near_step | cbn; lia | cbn; lia]]. cbn. lia. }
  split; [exact (proj1 N2)|]. pose proof (near_8 _ _ _ _ N2) as W. pose proof (sqrt_perturbed _ t (eps kappa) T ltac:(lra) V) as Q.
  rewrite !sqrt_mult in W by (try apply Rabs_pos; lra). rewrite (sqrt_mult (2 * mu) t) by (try apply Rabs_pos; lra).
  assert (C0 : 0 < sqrt (2 * mu) / B2R hbar * B2R unit * B2R radius).
  { repeat apply Rmult_lt_0_compat; try assumption; [apply sqrt_lt_R0; lra | apply Rinv_0_lt_compat; assumption]. }
  assert (S0 : 0 < sqrt t) by (apply sqrt_lt_R0; exact T). set (y := B2R (channelRatio64 hbar unit ma mb mc md q radius energy)) in *.
  rewrite <- sqrt_mult in W by lra. set (C := sqrt (2 * mu) / B2R hbar * B2R unit * B2R radius) in *. set (s := sqrt (Rabs (B2R x + B2R q))) in *.
  replace (sqrt (2 * mu) * s / B2R hbar * B2R unit * B2R radius) with (C * s) in W by (unfold C, Rdiv; ring).
  replace (sqrt (2 * mu) * sqrt t / B2R hbar * B2R unit * B2R radius) with (C * sqrt t) by (unfold C, Rdiv; ring).
  set (rho := C * sqrt t). assert (R0 : 0 < rho) by (apply Rmult_lt_0_compat; assumption). split; [exact R0|].
  assert (Y : rho * (1 - 51 / 100 * eps kappa) <= C * s <= rho * (1 + eps kappa / 2)).
  { unfold rho. split; [apply Rle_trans with (C * (sqrt t * (1 - 51 / 100 * eps kappa))); [lra | apply Rmult_le_compat_l; lra] | apply Rle_trans with (C * (sqrt t * (1 + eps kappa / 2))); [apply Rmult_le_compat_l; lra | lra]]. }
  assert (L : (1 - 51 / 100 * eps kappa) * (1 - 8 * u) >= 1 - (17 / 2 + 23 / 10 * kappa) * u) by (unfold eps in *; nra).
  assert (G : (1 + eps kappa / 2) * (1 + 41 / 5 * u) <= 1 + (17 / 2 + 23 / 10 * kappa) * u) by (unfold eps in *; nra).
  assert (Y1 : rho * (1 - 51 / 100 * eps kappa) * (1 - 8 * u) <= y) by (apply Rle_trans with (2 := proj1 W); apply Rmult_le_compat_r; lra).
  assert (Y2 : y <= rho * (1 + eps kappa / 2) * (1 + 41 / 5 * u)) by (apply Rle_trans with (1 := proj2 W); apply Rmult_le_compat_r; lra).
  apply Rabs_le. split; nra.
Qed.
End Ratio.
(** * Penetrability and shift factor when the channel ratio is perturbed *)
Lemma pow_mono a b n : 0 < a <= b -> a ^ n <= b ^ n.
Proof. intros H. apply pow_incr. lra. Qed.
Lemma den_mono l a b : 0 < a <= b -> den l a <= den l b.
Proof.
  intros H. pose proof (pow_mono a b 2 H). pose proof (pow_mono a b 4 H). pose proof (pow_mono a b 6 H). pose proof (pow_mono a b 8 H).
  destruct l as [|[|[|[|l]]]]; cbn [den]; lra.
Qed.
Lemma num_mono l a b : 0 < a <= b -> num_shift l a <= num_shift l b.
Proof.
  intros H. pose proof (pow_mono a b 2 H). pose proof (pow_mono a b 4 H). pose proof (pow_mono a b 6 H).
  destruct l as [|[|[|[|l]]]]; cbn [num_shift]; lra.
Qed.
Lemma term_scale t a c m n : 0 < a -> 1 <= t -> 0 <= c -> (m <= n)%nat -> c * (t * a) ^ m <= t ^ n * (c * a ^ m).
Proof.
  intros A T C L. rewrite Rpow_mult_distr. replace (t ^ n * (c * a ^ m)) with (c * (t ^ n * a ^ m)) by ring. apply Rmult_le_compat_l; [exact C|].
  apply Rmult_le_compat_r; [apply pow_le; lra | apply Rle_pow; assumption].
Qed.
Lemma den_scale l t a : 0 < a -> 1 <= t -> (l <= 4)%nat -> den l (t * a) <= t ^ (2 * l) * den l a.
Proof.
  intros A T L. assert (S : forall c m, 0 <= c -> (m <= 2 * l)%nat -> c * (t * a) ^ m <= t ^ (2 * l) * (c * a ^ m)) by (intros; apply term_scale; assumption).
  destruct l as [|[|[|[|[|l]]]]]; try lia; cbn [den].
  - cbn. lra.
  - pose proof (S 1 0%nat ltac:(lra) ltac:(lia)). pose proof (S 1 2%nat ltac:(lra) ltac:(lia)). rewrite !Rmult_plus_distr_l in *. cbn [pow] in *. lra.
  - pose proof (S 9 0%nat ltac:(lra) ltac:(lia)) as A0. pose proof (S 3 2%nat ltac:(lra) ltac:(lia)) as A2. pose proof (S 1 4%nat ltac:(lra) ltac:(lia)) as A4.
    rewrite !Rmult_plus_distr_l. rewrite (pow_O (t * a)), (pow_O a) in A0. lra.
  - pose proof (S 225 0%nat ltac:(lra) ltac:(lia)) as A0. pose proof (S 45 2%nat ltac:(lra) ltac:(lia)) as A2. pose proof (S 6 4%nat ltac:(lra) ltac:(lia)) as A4. pose proof (S 1 6%nat ltac:(lra) ltac:(lia)) as A6.
    rewrite !Rmult_plus_distr_l. rewrite (pow_O (t * a)), (pow_O a) in A0. lra.
  - pose proof (S 11025 0%nat ltac:(lra) ltac:(lia)) as A0. pose proof (S 1575 2%nat ltac:(lra) ltac:(lia)) as A2. pose proof (S 135 4%nat ltac:(lra) ltac:(lia)) as A4. pose proof (S 10 6%nat ltac:(lra) ltac:(lia)) as A6. pose proof (S 1 8%nat ltac:(lra) ltac:(lia)) as A8.
    rewrite !Rmult_plus_distr_l. rewrite (pow_O (t * a)), (pow_O a) in A0. lra.
Qed.
Lemma num_scale l t a : 0 < a -> 1 <= t -> (l <= 4)%nat -> num_shift l (t * a) <= t ^ (2 * l) * num_shift l a.
Proof.
  intros A T L. assert (S : forall c m, 0 <= c -> (m <= 2 * l)%nat -> c * (t * a) ^ m <= t ^ (2 * l) * (c * a ^ m)) by (intros; apply term_scale; assumption).
  destruct l as [|[|[|[|[|l]]]]]; try lia; cbn [num_shift].
  - cbn. lra.
  - pose proof (S 1 0%nat ltac:(lra) ltac:(lia)). cbn [pow] in *. lra.
  - pose proof (S 18 0%nat ltac:(lra) ltac:(lia)) as A0. pose proof (S 3 2%nat ltac:(lra) ltac:(lia)) as A2.
    rewrite !Rmult_plus_distr_l. rewrite (pow_O (t * a)), (pow_O a) in A0. lra.
  - pose proof (S 675 0%nat ltac:(lra) ltac:(lia)) as A0. pose proof (S 90 2%nat ltac:(lra) ltac:(lia)) as A2. pose proof (S 6 4%nat ltac:(lra) ltac:(lia)) as A4.
    rewrite !Rmult_plus_distr_l. rewrite (pow_O (t * a)), (pow_O a) in A0. lra.
  - pose proof (S 44100 0%nat ltac:(lra) ltac:(lia)) as A0. pose proof (S 4725 2%nat ltac:(lra) ltac:(lia)) as A2. pose proof (S 270 4%nat ltac:(lra) ltac:(lia)) as A4. pose proof (S 10 6%nat ltac:(lra) ltac:(lia)) as A6.
    rewrite !Rmult_plus_distr_l. rewrite (pow_O (t * a)), (pow_O a) in A0. lra.
Qed.
Lemma quotient_le n n' d d' : 0 <= n -> n <= n' -> 0 < d' -> d' <= d -> n / d <= n' / d'.
Proof. intros A B C D. unfold Rdiv. apply Rmult_le_compat; [exact A | left; apply Rinv_0_lt_compat; lra | exact B | apply Rinv_le; lra]. Qed.
Lemma P_scale l a b t : 0 < a -> 0 < b -> 1 <= t -> b <= t * a -> (l <= 4)%nat -> P_spec l b <= t ^ (2 * l + 1) * P_spec l a.
Proof.
  intros A B T H L. assert (P1 : 1 <= t ^ (2 * l + 1)) by (apply pow_R1_Rle; exact T). pose proof (P_nonneg l a A L) as N.
  destruct (Rle_or_lt b a) as [C|C].
  - apply Rle_trans with (P_spec l a); [|nra]. destruct (Rle_lt_or_eq_dec b a C) as [D|D]; [left; apply P_increasing; [lra | exact L] | subst; lra].
  - rewrite !P_spec_den by assumption. rewrite !(Rmult_comm _ (_ ^ (2 * l))). replace (b ^ (2 * l) * b) with (b ^ (2 * l + 1)) by (rewrite pow_add; cbn; ring).
    replace (t ^ (2 * l + 1) * (a ^ (2 * l) * a / den l a)) with ((t * a) ^ (2 * l + 1) / den l a) by (rewrite Rpow_mult_distr, (pow_add a); unfold Rdiv; cbn; ring).
    apply quotient_le; [apply pow_le; lra | apply pow_incr; lra | apply den_pos; exact A | apply den_mono; lra].
Qed.
Lemma S_scale l a b t : 0 < a -> 0 < b -> 1 <= t -> b <= t * a -> a <= t * b -> (l <= 4)%nat -> - S_spec l b <= t ^ (2 * l + 1) * - S_spec l a.
Proof.
  intros A B T H H' L. pose proof (S_nonpos l a A L) as N. pose proof (S_nonpos l b B L) as N'. apply Rle_trans with (t ^ (2 * l) * - S_spec l a).
  2: { apply Rmult_le_compat_r; [exact N|]. apply Rle_pow; [exact T | lia]. }
  rewrite !S_spec_den in * by assumption. pose proof (den_pos l a A) as Da. pose proof (den_pos l b B) as Db.
  replace (- (- num_shift l b / den l b)) with (num_shift l b / den l b) in * by (field; lra). replace (- (- num_shift l a / den l a)) with (num_shift l a / den l a) in * by (field; lra).
  assert (Nb : 0 <= num_shift l b). { apply (Rmult_le_reg_r (/ den l b)); [apply Rinv_0_lt_compat; exact Db|]. unfold Rdiv in N'. lra. }
  destruct (Rle_or_lt b a) as [C|C].
  - pose proof (den_scale l t b B T L) as Q. pose proof (den_mono l a (t * b) ltac:(lra)) as Q'. pose proof (num_mono l b a ltac:(lra)) as M.
    assert (Pt : 0 < t ^ (2 * l)) by (apply pow_lt; lra). replace (t ^ (2 * l) * (num_shift l a / den l a)) with (num_shift l a / (den l a / t ^ (2 * l))) by (field; lra).
    apply quotient_le; [exact Nb | exact M | apply Rdiv_lt_0_compat; assumption|]. apply (Rmult_le_reg_r (t ^ (2 * l))); [exact Pt|]. unfold Rdiv. rewrite Rmult_assoc, Rinv_l, Rmult_1_r by lra. lra.
  - pose proof (num_scale l t a A T L) as Q. pose proof (num_mono l b (t * a) ltac:(lra)) as Q'. pose proof (den_mono l a b ltac:(lra)) as M.
    replace (t ^ (2 * l) * (num_shift l a / den l a)) with (t ^ (2 * l) * num_shift l a / den l a) by (unfold Rdiv; ring).
    apply quotient_le; [exact Nb | lra | exact Da | exact M].
Qed.
(** * From the energy to the penetrability *)
Lemma pow_small e n : 0 <= e <= / 100000 -> (n <= 9)%nat -> (1 + e) ^ n <= 1 + 101 / 100 * INR n * e.
Proof.
  intros E. induction n as [|n IH]; intros L; [cbn; lra|]. specialize (IH ltac:(lia)). rewrite S_INR. cbn [pow]. pose proof (pos_INR n).
  assert (INR n <= 9) by (replace 9 with (INR 9) by (rewrite INR_IZR_INZ; reflexivity); apply le_INR; lia).
  apply Rle_trans with ((1 + e) * (1 + 101 / 100 * INR n * e)); [apply Rmult_le_compat_l; lra|]. nra.
Qed.
Lemma perturbed (f : R -> R) n (x rho p d : R) : (1 <= n <= 9)%nat -> 0 < rho -> 0 < x -> 0 <= d <= / 1000000 -> Rabs (x - rho) <= d * rho ->
  (forall a b t, 0 < a -> 0 < b -> 1 <= t -> b <= t * a -> a <= t * b -> f b <= t ^ n * f a) -> 0 <= f rho -> 0 <= f x -> Rabs (p - f x) <= 41 * u * f x ->
  Rabs (p - f rho) <= (42 * u + INR n * (d * (103 / 100))) * f rho.
Proof.
  intros Hn R0 X0 D E S F0 Fx P. apply Rabs_le_inv in E. apply Rabs_le_inv in P. pose proof u_small as U. set (e := 1001 / 1000 * d). assert (E0 : 0 <= e <= / 100000) by (unfold e; lra).
  assert (A1 : x <= (1 + e) * rho) by (unfold e; nra). assert (A2 : rho <= (1 + e) * x) by (unfold e; nra).
  pose proof (S rho x (1 + e) R0 X0 ltac:(lra) A1 A2) as B1. pose proof (S x rho (1 + e) X0 R0 ltac:(lra) A2 A1) as B2.
  pose proof (pow_small e n E0 ltac:(lia)) as W. assert (W1 : 1 <= (1 + e) ^ n) by (apply pow_R1_Rle; lra). set (w := (1 + e) ^ n) in *.
  assert (N : 1 <= INR n <= 9) by (split; [change 1 with (INR 1); apply le_INR; lia | replace 9 with (INR 9) by (rewrite INR_IZR_INZ; reflexivity); apply le_INR; lia]).
  assert (K : w - 1 <= INR n * (d * (102 / 100))) by (unfold e in W; nra). assert (K2 : w - 1 <= / 50000) by nra.
  assert (C1 : f x <= f rho + (w - 1) * f rho) by lra.
  assert (C2 : f rho - (w - 1) * f rho <= f x).
  { assert (Q : (2 - w) * w <= 1) by (pose proof (Rle_0_sqr (w - 1)) as Z; unfold Rsqr in Z; lra).
    apply (Rmult_le_reg_r w); [lra|]. apply Rle_trans with (f rho * 1); [|lra]. replace ((f rho - (w - 1) * f rho) * w) with (f rho * ((2 - w) * w)) by ring. apply Rmult_le_compat_l; assumption. }
  apply Rabs_le. assert (0 <= INR n * d) by (apply Rmult_le_pos; lra). split; nra.
Qed.
Lemma middle_range y rho d : is_finite y = true -> in_middle rho -> 0 <= d <= / 1000000 -> Rabs (B2R y - rho) <= d * rho -> in_range y.
Proof.
  intros F [M1 M2] D E. apply Rabs_le_inv in E. split; [exact F|]. pose proof (bpow_gt_0 radix2 (-49)).
  change (-50)%Z with (-49 + -1)%Z. change 50%Z with (49 + 1)%Z. rewrite !bpow_plus. change (bpow radix2 (-1)) with (/ 2). change (bpow radix2 1) with 2. nra.
Qed.
Lemma n_range l : (l <= 4)%nat -> (1 <= 2 * l + 1 <= 9)%nat.
Proof. lia. Qed.
Lemma from_ratio l y rho d (B : R) : is_finite y = true -> 0 < rho -> in_middle rho -> 0 <= d <= / 1000000 -> Rabs (B2R y - rho) <= d * rho -> (l <= 4)%nat ->
  42 * u + INR (2 * l + 1) * (d * (103 / 100)) <= B ->
  (exists p, penetrability64 l y = Ok p /\ is_finite p = true /\ Rabs (B2R p - P_spec l rho) <= B * P_spec l rho) /\
  (exists s, shift64 l y = Ok s /\ is_finite s = true /\ Rabs (B2R s - S_spec l rho) <= B * - S_spec l rho) /\
  (exists p s, penetrationShift64 (Z.of_nat l) y = Ok (p, s) /\ is_finite p = true /\ is_finite s = true /\
     Rabs (B2R p - P_spec l rho) <= B * P_spec l rho /\ Rabs (B2R s - S_spec l rho) <= B * - S_spec l rho).
Proof.
  intros F R0 M D E L HB. pose proof (middle_range y rho d F M D E) as Y. pose proof (range_pos y Y) as Y0.
  assert (GP : forall p, Rabs (p - P_spec l (B2R y)) <= 41 * bpow radix2 (-53) * P_spec l (B2R y) -> Rabs (p - P_spec l rho) <= B * P_spec l rho).
  { intros p H. apply Rle_trans with ((42 * u + INR (2 * l + 1) * (d * (103 / 100))) * P_spec l rho); [|apply Rmult_le_compat_r; [apply P_nonneg; assumption | exact HB]].
    apply (perturbed (P_spec l) (2 * l + 1) (B2R y)); try assumption; [apply n_range; exact L | | apply P_nonneg; assumption | apply P_nonneg; assumption].
    intros a b t A Bb T H1 _. apply P_scale; assumption. }
  assert (GS : forall p, Rabs (p - S_spec l (B2R y)) <= 41 * bpow radix2 (-53) * - S_spec l (B2R y) -> Rabs (p - S_spec l rho) <= B * - S_spec l rho).
  { intros p H. replace (p - S_spec l rho) with (- (- p - - S_spec l rho)) by ring. rewrite Rabs_Ropp.
    apply Rle_trans with ((42 * u + INR (2 * l + 1) * (d * (103 / 100))) * - S_spec l rho); [|apply Rmult_le_compat_r; [apply S_nonpos; assumption | exact HB]].
    apply (perturbed (fun r => - S_spec l r) (2 * l + 1) (B2R y)); try assumption; [apply n_range; exact L | | apply S_nonpos; assumption | apply S_nonpos; assumption |].
    - intros a b t A Bb T H1 H2. apply S_scale; assumption.
    - replace (- p - - S_spec l (B2R y)) with (- (p - S_spec l (B2R y))) by ring. rewrite Rabs_Ropp. exact H. }
  split; [|split].
  - destruct (P_64 l y Y L) as (p & E1 & F1 & B1). exists p. auto.
  - destruct (S_64 l y Y L) as (p & E1 & F1 & B1). exists p. auto.
  - destruct (old_64 l y Y L) as (p & s & E1 & [F1 B1] & [F2 B2]). exists p, s. auto 10.
Qed.
Lemma INR_odd l : INR (2 * l + 1) = 2 * INR l + 1.
Proof. rewrite plus_INR, mult_INR. cbn. lra. Qed.
Lemma delta_small kappa : 1 <= kappa <= bpow radix2 30 -> 0 <= (17 / 2 + 23 / 10 * kappa) * u <= / 1000000.
Proof. intros K. destruct (eps_small kappa K) as [_ E]. pose proof u_small. assert (u < / 1000000000) by (rewrite u_value; lra). split; nra. Qed.
Section Channel.
Variables (hbar unit ma mb mc md q radius energy : double) (kappa : R) (l : nat).
Hypotheses (Hh : moderate hbar) (Hu : moderate unit) (Ha : moderate ma) (Hb : moderate mb) (Hc : moderate mc) (Hd : moderate md) (Hq : moderate_Q q) (Hr : moderate radius)
  (He : moderate_energy energy) (Hk : cancellation ma mb q energy kappa) (Hl : (l <= 4)%nat).
Let rho := rho_exact hbar unit ma mb mc md q radius energy.
Hypothesis (Hm : in_middle rho).
Lemma channel_64 : (exists p, channelPenetrability64 l hbar unit ma mb mc md q radius energy = Ok p /\ is_finite p = true /\
     Rabs (B2R p - P_spec l rho) <= (42 + (2 * INR l + 1) * (9 + 3 * kappa)) * bpow radix2 (-53) * P_spec l rho) /\
  (exists s, channelShift64 l hbar unit ma mb mc md q radius energy = Ok s /\ is_finite s = true /\
     Rabs (B2R s - S_spec l rho) <= (42 + (2 * INR l + 1) * (9 + 3 * kappa)) * bpow radix2 (-53) * - S_spec l rho).
Proof.
  destruct (ratio_64 hbar unit ma mb mc md q radius energy kappa Hh Hu Ha Hb Hc Hd Hq Hr He Hk) as (F & R0 & E). fold rho in R0, E. fold u.
  pose proof (delta_small kappa (proj2 Hk)) as D. pose proof (pos_INR l) as L0. pose proof u_small as U. destruct Hk as [_ [K1 _]].
  assert (HB : 42 * u + INR (2 * l + 1) * ((17 / 2 + 23 / 10 * kappa) * u * (103 / 100)) <= (42 + (2 * INR l + 1) * (9 + 3 * kappa)) * u).
  { rewrite INR_odd. replace ((42 + (2 * INR l + 1) * (9 + 3 * kappa)) * u) with (42 * u + (2 * INR l + 1) * ((9 + 3 * kappa) * u)) by ring.
    apply Rplus_le_compat_l, Rmult_le_compat_l; [lra|]. nra. }
  destruct (from_ratio l _ rho _ _ F R0 Hm D E Hl HB) as (A & B & _). split; assumption.
Qed.
End Channel.

(** * The older interface *)
Lemma near_energy energy : moderate_energy energy -> near 0 (2 * -50) (2 * 50) (Babs energy) (Rabs (B2R energy)).
Proof. intros [F B]. apply near_exact; [rewrite is_finite_Babs; exact F | apply B2R_Babs | exact B]. Qed.
Lemma older_64 c awr radius energy l : moderate c -> moderate awr -> moderate radius -> moderate_energy energy -> in_middle (rho_older c awr radius energy) -> (l <= 4)%nat ->
  exists p s, penetrationShift64 (Z.of_nat l) (neutronWave64 c awr energy * radius)%D = Ok (p, s) /\ is_finite p = true /\ is_finite s = true /\
    Rabs (B2R p - P_spec l (rho_older c awr radius energy)) <= (42 + (2 * INR l + 1) * 9) * bpow radix2 (-53) * P_spec l (rho_older c awr radius energy) /\
    Rabs (B2R s - S_spec l (rho_older c awr radius energy)) <= (42 + (2 * INR l + 1) * 9) * bpow radix2 (-53) * - S_spec l (rho_older c awr radius energy).
Proof.
  intros Hc Ha Hr He Hm Hl. apply near_moderate in Hc, Ha, Hr. apply near_energy in He. apply (near_sqrt 0 (-50) 50) in He; [|lia|lia|lia].
  set (rho := rho_older c awr radius energy) in *.
  assert (N : near 8 (-600) 600 (neutronWave64 c awr energy * radius)%D rho).
  { destruct (near_pos _ _ _ _ _ Ha) as [Pa _].
    replace rho with (B2R c * B2R awr / (B2R awr + IZR 1) * sqrt (Rabs (B2R energy)) * B2R radius) by (unfold rho, rho_older; field; lra).
    unfold neutronWave64. eapply near_more; [|eapply near_widen; [near_step | cbn; lia | cbn; lia]]. cbn. lia. }
  destruct (near_pos _ _ _ _ _ N) as [R0 _]. pose proof (near_8 _ _ _ _ N) as W. pose proof u_small as U. pose proof (pos_INR l) as L0. fold u.
  assert (E : Rabs (B2R (neutronWave64 c awr energy * radius)%D - rho) <= 41 / 5 * u * rho) by (apply Rabs_le; nra).
  assert (D : 0 <= 41 / 5 * u <= / 1000000) by (rewrite u_value; lra).
  assert (HB : 42 * u + INR (2 * l + 1) * (41 / 5 * u * (103 / 100)) <= (42 + (2 * INR l + 1) * 9) * u) by (rewrite INR_odd; nra).
  destruct (from_ratio l _ rho _ _ (proj1 N) R0 Hm D E Hl HB) as (_ & _ & G). exact G.
Qed.

(** * The threshold *)
Lemma mult_comm_value x y : is_finite (mult x y) = true -> is_finite (mult y x) = true /\ B2R (mult y x) = B2R (mult x y).
Proof.
  intros F. pose proof (Bmult_correct 53 1024 eq_refl eq_refl mode_NE x y) as C. pose proof (Bmult_correct 53 1024 eq_refl eq_refl mode_NE y x) as C'.
  rewrite (Rmult_comm (B2R y)) in C'. unfold mult in *. destruct (Rlt_bool _ _) in C, C'.
  - destruct C as (C1 & C2 & _), C' as (C1' & C2' & _). rewrite C1, C1', C2', andb_comm, <- C2. auto.
  - exfalso. rewrite <- is_finite_SF_B2SF, C in F. unfold binary_overflow in F. cbn in F. destruct (xorb _ _); discriminate.
Qed.
Lemma threshold_64 ma mb q energy kappa : moderate ma -> moderate mb -> moderate_Q q -> moderate_energy energy -> cancellation ma mb q energy kappa ->
  (belowThreshold64 ma mb q energy = true <-> after ma mb q energy < 0).
Proof.
  intros Ha Hb Hq He Hk. destruct (centre_64 ma mb q energy kappa Ha Hb Hq He Hk) as (T & D & V & N). set (x := mult energy (ratio64 ma mb)) in *.
  destruct (before_64 ma mb energy Ha Hb He) as (Fx & _). fold x in Fx. destruct (mult_comm_value _ _ Fx) as [Fy Ey]. fold x in Ey. set (y := mult (ratio64 ma mb) energy) in *.
  destruct (eps_small kappa (proj2 Hk)) as [[E1 E2] _]. destruct (near_pos _ _ _ _ _ N) as [V0 _]. destruct N as (_ & [B1 B2] & _).
  set (a := after ma mb q energy) in *. set (v := B2R x + B2R q) in *.
  destruct (rnd_near (Rabs v)) as [[R1 R2] R3].
  { pose proof (bpow_le radix2 (-1000) (-332) ltac:(lia)). pose proof (bpow_le radix2 302 1000 ltac:(lia)). lra. }
  rewrite <- rnd_abs, Rabs_Rabsolu in R3. pose proof u_small as U.
  pose proof (Bplus_correct 53 1024 eq_refl eq_refl mode_NE y q Fy (proj1 Hq)) as C. fold fexp64 in C. fold rnd in C. rewrite Ey in C. fold v in C. rewrite Rlt_bool_true in C by exact R3.
  destruct C as (C1 & C2 & _). destruct zero_holds as [F0 Z0]. unfold belowThreshold64. fold y. rewrite Bltb_correct by assumption. unfold plus. rewrite C1, Z0. change (0 / 2) with (0 * / 2). rewrite Rmult_0_l.
  assert (S : v < 0 <-> a < 0).
  { apply Rabs_le_inv in D. assert (eps kappa * Rabs a < Rabs a) by nra. destruct (Rle_or_lt 0 a) as [G|G]; [rewrite (Rabs_pos_eq a G) in * | rewrite (Rabs_left a G) in *]; split; intros; lra. }
  assert (Pv : v < 0 <-> rnd v < 0).
  { destruct (Rle_or_lt 0 v) as [G|G].
    - rewrite (Rabs_pos_eq v G) in *. split; intros; nra.
    - rewrite (Rabs_left v G) in *. rewrite rnd_opp in R1, R2. split; intros; [nra | exact G]. }
  rewrite <- S, Pv. split; [intros H; destruct (Rlt_bool_spec (rnd v) 0); [assumption | discriminate] | apply Rlt_bool_true].
Qed.
(** Elastic scattering: the sign is always right *)
Lemma elastic_cancellation ma mb q energy : B2R q = 0 -> cancellation ma mb q energy 1.
Proof. intros H. unfold cancellation, after. rewrite H, Rplus_0_r. split; [lra|]. split; [lra|]. change 1 with (bpow radix2 0) at 1. apply bpow_le. lia. Qed.

(** Close to a threshold it is not *)
Definition scaled (m : positive) (e : Z) (s : bool) : double := binary_normalize 53 1024 eq_refl eq_refl mode_NE (if s then Zneg m else Zpos m) e false.
Lemma value_of (x : double) s m e : B2SF x = SpecFloat.S754_finite s m e -> is_finite x = true /\ B2R x = IZR (cond_Zopp s (Zpos m)) * bpow radix2 e.
Proof. destruct x as [?|?| |s' m' e' H]; cbn; intros E; try discriminate. injection E as -> -> ->. split; reflexivity. Qed.
Definition w_energy := scaled 5126933103096309 (-40) false.
Definition w_q := scaled 5105208810286579 (-40) true.
Definition w_energy' := scaled 7804585264179139 (-40) false.
Definition w_q' := scaled 4010689649647613 (-40) true.
Lemma w_values : (is_finite w_energy = true /\ B2R w_energy = 5126933103096309 * bpow radix2 (-40)) /\ (is_finite w_q = true /\ B2R w_q = -5105208810286579 * bpow radix2 (-40)) /\
  (is_finite w_energy' = true /\ B2R w_energy' = 7804585264179139 * bpow radix2 (-40)) /\ (is_finite w_q' = true /\ B2R w_q' = -8021379299295226 * bpow radix2 (-41)).
Proof. repeat apply conj; try (refine (proj2 (value_of _ _ _ _ _)); vm_compute; reflexivity); vm_compute; reflexivity. Qed.
Lemma Z_value z : (Z.abs (2 * z) < 2 ^ 53)%Z -> is_finite (double_of z) = true /\ B2R (double_of z) = IZR z.
Proof. intros H. destruct (of_holds z H) as [F V]. split; [exact F|]. rewrite V, mult_IZR. lra. Qed.
Ltac powers := change (bpow radix2 (-41)) with (/ 2199023255552) in *; change (bpow radix2 (-40)) with (/ 1099511627776) in *.
Lemma bpow100 x : / 1099511627776 <= x <= 1099511627776 -> bpow radix2 (-100) <= x <= bpow radix2 100.
Proof.
  intros H. pose proof (bpow_le radix2 (-100) (-40) ltac:(lia)) as A. pose proof (bpow_le radix2 40 100 ltac:(lia)) as B.
  change (bpow radix2 40) with 1099511627776 in B. change (bpow radix2 (-40)) with (/ 1099511627776) in A. lra.
Qed.
Lemma Z_moderate z : (0 < z < 1000000)%Z -> moderate (double_of z).
Proof.
  intros H. destruct (Z_value z ltac:(lia)) as [F V]. split; [exact F|]. rewrite V. apply bpow100. assert (IZR z <= 1000000) by (apply IZR_le; lia).
  assert (1 <= IZR z) by (apply IZR_le; lia). lra.
Qed.
Lemma open_below : moderate_energy w_energy /\ moderate_Q w_q /\ after (double_of 1) (double_of 235) w_q w_energy < 0 /\
  belowThreshold64 (double_of 1) (double_of 235) w_q w_energy = false /\
  forall hbar unit mc md, mc = double_of 1 -> md = double_of 235 -> hbar = double_of 1 -> unit = double_of 1 -> B2R (wave64 hbar unit (double_of 1) (double_of 235) mc md w_q w_energy) = 0.
Proof.
  destruct w_values as ([F1 V1] & [F2 V2] & _). powers.
  split; [split; [exact F1|]; rewrite V1, Rabs_pos_eq by lra; apply bpow100; lra|].
  split; [split; [exact F2|]; rewrite V2, Rabs_left by lra; apply bpow100; lra|].
  split; [|split; [vm_compute; reflexivity|]].
  - unfold after, before. rewrite V1, V2. destruct (Z_value 1 eq_refl) as [_ ->], (Z_value 235 eq_refl) as [_ ->]. lra.
  - intros hbar unit mc md -> -> -> ->. vm_compute. reflexivity.
Qed.
Lemma closed_above : moderate_energy w_energy' /\ moderate_Q w_q' /\ after (double_of 35) (double_of 37) w_q' w_energy' > 0 /\
  belowThreshold64 (double_of 35) (double_of 37) w_q' w_energy' = true.
Proof.
  destruct w_values as (_ & _ & [F1 V1] & [F2 V2]). powers.
  split; [split; [exact F1|]; rewrite V1, Rabs_pos_eq by lra; apply bpow100; lra|].
  split; [split; [exact F2|]; rewrite V2, Rabs_left by lra; apply bpow100; lra|].
  split; [|vm_compute; reflexivity].
  unfold after, before. rewrite V1, V2. destruct (Z_value 35 eq_refl) as [_ ->], (Z_value 37 eq_refl) as [_ ->]. lra.
Qed.
Lemma threshold_wrong :
  (exists ma mb q energy, moderate ma /\ moderate mb /\ moderate_Q q /\ moderate_energy energy /\ after ma mb q energy < 0 /\ belowThreshold64 ma mb q energy = false /\
     B2R (wave64 (double_of 1) (double_of 1) ma mb ma mb q energy) = 0) /\
  (exists ma mb q energy, moderate ma /\ moderate mb /\ moderate_Q q /\ moderate_energy energy /\ after ma mb q energy > 0 /\ belowThreshold64 ma mb q energy = true).
Proof.
  split.
  - destruct open_below as (A & B & C & D & E). exists (double_of 1), (double_of 235), w_q, w_energy. split; [apply Z_moderate; lia|]. split; [apply Z_moderate; lia|]. auto 10.
  - destruct closed_above as (A & B & C & D). exists (double_of 35), (double_of 37), w_q', w_energy'. split; [apply Z_moderate; lia|]. split; [apply Z_moderate; lia|]. auto 10.
Qed.
Lemma middle_simple x : / 1024 <= x <= 1024 -> in_middle x.
Proof.
  intros H. unfold in_middle. pose proof (bpow_le radix2 (-49) (-10) ltac:(lia)) as A. pose proof (bpow_le radix2 10 49 ltac:(lia)) as B.
  change (bpow radix2 (-10)) with (/ 1024) in A. change (bpow radix2 10) with 1024 in B. lra.
Qed.
Lemma Z_Q z : (Z.abs z < 1000000)%Z -> moderate_Q (double_of z).
Proof.
  intros H. destruct (Z_value z ltac:(change (2 ^ 53)%Z with 9007199254740992%Z; lia)) as [F V]. split; [exact F|]. rewrite V, <- abs_IZR.
  assert (IZR (Z.abs z) <= 1000000) by (apply IZR_le; lia). pose proof (bpow_le radix2 40 100 ltac:(lia)) as B. change (bpow radix2 40) with 1099511627776 in B. lra.
Qed.
Lemma sqrt_simple x : / 4 <= x <= 4 -> / 2 <= sqrt x <= 2.
Proof. intros H. split; [rewrite <- (sqrt_square (/ 2)) by lra | rewrite <- (sqrt_square 2) by lra]; apply sqrt_le_1_alt; lra. Qed.
Lemma channel_case : moderate (double_of 1) /\ moderate (double_of 235) /\ moderate_Q (double_of 0) /\ moderate_energy (double_of 1) /\
  cancellation (double_of 1) (double_of 235) (double_of 0) (double_of 1) 1 /\
  in_middle (rho_exact (double_of 1) (double_of 1) (double_of 1) (double_of 235) (double_of 1) (double_of 235) (double_of 0) (double_of 1) (double_of 1)).
Proof.
  destruct (Z_value 1 eq_refl) as [F1 V1], (Z_value 235 eq_refl) as [F2 V2], (Z_value 0 eq_refl) as [F0 V0].
  split; [apply Z_moderate; lia|]. split; [apply Z_moderate; lia|]. split; [apply Z_Q; lia|].
  split; [split; [exact F1|]; rewrite V1, Rabs_pos_eq by lra; apply bpow100; lra|]. split; [apply elastic_cancellation; exact V0|].
  apply middle_simple. unfold rho_exact, after, before. rewrite V1, V2, V0. rewrite Rabs_pos_eq by lra.
  pose proof (sqrt_simple (2 * (1 * 235 / (1 + 235)) * (1 * 235 / (1 + 235) + 0)) ltac:(lra)). lra.
Qed.
Lemma inelastic_case : moderate_Q (double_of (-2)) /\ cancellation (double_of 1) (double_of 2) (double_of (-2)) (double_of 9) 2.
Proof.
  split; [apply Z_Q; lia|]. unfold cancellation, after, before. destruct (Z_value 1 eq_refl) as [_ ->], (Z_value 2 eq_refl) as [_ ->], (Z_value 9 eq_refl) as [_ ->], (Z_value (-2) eq_refl) as [_ ->].
  rewrite !Rabs_pos_eq by lra. split; [lra|]. split; [lra|]. change (bpow radix2 30) with 1073741824. lra.
Qed.
Lemma older_case : in_middle (rho_older (double_of 1) (double_of 235) (double_of 1) (double_of 1)).
Proof.
  apply middle_simple. unfold rho_older. destruct (Z_value 1 eq_refl) as [_ ->], (Z_value 235 eq_refl) as [_ ->]. rewrite Rabs_pos_eq, sqrt_1 by lra. lra.
Qed.
