(** Rounding errors of sums of many numbers that are not negative, and of the fluctuation
    integrals. *)
From Coq Require Import String List ZArith Reals Lra Lia Bool Psatz.
From Flocq Require Import Core.Core Plus_error Relative IEEE754.BinarySingleNaN.
From Verif Require Import Outcome QuantumModel QuantumSpec UnresolvedModel UnresolvedSpec UnresolvedProofs UnresolvedTheorems
  DoubleModel DoubleSpec DoubleProofs RoundingModel RoundingProofs FluctuationRoundingModel FluctuationRoundingSpec.
Import ListNotations.
Open Scope R_scope.

(** The double x is the number r, which may be zero, up to n roundings. *)
Definition about (n : nat) (x : double) (r : R) : Prop :=
  is_finite x = true /\ 0 <= r /\ r * (1 - u) ^ n <= B2R x <= r * (1 + u) ^ n.
Lemma near_about n lo hi x r : near n lo hi x r -> about n x r.
Proof. intros H. pose proof (near_pos _ _ _ _ _ H) as [P _]. destruct H as (F & _ & B). split; [exact F|]. split; [lra | exact B]. Qed.
Lemma about_zero n x : is_finite x = true -> B2R x = 0 -> about n x 0.
Proof. intros F E. split; [exact F|]. rewrite E. lra. Qed.
Lemma about_more n m x r : (n <= m)%nat -> about n x r -> about m x r.
Proof.
  intros L (F & P & V1 & V2). split; [exact F|]. split; [exact P|].
  replace m with (n + (m - n))%nat by lia. rewrite !pow_add. pose proof (down_pow (m - n)). pose proof (up_pow (m - n)). pose proof (down_pow n). pose proof (up_pow n). split.
  - apply Rle_trans with (2 := V1). apply Rmult_le_compat_l; [lra|]. rewrite <- (Rmult_1_r ((1 - u) ^ n)) at 2. apply Rmult_le_compat_l; lra.
  - apply Rle_trans with (1 := V2). apply Rmult_le_compat_l; [lra|]. rewrite <- (Rmult_1_r ((1 + u) ^ n)) at 1. apply Rmult_le_compat_l; lra.
Qed.
Lemma up_many n : (n <= 2000)%nat -> (1 + u) ^ n <= 1 + 1001 / 1000 * INR n * u.
Proof.
  induction n as [|n IH]; intros L; [cbn; lra|]. specialize (IH ltac:(lia)). rewrite S_INR. cbn [pow].
  assert (N : INR n <= 2000) by (replace 2000 with (INR 2000) by (rewrite INR_IZR_INZ; f_equal); apply le_INR; lia).
  pose proof u_value as U. pose proof u_small as Us. pose proof (pos_INR n). 
  assert (INR n * u * 1001 / 1000 <= / 1000). { rewrite U. lra. }
  nra.
Qed.
Lemma about_plus n m x y r s : about n x r -> about m y s -> (Nat.max n m <= 2000)%nat -> r + s <= bpow radix2 900 ->
  about (S (Nat.max n m)) (plus x y) (r + s).
Proof.
  intros Hx Hy L B. apply (about_more _ (Nat.max n m)) in Hx; [|lia]. apply (about_more _ (Nat.max n m)) in Hy; [|lia]. set (k := Nat.max n m) in *.
  destruct Hx as (Fx & Px & V1 & V2), Hy as (Fy & Py & W1 & W2). pose proof u_small as U. pose proof (down_pow k) as D. pose proof (up_pow k) as D'. pose proof (up_many k L) as M.
  assert (N : INR k <= 2000) by (replace 2000 with (INR 2000) by (rewrite INR_IZR_INZ; f_equal); apply le_INR; lia).
  pose proof (pos_INR k). pose proof u_value as Uv. assert (M' : (1 + u) ^ k <= 2) by (apply Rle_trans with (1 := M); assert (1001 / 1000 * INR k * u <= 1) by (rewrite Uv; lra); lra).
  assert (X0 : 0 <= B2R x) by (apply Rle_trans with (2 := V1); apply Rmult_le_pos; lra). assert (Y0 : 0 <= B2R y) by (apply Rle_trans with (2 := W1); apply Rmult_le_pos; lra).
  pose proof (Bplus_correct 53 1024 eq_refl eq_refl mode_NE x y Fx Fy) as C. fold fexp64 in C. fold rnd in C.
  destruct (@FLT_plus_error_N_ex radix2 (3 - 1024 - 53) 53 eq_refl (fun x => negb (Z.even x)) (B2R x) (B2R y)) as (e & He & Er);
    [apply (generic_format_B2R 53 1024) | apply (generic_format_B2R 53 1024) |].
  assert (Ue : Rabs e <= u). { apply Rle_trans with (1 := He). unfold u_ro. replace (/ 2 * bpow radix2 (- (53) + 1)) with u by (unfold u; cbn; lra).
    apply (Rmult_le_reg_r (1 + u)); [lra|]. replace (u / (1 + u) * (1 + u)) with u by (field; lra). nra. }
  change (round radix2 (FLT_exp (3 - 1024 - 53) 53) (Znearest (fun x0 : Z => negb (Z.even x0))) (B2R x + B2R y)) with (rnd (B2R x + B2R y)) in Er.
  apply Rabs_le_inv in Ue.
  assert (Q : (B2R x + B2R y) * (1 - u) <= rnd (B2R x + B2R y) <= (B2R x + B2R y) * (1 + u)). { rewrite Er. split; apply Rmult_le_compat_l; lra. }
  assert (Q0 : 0 <= rnd (B2R x + B2R y)) by (apply Rle_trans with (2 := proj1 Q); apply Rmult_le_pos; lra).
  assert (S1 : (r + s) * (1 - u) ^ k <= B2R x + B2R y <= (r + s) * (1 + u) ^ k) by lra.
  assert (T : Rabs (rnd (B2R x + B2R y)) < bpow radix2 1024).
  { rewrite Rabs_pos_eq by exact Q0. apply Rle_lt_trans with (bpow radix2 (2 + 900)); [|apply bpow_lt; lia]. rewrite bpow_plus. change (bpow radix2 2) with 4.
    assert ((r + s) * (1 + u) ^ k <= bpow radix2 900 * 2) by (apply Rmult_le_compat; lra). nra. }
  rewrite Rlt_bool_true in C by exact T. destruct C as (C1 & C2 & _). split; [exact C2|]. split; [lra|]. unfold plus. rewrite C1. cbn [pow]. split.
  - apply Rle_trans with (2 := proj1 Q). replace ((r + s) * ((1 - u) * (1 - u) ^ k)) with ((r + s) * (1 - u) ^ k * (1 - u)) by ring. apply Rmult_le_compat_r; lra.
  - apply Rle_trans with (1 := proj2 Q). replace ((r + s) * ((1 + u) * (1 + u) ^ k)) with ((r + s) * (1 + u) ^ k * (1 + u)) by ring. apply Rmult_le_compat_r; lra.
Qed.
(** A positive number plus one that may be zero *)
Lemma near_plus_about n m lo hi hi' x y r s : near n lo hi x r -> about m y s -> s <= bpow radix2 hi' -> (-900 <= lo)%Z -> (1 + Z.max hi hi' <= 900)%Z -> (Nat.max n m <= 99)%nat ->
  near (S (Nat.max n m)) lo (1 + Z.max hi hi') (plus x y) (r + s).
Proof.
  intros Hx Hy Hs L1 L2 L3.
  assert (B : bpow radix2 lo <= r + s <= bpow radix2 (1 + Z.max hi hi')).
  { destruct Hx as (_ & [B1 B2] & _), Hy as (_ & P & _). split; [lra|]. rewrite bpow_plus. change (bpow radix2 1) with 2.
    pose proof (bpow_le radix2 hi (Z.max hi hi') ltac:(lia)). pose proof (bpow_le radix2 hi' (Z.max hi hi') ltac:(lia)). lra. }
  assert (A : about (S (Nat.max n m)) (plus x y) (r + s)).
  { apply about_plus; [apply (near_about _ _ _ _ _ Hx) | exact Hy | lia |]. apply Rle_trans with (1 := proj2 B). apply bpow_le. exact L2. }
  destruct A as (F & _ & V). split; [exact F|]. split; [exact B | exact V].
Qed.

(** Either zero or near *)
Definition near0 (n : nat) (lo hi : Z) (x : double) (r : R) : Prop := (is_finite x = true /\ B2R x = 0 /\ r = 0) \/ near n lo hi x r.
Lemma near0_about n lo hi x r : near0 n lo hi x r -> about n x r.
Proof. intros [(F & E & ->) | H]; [apply about_zero; assumption | apply (near_about _ _ _ _ _ H)]. Qed.
Lemma near0_le n lo hi x r : near0 n lo hi x r -> 0 <= r <= bpow radix2 hi.
Proof. intros [(_ & _ & ->) | H]; [split; [lra | apply bpow_ge_0]|]. pose proof (near_pos _ _ _ _ _ H). destruct H as (_ & B & _). lra. Qed.
Lemma rnd_0 : rnd 0 = 0.
Proof. apply round_0. apply valid_rnd_N. Qed.
Lemma small_0 : Rabs (rnd 0) < bpow radix2 1024.
Proof. rewrite rnd_0, Rabs_R0. apply bpow_gt_0. Qed.
Lemma mult_zero x y : is_finite x = true -> is_finite y = true -> B2R x * B2R y = 0 -> is_finite (mult x y) = true /\ B2R (mult x y) = 0.
Proof.
  intros Fx Fy E. pose proof (Bmult_correct 53 1024 eq_refl eq_refl mode_NE x y) as C. fold fexp64 in C. fold rnd in C. rewrite E in C. rewrite Rlt_bool_true in C by exact small_0.
  destruct C as (C1 & C2 & _). unfold mult. rewrite C1, C2, Fx, Fy. split; [reflexivity | exact rnd_0].
Qed.
Lemma div_zero x y : is_finite x = true -> B2R x = 0 -> B2R y <> 0 -> is_finite (div x y) = true /\ B2R (div x y) = 0.
Proof.
  intros Fx E Ny. pose proof (Bdiv_correct 53 1024 eq_refl eq_refl mode_NE x y Ny) as C. fold fexp64 in C. fold rnd in C. rewrite E in C.
  replace (0 / B2R y) with 0 in C by (field; exact Ny). rewrite Rlt_bool_true in C by exact small_0.
  destruct C as (C1 & C2 & _). unfold div. rewrite C1, C2. split; [exact Fx | exact rnd_0].
Qed.
Lemma near0_mult n m lo hi lo' hi' x y r s : near0 n lo hi x r -> near0 m lo' hi' y s -> (-900 <= lo + lo')%Z -> (hi + hi' <= 900)%Z -> (n + m <= 99)%nat ->
  near0 (S (n + m)) (lo + lo') (hi + hi') (mult x y) (r * s).
Proof.
  intros Hx Hy H1 H2 H3.
  assert (Fx : is_finite x = true) by (destruct Hx as [(F & _) | (F & _)]; exact F). assert (Fy : is_finite y = true) by (destruct Hy as [(F & _) | (F & _)]; exact F).
  destruct Hx as [(_ & Ex & ->) | Hx]; [|destruct Hy as [(_ & Ey & ->) | Hy]].
  - left. destruct (mult_zero x y Fx Fy) as [A B]; [rewrite Ex; ring|]. split; [exact A|]. split; [exact B | ring].
  - left. destruct (mult_zero x y Fx Fy) as [A B]; [rewrite Ey; ring|]. split; [exact A|]. split; [exact B | ring].
  - right. apply near_mult; assumption.
Qed.
Lemma near0_div n m lo hi lo' hi' x y r s : near0 n lo hi x r -> near m lo' hi' y s -> (-900 <= lo - hi')%Z -> (hi - lo' <= 900)%Z -> (n + 2 * m <= 99)%nat ->
  near0 (S (n + 2 * m)) (lo - hi') (hi - lo') (div x y) (r / s).
Proof.
  intros Hx Hy H1 H2 H3. pose proof (near_pos _ _ _ _ _ Hy) as [Ps Py]. destruct Hx as [(Fx & Ex & ->) | Hx].
  - left. destruct (div_zero x y Fx Ex ltac:(lra)) as [A B]. split; [exact A|]. split; [exact B | field; lra].
  - right. apply near_div; assumption.
Qed.
