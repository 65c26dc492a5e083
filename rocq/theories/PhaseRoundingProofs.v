(** Rounding errors of operations on numbers of any sign, and of the hard-sphere phase shift. *)
From Coq Require Import String List ZArith Reals Lra Lia Bool Psatz.
From Flocq Require Import Core.Core Relative IEEE754.BinarySingleNaN.
From Verif Require Import Outcome HardSphereModel HardSphereSpec HardSphereProofs DoubleModel DoubleSpec DoubleProofs RoundingModel RoundingSpec RoundingProofs PhaseRoundingModel PhaseRoundingSpec.
Import ListNotations.
Open Scope R_scope.

Definition tiny : R := bpow radix2 (-1075).
Lemma tiny_small : 0 < tiny.
Proof. apply bpow_gt_0. Qed.
Lemma rnd_error v : Rabs (rnd v - v) <= u * Rabs v + tiny.
Proof.
  pose proof (relative_error_N_FLT'_ex radix2 (3 - 1024 - 53) 53 eq_refl (fun x => negb (Z.even x)) v) as (e & t & He & Ht & _ & H).
  unfold rnd. cbn [round_mode]. change fexp64 with (FLT_exp (3 - 1024 - 53) 53). rewrite H. replace (v * (1 + e) + t - v) with (e * v + t) by ring.
  apply Rle_trans with (1 := Rabs_triang _ _). rewrite Rabs_mult. apply Rplus_le_compat.
  - apply Rmult_le_compat_r; [apply Rabs_pos|]. apply Rle_trans with (1 := He). unfold u_ro. replace (/ 2 * bpow radix2 (- (53) + 1)) with u by (unfold u; cbn; lra).
    pose proof u_small. apply (Rmult_le_reg_r (1 + u)); [lra|]. unfold Rdiv. rewrite Rmult_assoc, Rinv_l by lra. nra.
  - apply Rle_trans with (1 := Ht). unfold tiny. change (-1075)%Z with (-1 + (3 - 1024 - 53))%Z. rewrite bpow_plus. right. reflexivity.
Qed.

(** The double x is r up to n roundings of quantities of the size of M. *)
Definition close (n : nat) (lo hi : Z) (x : double) (r M : R) : Prop :=
  is_finite x = true /\ Rabs r <= M /\ bpow radix2 lo <= M <= bpow radix2 hi /\ Rabs (B2R x - r) <= M * ((1 + u) ^ n - 1).
Lemma close_size n lo hi x r M : close n lo hi x r M -> 0 < M /\ Rabs (B2R x) <= M * (1 + u) ^ n.
Proof.
  intros (_ & B & [L _] & E). pose proof (bpow_gt_0 radix2 lo). split; [lra|]. replace (B2R x) with (r + (B2R x - r)) by ring.
  apply Rle_trans with (1 := Rabs_triang _ _). lra.
Qed.
Lemma close_round n lo hi v x r M : (-900 <= lo)%Z -> (hi <= 900)%Z -> (n <= 97)%nat -> bpow radix2 lo <= M <= bpow radix2 hi -> Rabs r <= M ->
  Rabs (v - r) <= M * ((1 + u) ^ n - 1) -> (Rabs (rnd v) < bpow radix2 1024 -> is_finite x = true /\ B2R x = rnd v) -> close (2 + n) lo hi x r M.
Proof.
  intros Hlo Hhi Hn [R1 R2] HM V H. pose proof (bpow_le radix2 (-900) lo Hlo) as L. pose proof (bpow_le radix2 hi 900 Hhi) as Hu. pose proof u_small as U.
  pose proof (bpow_gt_0 radix2 (-900)) as P9. assert (PM : 0 < M) by lra. pose proof (up_2 n ltac:(lia)) as U2. pose proof (up_pow n) as U1.
  assert (SV : Rabs v <= M * (1 + u) ^ n). { replace v with (r + (v - r)) by ring. apply Rle_trans with (1 := Rabs_triang _ _). lra. }
  assert (T : tiny <= u * M).
  { apply Rle_trans with (u * bpow radix2 (-900)); [|apply Rmult_le_compat_l; lra]. unfold u, tiny. rewrite <- bpow_plus. apply bpow_le. lia. }
  pose proof (rnd_error v) as E. pose proof (Rabs_pos v).
  assert (E2 : Rabs (rnd v - r) <= M * ((1 + u) ^ (2 + n) - 1)).
  { replace (rnd v - r) with ((rnd v - v) + (v - r)) by ring. apply Rle_trans with (1 := Rabs_triang _ _). cbn [Nat.add pow].
    set (w := (1 + u) ^ n) in *. assert (u * Rabs v <= u * (M * w)) by (apply Rmult_le_compat_l; lra).
    apply Rle_trans with (u * (M * w) + u * M + M * (w - 1)); [lra|].
    assert (0 <= M * u * (w - 1)) by (apply Rmult_le_pos; [apply Rmult_le_pos|]; lra). assert (0 <= M * u * u * w) by (repeat apply Rmult_le_pos; lra). lra. }
  assert (B : Rabs (rnd v) < bpow radix2 1024).
  { apply Rle_lt_trans with (bpow radix2 (2 + 900)); [|apply bpow_lt; lia]. rewrite bpow_plus. change (bpow radix2 2) with 4.
    pose proof (up_2 (2 + n) ltac:(lia)) as W. replace (rnd v) with (r + (rnd v - r)) by ring. apply Rle_trans with (1 := Rabs_triang _ _). nra. }
  destruct (H B) as [F Ex]. split; [exact F|]. split; [exact HM|]. split; [split; assumption|]. rewrite Ex. exact E2.
Qed.
Lemma grow n m : (n <= m)%nat -> (1 + u) ^ n <= (1 + u) ^ m.
Proof. intros L. apply Rle_pow; [pose proof u_small; lra | exact L]. Qed.
Lemma close_more n m lo hi lo' hi' x r M : (n <= m)%nat -> (lo' <= lo)%Z -> (hi <= hi')%Z -> close n lo hi x r M -> close m lo' hi' x r M.
Proof.
  intros L L1 L2 (F & B & [C D] & E). pose proof (bpow_le radix2 _ _ L1). pose proof (bpow_le radix2 _ _ L2). pose proof (bpow_gt_0 radix2 lo'). pose proof (grow n m L).
  split; [exact F|]. split; [exact B|]. split; [split; lra|]. apply Rle_trans with (1 := E). apply Rmult_le_compat_l; lra.
Qed.
Lemma close_mult n m lo hi lo' hi' x y r s M N : close n lo hi x r M -> close m lo' hi' y s N -> (-900 <= lo + lo')%Z -> (hi + hi' <= 900)%Z -> (n + m <= 97)%nat ->
  close (2 + (n + m)) (lo + lo') (hi + hi') (mult x y) (r * s) (M * N).
Proof.
  intros Hx Hy H1 H2 H3. destruct (close_size _ _ _ _ _ _ Hx) as [PM SX], (close_size _ _ _ _ _ _ Hy) as [PN SY]. destruct Hx as (Fx & Rx & Bx & V), Hy as (Fy & Ry & By & W).
  apply (close_round _ _ _ (B2R x * B2R y)); try assumption.
  - rewrite !bpow_plus. pose proof (bpow_ge_0 radix2 lo). pose proof (bpow_ge_0 radix2 lo'). split; apply Rmult_le_compat; lra.
  - rewrite Rabs_mult. apply Rmult_le_compat; try assumption; apply Rabs_pos.
  - replace (B2R x * B2R y - r * s) with ((B2R x - r) * s + B2R x * (B2R y - s)) by ring. apply Rle_trans with (1 := Rabs_triang _ _). rewrite !Rabs_mult, pow_add.
    pose proof (Rabs_pos (B2R x - r)). pose proof (Rabs_pos (B2R y - s)). pose proof (Rabs_pos (B2R x)). pose proof (Rabs_pos s).
    assert (Rabs (B2R x - r) * Rabs s <= M * ((1 + u) ^ n - 1) * N) by (apply Rmult_le_compat; assumption).
    assert (Rabs (B2R x) * Rabs (B2R y - s) <= M * (1 + u) ^ n * (N * ((1 + u) ^ m - 1))) by (apply Rmult_le_compat; assumption).
    lra.
  - intros B. pose proof (Bmult_correct 53 1024 eq_refl eq_refl mode_NE x y) as C. fold fexp64 in C. fold rnd in C. rewrite Rlt_bool_true in C by exact B.
    destruct C as (C1 & C2 & _). split; [unfold mult; rewrite C2, Fx, Fy; reflexivity | exact C1].
Qed.
Lemma close_sum n m lo hi lo' hi' x y z r s t M N : close n lo hi x r M -> close m lo' hi' y s N -> (-900 <= Z.max lo lo')%Z -> (1 + Z.max hi hi' <= 900)%Z -> (Nat.max n m <= 97)%nat ->
  Rabs t <= Rabs s -> (exists v, Rabs (v - t) = Rabs (B2R y - s) /\ (Rabs (rnd (B2R x + v)) < bpow radix2 1024 -> is_finite z = true /\ B2R z = rnd (B2R x + v))) ->
  close (2 + Nat.max n m) (Z.max lo lo') (1 + Z.max hi hi') z (r + t) (M + N).
Proof.
  intros Hx Hy H1 H2 H3 Ht (v & Ev & Hv). apply (close_more _ (Nat.max n m) _ _ lo hi) in Hx; [|lia|lia|lia]. apply (close_more _ (Nat.max n m) _ _ lo' hi') in Hy; [|lia|lia|lia]. set (k := Nat.max n m) in *.
  destruct (close_size _ _ _ _ _ _ Hx) as [PM SX], (close_size _ _ _ _ _ _ Hy) as [PN SY]. destruct Hx as (Fx & Rx & Bx & V), Hy as (Fy & Ry & By & W).
  apply (close_round _ _ _ (B2R x + v)); try assumption.
  - split.
    + destruct (Z.max_spec lo lo') as [[_ ->]|[_ ->]]; lra.
    + rewrite bpow_plus. change (bpow radix2 1) with 2. pose proof (bpow_le radix2 hi (Z.max hi hi') ltac:(lia)). pose proof (bpow_le radix2 hi' (Z.max hi hi') ltac:(lia)). lra.
  - apply Rle_trans with (1 := Rabs_triang _ _). lra.
  - replace (B2R x + v - (r + t)) with ((B2R x - r) + (v - t)) by ring. apply Rle_trans with (1 := Rabs_triang _ _). lra.
Qed.
Lemma close_plus n m lo hi lo' hi' x y r s M N : close n lo hi x r M -> close m lo' hi' y s N -> (-900 <= Z.max lo lo')%Z -> (1 + Z.max hi hi' <= 900)%Z -> (Nat.max n m <= 97)%nat ->
  close (2 + Nat.max n m) (Z.max lo lo') (1 + Z.max hi hi') (plus x y) (r + s) (M + N).
Proof.
  intros Hx Hy H1 H2 H3. apply (close_sum _ _ _ _ _ _ x y _ r s s M N Hx Hy); try assumption; [lra|]. exists (B2R y). split; [reflexivity|].
  intros B. pose proof (Bplus_correct 53 1024 eq_refl eq_refl mode_NE x y (proj1 Hx) (proj1 Hy)) as C. fold fexp64 in C. fold rnd in C. rewrite Rlt_bool_true in C by exact B.
  destruct C as (C1 & C2 & _). split; assumption.
Qed.
Lemma close_minus n m lo hi lo' hi' x y r s M N : close n lo hi x r M -> close m lo' hi' y s N -> (-900 <= Z.max lo lo')%Z -> (1 + Z.max hi hi' <= 900)%Z -> (Nat.max n m <= 97)%nat ->
  close (2 + Nat.max n m) (Z.max lo lo') (1 + Z.max hi hi') (minus x y) (r - s) (M + N).
Proof.
  intros Hx Hy H1 H2 H3. apply (close_sum _ _ _ _ _ _ x y _ r s (- s) M N Hx Hy); try assumption; [rewrite Rabs_Ropp; lra|]. exists (- B2R y).
  split; [replace (- B2R y - - s) with (- (B2R y - s)) by ring; apply Rabs_Ropp|].
  intros B. pose proof (Bminus_correct 53 1024 eq_refl eq_refl mode_NE x y (proj1 Hx) (proj1 Hy)) as C. fold fexp64 in C. fold rnd in C. rewrite Rlt_bool_true in C by exact B.
  destruct C as (C1 & C2 & _). split; assumption.
Qed.
Lemma close_exact lo hi x M : is_finite x = true -> 0 <= B2R x -> bpow radix2 lo <= B2R x <= bpow radix2 hi -> M = B2R x -> close 0 lo hi x (B2R x) M.
Proof. intros F P B ->. split; [exact F|]. split; [rewrite Rabs_pos_eq; lra|]. split; [exact B|]. rewrite Rminus_diag_eq, Rabs_R0 by reflexivity. cbn. lra. Qed.
Lemma close_Z z : (1 <= Z.abs z <= 65536)%Z -> close 0 0 16 (double_of z) (IZR z) (IZR (Z.abs z)).
Proof.
  intros H. destruct (of_holds z ltac:(lia)) as [F V]. split; [exact F|]. split; [rewrite abs_IZR; lra|]. split.
  - change (bpow radix2 0) with 1. change (bpow radix2 16) with 65536. split; apply IZR_le; lia.
  - rewrite V, mult_IZR. replace (2 * IZR z / 2 - IZR z) with 0 by field. rewrite Rabs_R0. cbn. lra.
Qed.

(** * Quotients as directions in the plane *)
(** The double q is n / d, or an infinity for d = 0. *)
Definition represents (q : double) (d n : R) : Prop :=
  (is_finite q = true /\ d <> 0 /\ B2R q * d = n) \/ (is_finite q = false /\ is_nan q = false /\ d = 0 /\ n <> 0).
Lemma represents_number q d n : represents q d n -> is_nan q = false.
Proof. intros [(F & _)|(_ & F & _)]; [|exact F]. destruct q; try discriminate; reflexivity. Qed.
Lemma represents_some q d n : represents q d n -> d <> 0 \/ n <> 0.
Proof. intros [(_ & F & _)|(_ & _ & _ & F)]; auto. Qed.
Lemma finite_angle q : is_finite q = true -> angle q = atan (B2R q).
Proof. destruct q as [s|s| |s m e b]; try discriminate; reflexivity. Qed.
Lemma represents_angle q d n : represents q d n -> sin (angle q) * d = cos (angle q) * n.
Proof.
  intros [(F & D & E)|(F & N & D & _)].
  - rewrite (finite_angle q F), <- E. set (t := atan (B2R q)). assert (Hc : 0 < cos t) by apply cos_atan_pos.
    assert (Ht : B2R q = tan t) by (unfold t; rewrite tan_atan; reflexivity). rewrite Ht. unfold tan. field. lra.
  - rewrite D, Rmult_0_r. destruct q as [s|s| |s m e b]; try discriminate. destruct s; cbn [angle]; rewrite ?cos_neg, cos_PI2; ring.
Qed.
Lemma angle_bound q : is_nan q = false -> Rabs (angle q) <= 2.
Proof.
  intros H. pose proof PI_4 as P. pose proof PI_RGT_0. destruct q as [s|s| |s m e b]; try discriminate.
  - cbn [angle B2R]. rewrite atan_0, Rabs_R0. lra.
  - destruct s; cbn [angle]; apply Rabs_le; lra.
  - cbn [angle]. pose proof (atan_bound (B2R (B754_finite s m e b))). apply Rabs_le. lra.
Qed.
Lemma huge v : ~ Rabs (rnd v) < bpow radix2 1024 -> bpow radix2 1000 <= Rabs v.
Proof.
  intros H. apply Rnot_lt_le in H. apply Rnot_lt_le. intros L. pose proof (rnd_error v) as E. pose proof u_small. pose proof (Rabs_pos v).
  assert (T : tiny <= bpow radix2 1000) by (apply bpow_le; lia). assert (B : 4 * bpow radix2 1000 <= bpow radix2 1024).
  { change 4 with (bpow radix2 2). rewrite <- bpow_plus. apply bpow_le. lia. }
  pose proof (Rabs_triang v (rnd v - v)) as Tr. replace (v + (rnd v - v)) with (rnd v) in Tr by ring. nra.
Qed.
Lemma zero_of (x : double) : is_finite x = true -> B2R x = 0 -> exists s, x = B754_zero s.
Proof.
  intros F E. destruct x as [s|s| |s m e b]; try discriminate; [exists s; reflexivity|]. exfalso. cbn in E. apply eq_0_F2R in E. cbn in E. destruct s; discriminate.
Qed.
Lemma nonzero_of (x : double) : is_finite x = true -> B2R x <> 0 -> exists s m e b, x = B754_finite s m e b.
Proof. intros F E. destruct x as [s|s| |s m e b]; try discriminate; [cbn in E; lra|]. eauto. Qed.
Lemma overflow_inf (x : double) s : B2SF x = binary_overflow 53 1024 mode_NE s -> is_finite x = false /\ is_nan x = false.
Proof. intros H. unfold binary_overflow, overflow_to_inf in H. destruct x; try discriminate. auto. Qed.
Lemma line_div N D : is_finite N = true -> is_finite D = true -> B2R N <> 0 \/ B2R D <> 0 -> exists d n, represents (div N D) d n /\
  Rabs (d - B2R D) <= bpow radix2 (-1000) * Rabs (B2R N) /\ Rabs (n - B2R N) <= u * Rabs (B2R N) + tiny * Rabs (B2R D).
Proof.
  intros FN FD H. pose proof u_small as U. pose proof tiny_small as T. pose proof (bpow_gt_0 radix2 (-1000)) as P1.
  pose proof (Rabs_pos (B2R N)) as PN. pose proof (Rabs_pos (B2R D)) as PD.
  destruct (Req_dec (B2R D) 0) as [E|E].
  - assert (N0 : B2R N <> 0) by tauto. destruct (zero_of D FD E) as [s ->]. destruct (nonzero_of N FN N0) as (s' & m & e & b & EN). exists 0, (B2R N). split.
    + right. rewrite EN. unfold div, Bdiv. split; [reflexivity|]. split; [reflexivity|]. split; [reflexivity|]. rewrite <- EN. exact N0.
    + cbn [B2R]. rewrite !Rminus_0_r, Rabs_R0. rewrite Rminus_diag_eq by reflexivity. rewrite Rabs_R0. split; nra.
  - pose proof (Bdiv_correct 53 1024 eq_refl eq_refl mode_NE N D E) as C. fold fexp64 in C. fold rnd in C.
    destruct (Rlt_dec (Rabs (rnd (B2R N / B2R D))) (bpow radix2 1024)) as [L|L].
    + rewrite Rlt_bool_true in C by exact L. destruct C as (C1 & C2 & _). exists (B2R D), (rnd (B2R N / B2R D) * B2R D). split; [left|split].
      * unfold div. rewrite C2, C1. auto.
      * rewrite Rminus_diag_eq, Rabs_R0 by reflexivity. apply Rmult_le_pos; lra.
      * replace (rnd (B2R N / B2R D) * B2R D - B2R N) with ((rnd (B2R N / B2R D) - B2R N / B2R D) * B2R D) by (field; exact E). rewrite Rabs_mult.
        pose proof (rnd_error (B2R N / B2R D)) as Er. apply Rle_trans with ((u * Rabs (B2R N / B2R D) + tiny) * Rabs (B2R D)); [apply Rmult_le_compat_r; lra|].
        unfold Rdiv. rewrite Rabs_mult, Rabs_inv. right. field. apply Rabs_no_R0. exact E.
    + rewrite Rlt_bool_false in C by lra. apply overflow_inf in C. apply huge in L. unfold Rdiv in L. rewrite Rabs_mult, Rabs_inv in L.
      assert (PD' : 0 < Rabs (B2R D)) by (apply Rabs_pos_lt; exact E).
      assert (L2 : bpow radix2 1000 * Rabs (B2R D) <= Rabs (B2R N)).
      { apply Rle_trans with (Rabs (B2R N) * / Rabs (B2R D) * Rabs (B2R D)); [apply Rmult_le_compat_r; lra|]. right. field. lra. }
      assert (L3 : Rabs (B2R D) <= bpow radix2 (-1000) * Rabs (B2R N)).
      { apply Rle_trans with (bpow radix2 (-1000) * (bpow radix2 1000 * Rabs (B2R D))); [|apply Rmult_le_compat_l; lra]. rewrite <- Rmult_assoc, <- bpow_plus. change (bpow radix2 (-1000 + 1000)) with 1. rewrite Rmult_1_l. apply Rle_refl. }
      exists 0, (B2R N). split; [right|split].
      * split; [apply C|]. split; [apply C|]. split; [reflexivity|]. intros Z. rewrite Z, Rabs_R0, Rmult_0_r in L3. lra.
      * rewrite Rminus_0_l, Rabs_Ropp. exact L3.
      * rewrite Rminus_diag_eq, Rabs_R0 by reflexivity. pose proof (Rmult_le_pos u (Rabs (B2R N)) ltac:(lra) PN). pose proof (Rmult_le_pos tiny (Rabs (B2R D)) ltac:(lra) PD). lra.
Qed.
Lemma line_mult x q d n : is_finite x = true -> 0 < B2R x -> represents q d n -> exists d' n', represents (mult x q) d' n' /\
  Rabs (d' - d) <= bpow radix2 (-1000) * Rabs (B2R x * n) /\ Rabs (n' - B2R x * n) <= u * Rabs (B2R x * n) + tiny * Rabs d.
Proof.
  intros Fx Px H. pose proof u_small as U. pose proof tiny_small as T. pose proof (bpow_gt_0 radix2 (-1000)) as P1. set (r := B2R x) in *.
  pose proof (Rabs_pos (r * n)) as PN. pose proof (Rabs_pos d) as PD.
  assert (Q1 : 0 <= u * Rabs (r * n)) by (apply Rmult_le_pos; lra). assert (Q2 : 0 <= tiny * Rabs d) by (apply Rmult_le_pos; lra). assert (Q3 : 0 <= bpow radix2 (-1000) * Rabs (r * n)) by (apply Rmult_le_pos; lra).
  destruct H as [(F & D & E)|(F & N & D & E)].
  - pose proof (Bmult_correct 53 1024 eq_refl eq_refl mode_NE x q) as C. fold fexp64 in C. fold rnd in C. fold r in C.
    destruct (Rlt_dec (Rabs (rnd (r * B2R q))) (bpow radix2 1024)) as [L|L].
    + rewrite Rlt_bool_true in C by exact L. destruct C as (C1 & C2 & _). exists d, (rnd (r * B2R q) * d). split; [left|split].
      * unfold mult. rewrite C2, C1, Fx, F. auto.
      * rewrite Rminus_diag_eq, Rabs_R0 by reflexivity. exact Q3.
      * replace (rnd (r * B2R q) * d - r * n) with ((rnd (r * B2R q) - r * B2R q) * d) by (rewrite <- E; ring). rewrite Rabs_mult.
        pose proof (rnd_error (r * B2R q)) as Er. apply Rle_trans with ((u * Rabs (r * B2R q) + tiny) * Rabs d); [apply Rmult_le_compat_r; lra|].
        rewrite <- E, <- (Rmult_assoc r), Rabs_mult with (y := d). right. ring.
    + rewrite Rlt_bool_false in C by lra. apply overflow_inf in C. apply huge in L.
      assert (PD' : 0 < Rabs d) by (apply Rabs_pos_lt; exact D).
      assert (L2 : bpow radix2 1000 * Rabs d <= Rabs (r * n)).
      { rewrite <- E, <- Rmult_assoc, Rabs_mult with (y := d). apply Rmult_le_compat_r; lra. }
      assert (L3 : Rabs d <= bpow radix2 (-1000) * Rabs (r * n)).
      { apply Rle_trans with (bpow radix2 (-1000) * (bpow radix2 1000 * Rabs d)); [|apply Rmult_le_compat_l; lra]. rewrite <- Rmult_assoc, <- bpow_plus. change (bpow radix2 (-1000 + 1000)) with 1. rewrite Rmult_1_l. apply Rle_refl. }
      exists 0, (r * n). split; [right|split].
      * split; [apply C|]. split; [apply C|]. split; [reflexivity|]. intros Z. rewrite Z, Rabs_R0, Rmult_0_r in L3. lra.
      * rewrite Rminus_0_l, Rabs_Ropp. exact L3.
      * rewrite Rminus_diag_eq, Rabs_R0 by reflexivity. lra.
  - exists 0, (r * n). split; [right|split].
    + destruct (nonzero_of x Fx (Rgt_not_eq _ _ Px)) as (s' & m & e & b & EN). destruct q as [s|s| |s m' e' b']; try discriminate.
      rewrite EN. split; [reflexivity|]. split; [reflexivity|]. split; [reflexivity|]. apply Rmult_integral_contrapositive. split; [exact (Rgt_not_eq _ _ Px) | exact E].
    + rewrite D, Rminus_diag_eq, Rabs_R0 by reflexivity. exact Q3.
    + rewrite Rminus_diag_eq, Rabs_R0 by reflexivity. lra.
Qed.

(** * Directions that are close to each other *)
Lemma atan_le t : Rabs (atan t) <= Rabs t.
Proof.
  assert (P : forall t, 0 <= t -> 0 <= atan t <= t).
  { intros s [Hs|<-]; [|rewrite atan_0; lra]. split; [left; rewrite <- atan_0; apply atan_increasing; exact Hs|].
    destruct (MVT_cor2 atan (fun z => / (1 + z ^ 2)) 0 s Hs) as (c & E & [C1 C2]).
    - intros c _. apply derivable_pt_lim_atan.
    - rewrite atan_0, !Rminus_0_r in E. rewrite E. rewrite <- (Rmult_1_l s) at 2. apply Rmult_le_compat_r; [lra|]. rewrite <- Rinv_1. apply Rinv_le_contravar; [lra|]. pose proof (pow2_ge_0 c). lra. }
  destruct (Rle_dec 0 t) as [H|H].
  - destruct (P t H). rewrite !Rabs_pos_eq by lra. lra.
  - destruct (P (- t) ltac:(lra)) as [A B]. rewrite atan_opp in A, B. rewrite !Rabs_left1 by lra. lra.
Qed.
Lemma turn d n d' n' a e : 0 <= e <= / 20 -> d' <> 0 \/ n' <> 0 -> 0 < d * d + n * n ->
  (d' - d) * (d' - d) + (n' - n) * (n' - n) <= e * e * (d * d + n * n) -> sin a * d' = cos a * n' ->
  exists b, Rabs (b - a) <= 20 / 19 * e /\ sin b * d = cos b * n.
Proof.
  intros He Hw HV HE Ha. set (V := d * d + n * n) in *. set (x := d' - d) in *. set (y := n' - n) in *.
  assert (S2 : forall p, p * p <= V * (x * x + y * y) -> Rabs p <= e * V).
  { intros p Hp. apply Rnot_lt_le. intros L. assert (0 <= e * V) by (apply Rmult_le_pos; lra).
    assert (Q : p * p = Rabs p * Rabs p) by (rewrite <- Rabs_mult, Rabs_pos_eq; [reflexivity | nra]). 
    assert (V * (x * x + y * y) <= V * (e * e * V)) by (apply Rmult_le_compat_l; lra). nra. }
  assert (Hd : Rabs (d * x + n * y) <= e * V). { apply S2. unfold V. pose proof (Rle_0_sqr (d * y - n * x)). unfold Rsqr in *. nra. }
  assert (Hc : Rabs (d * y - n * x) <= e * V). { apply S2. unfold V. pose proof (Rle_0_sqr (d * x + n * y)). unfold Rsqr in *. nra. }
  set (dot := d * d' + n * n'). set (cross := d * n' - n * d').
  assert (Ed : dot = V + (d * x + n * y)) by (unfold dot, V, x, y; ring). assert (Ec : cross = d * y - n * x) by (unfold cross, x, y; ring).
  apply Rabs_le_inv in Hd. assert (Pd : V * (19 / 20) <= dot) by nra. assert (Pd' : 0 < dot) by lra.
  set (b := atan (cross / dot)). exists (a - b). split.
  - replace (a - b - a) with (- b) by ring. rewrite Rabs_Ropp. apply Rle_trans with (1 := atan_le _). unfold Rdiv at 1. rewrite Rabs_mult, Rabs_inv, (Rabs_pos_eq dot) by lra.
    apply (Rmult_le_reg_r dot); [exact Pd'|]. rewrite Rmult_assoc, Rinv_l, Rmult_1_r by lra. rewrite Ec. apply Rle_trans with (1 := Hc). nra.
  - assert (Hb : sin b * dot = cos b * cross).
    { assert (Hcb : 0 < cos b) by apply cos_atan_pos. assert (Ht : cross / dot = tan b) by (unfold b; rewrite tan_atan; reflexivity). unfold tan in Ht.
      replace cross with (sin b / cos b * dot) by (rewrite <- Ht; field; lra). field. lra. }
    assert (W : 0 < d' * d' + n' * n'). { destruct Hw as [Hw|Hw]; pose proof (Rsqr_pos_lt _ Hw) as P; unfold Rsqr in P; nra. }
    set (c := (cos a * d' + sin a * n') / (d' * d' + n' * n')).
    assert (Ca : cos a = c * d'). { unfold c. apply (Rmult_eq_reg_r (d' * d' + n' * n')); [|lra]. replace ((cos a * d' + sin a * n') / (d' * d' + n' * n') * d' * (d' * d' + n' * n')) with (cos a * d' * d' + (sin a * d') * n') by (field; lra). rewrite Ha. ring. }
    assert (Sa : sin a = c * n'). { unfold c. apply (Rmult_eq_reg_r (d' * d' + n' * n')); [|lra]. replace ((cos a * d' + sin a * n') / (d' * d' + n' * n') * n' * (d' * d' + n' * n')) with (cos a * n' * d' + sin a * n' * n') by (field; lra). rewrite <- Ha. ring. }
    set (k := cos b / dot). assert (Cb : cos b = k * dot) by (unfold k; field; lra).
    assert (Sb : sin b = k * cross). { unfold k. apply (Rmult_eq_reg_r dot); [|lra]. rewrite Hb. field. lra. }
    rewrite sin_minus, cos_minus, Ca, Sa, Cb, Sb. unfold dot, cross. ring.
Qed.

(** * From the quotient to the phase shift *)
Lemma twelve : (1 + u) ^ 12 - 1 <= 123 / 10 * u.
Proof. pose proof (up_tight 12 ltac:(lia)) as T. replace (INR 12) with 12 in T by (rewrite INR_IZR_INZ; reflexivity). pose proof u_small. lra. Qed.
Lemma close_12 lo hi x r M : close 12 lo hi x r M -> 0 < M /\ Rabs (B2R x - r) <= 123 / 10 * u * M /\ Rabs (B2R x) <= 11 / 10 * M.
Proof.
  intros H. destruct (close_size _ _ _ _ _ _ H) as [P S]. pose proof twelve as T. pose proof u_small as U. destruct H as (_ & _ & _ & E).
  split; [exact P|]. split; nra.
Qed.
Lemma div_12 t N D n d Mn Md lo hi : (-60 <= lo)%Z -> (hi <= 300)%Z -> close 12 lo hi N n Mn -> close 12 0 hi D d Md -> 0 < d * d + t * n * (t * n) -> t * Mn * (t * Mn) + Md * Md <= 36 * (d * d + t * n * (t * n)) ->
  exists d' n', represents (div N D) d' n' /\ Rabs (d' - d) <= 14 * u * Md /\ Rabs (n' - n) <= 14 * u * Mn.
Proof.
  intros Hlo Hhi HN HD HV HM. destruct (close_12 _ _ _ _ _ HN) as (PN & EN & SN), (close_12 _ _ _ _ _ HD) as (PD & ED & SD). pose proof u_small as U. pose proof tiny_small as T.
  destruct HN as (FN & _ & [LN UN] & _), HD as (FD & _ & [LD UD] & _). change (bpow radix2 0) with 1 in LD.
  pose proof (bpow_le radix2 _ _ Hlo) as B1. pose proof (bpow_le radix2 _ _ Hhi) as B2.
  assert (NZ : B2R N <> 0 \/ B2R D <> 0).
  { destruct (Req_dec (B2R N) 0) as [Z1|]; [|auto]. destruct (Req_dec (B2R D) 0) as [Z2|]; [|auto]. exfalso. rewrite Z1, Rminus_0_l, Rabs_Ropp in EN. rewrite Z2, Rminus_0_l, Rabs_Ropp in ED.
    assert (Q : forall a m, 0 < m -> Rabs a <= 123 / 10 * u * m -> a * a <= / 100 * (m * m)).
    { intros a m Pm Ha. apply Rabs_le_inv in Ha. assert (- (m / 10) <= a <= m / 10) by nra. nra. }
    pose proof (Q _ _ PN EN) as Q1. pose proof (Q _ _ PD ED). pose proof (Rmult_le_compat_l (t * t) _ _ ltac:(nra) Q1). lra. }
  destruct (line_div N D FN FD NZ) as (d' & n' & R & E1 & E2). exists d', n'. split; [exact R|]. split.
  - replace (d' - d) with ((d' - B2R D) + (B2R D - d)) by ring. apply Rle_trans with (1 := Rabs_triang _ _).
    assert (bpow radix2 (-1000) * Rabs (B2R N) <= u * Md).
    { apply Rle_trans with (bpow radix2 (-1000) * (2 * bpow radix2 300)); [apply Rmult_le_compat_l; [apply bpow_ge_0 | lra]|].
      apply Rle_trans with (u * 1); [|apply Rmult_le_compat_l; lra]. rewrite Rmult_1_r. change 2 with (bpow radix2 1). unfold u. rewrite <- !bpow_plus. apply bpow_le. lia. }
    pose proof (Rmult_lt_0_compat u Md ltac:(lra) PD). lra.
  - replace (n' - n) with ((n' - B2R N) + (B2R N - n)) by ring. apply Rle_trans with (1 := Rabs_triang _ _).
    assert (tiny * Rabs (B2R D) <= / 4 * u * Mn).
    { apply Rle_trans with (tiny * (2 * bpow radix2 300)); [apply Rmult_le_compat_l; lra|].
      apply Rle_trans with (/ 4 * u * bpow radix2 (-60)); [|apply Rmult_le_compat_l; lra]. change 2 with (bpow radix2 1). change (/ 4) with (bpow radix2 (-2)). unfold u, tiny. rewrite <- !bpow_plus. apply bpow_le. lia. }
    assert (u * Rabs (B2R N) <= u * (11 / 10 * Mn)) by (apply Rmult_le_compat_l; lra). pose proof (Rmult_lt_0_compat u Mn ltac:(lra) PN). lra.
Qed.
Lemma square_bound a m k : 0 < m -> Rabs a <= k * u * m -> a * a <= k * u * (k * u) * (m * m).
Proof. intros P H. assert (a * a = Rabs a * Rabs a) by (rewrite <- Rabs_mult, Rabs_pos_eq; [reflexivity | nra]). pose proof (Rabs_pos a). nra. Qed.
Lemma turned q d' n' n d Mn Md k : 0 <= k <= 16 -> represents q d' n' -> 0 < Mn -> 0 < Md -> 0 < d * d + n * n -> Mn * Mn + Md * Md <= 36 * (d * d + n * n) ->
  Rabs (d' - d) <= k * u * Md -> Rabs (n' - n) <= k * u * Mn ->
  is_nan q = false /\ exists b, Rabs (b - angle q) <= 102 * u /\ sin b * d = cos b * n.
Proof.
  intros Hk R P1 P2 HV HM E1 E2. split; [exact (represents_number _ _ _ R)|]. pose proof u_small as U.
  destruct (turn d n d' n' (angle q) (6 * k * u)) as (b & B1 & B2).
  - split; [|nra]. apply Rmult_le_pos; lra.
  - exact (represents_some _ _ _ R).
  - exact HV.
  - pose proof (square_bound _ _ _ P2 E1). pose proof (square_bound _ _ _ P1 E2).
    apply Rle_trans with (k * u * (k * u) * (Mn * Mn + Md * Md)); [lra|]. apply Rle_trans with (k * u * (k * u) * (36 * (d * d + n * n))); [|right; ring].
    apply Rmult_le_compat_l; [|exact HM]. assert (0 <= k * u) by (apply Rmult_le_pos; lra). nra.
  - apply represents_angle. exact R.
  - exists b. split; [|exact B2]. apply Rle_trans with (1 := B1). nra.
Qed.
Lemma turned_new N D n d Mn Md : close 12 (-60) 300 N n Mn -> close 12 0 300 D d Md -> 0 < d * d + n * n -> Mn * Mn + Md * Md <= 36 * (d * d + n * n) ->
  is_nan (div N D) = false /\ exists b, Rabs (b - angle (div N D)) <= 102 * u /\ sin b * d = cos b * n.
Proof.
  intros HN HD HV HM. destruct (div_12 1 N D n d Mn Md (-60) 300 ltac:(lia) ltac:(lia) HN HD ltac:(lra) ltac:(lra)) as (d' & n' & R & E1 & E2).
  apply (turned _ d' n' n d Mn Md 14); try assumption; [lra | exact (proj1 (close_size _ _ _ _ _ _ HN)) | exact (proj1 (close_size _ _ _ _ _ _ HD))].
Qed.

Lemma turned_old x N D n d Mn Md : in_range x -> close 12 (-10) 210 N n Mn -> close 12 0 210 D d Md -> let t := B2R x in 0 < d * d + t * n * (t * n) -> t * Mn * (t * Mn) + Md * Md <= 36 * (d * d + t * n * (t * n)) ->
  is_nan (mult x (div N D)) = false /\ exists b, Rabs (b - angle (mult x (div N D))) <= 102 * u /\ sin b * d = cos b * (t * n).
Proof.
  intros Hx HN HD t HV HM. pose proof (range_pos x Hx) as Px. fold t in Px. pose proof u_small as U. pose proof tiny_small as T.
  destruct (div_12 t N D n d Mn Md (-10) 210 ltac:(lia) ltac:(lia) HN HD HV HM) as (d0 & n0 & R0 & E1 & E2).
  destruct Hx as [Fx [Bx Cx]]. fold t in Bx, Cx. destruct (line_mult x _ d0 n0 Fx Px R0) as (d' & n' & R & E3 & E4). fold t in E3, E4.
  destruct HN as (_ & SN & [LN UN] & _), HD as (_ & SD & [LD UD] & _). change (bpow radix2 0) with 1 in LD. pose proof (bpow_gt_0 radix2 (-10)) as P10. assert (PN : 0 < Mn) by lra. assert (PD : 0 < Md) by lra.
  assert (PuN : 0 < u * Mn) by (apply Rmult_lt_0_compat; lra). assert (PuD : 0 < u * Md) by (apply Rmult_lt_0_compat; lra). assert (PtN : 0 < t * Mn) by (apply Rmult_lt_0_compat; lra).
  assert (S0 : Rabs n0 <= 11 / 10 * Mn). { replace n0 with (n + (n0 - n)) by ring. apply Rle_trans with (1 := Rabs_triang _ _). nra. }
  assert (Sd : Rabs d0 <= 2 * Md). { replace d0 with (d + (d0 - d)) by ring. apply Rle_trans with (1 := Rabs_triang _ _). nra. }
  assert (St : Rabs (t * n0) <= 11 / 10 * (t * Mn)). { rewrite Rabs_mult, (Rabs_pos_eq t) by lra. nra. }
  assert (PutN : 0 < u * (t * Mn)) by (apply Rmult_lt_0_compat; lra).
  apply (turned _ d' n' (t * n) d (t * Mn) Md 16); try assumption; [lra| |].
  - replace (d' - d) with ((d' - d0) + (d0 - d)) by ring. apply Rle_trans with (1 := Rabs_triang _ _).
    assert (bpow radix2 (-1000) * Rabs (t * n0) <= u * Md).
    { apply Rle_trans with (bpow radix2 (-1000) * (2 * (bpow radix2 50 * bpow radix2 210))).
      - apply Rmult_le_compat_l; [apply bpow_ge_0|]. apply Rle_trans with (1 := St). apply Rle_trans with (2 * (t * Mn)); [lra|]. apply Rmult_le_compat_l; [lra|]. apply Rmult_le_compat; lra.
      - apply Rle_trans with (u * 1); [|apply Rmult_le_compat_l; lra]. rewrite Rmult_1_r. change 2 with (bpow radix2 1). unfold u. rewrite <- !bpow_plus. apply bpow_le. lia. }
    lra.
  - replace (n' - t * n) with ((n' - t * n0) + t * (n0 - n)) by ring. apply Rle_trans with (1 := Rabs_triang _ _). rewrite (Rabs_mult t), (Rabs_pos_eq t) by lra.
    assert (tiny * Rabs d0 <= / 4 * u * (t * Mn)).
    { apply Rle_trans with (tiny * (2 * bpow radix2 210)); [apply Rmult_le_compat_l; lra|].
      apply Rle_trans with (/ 4 * u * (bpow radix2 (-50) * bpow radix2 (-10))).
      - change 2 with (bpow radix2 1). change (/ 4) with (bpow radix2 (-2)). unfold u, tiny. rewrite <- !bpow_plus. apply bpow_le. lia.
      - apply Rmult_le_compat_l; [lra|]. apply Rmult_le_compat; try apply bpow_ge_0; lra. }
    assert (u * Rabs (t * n0) <= u * (11 / 10 * (t * Mn))) by (apply Rmult_le_compat_l; lra).
    assert (t * Rabs (n0 - n) <= t * (14 * u * Mn)) by (apply Rmult_le_compat_l; lra). lra.
Qed.
Lemma phase_final atan64 x q b : accurate atan64 -> in_range x -> is_nan q = false -> Rabs (b - angle q) <= 102 * u ->
  is_finite (minus x (atan64 q)) = true /\ Rabs (B2R (minus x (atan64 q)) - (B2R x - b)) <= 120 * u * (1 + B2R x).
Proof.
  intros Ha Hx Hq Hb. pose proof (range_pos x Hx) as Px. destruct Hx as [Fx [_ Cx]]. destruct (Ha q Hq) as [Fa Ea]. pose proof (angle_bound q Hq) as Ba. pose proof u_small as U. pose proof tiny_small as T.
  assert (E52 : bpow radix2 (-52) = 2 * u) by (unfold u; change 2 with (bpow radix2 1); rewrite <- bpow_plus; reflexivity). rewrite E52 in Ea.
  assert (T1 : bpow radix2 (-1074) <= / 10 * u) by (apply Rle_trans with (/ 16 * u); [change (/ 16) with (bpow radix2 (-4)); unfold u; rewrite <- bpow_plus; apply bpow_le; lia | lra]).
  assert (T2 : tiny <= / 10 * u) by (apply Rle_trans with (2 := T1); apply bpow_le; lia).
  set (A := B2R (atan64 q)) in *. set (r := B2R x) in *.
  assert (E1 : Rabs (A - angle q) <= 41 / 10 * u). { apply Rle_trans with (1 := Ea). nra. }
  assert (SA : Rabs A <= 3). { replace A with (angle q + (A - angle q)) by ring. apply Rle_trans with (1 := Rabs_triang _ _). lra. }
  pose proof (rnd_error (r - A)) as Er. assert (Sr : Rabs (r - A) <= r + 3). { apply Rabs_le. apply Rabs_le_inv in SA. lra. }
  assert (Er' : Rabs (rnd (r - A) - (r - A)) <= u * (r + 3) + / 10 * u). { apply Rle_trans with (1 := Er). pose proof (Rmult_le_compat_l u _ _ ltac:(lra) Sr). lra. }
  assert (B : Rabs (rnd (r - A)) < bpow radix2 1024).
  { apply Rle_lt_trans with (bpow radix2 53).
    - replace (rnd (r - A)) with (rnd (r - A) - (r - A) + (r - A)) by ring. apply Rle_trans with (1 := Rabs_triang _ _). apply Rle_trans with (8 * bpow radix2 50); [|change 8 with (bpow radix2 3); rewrite <- bpow_plus; apply bpow_le; lia].
      assert (1 <= bpow radix2 50) by (change 1 with (bpow radix2 0); apply bpow_le; lia). nra.
    - apply bpow_lt. lia. }
  pose proof (Bminus_correct 53 1024 eq_refl eq_refl mode_NE x (atan64 q) Fx Fa) as C. fold fexp64 in C. fold rnd in C. fold r A in C. rewrite Rlt_bool_true in C by exact B.
  destruct C as (C1 & C2 & _). split; [exact C2|]. unfold minus. rewrite C1.
  replace (rnd (r - A) - (r - b)) with ((rnd (r - A) - (r - A)) + (- (A - angle q) + (b - angle q))) by ring.
  apply Rle_trans with (1 := Rabs_triang _ _). pose proof (Rabs_triang (- (A - angle q)) (b - angle q)) as T3. rewrite Rabs_Ropp in T3. nra.
Qed.

(** * The phase shift *)
Ltac close_step := first
  [ eassumption
  | apply close_Z; cbn; lia
  | eapply close_plus; [close_step | close_step | cbn; lia | cbn; lia | cbn; lia]
  | eapply close_minus; [close_step | close_step | cbn; lia | cbn; lia | cbn; lia]
  | eapply close_mult; [close_step | close_step | cbn; lia | cbn; lia | cbn; lia] ].
Ltac close_12 := eapply close_more; cycle 3; [close_step | cbn; lia | cbn; lia | cbn; lia].
Lemma range_close x : in_range x -> close 0 (-50) 50 x (B2R x) (B2R x).
Proof. intros H. pose proof (range_pos x H). destruct H as [F B]. apply close_exact; auto. lra. Qed.
Lemma phase_direction l r b k d n : 0 < r -> (l <= 4)%nat -> k <> 0 -> d = k * wA l r -> n = k * - wB l r -> sin b * d = cos b * n -> is_phase l r (r - b).
Proof.
  intros Hr Hl Hk -> -> H. apply (phase_from_ratio (wA l r) (wB l r)); try assumption; try reflexivity. replace (r - (r - b)) with b by ring.
  apply (scale_phase k); [exact Hk | lra].
Qed.
Lemma phase_zero r : 0 < r -> is_phase 0 r r.
Proof. intros Hr. replace r with (r - 0) at 2 by ring. apply (phase_direction 0 r 0 1 1 0); try lia; try lra; cbn [wA wB]; try ring. rewrite sin_0. ring. Qed.
Ltac powers r := assert (0 < r * r) by nra; assert (0 < r * r * (r * r)) by nra; assert (0 < r * r * (r * r) * (r * r)) by nra; assert (0 < r * r * (r * r) * (r * r) * (r * r)) by nra.
Lemma phase_64 atan64 l x : accurate atan64 -> in_range x -> (l <= 4)%nat -> exists p phi, phase64 atan64 l x = Ok p /\ is_finite p = true /\
  is_phase l (B2R x) phi /\ Rabs (B2R p - phi) <= 120 * u * (1 + B2R x).
Proof.
  intros Ha Hx Hl. pose proof (range_close x Hx) as N. pose proof (range_pos x Hx) as P. pose proof u_small as U. set (r := B2R x) in *.
  destruct l as [|[|[|[|[|l]]]]]; try lia; cbn [phase64].
  - exists x, r. split; [reflexivity|]. split; [apply Hx|]. split; [apply phase_zero; exact P|]. fold r. rewrite Rminus_diag_eq, Rabs_R0 by reflexivity. nra.
  - assert (Nn : is_nan x = false) by (destruct Hx as [F _]; destruct x; try discriminate; reflexivity).
    destruct (phase_final atan64 x x (angle x) Ha Hx Nn) as [F E]; [rewrite Rminus_diag_eq, Rabs_R0 by reflexivity; lra|].
    exists (minus x (atan64 x)), (r - angle x). split; [reflexivity|]. split; [exact F|]. split; [|exact E].
    apply (phase_direction 1 r _ r 1 r); try lia; try lra; [cbn [wA]; field; lra | cbn [wB]; ring|].
    destruct Hx as [Fx _]. rewrite (finite_angle x Fx). fold r. set (t := atan r). assert (Hc : 0 < cos t) by apply cos_atan_pos.
    assert (Ht : r = tan t) by (unfold t; rewrite tan_atan; reflexivity). rewrite Ht at 1. unfold tan. field. lra.
  - destruct (turned_new (mult (double_of 3) x) (minus (double_of 3) (mult x x)) (3 * r) (3 - r * r) (3 * r) (3 + r * r)) as (Hn & b & Hb & Eb); [close_12 | close_12 | powers r; nra | powers r; nra|].
    destruct (phase_final atan64 x _ b Ha Hx Hn Hb) as [F E]. eexists. exists (r - b). split; [reflexivity|]. split; [exact F|]. split; [|exact E].
    apply (phase_direction 2 r b (r * r) (3 - r * r) (3 * r)); try lia; try assumption; cbn [wA wB]; [apply Rgt_not_eq; repeat apply Rmult_lt_0_compat; exact P | field; lra | field; lra].
  - destruct (turned_new (mult x (minus (double_of 15) (mult x x))) (minus (double_of 15) (mult (double_of 6) (mult x x))) (r * (15 - r * r)) (15 - 6 * (r * r)) (r * (15 + r * r)) (15 + 6 * (r * r))) as (Hn & b & Hb & Eb); [close_12 | close_12 | powers r; nra | powers r; nra|].
    destruct (phase_final atan64 x _ b Ha Hx Hn Hb) as [F E]. eexists. exists (r - b). split; [reflexivity|]. split; [exact F|]. split; [|exact E].
    apply (phase_direction 3 r b (r * r * r) (15 - 6 * (r * r)) (r * (15 - r * r))); try lia; try assumption; cbn [wA wB]; [apply Rgt_not_eq; repeat apply Rmult_lt_0_compat; exact P | field; lra | field; lra].
  - unfold horner64. cbn [rev app fold_left bind].
    destruct (turned_new (mult x (minus (double_of 105) (mult (double_of 10) (mult x x)))) (plus (mult (plus (mult (double_of 1) (mult x x)) (double_of (-45))) (mult x x)) (double_of 105))
      (r * (105 - 10 * (r * r))) ((1 * (r * r) + -45) * (r * r) + 105) (r * (105 + 10 * (r * r))) ((1 * (r * r) + 45) * (r * r) + 105)) as (Hn & b & Hb & Eb); [close_12 | close_12 | powers r; nra | powers r; nra|].
    destruct (phase_final atan64 x _ b Ha Hx Hn Hb) as [F E]. eexists. exists (r - b). split; [reflexivity|]. split; [exact F|]. split; [|exact E].
    apply (phase_direction 4 r b (r * r * r * r) ((1 * (r * r) + -45) * (r * r) + 105) (r * (105 - 10 * (r * r)))); try lia; try assumption; cbn [wA wB]; [apply Rgt_not_eq; repeat apply Rmult_lt_0_compat; exact P | field; lra | field; lra].
Qed.

Lemma phaseShift_64 atan64 l x : accurate atan64 -> in_range x -> (l <= 4)%nat -> exists p phi, phaseShift64 atan64 (Z.of_nat l) x = Ok p /\ is_finite p = true /\
  is_phase l (B2R x) phi /\ Rabs (B2R p - phi) <= 120 * u * (1 + B2R x).
Proof.
  intros Ha Hx Hl. pose proof (range_close x Hx) as N. pose proof (range_pos x Hx) as P. pose proof u_small as U. set (r := B2R x) in *.
  destruct l as [|[|[|[|[|l]]]]]; try lia; unfold phaseShift64; cbn [Z.of_nat Pos.of_succ_nat Pos.succ Z.eqb Pos.eqb].
  - exists x, r. split; [reflexivity|]. split; [apply Hx|]. split; [apply phase_zero; exact P|]. fold r. rewrite Rminus_diag_eq, Rabs_R0 by reflexivity. nra.
  - assert (E1 : mult x (double_of 1) = mult x (div (double_of 1) (double_of 1))) by (f_equal; apply B2SF_inj; vm_compute; reflexivity). rewrite E1.
    destruct (turned_old x (double_of 1) (double_of 1) 1 1 1 1 Hx) as (Hn & b & Hb & Eb); [close_12 | close_12 | fold r; powers r; nra | fold r; powers r; nra|]. fold r in Eb.
    destruct (phase_final atan64 x _ b Ha Hx Hn Hb) as [F E]. eexists. exists (r - b). split; [reflexivity|]. split; [exact F|]. split; [|exact E].
    apply (phase_direction 1 r b r 1 (r * 1)); try lia; try assumption; cbn [wA wB]; [apply Rgt_not_eq; exact P | field; lra | ring].
  - destruct (turned_old x (double_of 3) (minus (double_of 3) (mult x x)) 3 (3 - r * r) 3 (3 + r * r) Hx) as (Hn & b & Hb & Eb); [close_12 | close_12 | fold r; powers r; nra | fold r; powers r; nra|]. fold r in Eb.
    destruct (phase_final atan64 x _ b Ha Hx Hn Hb) as [F E]. eexists. exists (r - b). split; [reflexivity|]. split; [exact F|]. split; [|exact E].
    apply (phase_direction 2 r b (r * r) (3 - r * r) (r * 3)); try lia; try assumption; cbn [wA wB]; [apply Rgt_not_eq; repeat apply Rmult_lt_0_compat; exact P | field; lra | field; lra].
  - destruct (turned_old x (minus (double_of 15) (mult x x)) (minus (double_of 15) (mult (double_of 6) (mult x x))) (15 - r * r) (15 - 6 * (r * r)) (15 + r * r) (15 + 6 * (r * r)) Hx) as (Hn & b & Hb & Eb); [close_12 | close_12 | fold r; powers r; nra | fold r; powers r; nra|]. fold r in Eb.
    destruct (phase_final atan64 x _ b Ha Hx Hn Hb) as [F E]. eexists. exists (r - b). split; [reflexivity|]. split; [exact F|]. split; [|exact E].
    apply (phase_direction 3 r b (r * r * r) (15 - 6 * (r * r)) (r * (15 - r * r))); try lia; try assumption; cbn [wA wB]; [apply Rgt_not_eq; repeat apply Rmult_lt_0_compat; exact P | field; lra | field; lra].
  - destruct (turned_old x (minus (double_of 105) (mult (double_of 10) (mult x x))) (plus (double_of 105) (mult (mult x x) (minus (mult x x) (double_of 45))))
      (105 - 10 * (r * r)) (105 + r * r * (r * r - 45)) (105 + 10 * (r * r)) (105 + r * r * (r * r + 45)) Hx) as (Hn & b & Hb & Eb); [close_12 | close_12 | fold r; powers r; nra | fold r; powers r; nra|]. fold r in Eb.
    destruct (phase_final atan64 x _ b Ha Hx Hn Hb) as [F E]. eexists. exists (r - b). split; [reflexivity|]. split; [exact F|]. split; [|exact E].
    apply (phase_direction 4 r b (r * r * r * r) (105 + r * r * (r * r - 45)) (r * (105 - 10 * (r * r)))); try lia; try assumption; cbn [wA wB]; [apply Rgt_not_eq; repeat apply Rmult_lt_0_compat; exact P | field; lra | field; lra].
Qed.
