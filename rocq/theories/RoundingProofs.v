(** Rounding errors of operations on positive numbers. *)
From Coq Require Import String List ZArith Reals Lra Lia Bool Psatz.
From Flocq Require Import Core.Core Relative IEEE754.BinarySingleNaN.
From Verif Require Import Outcome HardSphereModel HardSphereSpec HardSphereProofs DoubleModel DoubleSpec DoubleProofs RoundingModel RoundingSpec.
Import ListNotations.
Open Scope R_scope.

Definition u : R := bpow radix2 (-53).
Lemma u_value : u = / 9007199254740992.
Proof. unfold u. cbn. lra. Qed.
Lemma u_small : 0 < u < / 1000000.
Proof. rewrite u_value. lra. Qed.
Lemma up_pow n : 1 <= (1 + u) ^ n.
Proof. apply pow_R1_Rle. pose proof u_small. lra. Qed.
Lemma down_pow n : 0 < (1 - u) ^ n <= 1.
Proof.
  pose proof u_small. induction n as [|n [A B]]; cbn [pow]; [lra|]. split; [apply Rmult_lt_0_compat; lra|].
  nra.
Qed.
Lemma INR_100 n : (n <= 100)%nat -> INR n <= 100.
Proof. intros L. rewrite INR_IZR_INZ. apply IZR_le. lia. Qed.
Lemma bernoulli n : 1 - INR n * u <= (1 - u) ^ n.
Proof.
  pose proof u_small. induction n as [|n IH]; [cbn; lra|]. rewrite S_INR. cbn [pow]. pose proof (pos_INR n).
  apply Rle_trans with ((1 - u) * (1 - INR n * u)); [nra | apply Rmult_le_compat_l; lra].
Qed.
Lemma up_bound n : (n <= 100)%nat -> (1 + u) ^ n <= 1 + 2 * INR n * u.
Proof.
  pose proof u_small. induction n as [|n IH]; intros L; [cbn; lra|]. specialize (IH ltac:(lia)). rewrite S_INR. cbn [pow]. pose proof (pos_INR n).
  pose proof (INR_100 n ltac:(lia)).
  apply Rle_trans with ((1 + u) * (1 + 2 * INR n * u)); [apply Rmult_le_compat_l; lra|]. nra.
Qed.
Lemma up_tight n : (n <= 100)%nat -> (1 + u) ^ n <= 1 + 41 / 40 * INR n * u.
Proof.
  pose proof u_small. induction n as [|n IH]; intros L; [cbn; lra|]. specialize (IH ltac:(lia)). rewrite S_INR. cbn [pow]. pose proof (pos_INR n).
  pose proof (INR_100 n ltac:(lia)).
  apply Rle_trans with ((1 + u) * (1 + 41 / 40 * INR n * u)); [apply Rmult_le_compat_l; lra|]. nra.
Qed.
Lemma up_2 n : (n <= 100)%nat -> (1 + u) ^ n <= 2.
Proof.
  intros L. pose proof (up_bound n L). pose proof (INR_100 n ltac:(lia)). pose proof u_small. pose proof (pos_INR n). nra.
Qed.
Lemma down_2 n : (n <= 100)%nat -> / 2 <= (1 - u) ^ n.
Proof.
  intros L. pose proof (bernoulli n). pose proof (INR_100 n ltac:(lia)). pose proof u_small. pose proof (pos_INR n). nra.
Qed.

(** The double x is the positive number r up to n roundings; r lies between powers of two. *)
Definition near (n : nat) (lo hi : Z) (x : double) (r : R) : Prop :=
  is_finite x = true /\ bpow radix2 lo <= r <= bpow radix2 hi /\ r * (1 - u) ^ n <= B2R x <= r * (1 + u) ^ n.

Definition rnd := round radix2 fexp64 (round_mode mode_NE).
Lemma rnd_near v : bpow radix2 (-1000) <= v <= bpow radix2 1000 -> v * (1 - u) <= rnd v <= v * (1 + u) /\ Rabs (rnd v) < bpow radix2 1024.
Proof.
  intros [A B]. assert (P : 0 < v) by (pose proof (bpow_gt_0 radix2 (-1000)); lra). pose proof u_small as U.
  assert (E : Rabs (rnd v - v) <= u * v).
  { pose proof (relative_error_N_FLT radix2 (3 - 1024 - 53) 53 eq_refl (fun x => negb (Z.even x)) v) as H. rewrite (Rabs_pos_eq v) in H by lra.
    replace (/ 2 * bpow radix2 (- (53) + 1)) with u in H by (unfold u; cbn; lra).
    apply H. apply Rle_trans with (2 := A). apply bpow_le. lia. }
  apply Rabs_le_inv in E. assert (R1 : v * (1 - u) <= rnd v <= v * (1 + u)) by lra. split; [exact R1|].
  assert (0 < v * (1 - u)) by (apply Rmult_lt_0_compat; lra). rewrite Rabs_pos_eq by lra. apply Rle_lt_trans with (bpow radix2 1001); [|apply bpow_lt; lia].
  change 1001%Z with (1 + 1000)%Z. rewrite bpow_plus. change (bpow radix2 1) with 2. nra.
Qed.
(** one rounding more *)
Lemma near_round n lo hi v x r : (-900 <= lo)%Z -> (hi <= 900)%Z -> (n <= 99)%nat -> bpow radix2 lo <= r <= bpow radix2 hi ->
  r * (1 - u) ^ n <= v <= r * (1 + u) ^ n -> (Rabs (rnd v) < bpow radix2 1024 -> is_finite x = true /\ B2R x = rnd v) -> near (S n) lo hi x r.
Proof.
  intros Hlo Hhi Hn [R1 R2] [V1 V2] H. pose proof (bpow_le radix2 (-900) lo Hlo) as L. pose proof (bpow_le radix2 hi 900 Hhi) as Hu. pose proof u_small as U.
  assert (Pr : 0 < r) by (pose proof (bpow_gt_0 radix2 (-900)); lra). pose proof (down_2 n ltac:(lia)) as D2. pose proof (up_2 n ltac:(lia)) as U2.
  assert (B : bpow radix2 (-1000) <= v <= bpow radix2 1000).
  { split.
    - apply Rle_trans with (2 := V1). apply Rle_trans with (bpow radix2 (-900 + -1)); [apply bpow_le; lia|]. rewrite bpow_plus. change (bpow radix2 (-1)) with (/ 2). apply Rmult_le_compat; [apply bpow_ge_0 | lra | lra | exact D2].
    - apply Rle_trans with (1 := V2). apply Rle_trans with (bpow radix2 (900 + 1)); [|apply bpow_le; lia]. rewrite bpow_plus. change (bpow radix2 1) with 2. pose proof (up_pow n). apply Rmult_le_compat; lra. }
  destruct (rnd_near v B) as [[Q1 Q2] Q3]. destruct (H Q3) as [F E]. split; [exact F|]. split; [split; assumption|]. rewrite E. cbn [pow].
  assert (P0 : 0 < 1 - u) by lra. assert (P1 : 0 < 1 + u) by lra. split.
  - apply Rle_trans with (2 := Q1). replace (r * ((1 - u) * (1 - u) ^ n)) with (r * (1 - u) ^ n * (1 - u)) by ring. apply Rmult_le_compat_r; lra.
  - apply Rle_trans with (1 := Q2). replace (r * ((1 + u) * (1 + u) ^ n)) with (r * (1 + u) ^ n * (1 + u)) by ring. apply Rmult_le_compat_r; lra.
Qed.
Lemma near_more n m lo hi x r : (n <= m)%nat -> near n lo hi x r -> near m lo hi x r.
Proof.
  intros L (F & B & V1 & V2). split; [exact F|]. split; [exact B|]. pose proof (bpow_gt_0 radix2 lo). pose proof u_small. assert (0 < r) by lra.
  replace m with (n + (m - n))%nat by lia. rewrite !pow_add. pose proof (down_pow (m - n)). pose proof (up_pow (m - n)). pose proof (down_pow n). pose proof (up_pow n). split.
  - apply Rle_trans with (2 := V1). apply Rmult_le_compat_l; [lra|]. rewrite <- (Rmult_1_r ((1 - u) ^ n)) at 2. apply Rmult_le_compat_l; lra.
  - apply Rle_trans with (1 := V2). apply Rmult_le_compat_l; [lra|]. rewrite <- (Rmult_1_r ((1 + u) ^ n)) at 1. apply Rmult_le_compat_l; lra.
Qed.
Lemma near_pos n lo hi x r : near n lo hi x r -> 0 < r /\ 0 < B2R x.
Proof.
  intros (_ & [B _] & V & _). pose proof (bpow_gt_0 radix2 lo). pose proof (down_pow n) as [D _]. assert (0 < r) by lra. split; [assumption|].
  apply Rlt_le_trans with (2 := V). apply Rmult_lt_0_compat; assumption.
Qed.
Lemma near_mult n m lo hi lo' hi' x y r s : near n lo hi x r -> near m lo' hi' y s -> (-900 <= lo + lo')%Z -> (hi + hi' <= 900)%Z -> (n + m <= 99)%nat ->
  near (S (n + m)) (lo + lo') (hi + hi') (mult x y) (r * s).
Proof.
  intros Hx Hy H1 H2 H3. destruct (near_pos _ _ _ _ _ Hx) as [Pr Px], (near_pos _ _ _ _ _ Hy) as [Ps Py]. destruct Hx as (Fx & Bx & V1 & V2), Hy as (Fy & By & W1 & W2).
  apply (near_round _ _ _ (B2R x * B2R y)); try assumption.
  - rewrite !bpow_plus. pose proof (bpow_ge_0 radix2 lo). pose proof (bpow_ge_0 radix2 lo'). split; apply Rmult_le_compat; lra.
  - rewrite !pow_add. pose proof (down_pow n). pose proof (down_pow m). pose proof (up_pow n). pose proof (up_pow m). split.
    + replace (r * s * ((1 - u) ^ n * (1 - u) ^ m)) with (r * (1 - u) ^ n * (s * (1 - u) ^ m)) by ring. apply Rmult_le_compat; try assumption; apply Rmult_le_pos; lra.
    + replace (r * s * ((1 + u) ^ n * (1 + u) ^ m)) with (r * (1 + u) ^ n * (s * (1 + u) ^ m)) by ring. apply Rmult_le_compat; lra.
  - intros B. pose proof (Bmult_correct 53 1024 eq_refl eq_refl mode_NE x y) as C. fold fexp64 in C. fold rnd in C. rewrite Rlt_bool_true in C by exact B.
    destruct C as (C1 & C2 & _). split; [unfold mult; rewrite C2, Fx, Fy; reflexivity | exact C1].
Qed.
Lemma near_plus n m lo hi lo' hi' x y r s : near n lo hi x r -> near m lo' hi' y s -> (-900 <= Z.max lo lo')%Z -> (1 + Z.max hi hi' <= 900)%Z -> (Nat.max n m <= 99)%nat ->
  near (S (Nat.max n m)) (Z.max lo lo') (1 + Z.max hi hi') (plus x y) (r + s).
Proof.
  intros Hx Hy H1 H2 H3. apply (near_more _ (Nat.max n m)) in Hx; [|lia]. apply (near_more _ (Nat.max n m)) in Hy; [|lia]. set (k := Nat.max n m) in *.
  destruct (near_pos _ _ _ _ _ Hx) as [Pr Px], (near_pos _ _ _ _ _ Hy) as [Ps Py]. destruct Hx as (Fx & Bx & V1 & V2), Hy as (Fy & By & W1 & W2).
  apply (near_round _ _ _ (B2R x + B2R y)); try assumption.
  - split.
    + destruct (Z.max_spec lo lo') as [[_ ->]|[_ ->]]; lra.
    + rewrite bpow_plus. change (bpow radix2 1) with 2. pose proof (bpow_le radix2 hi (Z.max hi hi') ltac:(lia)). pose proof (bpow_le radix2 hi' (Z.max hi hi') ltac:(lia)). lra.
  - lra.
  - intros B. pose proof (Bplus_correct 53 1024 eq_refl eq_refl mode_NE x y Fx Fy) as C. fold fexp64 in C. fold rnd in C. rewrite Rlt_bool_true in C by exact B.
    destruct C as (C1 & C2 & _). split; assumption.
Qed.
Lemma quotient n m x y r s : 0 < r -> 0 < s -> 0 < x -> 0 < y -> r * (1 - u) ^ n <= x <= r * (1 + u) ^ n -> s * (1 - u) ^ m <= y <= s * (1 + u) ^ m ->
  r / s * (1 - u) ^ (n + 2 * m) <= x / y <= r / s * (1 + u) ^ (n + 2 * m).
Proof.
  intros Pr Ps Px Py [V1 V2] [W1 W2]. pose proof u_small as U. rewrite !pow_add, !pow_mult. pose proof (down_pow n). pose proof (down_pow m) as D. pose proof (up_pow n). pose proof (up_pow m) as Um.
  assert (K1 : ((1 - u) ^ 2) ^ m * (1 + u) ^ m <= 1).
  { rewrite <- Rpow_mult_distr. apply Rle_trans with (1 ^ m); [|rewrite pow1; lra]. apply pow_incr. split; nra. }
  assert (K2 : 1 <= ((1 + u) ^ 2) ^ m * (1 - u) ^ m).
  { rewrite <- Rpow_mult_distr. apply Rle_trans with (1 ^ m); [rewrite pow1; lra|]. apply pow_incr. split; nra. }
  assert (A1 : 0 < ((1 - u) ^ 2) ^ m) by (apply pow_lt, pow_lt; lra). assert (A2 : 0 < ((1 + u) ^ 2) ^ m) by (apply pow_lt, pow_lt; lra).
  split.
  - apply (Rmult_le_reg_r y); [exact Py|]. replace (x / y * y) with x by (field; lra). apply Rle_trans with (2 := V1).
    replace (r / s * ((1 - u) ^ n * ((1 - u) ^ 2) ^ m) * y) with (r * (1 - u) ^ n * (((1 - u) ^ 2) ^ m * (y / s))) by (field; lra).
    rewrite <- (Rmult_1_r (r * (1 - u) ^ n)) at 2. apply Rmult_le_compat_l; [apply Rmult_le_pos; lra|]. apply Rle_trans with (2 := K1). apply Rmult_le_compat_l; [lra|].
    apply (Rmult_le_reg_r s); [exact Ps|]. replace (y / s * s) with y by (field; lra). lra.
  - apply (Rmult_le_reg_r y); [exact Py|]. replace (x / y * y) with x by (field; lra). apply Rle_trans with (1 := V2).
    replace (r / s * ((1 + u) ^ n * ((1 + u) ^ 2) ^ m) * y) with (r * (1 + u) ^ n * (((1 + u) ^ 2) ^ m * (y / s))) by (field; lra).
    rewrite <- (Rmult_1_r (r * (1 + u) ^ n)) at 1. apply Rmult_le_compat_l; [apply Rmult_le_pos; lra|]. apply Rle_trans with (1 := K2). apply Rmult_le_compat_l; [lra|].
    apply (Rmult_le_reg_r s); [exact Ps|]. replace (y / s * s) with y by (field; lra). lra.
Qed.
Lemma range_quotient lo hi lo' hi' r s : bpow radix2 lo <= r <= bpow radix2 hi -> bpow radix2 lo' <= s <= bpow radix2 hi' -> bpow radix2 (lo - hi') <= r / s <= bpow radix2 (hi - lo').
Proof.
  intros [A B] [C D]. pose proof (bpow_gt_0 radix2 lo). pose proof (bpow_gt_0 radix2 lo'). unfold Zminus. rewrite !bpow_plus, !bpow_opp. unfold Rdiv. split; apply Rmult_le_compat; try lra.
  - left. apply Rinv_0_lt_compat, bpow_gt_0.
  - apply Rinv_le; lra.
  - left. apply Rinv_0_lt_compat. lra.
  - apply Rinv_le; lra.
Qed.
Lemma near_div n m lo hi lo' hi' x y r s : near n lo hi x r -> near m lo' hi' y s -> (-900 <= lo - hi')%Z -> (hi - lo' <= 900)%Z -> (n + 2 * m <= 99)%nat ->
  near (S (n + 2 * m)) (lo - hi') (hi - lo') (div x y) (r / s).
Proof.
  intros Hx Hy H1 H2 H3. destruct (near_pos _ _ _ _ _ Hx) as [Pr Px], (near_pos _ _ _ _ _ Hy) as [Ps Py]. destruct Hx as (Fx & Bx & V), Hy as (Fy & By & W).
  apply (near_round _ _ _ (B2R x / B2R y)); try assumption.
  - apply range_quotient; assumption.
  - apply quotient; assumption.
  - intros B. pose proof (Bdiv_correct 53 1024 eq_refl eq_refl mode_NE x y ltac:(lra)) as C. fold fexp64 in C. fold rnd in C. rewrite Rlt_bool_true in C by exact B.
    destruct C as (C1 & C2 & _). split; [unfold div; rewrite C2; exact Fx | exact C1].
Qed.
Lemma rnd_opp v : rnd (- v) = - rnd v.
Proof. unfold rnd. cbn [round_mode]. apply round_NE_opp. Qed.
(** the same with a negative dividend *)
Lemma near_div_opp n m lo hi lo' hi' x y r s : near n lo hi x r -> near m lo' hi' y s -> (-900 <= lo - hi')%Z -> (hi - lo' <= 900)%Z -> (n + 2 * m <= 99)%nat ->
  near (S (n + 2 * m)) (lo - hi') (hi - lo') (opp (div (opp x) y)) (r / s).
Proof.
  intros Hx Hy H1 H2 H3. destruct (near_pos _ _ _ _ _ Hx) as [Pr Px], (near_pos _ _ _ _ _ Hy) as [Ps Py]. destruct Hx as (Fx & Bx & V), Hy as (Fy & By & W).
  apply (near_round _ _ _ (B2R x / B2R y)); try assumption.
  - apply range_quotient; assumption.
  - apply quotient; assumption.
  - intros B. pose proof (Bdiv_correct 53 1024 eq_refl eq_refl mode_NE (opp x) y ltac:(lra)) as C. fold fexp64 in C. fold rnd in C. unfold opp in C at 1. rewrite B2R_Bopp in C.
    replace (- B2R x / B2R y) with (- (B2R x / B2R y)) in C by (field; lra). rewrite rnd_opp in C. rewrite Rabs_Ropp, Rlt_bool_true in C by exact B. destruct C as (C1 & C2 & _).
    split; [unfold opp at 1; rewrite is_finite_Bopp; unfold div; rewrite C2; unfold opp; rewrite is_finite_Bopp; exact Fx|].
    unfold opp at 1. rewrite B2R_Bopp. unfold div. fold rnd in C1. rewrite C1. unfold opp. rewrite B2R_Bopp. replace (- B2R x / B2R y) with (- (B2R x / B2R y)) by (field; lra). rewrite rnd_opp. lra.
Qed.
Lemma near_exact lo hi x r : is_finite x = true -> B2R x = r -> bpow radix2 lo <= r <= bpow radix2 hi -> near 0 lo hi x r.
Proof. intros F E B. split; [exact F|]. split; [exact B|]. rewrite E. cbn. lra. Qed.
Lemma near_Z z : (1 <= z <= 65536)%Z -> near 0 0 16 (double_of z) (IZR z).
Proof.
  intros H. destruct (of_holds z ltac:(lia)) as [F V]. apply near_exact; [exact F | rewrite V, mult_IZR; lra|].
  change (bpow radix2 0) with 1. change (bpow radix2 16) with 65536. split; apply IZR_le; lia.
Qed.
(** 40 roundings *)
Lemma near_error n lo hi x r : (n <= 40)%nat -> near n lo hi x r -> Rabs (B2R x - r) <= 41 * bpow radix2 (-53) * r.
Proof.
  intros L H. apply (near_more n 40) in H; [|exact L]. destruct (near_pos _ _ _ _ _ H) as [P _]. destruct H as (_ & _ & V1 & V2). fold u.
  assert (A : (1 + u) ^ 40 <= 1 + 41 * u) by (pose proof (up_tight 40 ltac:(lia)) as T; replace (INR 40) with 40 in T by (rewrite INR_IZR_INZ; reflexivity); lra).
  pose proof (bernoulli 40) as B. change (INR 40) with (40) in B || replace (INR 40) with 40 in B by (cbn; lra). pose proof u_small.
  apply Rabs_le. split; nra.
Qed.

(** * The hard-sphere functions *)
Ltac near_step := first
  [ eassumption
  | apply near_Z; lia
  | eapply near_plus; [near_step | near_step | cbn; lia | cbn; lia | cbn; lia]
  | eapply near_mult; [near_step | near_step | cbn; lia | cbn; lia | cbn; lia]
  | eapply near_div; [near_step | near_step | cbn; lia | cbn; lia | cbn; lia]
  | eapply near_div_opp; [near_step | near_step | cbn; lia | cbn; lia | cbn; lia] ].
Lemma range_near x : in_range x -> near 0 (-50) 50 x (B2R x).
Proof. intros [F B]. apply near_exact; auto. Qed.
Lemma error_of n lo hi x r s : near n lo hi x r -> r = s -> (n <= 40)%nat -> is_finite x = true /\ Rabs (B2R x - s) <= 41 * bpow radix2 (-53) * s.
Proof. intros H <- L. split; [exact (proj1 H) | exact (near_error _ _ _ _ _ L H)]. Qed.
Lemma error_opp n lo hi x r s : near n lo hi (opp x) r -> r = - s -> (n <= 40)%nat -> is_finite x = true /\ Rabs (B2R x - s) <= 41 * bpow radix2 (-53) * - s.
Proof.
  intros H -> L. pose proof (near_error _ _ _ _ _ L H) as E. destruct H as (F & _). unfold opp in F, E. rewrite is_finite_Bopp in F. rewrite B2R_Bopp in E. split; [exact F|].
  replace (B2R x - s) with (- (- B2R x - - s)) by ring. rewrite Rabs_Ropp. exact E.
Qed.
(** The codes agree with the exact codes, hence with the specification, up to 40 roundings. *)
Lemma exact_P l r p : 0 < r -> (l <= 4)%nat -> penetrability_neutron l r = Ok p -> P_spec l r = p.
Proof. intros Hr Hl H. rewrite (penetrability_code l r Hr Hl) in H. injection H as <-. reflexivity. Qed.
Lemma exact_S l r p : 0 < r -> (l <= 4)%nat -> shift_neutron l r = Ok p -> S_spec l r = p.
Proof. intros Hr Hl H. rewrite (shift_code l r Hr Hl) in H. injection H as <-. reflexivity. Qed.
Lemma range_pos x : in_range x -> 0 < B2R x.
Proof. intros [_ [B _]]. pose proof (bpow_gt_0 radix2 (-50)). lra. Qed.
Lemma P_64 l x : in_range x -> (l <= 4)%nat -> exists p, penetrability64 l x = Ok p /\
  is_finite p = true /\ Rabs (B2R p - P_spec l (B2R x)) <= 41 * bpow radix2 (-53) * P_spec l (B2R x).
Proof.
  intros Hx Hl. pose proof (range_near x Hx) as N. pose proof (range_pos x Hx) as P. set (r := B2R x) in *.
  destruct l as [|[|[|[|[|l]]]]]; try lia; (eexists; split; [reflexivity|]); cbn [fold_left];
    (eapply error_of; [near_step | symmetry; apply exact_P; [exact P | lia | reflexivity] | cbn; lia]).
Qed.
Lemma S_64 l x : in_range x -> (l <= 4)%nat -> exists p, shift64 l x = Ok p /\
  is_finite p = true /\ Rabs (B2R p - S_spec l (B2R x)) <= 41 * bpow radix2 (-53) * - S_spec l (B2R x).
Proof.
  intros Hx Hl. pose proof (range_near x Hx) as N. pose proof (range_pos x Hx) as P. set (r := B2R x) in *.
  destruct l as [|[|[|[|[|l]]]]]; try lia; (eexists; split; [reflexivity|]); cbn [fold_left].
  { rewrite (exact_S 0 r 0 P ltac:(lia) eq_refl). destruct zero_holds as [F V]. split; [exact F|]. rewrite V. replace (0 / 2 - 0) with 0 by lra. rewrite Rabs_R0. lra. }
  all: (eapply error_opp; [near_step | | cbn; lia]; eapply eq_trans; [|apply f_equal; symmetry; apply exact_S; [exact P | lia | reflexivity]]; cbn [fold_left rev app]; idtac).
  all: match goal with |- ?a / ?d = _ => generalize d; intro; unfold Rdiv; ring end.
Qed.

(** * The older interface *)
Lemma positive_one x : in_range x -> Bltb (double_of 0) x = true.
Proof.
  intros H. pose proof (range_pos x H). destruct H as [F _]. destruct (of_holds 0) as [F0 V0]; [cbn; lia|].
  rewrite Bltb_correct by assumption. rewrite V0. apply Rlt_bool_true. change (IZR (2 * 0)) with 0. lra.
Qed.
Lemma exact_old l r p s : 0 < r -> (l <= 4)%nat -> penetrationShift (Z.of_nat l) r = Ok (p, s) -> P_spec l r = p /\ S_spec l r = s.
Proof.
  intros Hr Hl H. destruct (interfaces_agree l r ltac:(lra)) as [A B]. rewrite H in A, B.
  split; [apply (exact_P l r p Hr Hl); symmetry; exact A | apply (exact_S l r s Hr Hl); symmetry; exact B].
Qed.
Lemma old_64 l x : in_range x -> (l <= 4)%nat -> exists p s, penetrationShift64 (Z.of_nat l) x = Ok (p, s) /\
  (is_finite p = true /\ Rabs (B2R p - P_spec l (B2R x)) <= 41 * bpow radix2 (-53) * P_spec l (B2R x)) /\
  (is_finite s = true /\ Rabs (B2R s - S_spec l (B2R x)) <= 41 * bpow radix2 (-53) * - S_spec l (B2R x)).
Proof.
  intros Hx Hl. pose proof (range_near x Hx) as N. pose proof (range_pos x Hx) as P. set (r := B2R x) in *.
  unfold penetrationShift64. rewrite (positive_one x Hx).
  assert (E : exists p s, penetrationShift (Z.of_nat l) r = Ok (p, s)).
  { destruct l as [|[|[|[|[|l]]]]]; try lia; (eexists; eexists; reflexivity). }
  destruct E as (p & s & E). destruct (exact_old l r p s P Hl E) as [E1 E2]. rewrite E1, E2. unfold penetrationShift in E. destruct (Rlt_dec 0 r) as [_|?]; [|contradiction].
  destruct l as [|[|[|[|[|l]]]]]; try lia; cbn [Z.of_nat Pos.of_succ_nat Pos.succ Z.eqb Pos.eqb] in E |- *; injection E as Ep Es; (eexists; eexists; split; [reflexivity|]).
  { split; [eapply error_of; [near_step | exact Ep | cbn; lia]|]. subst s. split.
    - reflexivity.
    - replace (B2R (- # 0 / # 1)%D) with 0 by reflexivity. replace (0 - - 0 / 1) with 0 by field. rewrite Rabs_R0. lra. }
  all: split; [eapply error_of; [near_step | exact Ep | cbn; lia]|].
  all: eapply error_opp; [near_step | | cbn; lia].
  all: subst s; match goal with |- ?a / ?d = _ => generalize d; intro; unfold Rdiv; ring end.
Qed.
(** The two interfaces against each other *)
Lemma apart a b s : 0 <= s -> Rabs (a - s) <= 41 * bpow radix2 (-53) * s -> Rabs (b - s) <= 41 * bpow radix2 (-53) * s -> Rabs (a - b) <= 82 * bpow radix2 (-53) * s.
Proof. intros H A B. apply Rabs_le_inv in A, B. apply Rabs_le. lra. Qed.
Lemma P_nonneg l r : 0 < r -> (l <= 4)%nat -> 0 <= P_spec l r.
Proof. intros Hr Hl. rewrite P_spec_den by assumption. pose proof (den_pos l r Hr). left. apply Rdiv_lt_0_compat; [|assumption]. apply Rmult_lt_0_compat; [assumption | apply pow_lt; assumption]. Qed.
Lemma S_nonpos l r : 0 < r -> (l <= 4)%nat -> 0 <= - S_spec l r.
Proof.
  intros Hr Hl. rewrite S_spec_den by assumption. pose proof (den_pos l r Hr).
  assert (0 <= num_shift l r). { assert (0 < r ^ 2) by (apply pow_lt; lra). assert (0 < r ^ 4) by (apply pow_lt; lra). assert (0 < r ^ 6) by (apply pow_lt; lra). destruct l as [|[|[|[|l]]]]; cbn [num_shift]; lra. }
  replace (- (- num_shift l r / den l r)) with (num_shift l r / den l r) by (field; lra). apply Rmult_le_pos; [assumption|]. left. apply Rinv_0_lt_compat. assumption.
Qed.
Lemma interfaces_64 l x : in_range x -> (l <= 4)%nat -> exists p s p' s',
  penetrability64 l x = Ok p /\ shift64 l x = Ok s /\ penetrationShift64 (Z.of_nat l) x = Ok (p', s') /\
  Rabs (B2R p - B2R p') <= 82 * bpow radix2 (-53) * P_spec l (B2R x) /\ Rabs (B2R s - B2R s') <= 82 * bpow radix2 (-53) * - S_spec l (B2R x).
Proof.
  intros Hx Hl. pose proof (range_pos x Hx) as Px. destruct (P_64 l x Hx Hl) as (p & E1 & _ & B1), (S_64 l x Hx Hl) as (s & E2 & _ & B2), (old_64 l x Hx Hl) as (p' & s' & E3 & [_ B3] & [_ B4]).
  exists p, s, p', s'. repeat (split; [assumption|]). split; [apply apart; [apply P_nonneg; assumption | assumption | assumption]|].
  replace (B2R s - B2R s') with (- B2R s' - - B2R s) by ring. apply apart; [apply S_nonpos; assumption| |].
  - replace (- B2R s' - - S_spec l (B2R x)) with (- (B2R s' - S_spec l (B2R x))) by ring. rewrite Rabs_Ropp. exact B4.
  - replace (- B2R s - - S_spec l (B2R x)) with (- (B2R s - S_spec l (B2R x))) by ring. rewrite Rabs_Ropp. exact B2.
Qed.

(** * Outside the range *)
Definition power2 (k : Z) : double := binary_normalize 53 1024 eq_refl eq_refl mode_NE 1 k false.
Lemma overflow_case : exists x p, is_finite x = true /\ 0 < B2R x /\ penetrability64 4 x = Ok p /\ is_finite p = false.
Proof.
  exists (power2 120). eexists. split; [vm_compute; reflexivity|]. split; [|split; [reflexivity | vm_compute; reflexivity]].
  assert (E : power2 120 = @B754_finite 53 1024 false 4503599627370496 68 eq_refl) by (apply B2SF_inj; vm_compute; reflexivity). rewrite E.
  apply F2R_gt_0. reflexivity.
Qed.
Lemma nan_case : exists x p, is_finite x = true /\ 0 < B2R x /\ penetrability64 4 x = Ok p /\ is_nan p = true.
Proof.
  exists (power2 130). eexists. split; [vm_compute; reflexivity|]. split; [|split; [reflexivity | vm_compute; reflexivity]].
  assert (E : power2 130 = @B754_finite 53 1024 false 4503599627370496 78 eq_refl) by (apply B2SF_inj; vm_compute; reflexivity). rewrite E.
  apply F2R_gt_0. reflexivity.
Qed.
Lemma range_case : in_range (double_of 1).
Proof.
  destruct one_holds as [F V]. split; [exact F|]. rewrite V. change (bpow radix2 (-50)) with (/ 1125899906842624). change (bpow radix2 50) with 1125899906842624. change (IZR 2) with 2. lra.
Qed.
