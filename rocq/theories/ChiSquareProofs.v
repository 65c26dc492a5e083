(** The chi-square distribution: its integrals exist, its mean is one, and the differential
    equation of the mean of s / (y + s). *)
From Coq Require Import Reals Lra Lia.
From Coquelicot Require Import Coquelicot.
From Verif Require Import FluctuationSpec ImproperProofs.
Open Scope R_scope.

Lemma power_positive y a : 0 < Rpower y a.
Proof. apply exp_pos. Qed.
Lemma power_le y a k : 0 < y -> 0 <= a <= INR k -> Rpower y a <= (1 + y) ^ k.
Proof.
  intros Hy Ha. rewrite <- Rpower_pow by lra. apply Rle_trans with (Rpower (1 + y) a).
  - apply Rle_Rpower_l; [lra|]. lra.
  - apply Rle_Rpower; lra.
Qed.
Lemma exp_le x y : x <= y -> exp x <= exp y.
Proof. intros [H | ->]; [left; apply exp_increasing; exact H | right; reflexivity]. Qed.
Lemma exp_pow_nat x k : exp x ^ k = exp (INR k * x).
Proof.
  induction k as [|k IH]; [cbn; rewrite Rmult_0_l, exp_0; reflexivity|]. rewrite S_INR. cbn [pow].
  rewrite IH, <- exp_plus. f_equal. ring.
Qed.
Lemma poly_exp k : exists K, 0 < K /\ forall y, 0 <= y -> (1 + y) ^ k * exp (- (y / 2)) <= K.
Proof.
  set (m := 2 * INR (S k)). assert (Hm : 2 <= m). { unfold m. rewrite S_INR. pose proof (pos_INR k). lra. }
  exists (m ^ k). split; [apply pow_lt; lra|]. intros y Hy.
  assert (H : (1 + y) <= m * exp (y / m)).
  { apply Rle_trans with (m * (1 + y / m)); [replace (m * (1 + y / m)) with (m + y) by (field; lra); lra|].
    apply Rmult_le_compat_l; [lra|]. destruct (Req_dec (y / m) 0) as [E | E]; [rewrite E, exp_0; lra|]. left. apply exp_ineq1. exact E. }
  assert (H2 : (1 + y) ^ k <= m ^ k * exp (y / 2)).
  { apply Rle_trans with ((m * exp (y / m)) ^ k); [apply pow_incr; lra|]. rewrite Rpow_mult_distr. apply Rmult_le_compat_l; [left; apply pow_lt; lra|].
    rewrite exp_pow_nat. apply exp_le. unfold m. rewrite S_INR. pose proof (pos_INR k).
    apply Rmult_le_reg_r with (2 * (INR k + 1)); [lra|]. replace (INR k * (y / (2 * (INR k + 1))) * (2 * (INR k + 1))) with (INR k * y) by (field; lra). nra. }
  apply Rmult_le_reg_r with (exp (y / 2)); [apply exp_pos|]. rewrite Rmult_assoc, <- exp_plus. replace (- (y / 2) + y / 2) with 0 by ring. rewrite exp_0. lra.
Qed.

(** What dominates all integrands *)
Definition rise (y : R) : R := sqrt y / (1 + sqrt y).
Definition slope (y : R) : R := / (2 * sqrt y * (1 + sqrt y) ^ 2).
Lemma rise_derive y : 0 < y -> is_derive rise y (slope y).
Proof.
  intros Hy. pose proof (sqrt_lt_R0 y Hy) as P. unfold rise, slope. auto_derive; [repeat split; lra|]. field. lra.
Qed.
Lemma slope_continuous y : 0 < y -> continuous slope y.
Proof.
  intros Hy. pose proof (sqrt_lt_R0 y Hy) as P. apply (ex_derive_continuous slope). unfold slope. auto_derive.
  assert (0 < 2 * sqrt y * ((1 + sqrt y) * ((1 + sqrt y) * 1))); [repeat apply Rmult_lt_0_compat; lra|]. repeat split; lra.
Qed.
Lemma slope_integral u v : 0 < u -> u <= v -> RInt slope u v <= 1.
Proof.
  intros Hu Hv. assert (E : is_RInt slope u v (rise v - rise u)).
  { apply (is_RInt_derive rise slope); intros x Hx; rewrite Rmin_left in Hx by lra; [apply rise_derive | apply slope_continuous]; lra. }
  rewrite (is_RInt_unique _ _ _ _ E). assert (A : forall y, 0 < y -> 0 <= rise y <= 1).
  { intros y Hy. pose proof (sqrt_lt_R0 y Hy) as P. unfold rise. split; [apply Rmult_le_pos; [lra | left; apply Rinv_0_lt_compat; lra]|].
    apply Rmult_le_reg_r with (1 + sqrt y); [lra|]. replace (sqrt y / (1 + sqrt y) * (1 + sqrt y)) with (sqrt y) by (field; lra). lra. }
  pose proof (A u Hu). pose proof (A v ltac:(lra)). lra.
Qed.

(** What has a mean *)
Definition admissible (f : R -> R) : Prop :=
  (forall y, 0 < y -> continuous f y) /\ exists M, 0 <= M /\ forall y, 0 < y -> 0 <= f y <= M * (1 + y).

Section Distribution.
Variable n : nat.
Hypothesis Hn : (1 <= n)%nat.
Let b := INR n / 2.
Let q := chi2 n.
Lemma half : 1 / 2 <= b.
Proof. unfold b. pose proof (le_INR 1 n Hn). cbn in H. lra. Qed.
Lemma q_positive y : 0 < q y.
Proof. unfold q, chi2. apply Rmult_lt_0_compat; apply exp_pos. Qed.
Lemma q_continuous y : 0 < y -> continuous q y.
Proof. intros Hy. apply (ex_derive_continuous q). unfold q, chi2, Rpower. auto_derive. lra. Qed.
Lemma q_bound : exists K, 0 < K /\ forall y, 0 < y -> (1 + y) ^ 2 * (sqrt y * q y) <= K.
Proof.
  destruct (poly_exp (n + 2)) as (K & HK & B). exists K. split; [exact HK|]. intros y Hy. apply Rle_trans with (2 := B y ltac:(lra)).
  pose proof half as Hb. assert (E : sqrt y * q y = Rpower y (b - 1 / 2) * exp (- (b * y))).
  { unfold q, chi2. fold b. rewrite <- Rpower_sqrt by exact Hy. rewrite <- Rmult_assoc, <- Rpower_plus. f_equal. f_equal. lra. }
  rewrite E. replace ((1 + y) ^ (n + 2)) with ((1 + y) ^ 2 * (1 + y) ^ n) by (rewrite <- pow_add; f_equal; lia). rewrite Rmult_assoc.
  apply Rmult_le_compat_l; [apply pow_le; lra|]. apply Rmult_le_compat; [left; apply exp_pos | left; apply exp_pos | |].
  - apply power_le; [exact Hy|]. split; [lra|]. unfold b. pose proof (le_INR 1 n Hn). cbn in H. lra.
  - apply exp_le. nra.
Qed.
Lemma integrable f : admissible f -> exists A, integral (fun y => f y * q y) A /\ (forall u v, 0 < u -> u <= v -> RInt (fun y => f y * q y) u v <= A).
Proof.
  intros (C & M & HM & B). destruct q_bound as (K & HK & Q).
  assert (D : forall y, 0 < y -> 0 <= f y * q y <= (4 * M * K) * slope y).
  { intros y Hy. specialize (B y Hy). pose proof (q_positive y) as Pq. split; [apply Rmult_le_pos; lra|].
    pose proof (sqrt_lt_R0 y Hy) as P. specialize (Q y Hy). unfold slope. set (r := sqrt y) in *.
    assert (E : r * r = y) by (apply sqrt_def; lra).
    apply Rle_trans with (M * (1 + y) * q y); [apply Rmult_le_compat_r; lra|].
    apply Rmult_le_reg_r with (2 * r * (1 + r) ^ 2); [repeat apply Rmult_lt_0_compat; lra|].
    rewrite (Rmult_assoc (4 * M * K)), Rinv_l by (apply Rgt_not_eq; repeat apply Rmult_lt_0_compat; lra). rewrite Rmult_1_r.
    assert (S : (1 + r) ^ 2 <= 2 * (1 + y)) by (pose proof (Rle_0_sqr (1 - r)); unfold Rsqr in *; nra).
    replace (M * (1 + y) * q y * (2 * r * (1 + r) ^ 2)) with ((2 * M) * ((1 + y) * (1 + r) ^ 2 * (r * q y))) by ring.
    replace (4 * M * K) with (2 * M * (2 * K)) by ring. apply Rmult_le_compat_l; [lra|].
    apply Rle_trans with ((1 + y) * (2 * (1 + y)) * (r * q y)).
    - apply Rmult_le_compat_r; [apply Rmult_le_pos; lra|]. apply Rmult_le_compat_l; lra.
    - nra. }
  apply (integral_dominated _ (fun y => (4 * M * K) * slope y) (4 * M * K)).
  - intros y Hy. apply (continuous_mult f q); [apply C, Hy | apply q_continuous, Hy].
  - intros y Hy. apply (continuous_scal_r (4 * M * K) slope), slope_continuous, Hy.
  - exact D.
  - intros u v Hu Hv. assert (E : RInt (fun y => 4 * M * K * slope y) u v = 4 * M * K * RInt slope u v).
    { apply (RInt_scal slope u v (4 * M * K)). apply (ex_RInt_continuous slope). intros z Hz. rewrite Rmin_left in Hz by lra. apply slope_continuous. lra. }
    apply Rle_trans with (4 * M * K * RInt slope u v); [right; exact E|]. rewrite <- (Rmult_1_r (4 * M * K)) at 2. apply Rmult_le_compat_l; [|apply slope_integral; assumption]. apply Rmult_le_pos; lra.
Qed.
Lemma admissible_const c : 0 <= c -> admissible (fun _ => c).
Proof. intros Hc. split; [intros; apply continuous_const|]. exists c. split; [exact Hc|]. intros y Hy. nra. Qed.
Lemma admissible_id : admissible (fun y => y).
Proof. split; [intros; apply continuous_id|]. exists 1. split; [lra|]. intros y Hy. lra. Qed.
Lemma norm_exists : exists N, integral q N /\ 0 < N.
Proof.
  destruct (integrable (fun _ => 1) (admissible_const 1 ltac:(lra))) as (N & HN & L). exists N.
  assert (HN' : integral q N) by (apply (integral_ext _ q N) in HN; [exact HN | intros; apply Rmult_1_l]). split; [exact HN'|].
  apply Rlt_le_trans with (2 := L 1 2 ltac:(lra) ltac:(lra)). apply RInt_gt_0; [lra | intros; rewrite Rmult_1_l; apply q_positive|].
  intros x Hx. apply (continuous_scal_r 1 q), q_continuous. lra.
Qed.

(** ** Means *)
Lemma mean_unique f v w : mean n f v -> mean n f w -> v = w.
Proof.
  intros (N & A & H1 & P & H2 & E) (N' & A' & H1' & P' & H2' & E'). rewrite (integral_unique _ _ _ H1' H1) in *. rewrite (integral_unique _ _ _ H2' H2) in *.
  apply Rmult_eq_reg_r with N; lra.
Qed.
Lemma mean_exists f : admissible f -> exists v, mean n f v.
Proof.
  intros H. destruct norm_exists as (N & HN & P). destruct (integrable f H) as (A & HA & _). exists (A / N), N, A. repeat split; try assumption. field. lra.
Qed.
Lemma mean_ext f g v : (forall y, 0 < y -> f y = g y) -> mean n f v -> mean n g v.
Proof.
  intros H (N & A & H1 & P & H2 & E). exists N, A. repeat split; try assumption. apply (integral_ext (fun y => f y * chi2 n y)); [|exact H2].
  intros y Hy. rewrite H by exact Hy. reflexivity.
Qed.
Lemma mean_plus f g v w : mean n f v -> mean n g w -> mean n (fun y => f y + g y) (v + w).
Proof.
  intros (N & A & H1 & P & H2 & E) (N' & A' & H1' & _ & H2' & E'). rewrite (integral_unique _ _ _ H1' H1) in *.
  exists N, (A + A'). repeat split; try assumption; [|lra]. apply (integral_ext (fun y => f y * chi2 n y + g y * chi2 n y)); [intros; ring|]. apply integral_plus; assumption.
Qed.
Lemma mean_scal c f v : mean n f v -> mean n (fun y => c * f y) (c * v).
Proof.
  intros (N & A & H1 & P & H2 & E). exists N, (c * A). repeat split; try assumption; [|rewrite <- E; ring].
  apply (integral_ext (fun y => c * (f y * chi2 n y))); [intros; ring|]. apply integral_scal; assumption.
Qed.
Lemma mean_const c : mean n (fun _ => c) c.
Proof.
  destruct norm_exists as (N & HN & P). exists N, (c * N). repeat split; try assumption. apply integral_scal. exact HN.
Qed.
Lemma mean_le f g v w : (forall y, 0 < y -> f y <= g y) -> mean n f v -> mean n g w -> v <= w.
Proof.
  intros H (N & A & H1 & P & H2 & E) (N' & A' & H1' & _ & H2' & E'). rewrite (integral_unique _ _ _ H1' H1) in *.
  assert (A <= A'). { apply (integral_le (fun y => f y * chi2 n y) (fun y => g y * chi2 n y)); [|assumption..]. intros y Hy. apply Rmult_le_compat_r; [left; apply q_positive | apply H, Hy]. }
  apply Rmult_le_reg_r with N; lra.
Qed.
(** ** Integration by parts *)
Let p (y : R) := y * q y.
Lemma p_form y : 0 < y -> p y = Rpower y b * exp (- (b * y)).
Proof.
  intros Hy. unfold p, q, chi2. fold b. rewrite <- Rmult_assoc. f_equal. rewrite <- (Rpower_1 y Hy) at 1. rewrite <- Rpower_plus. f_equal. lra.
Qed.
Lemma p_derive y : 0 < y -> is_derive p y (b * (1 - y) * q y).
Proof.
  intros Hy. apply (is_derive_ext_loc (fun y => Rpower y b * exp (- (b * y)))).
  - exists (mkposreal y Hy). intros z Hz. symmetry. apply p_form. apply ball_sub, Rabs_def2 in Hz. cbn in Hz. lra.
  - unfold Rpower. auto_derive; [lra|]. replace (exp (b * ln y)) with (Rpower y b) by reflexivity.
    pose proof (p_form y Hy) as E. replace (b * (1 - y) * q y) with (b * (1 - y) * (p y / y)) by (unfold p; field; lra). rewrite E. field. lra.
Qed.
Lemma p_bounds : exists K, 0 < K /\ forall y, 0 < y -> 0 <= p y /\ p y <= K * sqrt y /\ p y * (1 + y) <= K.
Proof.
  destruct q_bound as (K & HK & Q). exists K. split; [exact HK|]. intros y Hy. pose proof (q_positive y). pose proof (sqrt_lt_R0 y Hy) as P. specialize (Q y Hy). unfold p.
  assert (E : sqrt y * sqrt y = y) by (apply sqrt_def; lra). set (r := sqrt y) in *. assert (0 <= r * q y) by (apply Rmult_le_pos; lra).
  split; [apply Rmult_le_pos; lra|]. split.
  - rewrite <- E at 1. rewrite Rmult_assoc, (Rmult_comm K). apply Rmult_le_compat_l; [lra|]. nra.
  - rewrite <- E at 1. apply Rle_trans with (2 := Q). replace (r * r * q y * (1 + y)) with ((1 + y) * r * (r * q y)) by ring. apply Rmult_le_compat_r; [assumption|].
    replace ((1 + y) ^ 2) with ((1 + y) * (1 + y)) by ring. apply Rmult_le_compat_l; [lra|]. nra.
Qed.
(** Boundary terms vanish *)
Lemma boundary g c : 0 <= c -> (forall y, 0 < y -> 0 <= g y <= c) ->
  filterlim (fun y => p y * g y) (at_right 0) (locally 0) /\ filterlim (fun y => p y * g y) (Rbar_locally p_infty) (locally 0).
Proof.
  intros Hc Hg. destruct p_bounds as (K & HK & B).
  assert (D : forall y, 0 < y -> 0 <= p y * g y <= p y * c). { intros y Hy. specialize (B y Hy). specialize (Hg y Hy). split; [apply Rmult_le_pos | apply Rmult_le_compat_l]; lra. }
  split; intros Q (e & He); pose proof (cond_pos e) as Pe.
  - set (d := e / (K * (c + 1))). assert (Hd : 0 < d). { unfold d. apply Rdiv_lt_0_compat; [exact Pe | apply Rmult_lt_0_compat; lra]. }
    apply (at_right_below (d * d)); [apply Rmult_lt_0_compat; exact Hd|]. intros u (Hu & Hu'). apply He, ball_sub. specialize (D u Hu). destruct (B u Hu) as (B1 & B2 & _).
    rewrite Rminus_0_r, Rabs_right by lra. apply Rle_lt_trans with (1 := proj2 D).
    assert (S : sqrt u < d). { rewrite <- (sqrt_square d) by lra. apply sqrt_lt_1; lra. }
    apply Rle_lt_trans with (K * sqrt u * (c + 1)); [apply Rmult_le_compat; lra|].
    replace (pos e) with (K * d * (c + 1)) by (unfold d; field; split; lra). apply Rmult_lt_compat_r; [lra|]. apply Rmult_lt_compat_l; lra.
  - exists (K * (c + 1) / e). intros u Hu. assert (H0 : 0 < K * (c + 1) / e) by (apply Rdiv_lt_0_compat; [apply Rmult_lt_0_compat; lra | exact Pe]).
    assert (Hu0 : 0 < u) by lra. apply He, ball_sub. specialize (D u Hu0). destruct (B u Hu0) as (B1 & _ & B3).
    rewrite Rminus_0_r, Rabs_right by lra. apply Rle_lt_trans with (1 := proj2 D).
    assert (K * (c + 1) < e * u). { apply (Rmult_lt_compat_l e) in Hu; [|exact Pe]. replace (e * (K * (c + 1) / e)) with (K * (c + 1)) in Hu by (field; lra). exact Hu. }
    apply Rmult_lt_reg_r with (1 + u); [lra|]. apply Rle_lt_trans with (K * (c + 1)); [|nra]. replace (p u * c * (1 + u)) with (p u * (1 + u) * c) by ring.
    apply Rle_trans with (K * c); [apply Rmult_le_compat_r; lra | nra].
Qed.
Lemma by_parts g g' c : 0 <= c -> (forall y, 0 < y -> 0 <= g y <= c) -> (forall y, 0 < y -> is_derive g y (g' y)) -> (forall y, 0 < y -> continuous g' y) ->
  integral (fun y => (b * (1 - y) * g y + y * g' y) * q y) 0.
Proof.
  intros Hc Hg D C. destruct (boundary g c Hc Hg) as (L1 & L2). apply (integral_derive (fun y => p y * g y)); [| |exact L1 | exact L2].
  - intros y Hy. replace ((b * (1 - y) * g y + y * g' y) * q y) with (plus (mult (b * (1 - y) * q y) (g y)) (mult (p y) (g' y))) by (unfold p, plus, mult; cbn; ring).
    apply (is_derive_mult p g); [apply p_derive, Hy | apply D, Hy | intros; apply Rmult_comm].
  - intros y Hy. apply (continuous_mult (fun y => b * (1 - y) * g y + y * g' y) q); [|apply q_continuous, Hy].
    apply (continuous_plus (fun y => b * (1 - y) * g y) (fun y => y * g' y)).
    + apply (continuous_mult (fun y => b * (1 - y)) g); [|apply (ex_derive_continuous g); exists (g' y); apply D, Hy].
      apply (ex_derive_continuous (fun y => b * (1 - y))). auto_derive. exact I.
    + apply (continuous_mult (fun y => y) g'); [apply continuous_id | apply C, Hy].
Qed.
Lemma mean_zero f : integral (fun y => f y * q y) 0 -> mean n f 0.
Proof. intros H. destruct norm_exists as (N & HN & P). exists N, 0. repeat split; try assumption. ring. Qed.
Lemma mean_id : mean n (fun y => y) 1.
Proof.
  pose proof half as Hb. assert (Z : mean n (fun y => b * (1 - y) * 1 + y * 0) 0).
  { apply mean_zero, (by_parts (fun _ => 1) (fun _ => 0) 1); [lra | intros; lra | intros; apply (is_derive_const 1) | intros; apply continuous_const]. }
  destruct (mean_exists _ admissible_id) as (v & Hv).
  assert (Z' : mean n (fun y => b * (1 - y) * 1 + y * 0) (b + - b * v)).
  { apply (mean_ext (fun y => b + - b * y)); [intros; ring|]. apply mean_plus; [apply mean_const | apply mean_scal; exact Hv]. }
  pose proof (mean_unique _ _ _ Z Z') as E. replace 1 with v; [exact Hv|]. apply Rmult_eq_reg_l with b; lra.
Qed.
(** ** The mean of s / (y + s) *)
Lemma ratio_admissible s : 0 < s -> admissible (fun y => s / (y + s)).
Proof.
  intros Hs. split.
  - intros y Hy. apply (ex_derive_continuous (fun y => s / (y + s))). auto_derive. lra.
  - exists 1. split; [lra|]. intros y Hy. assert (0 < y + s) by lra. split; [apply Rmult_le_pos; [lra | left; apply Rinv_0_lt_compat; lra]|].
    apply Rmult_le_reg_r with (y + s); [lra|]. replace (s / (y + s) * (y + s)) with s by (field; lra). nra.
Qed.
Lemma square_admissible s : 0 < s -> admissible (fun y => y / (y + s) ^ 2).
Proof.
  intros Hs. split.
  - intros y Hy. apply (ex_derive_continuous (fun y => y / (y + s) ^ 2)). auto_derive. apply Rgt_not_eq. repeat apply Rmult_lt_0_compat; lra.
  - exists (/ (s * s)). assert (0 < s * s) by (apply Rmult_lt_0_compat; exact Hs). split; [left; apply Rinv_0_lt_compat; assumption|]. intros y Hy. assert (0 < (y + s) ^ 2) by (apply pow_lt; lra). split.
    + apply Rmult_le_pos; [lra | left; apply Rinv_0_lt_compat; assumption].
    + rewrite Rmult_comm. apply Rmult_le_compat; [lra | left; apply Rinv_0_lt_compat; assumption | lra|]. apply Rinv_le_contravar; [assumption|]. nra.
Qed.
Section Function.
Variables F F' : R -> R.
Hypothesis HF : forall s, 0 < s -> mean n (fun y => s / (y + s)) (F s).
Hypothesis HF' : forall s, 0 < s -> mean n (fun y => y / (y + s) ^ 2) (F' s).
Lemma F_equation s : 0 < s -> s * F' s = (b + b * s) * F s - b * s.
Proof.
  intros Hs. assert (Z : mean n (fun y => b * (1 - y) * (/ (y + s)) + y * (- / (y + s) ^ 2)) 0).
  { apply mean_zero, (by_parts (fun y => / (y + s)) (fun y => - / (y + s) ^ 2) (/ s)).
    - left. apply Rinv_0_lt_compat, Hs.
    - intros y Hy. split; [left; apply Rinv_0_lt_compat; lra | apply Rinv_le_contravar; lra].
    - intros y Hy. auto_derive; [lra|]. field. lra.
    - intros y Hy. apply (ex_derive_continuous (fun y => - / (y + s) ^ 2)). auto_derive. apply Rgt_not_eq. repeat apply Rmult_lt_0_compat; lra. }
  assert (Z' : mean n (fun y => b * (1 - y) * (/ (y + s)) + y * (- / (y + s) ^ 2)) (((b + b * s) / s) * F s + - b + -1 * F' s)).
  { apply (mean_ext (fun y => ((b + b * s) / s) * (s / (y + s)) + - b + -1 * (y / (y + s) ^ 2))).
    - intros y Hy. field. split; lra.
    - apply mean_plus; [apply mean_plus; [apply mean_scal, HF, Hs | apply mean_const] | apply mean_scal, HF', Hs]. }
  pose proof (mean_unique _ _ _ Z Z') as E. replace (F' s) with (((b + b * s) / s) * F s + - b) by lra. field. lra.
Qed.
Lemma F_derive s : 0 < s -> is_derive F s (F' s).
Proof.
  intros Hs. apply is_derive_Reals. intros e He. assert (Hd : 0 < Rmin (s / 2) (e * (s * s) / 2)).
  { apply Rmin_glb_lt; [lra|]. apply Rmult_lt_0_compat; [|lra]. repeat apply Rmult_lt_0_compat; lra. }
  exists (mkposreal _ Hd). intros h Hh Hlt. cbn in Hlt. pose proof (Rmin_l (s / 2) (e * (s * s) / 2)) as M1. pose proof (Rmin_r (s / 2) (e * (s * s) / 2)) as M2.
  assert (Hs' : s / 2 < s + h). { assert (Rabs h < s / 2) by lra. apply Rabs_def2 in H. lra. }
  assert (D : mean n (fun y => (s + h) / (y + (s + h)) + -1 * (s / (y + s)) + (- h) * (y / (y + s) ^ 2)) (F (s + h) + -1 * F s + - h * F' s)).
  { apply mean_plus; [apply mean_plus; [apply HF; lra | apply mean_scal, HF, Hs] | apply mean_scal, HF', Hs]. }
  assert (B : forall y, 0 < y -> Rabs ((s + h) / (y + (s + h)) + -1 * (s / (y + s)) + (- h) * (y / (y + s) ^ 2)) <= h * h * (2 / (s * s))).
  { intros y Hy. replace ((s + h) / (y + (s + h)) + -1 * (s / (y + s)) + (- h) * (y / (y + s) ^ 2)) with (- (h * h * ((y / (y + s)) * (/ ((y + s) * (y + (s + h))))))).
    2:{ field. split; lra. }
    assert (P0 : 0 < (y + s) * (y + (s + h))) by (apply Rmult_lt_0_compat; lra).
    assert (P1 : 0 <= y / (y + s) <= 1). { split; [apply Rmult_le_pos; [lra | left; apply Rinv_0_lt_compat; lra]|]. apply Rmult_le_reg_r with (y + s); [lra|]. replace (y / (y + s) * (y + s)) with y by (field; lra). lra. }
    assert (P2 : 0 <= / ((y + s) * (y + (s + h))) <= 2 / (s * s)).
    { split; [left; apply Rinv_0_lt_compat; exact P0|]. replace (2 / (s * s)) with (/ (s * (s / 2))) by (field; lra). apply Rinv_le_contravar; [apply Rmult_lt_0_compat; lra|]. apply Rmult_le_compat; lra. }
    rewrite Rabs_Ropp, Rabs_right; [|apply Rle_ge; apply Rmult_le_pos; [nra | apply Rmult_le_pos; lra]].
    apply Rmult_le_compat_l; [nra|]. rewrite <- (Rmult_1_l (2 / (s * s))). apply Rmult_le_compat; lra. }
  assert (B1 : F (s + h) + -1 * F s + - h * F' s <= h * h * (2 / (s * s))).
  { apply (mean_le _ _ _ _ (fun y Hy => Rle_trans _ _ _ (Rle_abs _) (B y Hy)) D (mean_const _)). }
  assert (B2 : - (h * h * (2 / (s * s))) <= F (s + h) + -1 * F s + - h * F' s).
  { refine (mean_le _ _ _ _ _ (mean_const _) D). intros y Hy. specialize (B y Hy). apply Rabs_le_between in B. lra. }
  replace ((F (s + h) - F s) / h - F' s) with ((F (s + h) + -1 * F s + - h * F' s) / h) by (field; exact Hh).
  unfold Rdiv. rewrite Rabs_mult, Rabs_inv. pose proof (Rabs_pos_lt h Hh) as Ph. apply Rmult_lt_reg_r with (Rabs h); [exact Ph|]. rewrite Rmult_assoc, Rinv_l, Rmult_1_r by lra.
  apply Rle_lt_trans with (h * h * (2 / (s * s))); [apply Rabs_le; lra|].
  replace (h * h) with (Rabs h * Rabs h) by (rewrite <- Rabs_mult; apply Rabs_right; nra). rewrite Rmult_assoc, (Rmult_comm e). apply Rmult_lt_compat_l; [exact Ph|].
  assert (Ps : 0 < s * s) by (apply Rmult_lt_0_compat; exact Hs). apply Rmult_lt_reg_r with (s * s); [exact Ps|]. replace (Rabs h * (2 / (s * s)) * (s * s)) with (2 * Rabs h) by (field; lra). lra.
Qed.
Lemma F_bounds s : 0 < s -> 0 <= F s <= 1.
Proof.
  intros Hs. assert (A : forall y, 0 < y -> 0 <= s / (y + s) <= 1).
  { intros y Hy. split; [apply Rmult_le_pos; [lra | left; apply Rinv_0_lt_compat; lra]|]. apply Rmult_le_reg_r with (y + s); [lra|]. replace (s / (y + s) * (y + s)) with s by (field; lra). lra. }
  split; [apply (mean_le _ _ _ _ (fun y Hy => proj1 (A y Hy)) (mean_const 0) (HF s Hs)) | apply (mean_le _ _ _ _ (fun y Hy => proj2 (A y Hy)) (HF s Hs) (mean_const 1))].
Qed.
(** The mean of y^2 / (y + s) *)
Lemma G_mean s : 0 < s -> mean n (fun y => y * y / (y + s)) (1 - s + s * F s).
Proof.
  intros Hs. apply (mean_ext (fun y => y + - s + s * (s / (y + s)))); [intros y Hy; field; lra|].
  replace (1 - s + s * F s) with (1 + - s + s * F s) by ring. apply mean_plus; [apply mean_plus; [apply mean_id | apply mean_const] | apply mean_scal, HF, Hs].
Qed.
Lemma G_bounds s : 0 < s -> 0 <= 1 - s + s * F s <= 1.
Proof.
  intros Hs. assert (A : forall y, 0 < y -> 0 <= y * y / (y + s) <= y).
  { intros y Hy. split; [apply Rmult_le_pos; [nra | left; apply Rinv_0_lt_compat; lra]|]. apply Rmult_le_reg_r with (y + s); [lra|]. replace (y * y / (y + s) * (y + s)) with (y * y) by (field; lra). nra. }
  split; [apply (mean_le _ _ _ _ (fun y Hy => proj1 (A y Hy)) (mean_const 0) (G_mean s Hs)) | apply (mean_le _ _ _ _ (fun y Hy => proj2 (A y Hy)) (G_mean s Hs) mean_id)].
Qed.
Lemma G_derive s : 0 < s -> is_derive (fun s => 1 - s + s * F s) s (-1 + F s + s * F' s).
Proof.
  intros Hs. pose proof (F_derive s Hs) as D. auto_derive; [exists (F' s); exact D|]. replace (Derive (fun x : R => F x) s) with (F' s) by (symmetry; apply is_derive_unique, D). ring.
Qed.
Lemma G_equation s : 0 < s -> s * (-1 + F s + s * F' s) = (1 + b + b * s) * (1 - s + s * F s) - (1 + b).
Proof. intros Hs. pose proof (F_equation s Hs) as E. replace (s * (-1 + F s + s * F' s)) with (- s + s * F s + s * (s * F' s)) by ring. rewrite E. ring. Qed.
End Function.
End Distribution.

(** ** Comparison of bounded solutions of s X' = (a + b s) X - c(s) *)
Lemma comparison (X X' Y Y' : R -> R) (a b M : R) : 0 <= a -> 0 < b ->
  (forall s, 0 < s -> is_derive X s (X' s)) -> (forall s, 0 < s -> is_derive Y s (Y' s)) -> (forall s, 0 < s -> X s - Y s <= M) ->
  (forall s, 0 < s -> s * (Y' s - X' s) <= (a + b * s) * (Y s - X s)) -> forall s, 0 < s -> X s <= Y s.
Proof.
  intros Ha Hb DX DY HM H s Hs. set (g := fun t => exp (- (b * t) + - (a * ln t))). set (P := fun t => (Y t - X t) * g t).
  assert (Dg : forall t, 0 < t -> is_derive g t (g t * (- b - a / t))). { intros t Ht. unfold g. auto_derive; [exact Ht|]. field. lra. }
  assert (DP : forall t, 0 < t -> is_derive P t (g t / t * (t * (Y' t - X' t) - (a + b * t) * (Y t - X t)))).
  { intros t Ht. replace (g t / t * (t * (Y' t - X' t) - (a + b * t) * (Y t - X t))) with (plus (mult (minus (Y' t) (X' t)) (g t)) (mult (minus (Y t) (X t)) (g t * (- b - a / t)))).
    2:{ unfold plus, mult, minus, opp, plus; cbn. field. lra. }
    apply (is_derive_mult (fun t => Y t - X t) g); [apply (is_derive_minus Y X); [apply DY, Ht | apply DX, Ht] | apply Dg, Ht | intros; apply Rmult_comm]. }
  assert (Pg : forall t, 0 < g t) by (intros; apply exp_pos).
  assert (Mono : forall t, s <= t -> P t <= P s).
  { intros t Ht. destruct (Req_dec s t) as [<- | Ne]; [lra|].
    destruct (MVT_gen P s t (fun t => g t / t * (t * (Y' t - X' t) - (a + b * t) * (Y t - X t)))) as (c & Hc & E).
    - intros x Hx. rewrite Rmin_left in Hx by lra. apply DP. lra.
    - intros x Hx. rewrite Rmin_left in Hx by lra. apply continuity_pt_filterlim. apply (ex_derive_continuous P). eexists. apply DP. lra.
    - rewrite Rmin_left in Hc by lra. assert (0 < c) by lra. specialize (H c H0). assert (0 < g c / c) by (apply Rdiv_lt_0_compat; [apply Pg | lra]).
      cbv beta in E.
      set (A := g c / c) in *. set (B := c * (Y' c - X' c) - (a + b * c) * (Y c - X c)) in *. assert (HB : B <= 0) by (unfold B; lra).
      assert (A * B <= 0) by nra. assert (A * B * (t - s) <= 0) by nra. lra. }
  destruct (Rle_dec (X s) (Y s)) as [|N]; [assumption|]. exfalso. set (d := (X s - Y s) * g s). assert (Hd : 0 < d) by (apply Rmult_lt_0_compat; [lra | apply Pg]).
  (* far enough the difference is larger than M *)
  set (k := d * exp (a * ln s)). assert (Hk : 0 < k) by (apply Rmult_lt_0_compat; [exact Hd | apply exp_pos]).
  set (t := Rmax s ((Rabs M / k + 1) / b)). assert (Ht : s <= t) by apply Rmax_l. assert (Ht2 : (Rabs M / k + 1) / b <= t) by apply Rmax_r.
  pose proof (Mono t Ht) as Q. assert (Q' : d <= (X t - Y t) * g t) by (unfold P, d in *; lra).
  assert (E : g t * exp (b * t + a * ln t) = 1). { unfold g. rewrite <- exp_plus. replace (- (b * t) + - (a * ln t) + (b * t + a * ln t)) with 0 by ring. apply exp_0. }
  assert (B1 : d * exp (b * t + a * ln t) <= X t - Y t).
  { replace (X t - Y t) with ((X t - Y t) * g t * exp (b * t + a * ln t)) by (rewrite Rmult_assoc, E; ring). apply Rmult_le_compat_r; [left; apply exp_pos | exact Q']. }
  assert (B2 : k * (1 + b * t) <= d * exp (b * t + a * ln t)).
  { rewrite Rplus_comm with (r1 := b * t) (r2 := a * ln t), exp_plus. unfold k. rewrite !Rmult_assoc. apply Rmult_le_compat_l; [lra|].
    apply Rmult_le_compat; [left; apply exp_pos | pose proof (Rmult_lt_0_compat b t Hb ltac:(lra)); lra | |].
    - apply exp_le. apply Rmult_le_compat_l; [exact Ha|]. destruct Ht as [L | <-]; [left; apply ln_increasing; lra | lra].
    - left. apply exp_ineq1. apply Rgt_not_eq. apply Rmult_lt_0_compat; lra. }
  assert (B3 : Rabs M < k * (1 + b * t)).
  { apply (Rmult_le_compat_l b) in Ht2; [|lra]. replace (b * ((Rabs M / k + 1) / b)) with (Rabs M / k + 1) in Ht2 by (field; lra).
    apply Rlt_le_trans with (k * (Rabs M / k + 1)); [|apply Rmult_le_compat_l; lra]. replace (k * (Rabs M / k + 1)) with (Rabs M + k) by (field; lra). lra. }
  specialize (HM t ltac:(lra)). pose proof (Rle_abs M). lra.
Qed.
