(** Rounding errors of operations on numbers of any sign, relative to a magnitude. *)
From Coq Require Import String List ZArith Reals Lra Lia Bool Psatz.
From Flocq Require Import Core.Core Plus_error Relative IEEE754.BinarySingleNaN.
From Verif Require Import Outcome DoubleModel DoubleSpec DoubleProofs RoundingModel RoundingProofs FluctuationRoundingProofs.
Import ListNotations.
Open Scope R_scope.

(** The double x is the number r, not larger than m, up to n roundings of numbers like m. *)
Definition close (n : nat) (x : double) (r m : R) : Prop :=
  is_finite x = true /\ Rabs r <= m /\ Rabs (B2R x - r) <= ((1 + u) ^ n - 1) * m.
(** Neither so small nor so large that an operation leaves the range of the doubles *)
Definition sized (m : R) : Prop := m = 0 \/ bpow radix2 (-900) <= m <= bpow radix2 900.

Lemma up_any n : INR n * u <= / 2 -> (1 + u) ^ n <= 1 + 2 * INR n * u.
Proof.
  induction n as [|n IH]; intros L; [cbn; lra|]. rewrite S_INR in *. pose proof u_small as U. pose proof (pos_INR n).
  assert (K : INR n * u <= / 2) by nra. specialize (IH K). cbn [pow].
  apply Rle_trans with ((1 + u) * (1 + 2 * INR n * u)); [apply Rmult_le_compat_l; lra|]. nra.
Qed.
Lemma up_two n : INR n * u <= / 2 -> (1 + u) ^ n <= 2.
Proof. intros H. pose proof (up_any n H). lra. Qed.
Lemma few n : (n <= 100)%nat -> INR n * u <= / 2.
Proof. intros H. apply INR_100 in H. pose proof (pos_INR n). rewrite u_value. lra. Qed.
Lemma down_up n : 1 - (1 - u) ^ n <= (1 + u) ^ n - 1.
Proof.
  pose proof (bernoulli n). assert (1 + INR n * u <= (1 + u) ^ n); [|lra]. pose proof u_small as U. clear H. induction n as [|n IH]; [cbn; lra|].
  rewrite S_INR. cbn [pow]. pose proof (pos_INR n). apply Rle_trans with ((1 + u) * (1 + INR n * u)); [nra | apply Rmult_le_compat_l; lra].
Qed.
Lemma up_incr n k : (n <= k)%nat -> (1 + u) ^ n <= (1 + u) ^ k.
Proof. intros H. apply Rle_pow; [pose proof u_small; lra | exact H]. Qed.

Lemma close_more n k x r m : (n <= k)%nat -> close n x r m -> close k x r m.
Proof.
  intros L (F & M & E). split; [exact F|]. split; [exact M|]. apply Rle_trans with (1 := E). pose proof (up_incr n k L). pose proof (Rabs_pos r).
  apply Rmult_le_compat_r; lra.
Qed.
Lemma close_exact x : is_finite x = true -> close 0 x (B2R x) (Rabs (B2R x)).
Proof. intros F. split; [exact F|]. split; [lra|]. rewrite Rminus_eq_0, Rabs_R0. cbn. lra. Qed.
Lemma about_close n x r : about n x r -> close n x r r.
Proof.
  intros (F & P & V1 & V2). split; [exact F|]. split; [rewrite Rabs_pos_eq; lra|]. pose proof (down_up n). apply Rabs_le. split; nra.
Qed.
Lemma near_close n lo hi x r : near n lo hi x r -> close n x r r.
Proof. intros H. apply about_close, (near_about _ lo hi). exact H. Qed.
Lemma close_size n x r m : close n x r m -> Rabs (B2R x) <= (1 + u) ^ n * m.
Proof.
  intros (_ & M & E). replace (B2R x) with ((B2R x - r) + r) by ring. apply Rle_trans with (1 := Rabs_triang _ _). lra.
Qed.

Lemma rnd_any v : exists e t, Rabs e <= u /\ Rabs t <= bpow radix2 (-1075) /\ rnd v = v * (1 + e) + t.
Proof.
  destruct (error_N_FLT radix2 (3 - 1024 - 53) 53 eq_refl (fun x => negb (Z.even x)) v) as (e & t & He & Ht & _ & E).
  exists e, t. split; [apply Rle_trans with (1 := He); unfold u; cbn; lra|]. split; [|exact E].
  apply Rle_trans with (1 := Ht). replace (/ 2) with (bpow radix2 (-1)) by (cbn; lra). rewrite <- bpow_plus. apply bpow_le. lia.
Qed.
(** One rounding of a number v that is r up to n roundings *)
Lemma rnd_close n v r m : INR n * u <= / 4 -> Rabs r <= m -> Rabs (v - r) <= ((1 + u) ^ n - 1) * m -> sized m ->
  Rabs (rnd v - r) <= ((1 + u) ^ (n + 2) - 1) * m /\ Rabs (rnd v) < bpow radix2 1024.
Proof.
  intros L M E S. pose proof u_small as U. pose proof (up_pow n) as P. assert (L' : INR n * u <= / 2) by lra. pose proof (up_two n L') as P2.
  assert (A : Rabs v <= (1 + u) ^ n * m). { replace v with ((v - r) + r) by ring. apply Rle_trans with (1 := Rabs_triang _ _). lra. }
  assert (B : Rabs (rnd v - v) <= u * (1 + u) ^ n * m + u * m).
  { destruct S as [-> | [S1 S2]].
    - assert (v = 0) as -> by (rewrite Rmult_0_r in A; pose proof (Rabs_pos v); destruct (Req_dec v 0) as [|N]; [assumption | apply Rabs_pos_lt in N; lra]).
      rewrite rnd_0, Rminus_eq_0, Rabs_R0. lra.
    - destruct (rnd_any v) as (e & t & He & Ht & ->). replace (v * (1 + e) + t - v) with (v * e + t) by ring.
      apply Rle_trans with (1 := Rabs_triang _ _). rewrite Rabs_mult. apply Rplus_le_compat.
      + rewrite Rmult_assoc, Rmult_comm. apply Rmult_le_compat; try apply Rabs_pos; assumption.
      + apply Rle_trans with (1 := Ht). apply Rle_trans with (bpow radix2 (-53 + -900)); [apply bpow_le; lia|]. rewrite bpow_plus. fold u. apply Rmult_le_compat_l; lra. }
  assert (M0 : 0 <= m) by (pose proof (Rabs_pos r); lra).
  assert (C : Rabs (rnd v - r) <= ((1 + u) ^ (n + 2) - 1) * m).
  { replace (rnd v - r) with ((rnd v - v) + (v - r)) by ring. apply Rle_trans with (1 := Rabs_triang _ _).
    rewrite pow_add. cbn [pow]. apply Rle_trans with ((u * (1 + u) ^ n + u + ((1 + u) ^ n - 1)) * m); [lra|]. apply Rmult_le_compat_r; [exact M0|]. nra. }
  split; [exact C|]. replace (rnd v) with ((rnd v - r) + r) by ring. apply Rle_lt_trans with (1 := Rabs_triang _ _).
  apply Rle_lt_trans with ((1 + u) ^ (n + 2) * m); [lra|]. rewrite pow_add. cbn [pow].
  assert (m <= bpow radix2 900) by (destruct S as [-> | S]; [apply bpow_ge_0 | lra]).
  apply Rle_lt_trans with (bpow radix2 (3 + 900)); [|apply bpow_lt; lia]. rewrite bpow_plus. apply Rmult_le_compat; try lra; [nra|]. change (bpow radix2 3) with 8. nra.
Qed.
Lemma few4 n : (n <= 100)%nat -> INR n * u <= / 4.
Proof. intros H. apply INR_100 in H. pose proof (pos_INR n). rewrite u_value. lra. Qed.
Lemma close_mult n k x y r s m m' : close n x r m -> close k y s m' -> sized (m * m') -> INR (n + k) * u <= / 4 ->
  close (n + k + 2) (mult x y) (r * s) (m * m').
Proof.
  intros Hx Hy S L. pose proof (close_size _ _ _ _ Hx) as Sx. destruct Hx as (Fx & Mx & Ex), Hy as (Fy & My & Ey). pose proof (up_pow n). pose proof (up_pow k).
  pose proof (Rabs_pos r). pose proof (Rabs_pos s).
  assert (M : Rabs (r * s) <= m * m') by (rewrite Rabs_mult; apply Rmult_le_compat; assumption).
  destruct (rnd_close (n + k) (B2R x * B2R y) (r * s) (m * m')) as [C T]; [exact L | exact M | | exact S |].
  { replace (B2R x * B2R y - r * s) with (B2R x * (B2R y - s) + (B2R x - r) * s) by ring. apply Rle_trans with (1 := Rabs_triang _ _). rewrite !Rabs_mult, pow_add.
    apply Rle_trans with ((1 + u) ^ n * m * (((1 + u) ^ k - 1) * m') + ((1 + u) ^ n - 1) * m * m'); [|right; ring].
    apply Rplus_le_compat; apply Rmult_le_compat; try apply Rabs_pos; assumption. }
  pose proof (Bmult_correct 53 1024 eq_refl eq_refl mode_NE x y) as B. fold fexp64 in B. fold rnd in B. rewrite Rlt_bool_true in B by exact T.
  destruct B as (B1 & B2 & _). unfold mult. split; [rewrite B2, Fx, Fy; reflexivity|]. rewrite B1. split; assumption.
Qed.
Lemma close_div n k lo hi x d r D m : close n x r m -> near k lo hi d D -> sized (m / D) -> (n + 2 * k <= 100)%nat ->
  close (n + 2 * k + 2) (div x d) (r / D) (m / D).
Proof.
  intros Hx Hd S L. pose proof (close_size _ _ _ _ Hx) as Sx. pose proof (near_pos _ _ _ _ _ Hd) as [PD Pd]. destruct Hx as (Fx & Mx & Ex), Hd as (Fd & _ & V).
  pose proof (up_pow n). pose proof (up_pow (2 * k)). pose proof (Rabs_pos r).
  assert (Q : / D * (1 - u) ^ (2 * k) <= / B2R d <= / D * (1 + u) ^ (2 * k)).
  { pose proof (quotient 0 k 1 (B2R d) 1 D ltac:(lra) PD ltac:(lra) Pd ltac:(cbn; lra) V) as Q. unfold Rdiv in Q. rewrite !Rmult_1_l in Q. exact Q. }
  pose proof (down_up (2 * k)) as DU. pose proof (Rinv_0_lt_compat D PD) as ID. pose proof (Rinv_0_lt_compat _ Pd) as Id.
  assert (Q' : Rabs (/ B2R d - / D) <= ((1 + u) ^ (2 * k) - 1) * / D) by (apply Rabs_le; split; nra).
  assert (M : Rabs (r / D) <= m / D) by (unfold Rdiv; rewrite Rabs_mult, (Rabs_pos_eq (/ D)) by lra; apply Rmult_le_compat_r; lra).
  destruct (rnd_close (n + 2 * k) (B2R x / B2R d) (r / D) (m / D)) as [C T]; [apply few4; exact L | exact M | | exact S |].
  { replace (B2R x / B2R d - r / D) with (/ B2R d * (B2R x - r) + (/ B2R d - / D) * r) by (field; lra). apply Rle_trans with (1 := Rabs_triang _ _). rewrite !Rabs_mult, pow_add, (Rabs_pos_eq (/ B2R d)) by lra.
    apply Rle_trans with (/ D * (1 + u) ^ (2 * k) * (((1 + u) ^ n - 1) * m) + ((1 + u) ^ (2 * k) - 1) * / D * m); [|right; unfold Rdiv; ring].
    apply Rplus_le_compat; apply Rmult_le_compat; try apply Rabs_pos; try assumption; lra. }
  pose proof (Bdiv_correct 53 1024 eq_refl eq_refl mode_NE x d ltac:(lra)) as B. fold fexp64 in B. fold rnd in B. rewrite Rlt_bool_true in B by exact T.
  destruct B as (B1 & B2 & _). unfold div. split; [rewrite B2; exact Fx|]. rewrite B1. split; assumption.
Qed.

Lemma rnd_sum (x y : double) : is_finite x = true -> is_finite y = true -> Rabs (rnd (B2R x + B2R y) - (B2R x + B2R y)) <= u * Rabs (B2R x + B2R y).
Proof.
  intros Fx Fy. pose proof u_small as U.
  destruct (@FLT_plus_error_N_ex radix2 (3 - 1024 - 53) 53 eq_refl (fun x => negb (Z.even x)) (B2R x) (B2R y)) as (e & He & Er);
    [apply (generic_format_B2R 53 1024) | apply (generic_format_B2R 53 1024) |].
  assert (Ue : Rabs e <= u). { apply Rle_trans with (1 := He). unfold u_ro. replace (/ 2 * bpow radix2 (- (53) + 1)) with u by (unfold u; cbn; lra).
    apply (Rmult_le_reg_r (1 + u)); [lra|]. replace (u / (1 + u) * (1 + u)) with u by (field; lra). nra. }
  change (round radix2 (FLT_exp (3 - 1024 - 53) 53) (Znearest (fun x0 : Z => negb (Z.even x0))) (B2R x + B2R y)) with (rnd (B2R x + B2R y)) in Er.
  rewrite Er. replace ((B2R x + B2R y) * (1 + e) - (B2R x + B2R y)) with (e * (B2R x + B2R y)) by ring. rewrite Rabs_mult. apply Rmult_le_compat_r; [apply Rabs_pos | exact Ue].
Qed.
Lemma sum_finite (x y : double) : is_finite x = true -> is_finite y = true -> Rabs (B2R x + B2R y) <= bpow radix2 1000 ->
  is_finite (plus x y) = true /\ B2R (plus x y) = rnd (B2R x + B2R y).
Proof.
  intros Fx Fy B. pose proof (rnd_sum x y Fx Fy) as E. pose proof u_small as U.
  assert (T : Rabs (rnd (B2R x + B2R y)) < bpow radix2 1024).
  { replace (rnd (B2R x + B2R y)) with ((rnd (B2R x + B2R y) - (B2R x + B2R y)) + (B2R x + B2R y)) by ring. apply Rle_lt_trans with (1 := Rabs_triang _ _).
    apply Rle_lt_trans with (bpow radix2 (1 + 1000)); [|apply bpow_lt; lia]. rewrite bpow_plus. change (bpow radix2 1) with 2. pose proof (Rabs_pos (B2R x + B2R y)). nra. }
  pose proof (Bplus_correct 53 1024 eq_refl eq_refl mode_NE x y Fx Fy) as C. fold fexp64 in C. fold rnd in C. rewrite Rlt_bool_true in C by exact T.
  destruct C as (C1 & C2 & _). split; assumption.
Qed.
Lemma close_plus n k x y r s m m' : close n x r m -> close k y s m' -> INR (Nat.max n k) * u <= / 2 -> m + m' <= bpow radix2 900 ->
  close (S (Nat.max n k)) (plus x y) (r + s) (m + m').
Proof.
  intros Hx Hy L B. apply (close_more _ (Nat.max n k)) in Hx; [|lia]. apply (close_more _ (Nat.max n k)) in Hy; [|lia]. set (j := Nat.max n k) in *.
  pose proof (close_size _ _ _ _ Hx) as Sx. pose proof (close_size _ _ _ _ Hy) as Sy. destruct Hx as (Fx & Mx & Ex), Hy as (Fy & My & Ey). pose proof (up_pow j) as P. pose proof (up_two j L) as P2.
  pose proof u_small as U. pose proof (Rabs_pos r). pose proof (Rabs_pos s).
  assert (A : Rabs (B2R x + B2R y) <= (1 + u) ^ j * (m + m')) by (apply Rle_trans with (1 := Rabs_triang _ _); lra).
  destruct (sum_finite x y Fx Fy) as [F V].
  { apply Rle_trans with (1 := A). apply Rle_trans with (bpow radix2 (1 + 900)); [|apply bpow_le; lia]. rewrite bpow_plus. apply Rmult_le_compat; try lra. change (bpow radix2 1) with 2. exact P2. }
  split; [exact F|]. split; [apply Rle_trans with (1 := Rabs_triang _ _); lra|]. rewrite V. pose proof (rnd_sum x y Fx Fy) as E.
  replace (rnd (B2R x + B2R y) - (r + s)) with ((rnd (B2R x + B2R y) - (B2R x + B2R y)) + ((B2R x - r) + (B2R y - s))) by ring.
  apply Rle_trans with (1 := Rabs_triang _ _). apply Rle_trans with (u * ((1 + u) ^ j * (m + m')) + (((1 + u) ^ j - 1) * m + ((1 + u) ^ j - 1) * m')).
  - apply Rplus_le_compat; [apply Rle_trans with (1 := E); apply Rmult_le_compat_l; lra|]. apply Rle_trans with (1 := Rabs_triang _ _). lra.
  - right. cbn [pow]. ring.
Qed.
Lemma close_opp n x r m : close n x r m -> close n (opp x) (- r) m.
Proof.
  intros (F & M & E). unfold opp. split; [rewrite is_finite_Bopp; exact F|]. split; [rewrite Rabs_Ropp; exact M|]. rewrite B2R_Bopp.
  replace (- B2R x - - r) with (- (B2R x - r)) by ring. rewrite Rabs_Ropp. exact E.
Qed.
Lemma diff_finite (x y : double) : is_finite x = true -> is_finite y = true -> Rabs (B2R x - B2R y) <= bpow radix2 1000 ->
  is_finite (minus x y) = true /\ B2R (minus x y) = rnd (B2R x - B2R y).
Proof.
  intros Fx Fy B. assert (Fo : is_finite (opp y) = true) by (unfold opp; rewrite is_finite_Bopp; exact Fy).
  assert (Vo : B2R (opp y) = - B2R y) by apply B2R_Bopp.
  pose proof (rnd_sum x (opp y) Fx Fo) as E. rewrite Vo in E. fold (B2R x - B2R y) in E. pose proof u_small as U.
  assert (T : Rabs (rnd (B2R x - B2R y)) < bpow radix2 1024).
  { replace (rnd (B2R x - B2R y)) with ((rnd (B2R x - B2R y) - (B2R x - B2R y)) + (B2R x - B2R y)) by ring. apply Rle_lt_trans with (1 := Rabs_triang _ _).
    apply Rle_lt_trans with (bpow radix2 (1 + 1000)); [|apply bpow_lt; lia]. rewrite bpow_plus. change (bpow radix2 1) with 2. pose proof (Rabs_pos (B2R x - B2R y)). unfold Rminus in *. nra. }
  pose proof (Bminus_correct 53 1024 eq_refl eq_refl mode_NE x y Fx Fy) as C. fold fexp64 in C. fold rnd in C. rewrite Rlt_bool_true in C by exact T.
  destruct C as (C1 & C2 & _). split; assumption.
Qed.
Lemma rnd_diff (x y : double) : is_finite x = true -> is_finite y = true -> Rabs (rnd (B2R x - B2R y) - (B2R x - B2R y)) <= u * Rabs (B2R x - B2R y).
Proof.
  intros Fx Fy. assert (Fo : is_finite (opp y) = true) by (unfold opp; rewrite is_finite_Bopp; exact Fy).
  pose proof (rnd_sum x (opp y) Fx Fo) as E. assert (Vo : B2R (opp y) = - B2R y) by apply B2R_Bopp. rewrite Vo in E. exact E.
Qed.
Lemma close_minus n k x y r s m m' : close n x r m -> close k y s m' -> INR (Nat.max n k) * u <= / 2 -> m + m' <= bpow radix2 900 ->
  close (S (Nat.max n k)) (minus x y) (r - s) (m + m').
Proof.
  intros Hx Hy L B. pose proof (close_plus n k x (opp y) r (- s) m m' Hx (close_opp _ _ _ _ Hy) L B) as (F & M & E). split; [|split; [exact M|]].
  - apply (close_more _ (Nat.max n k)) in Hx; [|lia]. apply (close_more _ (Nat.max n k)) in Hy; [|lia]. pose proof (close_size _ _ _ _ Hx) as Sx. pose proof (close_size _ _ _ _ Hy) as Sy. pose proof (up_two _ L) as P2. pose proof (up_pow (Nat.max n k)).
    destruct Hx as (Fx & Mx & _), Hy as (Fy & My & _). pose proof (Rabs_pos r). pose proof (Rabs_pos s). apply diff_finite; [exact Fx | exact Fy |]. unfold Rminus. apply Rle_trans with (1 := Rabs_triang _ _). rewrite Rabs_Ropp.
    apply Rle_trans with (bpow radix2 (1 + 900)); [|apply bpow_le; lia]. rewrite bpow_plus. change (bpow radix2 1) with 2. nra.
  - apply (close_more _ (Nat.max n k)) in Hx; [|lia]. apply (close_more _ (Nat.max n k)) in Hy; [|lia]. pose proof (close_size _ _ _ _ Hx) as Sx. pose proof (close_size _ _ _ _ Hy) as Sy. pose proof (up_two _ L) as P2. pose proof (up_pow (Nat.max n k)).
    destruct Hx as (Fx & Mx & _), Hy as (Fy & My & _). pose proof (Rabs_pos r). pose proof (Rabs_pos s).
    assert (A : Rabs (B2R x - B2R y) <= bpow radix2 1000). { unfold Rminus. apply Rle_trans with (1 := Rabs_triang _ _). rewrite Rabs_Ropp.
      apply Rle_trans with (bpow radix2 (1 + 900)); [|apply bpow_le; lia]. rewrite bpow_plus. change (bpow radix2 1) with 2. nra. }
    destruct (diff_finite x y Fx Fy A) as [_ ->]. assert (Fo : is_finite (opp y) = true) by (unfold opp; rewrite is_finite_Bopp; exact Fy). assert (Vo : B2R (opp y) = - B2R y) by apply B2R_Bopp.
    destruct (sum_finite x (opp y) Fx Fo) as [_ V]; [rewrite Vo; exact A|]. rewrite V, Vo in E. exact E.
Qed.
(** The difference of two doubles has a relative error. *)
Lemma close_difference (x y : double) : is_finite x = true -> is_finite y = true -> Rabs (B2R x - B2R y) <= bpow radix2 900 ->
  close 1 (minus x y) (B2R x - B2R y) (Rabs (B2R x - B2R y)).
Proof.
  intros Fx Fy B. destruct (diff_finite x y Fx Fy) as [F V]; [apply Rle_trans with (1 := B), bpow_le; lia|]. split; [exact F|]. split; [lra|]. rewrite V.
  apply Rle_trans with (1 := rnd_diff x y Fx Fy). right. cbn [pow]. ring.
Qed.

(** * Sums *)
Fixpoint sum_of (l : list R) : R := match l with [] => 0 | x :: r => x + sum_of r end.
Lemma sum_close : forall l rs ms k n a r m, Forall2 (fun x p => close k x (fst p) (snd p)) l (combine rs ms) -> length rs = length ms -> (k <= n)%nat -> close n a r m ->
  INR (n + length l) * u <= / 2 -> m + sum_of ms <= bpow radix2 900 ->
  close (n + length l) (fold_left plus l a) (r + sum_of rs) (m + sum_of ms).
Proof.
  intros l. induction l as [|x l IH]; intros rs ms k n a r m H Hl Kn Ha L B.
  - inversion H as [E|]. destruct rs, ms; try discriminate. cbn. rewrite !Rplus_0_r, Nat.add_0_r. exact Ha.
  - inversion H as [|? [r1 m1] ? ps H1 H2 E1 E2]. destruct rs as [|r1' rs]; [discriminate|]. destruct ms as [|m1' ms]; [discriminate|]. cbn in E2. inversion E2; subst. cbn [fst snd] in H1. injection Hl as Hl.
    assert (P : 0 <= sum_of ms).
    { clear - H2 Hl. revert rs ms Hl H2. induction l as [|x l IH]; intros rs ms Hl H; inversion H as [E|? [r m] ? ps H1 H2 E1 E2]; destruct rs, ms; try discriminate; cbn in *; try lra.
      inversion E2; subst. destruct H1 as (_ & M & _). cbn in M. pose proof (Rle_trans _ _ _ (Rabs_pos _) M). injection Hl as Hl. specialize (IH rs ms Hl H2). lra. }
    cbn [fold_left sum_of length] in *. pose proof u_small as U.
    assert (Mx : Nat.max n k = n) by lia. assert (C : close (S n) (plus a x) (r + r1') (m + m1')).
    { rewrite <- Mx at 1. apply close_plus; [exact Ha | exact H1 | | lra]. rewrite Mx. apply Rle_trans with (2 := L). apply Rmult_le_compat_r; [lra|]. apply le_INR. lia. }
    replace (n + S (length l))%nat with (S n + length l)%nat by lia. rewrite <- !Rplus_assoc. apply (IH rs ms k (S n)); try assumption; try lia; [|lra].
    replace (S n + length l)%nat with (n + S (length l))%nat by lia. exact L.
Qed.

(** * The spacing of the doubles *)
Lemma spacing (x : double) lo : (-900 <= lo)%Z -> bpow radix2 lo <= Rabs (B2R x) -> exists z, B2R x = IZR z * bpow radix2 (lo - 52).
Proof.
  intros L H. pose proof (generic_format_B2R 53 1024 x) as G. unfold generic_format in G. set (e := cexp radix2 (fexp64) (B2R x)). 
  set (z := Ztrunc (scaled_mantissa radix2 (SpecFloat.fexp 53 1024) (B2R x))) in G. change (B2R x = IZR z * bpow radix2 e) in G.
  assert (E : (lo - 52 <= e)%Z).
  { apply Z.le_trans with (mag radix2 (B2R x) - 53)%Z; [|apply Z.le_max_l]. 
    assert (lo + 1 <= mag radix2 (B2R x))%Z; [|lia]. apply mag_ge_bpow. replace (lo + 1 - 1)%Z with lo by ring. exact H. }
  exists (z * 2 ^ (e - (lo - 52)))%Z. rewrite G at 1.
  rewrite mult_IZR. change 2%Z with (radix_val radix2). rewrite IZR_Zpower by lia. rewrite Rmult_assoc, <- bpow_plus. f_equal. f_equal. ring.
Qed.
(** A double of a certain size minus any other *)
Lemma difference_floor (x y : double) lo : (-800 <= lo)%Z -> bpow radix2 lo <= Rabs (B2R x) -> B2R x - B2R y = 0 \/ bpow radix2 (lo - 53) <= Rabs (B2R x - B2R y).
Proof.
  intros L H. destruct (Rle_dec (bpow radix2 (lo - 1)) (Rabs (B2R y))) as [Hy|Hy].
  - destruct (spacing x (lo - 1)) as (a & Ea); [lia | apply Rle_trans with (2 := H), bpow_le; lia |]. destruct (spacing y (lo - 1)) as (b & Eb); [lia | exact Hy |].
    rewrite Ea, Eb, <- Rmult_minus_distr_r, <- minus_IZR. destruct (Z.eq_dec (a - b) 0) as [->|N]; [left; ring|]. right.
    rewrite Rabs_mult, (Rabs_pos_eq (bpow _ _)) by apply bpow_ge_0. rewrite <- abs_IZR. replace (lo - 1 - 52)%Z with (lo - 53)%Z by ring. pose proof (bpow_ge_0 radix2 (lo - 53)).
    assert (1 <= IZR (Z.abs (a - b))) by (apply IZR_le; lia). nra.
  - right. apply Rnot_le_lt in Hy. apply Rle_trans with (bpow radix2 (lo - 1)); [apply bpow_le; lia|].
    assert (bpow radix2 lo = 2 * bpow radix2 (lo - 1)) by (replace lo with (1 + (lo - 1))%Z at 1 by ring; rewrite bpow_plus; reflexivity).
    pose proof (Rabs_triang_inv (B2R x) (B2R y)). lra.
Qed.
