(** The error of Newmark's method. *)
From Coq Require Import Reals Lia Lra Psatz.
From Coquelicot Require Import Coquelicot.
From Verif Require Import NewmarkSpec.
Open Scope R_scope.

Lemma mean (F dF : R -> R) a b : 0 <= a -> a <= b -> b <= 1 -> (forall t, 0 <= t <= 1 -> is_derive F t (dF t)) -> exists c, a <= c <= b /\ F b - F a = dF c * (b - a).
Proof.
  intros Ha Hab Hb H. destruct (MVT_gen F a b dF) as (c & Hc & E).
  - rewrite Rmin_left, Rmax_right by lra. intros t Ht. apply H. lra.
  - rewrite Rmin_left, Rmax_right by lra. intros t Ht. apply derivable_continuous_pt. exists (dF t). apply is_derive_Reals, H. lra.
  - rewrite Rmin_left, Rmax_right in Hc by lra. exists c. split; assumption.
Qed.
Lemma derived (F : R -> R) t d : is_derive F t d -> Derive (fun x => F x) t = d.
Proof. apply is_derive_unique. Qed.
Lemma exp_mono x y : x <= y -> exp x <= exp y.
Proof. intros [H| ->]; [left; apply exp_increasing; exact H | right; reflexivity]. Qed.
Lemma abs_le x a : - a <= x <= a -> Rabs x <= a.
Proof. intros H. apply Rabs_le. exact H. Qed.
Lemma le_abs x a : Rabs x <= a -> - a <= x <= a.
Proof. apply Rabs_le_between. Qed.
Lemma value_error v v1 v2 v3 A : (forall t, 0 <= t <= 1 -> is_derive v t (v1 t)) -> (forall t, 0 <= t <= 1 -> is_derive v1 t (v2 t)) -> (forall t, 0 <= t <= 1 -> is_derive v2 t (v3 t)) ->
  (forall t, 0 <= t <= 1 -> Rabs (v3 t) <= A) -> Rabs (v 0 + v1 0 + ((1 / 2 - 1 / 10) * v2 0 + 1 / 10 * v2 1) - v 1) <= 11 / 10 * A.
Proof.
  intros D0 D1 D2 B.
  destruct (mean (fun s => v s - v 0 - s * v1 0 - s * s * (2 / 5 * v2 0 + 1 / 10 * v2 s)) (fun s => v1 s - v1 0 - 2 * s * (2 / 5 * v2 0 + 1 / 10 * v2 s) - s * s * (1 / 10 * v3 s)) 0 1) as (c & Hc & E); try lra.
  { intros t Ht. pose proof (D0 t Ht). pose proof (D2 t Ht). auto_derive.
    - split; [eexists; eassumption|]. split; [eexists; eassumption | exact I].
    - rewrite (derived _ _ _ H), (derived _ _ _ H0). ring. }
  cbv beta in E. destruct (mean v1 v2 0 c) as (d & Hd & E1); try lra; [exact D1|].
  destruct (mean v2 v3 0 d) as (e & He & E2); try lra; [exact D2|]. destruct (mean v2 v3 d c) as (e' & He' & E3); try lra; [exact D2|].
  replace (v 0 + v1 0 + ((1 / 2 - 1 / 10) * v2 0 + 1 / 10 * v2 1) - v 1) with (- (c * (4 / 5 * (v3 e * (d - 0)) - 1 / 5 * (v3 e' * (c - d))) - c * c * (1 / 10 * v3 c))).
  2: { rewrite <- E2, <- E3. assert (v1 c = v1 0 + v2 d * (c - 0)) as Q by lra. rewrite Q in E. lra. }
  pose proof (le_abs _ _ (B e ltac:(lra))). pose proof (le_abs _ _ (B e' ltac:(lra))). pose proof (le_abs _ _ (B c ltac:(lra))). assert (0 <= A) by lra.
  assert (P : forall s t, 0 <= t <= 1 -> - A <= s <= A -> Rabs (s * t) <= A * t) by (intros s t Ht Hs; rewrite Rabs_mult, (Rabs_pos_eq t) by lra; apply Rmult_le_compat_r; [lra | apply abs_le; exact Hs]).
  pose proof (P _ (d - 0) ltac:(lra) H). pose proof (P _ (c - d) ltac:(lra) H0). assert (Cc : 0 <= c * c <= 1) by nra. pose proof (P _ _ Cc H1).
  rewrite Rabs_Ropp. replace (c * c * (1 / 10 * v3 c)) with (1 / 10 * (v3 c * (c * c))) by ring.
  set (q := 4 / 5 * (v3 e * (d - 0)) - 1 / 5 * (v3 e' * (c - d))).
  assert (Q : Rabs q <= A).
  { unfold q. eapply Rle_trans; [apply Rabs_triang|]. rewrite Rabs_Ropp, !(Rabs_mult (_ / 5)), !(Rabs_pos_eq (_ / 5)) by lra. nra. }
  assert (c * Rabs q <= 1 * A) by (apply Rmult_le_compat; [lra | apply Rabs_pos | lra | exact Q]).
  assert (A * (c * c) <= A * 1) by (apply Rmult_le_compat_l; lra).
  eapply Rle_trans; [apply Rabs_triang|]. rewrite Rabs_Ropp, (Rabs_mult c), (Rabs_mult (1 / 10)), (Rabs_pos_eq c), (Rabs_pos_eq (1 / 10)) by lra. lra.
Qed.
Lemma slope_error v1 v2 v3 v4 B : (forall t, 0 <= t <= 1 -> is_derive v1 t (v2 t)) -> (forall t, 0 <= t <= 1 -> is_derive v2 t (v3 t)) -> (forall t, 0 <= t <= 1 -> is_derive v3 t (v4 t)) ->
  (forall t, 0 <= t <= 1 -> Rabs (v4 t) <= B) -> Rabs (v1 0 + 1 / 2 * (v2 0 + v2 1) - v1 1) <= 1 / 2 * B.
Proof.
  intros D1 D2 D3 HB.
  destruct (mean (fun s => v1 s - v1 0 - s / 2 * (v2 0 + v2 s)) (fun s => v2 s - 1 / 2 * (v2 0 + v2 s) - s / 2 * v3 s) 0 1) as (c & Hc & E); try lra.
  { intros t Ht. pose proof (D1 t Ht). pose proof (D2 t Ht). auto_derive.
    - split; [eexists; eassumption|]. split; [eexists; eassumption | exact I].
    - rewrite (derived _ _ _ H), (derived _ _ _ H0). field. }
  cbv beta in E. destruct (mean v2 v3 0 c) as (d & Hd & E1); try lra; [exact D2|]. destruct (mean v3 v4 d c) as (e & He & E2); try lra; [exact D3|].
  replace (v1 0 + 1 / 2 * (v2 0 + v2 1) - v1 1) with (1 / 2 * (v4 e * (c * (c - d)))).
  2: { replace (1 / 2 * (v4 e * (c * (c - d)))) with (c / 2 * (v4 e * (c - d))) by field. rewrite <- E2. assert (v2 c = v2 0 + v3 d * (c - 0)) as Q by lra. rewrite Q in E. lra. }
  rewrite Rabs_mult, (Rabs_pos_eq (1 / 2)) by lra. apply Rmult_le_compat_l; [lra|]. rewrite Rabs_mult. assert (0 <= c * (c - d) <= 1) by nra. rewrite (Rabs_pos_eq (c * (c - d))) by lra.
  pose proof (HB e ltac:(lra)). pose proof (Rabs_pos (v4 e)). nra.
Qed.

Section Solution.
Variables (eta lo hi W U : R) (u u1 : R -> R).
Hypothesis positive : 0 < lo.
Hypothesis S : solution eta lo hi u u1.
Hypothesis B : bounded eta lo hi W U u u1.

(** The coefficient and its derivatives, and those of the solution *)
Definition w (x : R) : R := 2 * eta / x - 1.
Definition u3 (x : R) : R := - (2 * eta / x ^ 2) * u x + w x * u1 x.
Definition u4 (x : R) : R := 4 * eta / x ^ 3 * u x + 2 * (- (2 * eta / x ^ 2)) * u1 x + w x * (w x * u x).

Lemma derive_2 x : lo <= x <= hi -> is_derive (fun x => w x * u x) x (u3 x).
Proof.
  intros H. unfold u3, w. pose proof (so_slope _ _ _ _ _ S x H) as D. auto_derive.
  - split; [lra|]. split; [eexists; exact D | exact I].
  - rewrite (derived _ _ _ D). field. lra.
Qed.
Lemma derive_3 x : lo <= x <= hi -> is_derive u3 x (u4 x).
Proof.
  intros H. unfold u3, u4, w. pose proof (so_slope _ _ _ _ _ S x H) as D. pose proof (so_equation _ _ _ _ _ S x H) as D1. auto_derive.
  - split; [intros C; apply Rmult_integral in C; nra|]. split; [eexists; exact D|]. split; [lra|]. split; [eexists; exact D1 | exact I].
  - rewrite (derived _ _ _ D), (derived _ _ _ D1). unfold acceleration. field. lra.
Qed.
Lemma bounds_nonneg x : lo <= x <= hi -> 0 <= W /\ 0 <= U.
Proof. intros H. destruct (bo_coefficient _ _ _ _ _ _ _ B x H) as (H1 & _). destruct (bo_solution _ _ _ _ _ _ _ B x H) as (H2 & _). pose proof (Rabs_pos (2 * eta / x - 1)). pose proof (Rabs_pos (u x)). lra. Qed.
Lemma bound_3 x : lo <= x <= hi -> Rabs (u3 x) <= 2 * W * U.
Proof.
  intros H. destruct (bounds_nonneg x H) as [W0 U0]. destruct (bo_coefficient _ _ _ _ _ _ _ B x H) as (H1 & H2 & H3). destruct (bo_solution _ _ _ _ _ _ _ B x H) as (H4 & H5).
  unfold u3. eapply Rle_trans; [apply Rabs_triang|]. rewrite !Rabs_mult, Rabs_Ropp.
  pose proof (Rmult_le_compat _ _ _ _ (Rabs_pos _) (Rabs_pos _) H2 H4). pose proof (Rmult_le_compat _ _ _ _ (Rabs_pos _) (Rabs_pos _) H1 H5). unfold w. lra.
Qed.
Lemma bound_4 x : lo <= x <= hi -> Rabs (u4 x) <= (3 + W) * W * U.
Proof.
  intros H. destruct (bounds_nonneg x H) as [W0 U0]. destruct (bo_coefficient _ _ _ _ _ _ _ B x H) as (H1 & H2 & H3). destruct (bo_solution _ _ _ _ _ _ _ B x H) as (H4 & H5).
  unfold u4. eapply Rle_trans; [apply Rabs_triang|]. eapply Rle_trans; [apply Rplus_le_compat_r, Rabs_triang|]. rewrite (Rabs_mult (4 * eta / x ^ 3)), (Rabs_mult (2 * _)), (Rabs_mult 2), Rabs_Ropp, (Rabs_mult (w x)), (Rabs_mult (w x)), (Rabs_pos_eq 2) by lra.
  pose proof (Rmult_le_compat _ _ _ _ (Rabs_pos _) (Rabs_pos _) H3 H4). pose proof (Rmult_le_compat _ _ _ _ (Rabs_pos _) (Rabs_pos _) H2 H5). pose proof (Rmult_le_compat _ _ _ _ (Rabs_pos _) (Rabs_pos _) H1 H4) as Q.
  pose proof (Rmult_le_compat _ _ _ _ (Rabs_pos _) (Rmult_le_pos _ _ (Rabs_pos _) (Rabs_pos _)) H1 Q). unfold w. lra.
Qed.
Lemma inside x h t : lo <= x <= hi -> lo <= x - h <= hi -> 0 <= t <= 1 -> lo <= x - t * h <= hi.
Proof. intros. nra. Qed.
Lemma scaled (F : R -> R) d x h t c : is_derive F (x - t * h) d -> is_derive (fun t => c * F (x - t * h)) t (c * - h * d).
Proof.
  intros D. change (x - t * h) with (x + - (t * h)) in D. auto_derive; [eexists; exact D|]. rewrite (derived _ _ _ D). ring.
Qed.
Lemma step_value x h : lo <= x <= hi -> lo <= x - h <= hi ->
  Rabs (u x + - h * u1 x + (- h) ^ 2 * ((1 / 2 - 1 / 10) * (w x * u x) + 1 / 10 * (w (x - h) * u (x - h))) - u (x - h)) <= 11 / 10 * (Rabs h ^ 3 * (2 * W * U)).
Proof.
  intros H0 H1.
  pose proof (value_error (fun t => 1 * u (x - t * h)) (fun t => 1 * - h * u1 (x - t * h)) (fun t => 1 * - h * - h * (w (x - t * h) * u (x - t * h))) (fun t => 1 * - h * - h * - h * u3 (x - t * h)) (Rabs h ^ 3 * (2 * W * U))) as V.
  cbv beta in V. rewrite Rmult_0_l, Rminus_0_r, (Rmult_1_l h) in V. replace (u x + - h * u1 x + (- h) ^ 2 * ((1 / 2 - 1 / 10) * (w x * u x) + 1 / 10 * (w (x - h) * u (x - h))) - u (x - h)) with (1 * u x + 1 * - h * u1 x + ((1 / 2 - 1 / 10) * (1 * - h * - h * (w x * u x)) + 1 / 10 * (1 * - h * - h * (w (x - h) * u (x - h)))) - 1 * u (x - h)) by ring.
  apply V; intros t Ht; pose proof (inside x h t H0 H1 Ht) as Hx.
  - apply (scaled u). apply (so_slope _ _ _ _ _ S _ Hx).
  - apply (scaled u1). apply (so_equation _ _ _ _ _ S _ Hx).
  - apply (scaled (fun x => w x * u x)). apply derive_2, Hx.
  - rewrite !Rabs_mult, !Rabs_Ropp, Rabs_R1. pose proof (bound_3 _ Hx). replace (1 * Rabs h * Rabs h * Rabs h) with (Rabs h ^ 3) by ring. apply Rmult_le_compat_l; [apply pow_le, Rabs_pos | assumption].
Qed.
Lemma step_slope x h : lo <= x <= hi -> lo <= x - h <= hi ->
  Rabs (u1 x + - h / 2 * (w x * u x + w (x - h) * u (x - h)) - u1 (x - h)) <= 1 / 2 * (Rabs h ^ 3 * ((3 + W) * W * U)).
Proof.
  intros H0 H1.
  pose proof (slope_error (fun t => 1 * u1 (x - t * h)) (fun t => 1 * - h * (w (x - t * h) * u (x - t * h))) (fun t => 1 * - h * - h * u3 (x - t * h)) (fun t => 1 * - h * - h * - h * u4 (x - t * h)) (Rabs h ^ 3 * ((3 + W) * W * U))) as V.
  cbv beta in V. rewrite Rmult_0_l, Rminus_0_r, (Rmult_1_l h) in V. replace (u1 x + - h / 2 * (w x * u x + w (x - h) * u (x - h)) - u1 (x - h)) with (1 * u1 x + 1 / 2 * (1 * - h * (w x * u x) + 1 * - h * (w (x - h) * u (x - h))) - 1 * u1 (x - h)) by field.
  apply V; intros t Ht; pose proof (inside x h t H0 H1 Ht) as Hx.
  - apply (scaled u1). apply (so_equation _ _ _ _ _ S _ Hx).
  - apply (scaled (fun x => w x * u x)). apply derive_2, Hx.
  - apply (scaled u3). apply derive_3, Hx.
  - rewrite !Rabs_mult, !Rabs_Ropp, Rabs_R1. pose proof (bound_4 _ Hx). replace (1 * Rabs h * Rabs h * Rabs h) with (Rabs h ^ 3) by ring. apply Rmult_le_compat_l; [apply pow_le, Rabs_pos | assumption].
Qed.
(** The error of a step from those before it *)
Lemma step_error x h g0 f0 g1 f1 a1 : lo <= x <= hi -> lo <= x - h <= hi -> Rabs h <= 1 -> Rabs h * W <= 1 / 2 ->
  ten_digits a1 (acceleration eta (x - h) g1) -> newmark (- h) g0 f0 (acceleration eta x g0) g1 f1 a1 ->
  let E0 := Rabs (g0 - u x) + Rabs (f0 - u1 x) in let E1 := Rabs (g1 - u (x - h)) + Rabs (f1 - u1 (x - h)) in
  E1 * (1 - Rabs h * W) <= E0 * (1 + Rabs h * (1 + W)) + Rabs h * (/ 10000000000 * (1 + W * U) + h ^ 2 * ((4 + W) * W * U)).
Proof.
  intros Hx Hx1 Hh HW T [Nf Ng] E0 E1. destruct (bounds_nonneg x Hx) as [W0 U0].
  pose proof (step_value x h Hx Hx1) as V. pose proof (step_slope x h Hx Hx1) as L.
  destruct (bo_coefficient _ _ _ _ _ _ _ B x Hx) as (C0 & _). destruct (bo_coefficient _ _ _ _ _ _ _ B (x - h) Hx1) as (C1 & _). destruct (bo_solution _ _ _ _ _ _ _ B (x - h) Hx1) as (Su & _).
  fold (w x) in C0. fold (w (x - h)) in C1. unfold acceleration in *. fold (w x) in *. fold (w (x - h)) in *.
  set (d0 := g0 - u x) in *. set (e0 := f0 - u1 x) in *. set (d1 := g1 - u (x - h)) in *. set (e1 := f1 - u1 (x - h)) in *.
  set (ta := a1 - w (x - h) * g1) in *.
  set (rv := u x + - h * u1 x + (- h) ^ 2 * ((1 / 2 - 1 / 10) * (w x * u x) + 1 / 10 * (w (x - h) * u (x - h))) - u (x - h)) in *.
  set (rs := u1 x + - h / 2 * (w x * u x + w (x - h) * u (x - h)) - u1 (x - h)) in *.
  assert (D : d1 = d0 + - (h * e0) + h * h * (2 / 5 * (w x * d0) + 1 / 10 * (w (x - h) * d1 + ta)) + rv) by (unfold d1 at 1; rewrite Ng; unfold rv, d0, e0, d1, ta; field).
  assert (E : e1 = e0 + - (h / 2 * (w x * d0 + (w (x - h) * d1 + ta))) + rs) by (unfold e1; rewrite Nf; unfold rs, d0, e0, d1, ta; field).
  unfold ten_digits in T. set (t := / 10000000000) in *. assert (Tp : 0 < t <= / 100) by (unfold t; lra).
  assert (Ht : Rabs ta <= t * (1 + W * (U + Rabs d1))).
  { assert (G : Rabs (w (x - h) * g1) <= W * (U + Rabs d1)).
    { rewrite Rabs_mult. apply Rmult_le_compat; try apply Rabs_pos; [exact C1|]. replace g1 with (u (x - h) + d1) by (unfold d1; ring). eapply Rle_trans; [apply Rabs_triang|]. lra. }
    destruct T as [T1 T2]. unfold ta. destruct (Req_dec (w (x - h) * g1) 0) as [Z|Z].
    - specialize (T2 Z). rewrite Z, Rminus_0_r. pose proof (Rabs_pos (w (x - h) * g1)). assert (t * 1 <= t * (1 + W * (U + Rabs d1))) by (apply Rmult_le_compat_l; lra). lra.
    - specialize (T1 Z). assert (t * Rabs (w (x - h) * g1) <= t * (1 + W * (U + Rabs d1))) by (apply Rmult_le_compat_l; lra). lra. }
  assert (P0 : Rabs (w x * d0) <= W * Rabs d0) by (rewrite Rabs_mult; apply Rmult_le_compat_r; [apply Rabs_pos | exact C0]).
  assert (P1 : Rabs (w (x - h) * d1 + ta) <= W * Rabs d1 * (1 + t) + t * (1 + W * U)).
  { eapply Rle_trans; [apply Rabs_triang|]. assert (Rabs (w (x - h) * d1) <= W * Rabs d1) by (rewrite Rabs_mult; apply Rmult_le_compat_r; [apply Rabs_pos | exact C1]). lra. }
  set (q := W * Rabs d1 * (1 + t) + t * (1 + W * U)) in *. set (H := Rabs h) in *. pose proof (Rabs_pos h : 0 <= H) as H0. assert (Hq : h * h = H * H) by (unfold H; rewrite <- Rabs_mult, Rabs_pos_eq by nra; reflexivity).
  assert (Dd : Rabs d1 <= Rabs d0 + H * Rabs e0 + H * H * (2 / 5 * (W * Rabs d0) + 1 / 10 * q) + 11 / 10 * (H ^ 3 * (2 * W * U))).
  { rewrite D at 1. rewrite Hq. eapply Rle_trans; [apply Rabs_triang|]. apply Rplus_le_compat; [|exact V]. eapply Rle_trans; [apply Rabs_triang|]. apply Rplus_le_compat.
    - eapply Rle_trans; [apply Rabs_triang|]. rewrite Rabs_Ropp, Rabs_mult. fold H. lra.
    - rewrite Rabs_mult, (Rabs_pos_eq (H * H)) by nra. apply Rmult_le_compat_l; [nra|]. eapply Rle_trans; [apply Rabs_triang|]. rewrite (Rabs_mult (2 / 5)), (Rabs_mult (1 / 10)), (Rabs_pos_eq (2 / 5)), (Rabs_pos_eq (1 / 10)) by lra. lra. }
  assert (De : Rabs e1 <= Rabs e0 + H / 2 * (W * Rabs d0 + q) + 1 / 2 * (H ^ 3 * ((3 + W) * W * U))).
  { rewrite E at 1. eapply Rle_trans; [apply Rabs_triang|]. apply Rplus_le_compat; [|exact L]. eapply Rle_trans; [apply Rabs_triang|]. apply Rplus_le_compat_l. rewrite Rabs_Ropp, Rabs_mult. unfold Rdiv. rewrite Rabs_mult, (Rabs_pos_eq (/ 2)) by lra. fold H.
    apply Rmult_le_compat_l; [lra|]. eapply Rle_trans; [apply Rabs_triang|]. lra. }
  unfold E1, E0. clear - Dd De H0 Hh HW W0 U0 Tp Hq. replace (h ^ 2) with (H * H) by (rewrite <- Hq; ring).
  pose proof (Rabs_pos d0) as A0. pose proof (Rabs_pos e0) as A1. pose proof (Rabs_pos d1) as A2. pose proof (Rabs_pos e1) as A3.
  set (a := Rabs d0) in *. set (b := Rabs e0) in *. set (c := Rabs d1) in *. set (d := Rabs e1) in *. fold a b c d.
  assert (HH : H * H <= H) by nra. assert (X0 : 0 <= W * a) by (apply Rmult_le_pos; lra). assert (X1 : 0 <= W * c) by (apply Rmult_le_pos; lra). assert (X2 : 0 <= W * U) by (apply Rmult_le_pos; lra).
  assert (q0 : 0 <= q) by (unfold q; assert (0 <= W * c * (1 + t)) by (apply Rmult_le_pos; lra); assert (0 <= t * (1 + W * U)) by (apply Rmult_le_pos; lra); lra).
  assert (S1 : H * H * (2 / 5 * (W * a) + 1 / 10 * q) <= H * (2 / 5 * (W * a) + 1 / 10 * q)) by (apply Rmult_le_compat_r; lra).
  assert (S2 : H * q <= H * (101 / 100 * (W * c) + t * (1 + W * U))) by (apply Rmult_le_compat_l; [exact H0|]; unfold q; assert (W * c * (1 + t) <= W * c * (101 / 100)) by (apply Rmult_le_compat_l; lra); lra).
  assert (X3 : 0 <= H * (W * a)) by (apply Rmult_le_pos; lra). assert (X4 : 0 <= H * (W * c)) by (apply Rmult_le_pos; lra). assert (X5 : 0 <= H * (t * (1 + W * U))) by (repeat apply Rmult_le_pos; lra).
  assert (X6 : 0 <= H ^ 3 * (W * U)) by (apply Rmult_le_pos; [apply pow_le|]; lra). assert (X7 : 0 <= H ^ 3 * (W * U) * W) by (apply Rmult_le_pos; lra).
  assert (X8 : 0 <= H * W * b) by (repeat apply Rmult_le_pos; lra). assert (X9 : 0 <= H * W * d) by (repeat apply Rmult_le_pos; lra). assert (X10 : 0 <= H * a) by (apply Rmult_le_pos; lra).
  replace (H * (t * (1 + W * U) + H * H * ((4 + W) * W * U))) with (H * (t * (1 + W * U)) + 4 * (H ^ 3 * (W * U)) + H ^ 3 * (W * U) * W) by ring.
  nra.
Qed.
Theorem integration_error x h p0 p1 n g f : Rabs h <= 1 -> Rabs h * W <= 1 / 2 -> (forall k, (k <= n)%nat -> lo <= x - INR k * h <= hi) -> integration eta x h p0 p1 n g f ->
  let E k := Rabs (g k - u (x - INR k * h)) + Rabs (f k - u1 (x - INR k * h)) in
  forall k, (k <= n)%nat -> E k <= exp (INR k * Rabs h * (1 + 3 * W)) * (Rabs (p0 - u x) + Rabs (p1 - u1 x) + INR k * Rabs h * (/ 10000000000 * (1 + W * U) + h ^ 2 * ((4 + W) * W * U))).
Proof.
  intros Hh HW Hx [[G0 F0] St] E. destruct (bounds_nonneg _ (Hx O ltac:(lia))) as [W0 U0]. pose proof (Rabs_pos h) as H0.
  set (K := / 10000000000 * (1 + W * U) + h ^ 2 * ((4 + W) * W * U)).
  assert (K0 : 0 <= K) by (unfold K; assert (0 <= W * U) by (apply Rmult_le_pos; lra); assert (0 <= h ^ 2 * ((4 + W) * W * U)) by (apply Rmult_le_pos; [apply pow2_ge_0 | rewrite Rmult_assoc; apply Rmult_le_pos; lra]); lra).
  induction k as [|k IH]; intros Hk.
  - unfold E. cbn [INR]. rewrite !Rmult_0_l, Rminus_0_r, exp_0, G0, F0. lra.
  - specialize (IH ltac:(lia)). destruct (St k ltac:(lia)) as (a1 & T & N).
    assert (P : x - INR (Datatypes.S k) * h = x - INR k * h - h) by (rewrite S_INR; ring). pose proof (Hx k ltac:(lia)) as X0. pose proof (Hx (Datatypes.S k) ltac:(lia)) as X1. unfold E. rewrite P in X1, T |- *.
    pose proof (step_error _ _ _ _ _ _ _ X0 X1 Hh HW T N) as Q. cbv zeta in Q. fold K in Q. fold (E k) in Q. set (E1 := Rabs (g (Datatypes.S k) - _) + _) in *.
    assert (E10 : 0 <= E1) by (unfold E1; apply Rplus_le_le_0_compat; apply Rabs_pos). assert (Ek0 : 0 <= E k) by (unfold E; apply Rplus_le_le_0_compat; apply Rabs_pos).
    set (H := Rabs h) in *. set (M := Rabs (p0 - u x) + Rabs (p1 - u1 x)) in *. assert (M0 : 0 <= M) by (unfold M; apply Rplus_le_le_0_compat; apply Rabs_pos).
    assert (Hw0 : 0 <= H * W) by (apply Rmult_le_pos; lra).
    assert (X2 : E1 <= exp (2 * (H * W)) * (E k * (1 + H * (1 + W)) + H * K)).
    { pose proof (exp_ineq1_le (2 * (H * W))). apply Rle_trans with (exp (2 * (H * W)) * (E1 * (1 - H * W))); [|apply Rmult_le_compat_l; [left; apply exp_pos | exact Q]].
      assert (1 <= exp (2 * (H * W)) * (1 - H * W)) by nra. nra. }
    assert (X3 : E k * (1 + H * (1 + W)) <= exp (H * (1 + W)) * (exp (INR k * H * (1 + 3 * W)) * (M + INR k * H * K))).
    { rewrite Rmult_comm. apply Rmult_le_compat; [assert (0 <= H * (1 + W)) by (apply Rmult_le_pos; lra); lra | exact Ek0 | apply exp_ineq1_le | exact IH]. }
    assert (Y : exp (INR (Datatypes.S k) * H * (1 + 3 * W)) = exp (2 * (H * W)) * (exp (H * (1 + W)) * exp (INR k * H * (1 + 3 * W)))) by (rewrite <- !exp_plus; f_equal; rewrite S_INR; ring).
    assert (Z : exp (2 * (H * W)) * (H * K) <= exp (INR (Datatypes.S k) * H * (1 + 3 * W)) * (H * K)).
    { apply Rmult_le_compat_r; [apply Rmult_le_pos; assumption|]. rewrite Y. rewrite <- (Rmult_1_r (exp (2 * (H * W)))) at 1. apply Rmult_le_compat_l; [left; apply exp_pos|]. rewrite <- exp_plus. apply Rle_trans with (exp 0); [rewrite exp_0; lra|]. apply exp_mono.
      pose proof (pos_INR k). assert (0 <= INR k * H) by (apply Rmult_le_pos; lra). assert (0 <= INR k * H * (1 + 3 * W)) by (apply Rmult_le_pos; lra). assert (0 <= H * (1 + W)) by (apply Rmult_le_pos; lra). lra. }
    replace (exp (INR (Datatypes.S k) * H * (1 + 3 * W)) * (M + INR (Datatypes.S k) * H * K)) with (exp (2 * (H * W)) * (exp (H * (1 + W)) * (exp (INR k * H * (1 + 3 * W)) * (M + INR k * H * K))) + exp (INR (Datatypes.S k) * H * (1 + 3 * W)) * (H * K)) by (rewrite Y, S_INR; ring).
    eapply Rle_trans; [exact X2|]. rewrite Rmult_plus_distr_l. apply Rplus_le_compat; [|exact Z]. apply Rmult_le_compat_l; [left; apply exp_pos | exact X3].
Qed.
End Solution.
