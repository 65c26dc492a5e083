(** Two solutions of the Coulomb equation for l = 0 on the whole half line: the regular one, a power
    series, and another with a logarithm. *)
From Coq Require Import Reals Lra Lia.
From Coquelicot Require Import Coquelicot.
From Verif Require Import NewmarkSpec.
Open Scope R_scope.

(** * Series with coefficients that eventually shrink *)
Lemma bounded_below (c : nat -> R) m : exists M, 0 <= M /\ forall n, (n < m)%nat -> Rabs (c n) <= M.
Proof.
  induction m as [|m [M [P IH]]]; [exists 0; split; [lra | intros n Hn; lia]|]. exists (M + Rabs (c m)). pose proof (Rabs_pos (c m)). split; [lra|].
  intros n Hn. destruct (Nat.eq_dec n m) as [->|D]; [lra|]. pose proof (IH n ltac:(lia)). lra.
Qed.
Lemma bounded_shrink (c : nat -> R) N K : 0 <= K -> (forall n, (N <= n)%nat -> Rabs (c (S (S n))) <= (Rabs (c (S n)) + Rabs (c n)) / 4 + K) -> exists M, forall n, Rabs (c n) <= M.
Proof.
  intros HK H. destruct (bounded_below c (N + 2)) as [M [P B]]. exists (M + 2 * K). intros n. induction n as [n IH] using (well_founded_induction Wf_nat.lt_wf).
  destruct (Nat.lt_ge_cases n (N + 2)) as [L|L]; [pose proof (B n L); lra|]. destruct n as [|[|n]]; try lia.
  pose proof (H n ltac:(lia)). pose proof (IH n ltac:(lia)). pose proof (IH (S n) ltac:(lia)). lra.
Qed.
Lemma infinite (a : nat -> R) : (forall r, 0 <= r -> exists M, forall n, Rabs (a n * r ^ n) <= M) -> CV_radius a = p_infty.
Proof.
  intros B. destruct (CV_radius_bounded a) as [U _]. assert (H : forall r, 0 <= r -> Rbar_le (Finite r) (CV_radius a)) by (intros r Hr; apply U; apply B; exact Hr).
  pose proof (CV_radius_ge_0 a) as G. destruct (CV_radius a) as [r| |]; [|reflexivity | destruct G].
  exfalso. cbn in G. specialize (H (r + 1) ltac:(lra)). cbn in H. lra.
Qed.
Lemma large (x : R) : exists N, forall n, (N <= n)%nat -> x <= INR n.
Proof.
  destruct (archimed (Rabs x)) as [K _]. exists (Z.to_nat (up (Rabs x))). intros n Hn. apply le_INR in Hn. rewrite INR_IZR_INZ in Hn. pose proof (Rabs_pos x). pose proof (Rle_abs x).
  rewrite Z2Nat.id in Hn; [lra|]. apply le_IZR. lra.
Qed.

Section Series.
Variable eta : R.
(** * The regular solution: a 0 = 0, a 1 = 1 and (n + 2) (n + 1) a (n + 2) = 2 eta a (n + 1) - a n *)
Fixpoint two (n : nat) : R * R :=
  match n with
  | O => (0, 1)
  | S m => let (u, v) := two m in (v, (2 * eta * v - u) / (INR (m + 2) * INR (m + 1)))
  end.
Definition a (n : nat) : R := fst (two n).
Lemma two_is n : two n = (a n, a (S n)).
Proof. unfold a. cbn [two]. destruct (two n). reflexivity. Qed.
Lemma a_step n : a (S (S n)) = (2 * eta * a (S n) - a n) / (INR (n + 2) * INR (n + 1)).
Proof. assert (E : two (S n) = (a (S n), a (S (S n)))) by apply two_is. cbn [two] in E. rewrite two_is in E. injection E. intros ->. reflexivity. Qed.
Lemma step_small r : 0 <= r -> exists N, forall n, (N <= n)%nat -> 8 * Rabs eta * r + 4 * r ^ 2 <= INR (n + 2) * INR (n + 1).
Proof.
  intros Hr. destruct (large (8 * Rabs eta * r + 4 * r ^ 2)) as [N H]. exists N. intros n Hn. specialize (H n Hn). rewrite !plus_INR. cbn [INR]. pose proof (pos_INR n). nra.
Qed.
Lemma product_pos n : 0 < INR (n + 2) * INR (n + 1).
Proof. apply Rmult_lt_0_compat; apply lt_0_INR; lia. Qed.
(** the part of a step that both series have *)
Lemma step_bound r n u v : 0 <= r -> 8 * Rabs eta * r + 4 * r ^ 2 <= INR (n + 2) * INR (n + 1) ->
  Rabs ((2 * eta * v - u) / (INR (n + 2) * INR (n + 1)) * r ^ S (S n)) <= (Rabs (v * r ^ S n) + Rabs (u * r ^ n)) / 4.
Proof.
  intros Hr H. pose proof (product_pos n) as P. set (q := INR (n + 2) * INR (n + 1)) in *.
  replace ((2 * eta * v - u) / q * r ^ S (S n)) with (v * r ^ S n * (2 * eta * r / q) + - (u * r ^ n) * (r ^ 2 / q)) by (cbn [pow]; field; lra).
  eapply Rle_trans; [apply Rabs_triang|]. rewrite !Rabs_mult, Rabs_Ropp. pose proof (Rabs_pos eta). assert (0 <= r ^ 2) by (apply pow_le; exact Hr).
  assert (A : Rabs (2 * eta * r / q) <= 1 / 4).
  { unfold Rdiv. rewrite Rabs_mult, (Rabs_pos_eq (/ q)) by (apply Rlt_le, Rinv_0_lt_compat, P). rewrite !Rabs_mult, (Rabs_pos_eq 2), (Rabs_pos_eq r) by lra.
    apply (Rmult_le_reg_r q); [exact P|]. rewrite Rmult_assoc, Rinv_l by lra. nra. }
  assert (B : Rabs (r ^ 2 / q) <= 1 / 4).
  { rewrite Rabs_pos_eq by (apply Rdiv_le_0_compat; assumption). apply (Rmult_le_reg_r q); [exact P|]. unfold Rdiv. rewrite Rmult_assoc, Rinv_l by lra. nra. }
  rewrite !Rabs_mult in *. pose proof (Rabs_pos v). pose proof (Rabs_pos u). pose proof (Rabs_pos (r ^ S n)). pose proof (Rabs_pos (r ^ n)).
  assert (0 <= Rabs v * Rabs (r ^ S n)) by (apply Rmult_le_pos; assumption). assert (0 <= Rabs u * Rabs (r ^ n)) by (apply Rmult_le_pos; assumption). nra.
Qed.
Lemma a_bounded r : 0 <= r -> exists M, forall n, Rabs (a n * r ^ n) <= M.
Proof.
  intros Hr. destruct (step_small r Hr) as [N H]. apply (bounded_shrink (fun n => a n * r ^ n) N 0); [lra|]. intros n Hn. rewrite a_step. pose proof (step_bound r n (a n) (a (S n)) Hr (H n Hn)). lra.
Qed.
Lemma a_radius : CV_radius a = p_infty.
Proof. apply infinite. exact a_bounded. Qed.
(** * The other one: b 0 = 1, b 1 = 0 and
    (n + 2) (n + 1) b (n + 2) = 2 eta b (n + 1) - b n - 2 eta (2 n + 3) a (n + 2) *)
Fixpoint others (n : nat) : R * R :=
  match n with
  | O => (1, 0)
  | S m => let (u, v) := others m in (v, (2 * eta * v - u) / (INR (m + 2) * INR (m + 1)) - 2 * eta * (2 * INR m + 3) / (INR (m + 2) * INR (m + 1)) * a (S (S m)))
  end.
Definition b (n : nat) : R := fst (others n).
Lemma others_is n : others n = (b n, b (S n)).
Proof. unfold b. cbn [others]. destruct (others n). reflexivity. Qed.
Lemma b_step n : b (S (S n)) = (2 * eta * b (S n) - b n) / (INR (n + 2) * INR (n + 1)) - 2 * eta * (2 * INR n + 3) / (INR (n + 2) * INR (n + 1)) * a (S (S n)).
Proof. assert (E : others (S n) = (b (S n), b (S (S n)))) by apply others_is. cbn [others] in E. rewrite others_is in E. injection E. intros ->. reflexivity. Qed.
Lemma b_bounded r : 0 <= r -> exists M, forall n, Rabs (b n * r ^ n) <= M.
Proof.
  intros Hr. destruct (step_small r Hr) as [N H]. destruct (a_bounded r Hr) as [K HK].
  assert (K0 : 0 <= K) by (eapply Rle_trans; [apply Rabs_pos | apply (HK O)]). pose proof (Rabs_pos eta) as E0.
  apply (bounded_shrink (fun n => b n * r ^ n) N (6 * Rabs eta * K)); [nra|]. intros n Hn. rewrite b_step. rewrite Rmult_minus_distr_r. eapply Rle_trans; [apply Rabs_triang|].
  apply Rplus_le_compat; [apply step_bound; [exact Hr | apply H; exact Hn]|]. rewrite Rabs_Ropp, Rmult_assoc, Rabs_mult. apply Rmult_le_compat; [apply Rabs_pos | apply Rabs_pos | | apply HK].
  pose proof (product_pos n) as P. set (q := INR (n + 2) * INR (n + 1)) in *. assert (Q : 2 * INR n + 3 <= 3 * q). { unfold q. rewrite !plus_INR. cbn [INR]. pose proof (pos_INR n). nra. }
  unfold Rdiv. rewrite Rabs_mult, (Rabs_pos_eq (/ q)) by (apply Rlt_le, Rinv_0_lt_compat, P). pose proof (pos_INR n). rewrite !Rabs_mult, (Rabs_pos_eq 2), (Rabs_pos_eq (2 * INR n + 3)) by lra.
  apply (Rmult_le_reg_r q); [exact P|]. rewrite Rmult_assoc, Rinv_l by lra. nra.
Qed.
Lemma b_radius : CV_radius b = p_infty.
Proof. apply infinite. exact b_bounded. Qed.

(** * The functions, with their slopes *)
Definition da : nat -> R := PS_derive a.
Definition dda : nat -> R := PS_derive da.
Definition db : nat -> R := PS_derive b.
Definition ddb : nat -> R := PS_derive db.
Definition u (r : R) : R := PSeries a r.
Definition u1 (r : R) : R := PSeries da r.
Definition v (r : R) : R := PSeries b r + 2 * eta * (ln r * u r).
Definition v1 (r : R) : R := PSeries db r + 2 * eta * (u r / r + ln r * u1 r).
Lemma da_radius : CV_radius da = p_infty.
Proof. unfold da. rewrite CV_radius_derive. exact a_radius. Qed.
Lemma db_radius : CV_radius db = p_infty.
Proof. unfold db. rewrite CV_radius_derive. exact b_radius. Qed.
Lemma dda_radius : CV_radius dda = p_infty.
Proof. unfold dda. rewrite CV_radius_derive. exact da_radius. Qed.
Lemma ddb_radius : CV_radius ddb = p_infty.
Proof. unfold ddb. rewrite CV_radius_derive. exact db_radius. Qed.
Lemma converges c r : CV_radius c = p_infty -> ex_pseries c r.
Proof. intros H. apply CV_radius_inside. rewrite H. exact Logic.I. Qed.
Lemma u_derive r : is_derive u r (u1 r).
Proof. apply is_derive_PSeries. rewrite a_radius. exact Logic.I. Qed.
Lemma u1_derive r : is_derive u1 r (PSeries dda r).
Proof. apply is_derive_PSeries. rewrite da_radius. exact Logic.I. Qed.
(** the equations, term by term *)
Lemma sums (c : nat -> R) (r : R) : CV_radius c = p_infty -> is_pseries c r (PSeries c r).
Proof. intros H. apply PSeries_correct, converges, H. Qed.
Lemma incr (c : nat -> R) (r x : R) : is_pseries c r x -> is_pseries (PS_incr_1 c) r (r * x).
Proof. exact (is_pseries_incr_1 c r x). Qed.
Lemma times (k : R) (c : nat -> R) (r x : R) : is_pseries c r x -> is_pseries (PS_scal k c) r (k * x).
Proof. intros H. apply (is_pseries_scal k c r x); [apply Rmult_comm | exact H]. Qed.
Lemma plus_ (c d : nat -> R) (r x y : R) : is_pseries c r x -> is_pseries d r y -> is_pseries (PS_plus c d) r (x + y).
Proof. exact (is_pseries_plus c d r x y). Qed.
Lemma same (c d : nat -> R) (r x y : R) : is_pseries c r x -> is_pseries d r y -> (forall n, c n = d n) -> x = y.
Proof. intros H K E. rewrite <- (is_pseries_unique _ _ _ H), <- (is_pseries_unique _ _ _ K). apply PSeries_ext, E. Qed.
Lemma INR_2 m : INR (S (S m)) = INR m + 2.
Proof. rewrite !S_INR. lra. Qed.
Lemma u_equation r : r * PSeries dda r = 2 * eta * u r + - 1 * (r * u r).
Proof.
  pose proof (incr _ r _ (sums dda r dda_radius)) as L. pose proof (plus_ _ _ r _ _ (times (2 * eta) _ r _ (sums a r a_radius)) (times (- 1) _ r _ (incr _ r _ (sums a r a_radius)))) as M.
  apply (same _ _ r _ _ L M). intros [|m]; unfold PS_incr_1, PS_plus, PS_scal, plus, scal, zero; cbn [AbelianGroup.plus]; cbn -[INR a].
  - unfold mult; cbn. ring.
  - unfold mult; cbn -[INR a]. unfold dda, da, PS_derive. rewrite a_step. pose proof (product_pos m) as P. rewrite !plus_INR in *. rewrite !S_INR. cbn [INR] in *. field. nra.
Qed.
Lemma v_equation r : r * (r * PSeries ddb r) + 2 * eta * (2 * (r * u1 r) + - 1 * u r) = 2 * eta * (r * PSeries b r) + - 1 * (r * (r * PSeries b r)).
Proof.
  pose proof (plus_ _ _ r _ _ (incr _ r _ (incr _ r _ (sums ddb r ddb_radius))) (times (2 * eta) _ r _ (plus_ _ _ r _ _ (times 2 _ r _ (incr _ r _ (sums da r da_radius))) (times (- 1) _ r _ (sums a r a_radius))))) as L.
  pose proof (plus_ _ _ r _ _ (times (2 * eta) _ r _ (incr _ r _ (sums b r b_radius))) (times (- 1) _ r _ (incr _ r _ (incr _ r _ (sums b r b_radius))))) as M.
  apply (same _ _ r _ _ L M). intros [|[|m]]; unfold PS_incr_1, PS_plus, PS_scal, plus, scal, zero; cbn [AbelianGroup.plus]; cbn -[INR a b].
  - unfold mult; cbn. ring.
  - unfold mult; cbn -[INR]. unfold da, PS_derive. cbn. ring.
  - unfold mult; cbn -[INR a b]. unfold ddb, db, da, PS_derive. rewrite b_step. pose proof (product_pos m) as P. rewrite !plus_INR in *. rewrite !S_INR. cbn [INR] in *. field. nra.
Qed.
Lemma u1_equation r : 0 < r -> is_derive u1 r (acceleration eta r (u r)).
Proof.
  intros Hr. evar_last; [apply u1_derive|]. unfold acceleration. pose proof (u_equation r) as E. apply (Rmult_eq_reg_l r); [|lra]. rewrite E. field. lra.
Qed.
Lemma v_derive r : 0 < r -> is_derive v r (v1 r).
Proof.
  intros Hr. evar_last.
  { apply (is_derive_plus (PSeries b)); [apply is_derive_PSeries; rewrite b_radius; exact Logic.I|]. apply is_derive_scal.
    apply (is_derive_mult ln u); [apply is_derive_ln; exact Hr | apply u_derive | intros; apply Rmult_comm]. }
  unfold plus, mult, scal; cbn. unfold v1, db, Rdiv. ring.
Qed.
Lemma v1_equation r : 0 < r -> is_derive v1 r (acceleration eta r (v r)).
Proof.
  intros Hr. evar_last.
  { apply (is_derive_plus (PSeries db)); [apply is_derive_PSeries; rewrite db_radius; exact Logic.I|]. apply is_derive_scal.
    apply (is_derive_plus (fun r => u r / r)).
    - apply (is_derive_div u (fun r => r)); [apply u_derive | apply is_derive_id | lra].
    - apply (is_derive_mult ln u1); [apply is_derive_ln; exact Hr | apply u1_equation; exact Hr | intros; apply Rmult_comm]. }
  unfold plus, minus, opp, mult, scal, one; cbn. unfold mult; cbn. fold ddb. pose proof (v_equation r) as E. unfold acceleration, v.
  apply (Rmult_eq_reg_l (r * r)); [|apply Rgt_not_eq, Rmult_lt_0_compat; assumption].
  match goal with |- @eq _ ?x ?y => change (@eq R x y) end. 
  transitivity (r * (r * PSeries ddb r) + 2 * eta * (2 * (r * u1 r) + - 1 * u r) + 2 * eta * (r * r * ln r * ((2 * eta / r - 1) * u r))).
  - unfold acceleration. field. lra.
  - rewrite E. field. lra.
Qed.
(** * They are independent: their Wronskian is - 1 *)
Lemma constant (f : R -> R) : (forall r, 0 < r -> is_derive f r 0) -> forall r s, 0 < r -> 0 < s -> f r = f s.
Proof.
  intros D. assert (L : forall r s, 0 < r -> r <= s -> f r = f s).
  { intros r s Hr Hs. destruct (Rle_lt_or_eq_dec r s Hs) as [L|<-]; [|reflexivity].
    destruct (MVT_gen f r s (fun _ => 0)) as (c & _ & E).
    - intros x Hx. apply D. rewrite Rmin_left, Rmax_right in Hx by lra. lra.
    - intros x Hx. rewrite Rmin_left, Rmax_right in Hx by lra. apply continuity_pt_filterlim, (ex_derive_continuous f). exists 0. apply D. lra.
    - lra. }
  intros r s Hr Hs. destruct (Rle_or_lt r s) as [H|H]; [apply L; assumption | symmetry; apply L; lra].
Qed.
Lemma wronskian_derive (f f1 g g1 : R -> R) r p q : is_derive f r (f1 r) -> is_derive f1 r p -> is_derive g r (g1 r) -> is_derive g1 r q ->
  is_derive (fun r => f r * g1 r - f1 r * g r) r (f r * q - p * g r).
Proof.
  intros A B C D. evar_last.
  { apply (is_derive_minus (fun r => f r * g1 r) (fun r => f1 r * g r)); [apply (is_derive_mult f g1); [exact A | exact D | intros; apply Rmult_comm] | apply (is_derive_mult f1 g); [exact B | exact C | intros; apply Rmult_comm]]. }
  unfold minus, plus, opp, mult; cbn. ring.
Qed.
Theorem independent r : 0 < r -> u r * v1 r - u1 r * v r = - 1.
Proof.
  intros Hr. set (W := fun r => u r * v1 r - u1 r * v r). 
  assert (D : forall r, 0 < r -> is_derive W r 0).
  { intros s Hs. evar_last; [apply (wronskian_derive u u1 v v1 s (acceleration eta s (u s)) (acceleration eta s (v s))); [apply u_derive | apply u1_equation; exact Hs | apply v_derive; exact Hs | apply v1_equation; exact Hs]|]. unfold acceleration. ring. }
  change (W r = - 1). 
  set (q := fun r => PSeries a r * PSeries db r - PSeries da r * PSeries b r + 2 * eta * (PSeries (PS_decr_1 a) r * PSeries a r)).
  assert (E : forall s, 0 < s -> W s = q s).
  { intros s Hs. unfold W, q, v, v1. fold (u s) (u1 s). assert (X : u s = s * PSeries (PS_decr_1 a) s).
    { unfold u. rewrite PSeries_decr_1 by (apply converges, a_radius). change (a 0) with 0. ring. }
    rewrite X. field. lra. }
  assert (C : continuous q 0).
  { assert (K : forall c, CV_radius c = p_infty -> continuous (PSeries c) 0) by (intros c Hc; apply (ex_derive_continuous (PSeries c)); eexists; apply is_derive_PSeries; rewrite Hc; exact Logic.I).
    assert (Z : CV_radius (PS_decr_1 a) = p_infty) by (rewrite CV_radius_decr_1; exact a_radius).
    apply (continuous_plus (fun r => PSeries a r * PSeries db r - PSeries da r * PSeries b r)).
    - apply (continuous_minus (fun r => PSeries a r * PSeries db r)); apply (continuous_mult (K := R_AbsRing)); apply K; [apply a_radius | apply db_radius | apply da_radius | apply b_radius].
    - apply (continuous_scal_r (2 * eta) (fun r => PSeries (PS_decr_1 a) r * PSeries a r)). apply (continuous_mult (K := R_AbsRing)); apply K; [exact Z | apply a_radius]. }
  assert (Q0 : q 0 = - 1).
  { unfold q. rewrite !PSeries_0. change (a 0) with 0. change (b 0) with 1. unfold da, PS_derive. change (a 1) with 1. cbn [INR]. ring. }
  rewrite <- Q0. apply (filterlim_locally_unique (F := at_right 0) q).
  - apply (filterlim_ext_loc (fun _ => W r)); [|apply filterlim_const]. exists (mkposreal 1 Rlt_0_1). intros s _ Hs. rewrite <- E by exact Hs. apply (constant W D); assumption.
  - eapply filterlim_filter_le_1; [|exact C]. apply filter_le_within.
Qed.
End Series.
