(** The irregular Coulomb function exists, is unique, and is near everything that nearly solves the
    Coulomb equation and looks like it far away. *)
From Coq Require Import Reals Lra Lia.
From Coquelicot Require Import Coquelicot.
From Verif Require Import NewmarkSpec AsymptoticSpec AsymptoticProofs SigmaSpec SigmaProofs IrregularSpec IrregularSeries.
Open Scope R_scope.

Lemma rising (f d : R -> R) a : (forall r, a <= r -> is_derive f r (d r)) -> (forall r, a <= r -> 0 <= d r) -> forall r s, a <= r -> r <= s -> f r <= f s.
Proof.
  intros D P r s Hr Hs. destruct (Rle_lt_or_eq_dec r s Hs) as [L|<-]; [|lra].
  destruct (MVT_gen f r s d) as (c & Hc & E).
  - intros x Hx. apply D. rewrite Rmin_left, Rmax_right in Hx by lra. lra.
  - intros x Hx. rewrite Rmin_left, Rmax_right in Hx by lra. apply continuity_pt_filterlim, (ex_derive_continuous f). eexists. apply D. lra.
  - rewrite Rmin_left, Rmax_right in Hc by lra. pose proof (P c ltac:(lra)). nra.
Qed.
Lemma sqrt_shift a b : 0 <= a -> 0 <= b -> sqrt (a + b) <= sqrt a + sqrt b.
Proof.
  intros Ha Hb. pose proof (sqrt_pos a) as A. pose proof (sqrt_pos b) as B. pose proof (sqrt_sqrt a Ha) as A2. pose proof (sqrt_sqrt b Hb) as B2. rewrite <- (sqrt_square (sqrt a + sqrt b)) by lra. apply sqrt_le_1_alt. nra.
Qed.

(** * The energy of the difference *)
Section Energy.
Variables (eta a d : R) (f f1 rem G G1 B B1 : R -> R).
Hypothesis eta0 : 0 <= eta.
Hypothesis a0 : 2 * eta < a.
Hypothesis f_slope : forall r, a <= r -> is_derive f r (f1 r).
Hypothesis f_equation : forall r, a <= r -> is_derive f1 r (acceleration eta r (f r) + rem r).
Hypothesis G_slope : forall r, a <= r -> is_derive G r (G1 r).
Hypothesis G_equation : forall r, a <= r -> is_derive G1 r (acceleration eta r (G r)).
Hypothesis B_slope : forall r, a <= r -> is_derive B r (B1 r).
Hypothesis rem_small : forall r, a <= r -> Rabs (rem r) <= - B1 r.
Hypothesis B_far : is_lim B p_infty 0.
Hypothesis d0 : 0 <= d.
Hypothesis far : forall e, 0 < e -> exists M, forall r, M <= r -> (f r - G r) ^ 2 + (f1 r - G1 r) ^ 2 <= d ^ 2 + e.
Definition energy (r : R) : R := (1 - 2 * eta / r) * (f r - G r) ^ 2 + (f1 r - G1 r) ^ 2.
Definition energy1 (r : R) : R := 2 * eta / r ^ 2 * (f r - G r) ^ 2 + 2 * (f1 r - G1 r) * rem r.
Lemma energy_derive r : a <= r -> is_derive energy r (energy1 r).
Proof.
  intros Hr. assert (R0 : 0 < r) by lra.
  assert (D : is_derive (fun r => f r - G r) r (f1 r - G1 r)) by (apply (is_derive_minus f G); [apply f_slope | apply G_slope]; exact Hr).
  assert (D1 : is_derive (fun r => f1 r - G1 r) r (acceleration eta r (f r) + rem r - acceleration eta r (G r))) by (apply (is_derive_minus f1 G1); [apply f_equation | apply G_equation]; exact Hr).
  evar_last.
  { apply (is_derive_plus (fun r => (1 - 2 * eta / r) * (f r - G r) ^ 2) (fun r => (f1 r - G1 r) ^ 2)).
    - apply (is_derive_mult (fun r => 1 - 2 * eta / r) (fun r => (f r - G r) ^ 2)); [auto_derive; [lra | reflexivity] | apply (is_derive_pow (fun r => f r - G r)); exact D | intros; apply Rmult_comm].
    - apply (is_derive_pow (fun r => f1 r - G1 r)); exact D1. }
  unfold plus, mult; cbn. unfold energy1, acceleration. match goal with |- @eq _ ?x ?y => change (@eq R x y) end. field. lra.
Qed.
Lemma factor_pos r : a <= r -> 0 < 1 - 2 * eta / r <= 1.
Proof.
  intros Hr. assert (0 < r) by lra. assert (2 * eta / r < 1) by (apply (Rmult_lt_reg_r r); [lra|]; unfold Rdiv; rewrite Rmult_assoc, Rinv_l by lra; lra).
  assert (0 <= 2 * eta / r) by (apply Rdiv_le_0_compat; lra). lra.
Qed.
Lemma energy_pos r : a <= r -> (f1 r - G1 r) ^ 2 <= energy r <= (f r - G r) ^ 2 + (f1 r - G1 r) ^ 2.
Proof. intros Hr. pose proof (factor_pos r Hr) as F. unfold energy. pose proof (pow2_ge_0 (f r - G r)). nra. Qed.
Lemma energy_bound r : a <= r -> sqrt (energy r) <= d + B r.
Proof.
  intros Hr. apply le_epsilon. intros e He. set (e2 := (e / 3) ^ 2). assert (E2 : 0 < e2) by (apply pow_lt; lra). assert (S2 : sqrt e2 = e / 3) by (apply sqrt_pow2; lra).
  destruct (far e2 E2) as [M HM]. apply is_lim_spec in B_far. destruct (B_far (mkposreal (e / 6) ltac:(lra))) as [M' HM']. cbn in HM'.
  set (s := Rmax r (Rmax M (M' + 1))). assert (Hs : r <= s) by apply Rmax_l. assert (HsM : M <= s) by (eapply Rle_trans; [apply Rmax_l | apply Rmax_r]). assert (HsM' : M' + 1 <= s) by (eapply Rle_trans; [apply Rmax_r | apply Rmax_r]).
  assert (P : forall r, a <= r -> 0 < energy r + (e / 6) ^ 2). { intros x Hx. pose proof (energy_pos x Hx). pose proof (pow2_ge_0 (f1 x - G1 x)). assert (0 < (e / 6) ^ 2) by (apply pow_lt; lra). lra. }
  assert (R1 : sqrt (energy r + (e / 6) ^ 2) - B r <= sqrt (energy s + (e / 6) ^ 2) - B s).
  { apply (rising (fun r => sqrt (energy r + (e / 6) ^ 2) - B r) (fun r => energy1 r / (2 * sqrt (energy r + (e / 6) ^ 2)) - B1 r) a); [| |exact Hr | exact Hs].
    - intros x Hx. apply (is_derive_minus (fun r => sqrt (energy r + (e / 6) ^ 2)) B); [|apply B_slope; exact Hx].
      apply (is_derive_sqrt (fun r => energy r + (e / 6) ^ 2)); [|apply P; exact Hx]. evar_last; [apply (is_derive_plus energy (fun _ => (e / 6) ^ 2)); [apply energy_derive; exact Hx | apply @is_derive_const]|]. unfold plus, zero; cbn. ring.
    - intros x Hx. pose proof (P x Hx) as Q. set (q := sqrt (energy x + (e / 6) ^ 2)). assert (Q0 : 0 < q) by (apply sqrt_lt_R0; exact Q).
      assert (K : Rabs (f1 x - G1 x) <= q). { rewrite <- sqrt_Rsqr_abs. apply sqrt_le_1_alt. unfold Rsqr. pose proof (energy_pos x Hx). assert (0 < (e / 6) ^ 2) by (apply pow_lt; lra). nra. }
      pose proof (rem_small x Hx) as S. assert (L : - (2 * q * Rabs (rem x)) <= energy1 x).
      { unfold energy1. assert (0 <= 2 * eta / x ^ 2) by (apply Rdiv_le_0_compat; [lra | apply pow_lt; lra]). pose proof (pow2_ge_0 (f x - G x)).
        assert (T : - (Rabs (f1 x - G1 x) * Rabs (rem x)) <= (f1 x - G1 x) * rem x) by (rewrite <- Rabs_mult; pose proof (Rle_abs (- ((f1 x - G1 x) * rem x))) as V; rewrite Rabs_Ropp in V; lra).
        pose proof (Rabs_pos (rem x)). nra. }
      assert (- Rabs (rem x) <= energy1 x / (2 * q)); [|lra]. apply (Rmult_le_reg_r (2 * q)); [lra|]. unfold Rdiv. rewrite Rmult_assoc, Rinv_l by lra. lra. }
  assert (A : sqrt (energy r) <= sqrt (energy r + (e / 6) ^ 2)) by (apply sqrt_le_1_alt; pose proof (pow2_ge_0 (e / 6)); lra).
  assert (C : sqrt (energy s + (e / 6) ^ 2) <= d + e / 3 + e / 6).
  { pose proof (energy_pos s ltac:(lra)) as [E0 E1]. pose proof (pow2_ge_0 (f1 s - G1 s)). eapply Rle_trans; [apply sqrt_shift; [lra | apply pow2_ge_0]|]. rewrite (sqrt_pow2 (e / 6)) by lra. apply Rplus_le_compat_r.
    apply Rle_trans with (sqrt (d ^ 2 + e2)); [apply sqrt_le_1_alt; specialize (HM s HsM); lra|]. eapply Rle_trans; [apply sqrt_shift; [apply pow2_ge_0 | lra]|]. rewrite S2, sqrt_pow2 by exact d0. lra. }
  specialize (HM' s ltac:(lra)). rewrite Rminus_0_r in HM'. apply Rabs_def2 in HM'. lra.
Qed.
Theorem near r : a <= r -> Rabs (f1 r - G1 r) <= d + B r /\ sqrt (1 - 2 * eta / r) * Rabs (f r - G r) <= d + B r.
Proof.
  intros Hr. pose proof (energy_bound r Hr) as E. pose proof (energy_pos r Hr) as [E0 _]. pose proof (factor_pos r Hr) as F. split.
  - eapply Rle_trans; [|exact E]. rewrite <- sqrt_Rsqr_abs. apply sqrt_le_1_alt. unfold Rsqr. lra.
  - eapply Rle_trans; [|exact E]. rewrite <- (sqrt_Rsqr_abs (f r - G r)), <- sqrt_mult by (lra || apply Rle_0_sqr). apply sqrt_le_1_alt. unfold energy, Rsqr. pose proof (pow2_ge_0 (f1 r - G1 r)). lra.
Qed.
End Energy.

(** * Solutions stay bounded *)
Lemma solution_bounded eta w w1 : 0 <= eta -> (forall r, 0 < r -> is_derive w r (w1 r)) -> (forall r, 0 < r -> is_derive w1 r (acceleration eta r (w r))) ->
  exists C, 0 < C /\ forall r, 4 * eta + 1 <= r -> Rabs (w r) <= C /\ Rabs (w1 r) <= C.
Proof.
  intros He D D1. set (a := 4 * eta + 1). set (E := fun r => - (((1 - 2 * eta / r) * w r ^ 2 + w1 r ^ 2) * exp (4 * eta / r))).
  assert (H : forall r, a <= r -> is_derive E r (2 * eta / r ^ 2 * (w r ^ 2 * (1 - 4 * eta / r) + 2 * w1 r ^ 2) * exp (4 * eta / r))).
  { intros r Hr. assert (R0 : 0 < r) by (unfold a in Hr; lra). evar_last.
    { apply (is_derive_opp (fun r => ((1 - 2 * eta / r) * w r ^ 2 + w1 r ^ 2) * exp (4 * eta / r))).
      apply (is_derive_mult (fun r => (1 - 2 * eta / r) * w r ^ 2 + w1 r ^ 2) (fun r => exp (4 * eta / r))); [| |intros; apply Rmult_comm].
      - apply (is_derive_plus (fun r => (1 - 2 * eta / r) * w r ^ 2)).
        + apply (is_derive_mult (fun r => 1 - 2 * eta / r) (fun r => w r ^ 2)); [auto_derive; [lra | reflexivity] | apply (is_derive_pow w); apply D; exact R0 | intros; apply Rmult_comm].
        + apply (is_derive_pow w1); apply D1; exact R0.
      - apply (is_derive_comp exp (fun r => 4 * eta / r)); [apply is_derive_exp | auto_derive; [lra | reflexivity]]. }
    unfold opp, plus, mult, scal; cbn. unfold mult; cbn. unfold acceleration. match goal with |- @eq _ ?x ?y => change (@eq R x y) end. field. lra. }
  assert (S : forall r, a <= r -> 0 <= 2 * eta / r < 1 / 2).
  { intros r Hr. unfold a in Hr. split; [apply Rdiv_le_0_compat; lra|]. apply (Rmult_lt_reg_r r); [lra|]. unfold Rdiv. rewrite Rmult_assoc, Rinv_l by lra. lra. }
  assert (I : forall r, a <= r -> E a <= E r).
  { intros r Hr. apply (rising E _ a H); [|unfold a; lra | exact Hr]. intros s Hs. pose proof (S s Hs) as Q. unfold a in Hs. assert (0 < exp (4 * eta / s)) by apply exp_pos. assert (0 <= 2 * eta / s ^ 2) by (apply Rdiv_le_0_compat; [lra | apply pow_lt; lra]).
    replace (4 * eta / s) with (2 * (2 * eta / s)) at 1 by (field; lra). pose proof (pow2_ge_0 (w s)). pose proof (pow2_ge_0 (w1 s)). apply Rmult_le_pos; [|lra]. apply Rmult_le_pos; [lra | nra]. }
  set (K := - E a). exists (1 + 2 * K). assert (K0 : 0 <= K). { unfold K, E. rewrite Ropp_involutive. pose proof (S a ltac:(unfold a; lra)). pose proof (exp_pos (4 * eta / a)). pose proof (pow2_ge_0 (w a)). pose proof (pow2_ge_0 (w1 a)). apply Rmult_le_pos; [nra | lra]. }
  split; [lra|]. intros r Hr. specialize (I r Hr). pose proof (S r Hr) as Q. assert (X : 1 <= exp (4 * eta / r)). { pose proof (exp_ineq1_le (4 * eta / r)). replace (4 * eta / r) with (2 * (2 * eta / r)) in * by (field; unfold a in Hr; lra). lra. }
  assert (Y : (1 - 2 * eta / r) * w r ^ 2 + w1 r ^ 2 <= K). { unfold K. pose proof (pow2_ge_0 (w r)). pose proof (pow2_ge_0 (w1 r)). unfold E at 2 in I. set (x := _ + w1 r ^ 2) in *. assert (0 <= x) by (unfold x; nra). nra. }
  pose proof (pow2_ge_0 (w r)) as W0. pose proof (pow2_ge_0 (w1 r)) as W1.
  assert (T : forall x, x ^ 2 <= 2 * K -> Rabs x <= 1 + 2 * K). { intros x Hx. apply Rabs_le. nra. }
  split; apply T; nra.
Qed.

(** * Combinations of the two series *)
Section Exists.
Variable eta : R.
Hypothesis eta0 : 0 <= eta.
Variable sigma : R.
Notation u := (u eta). Notation u1 := (u1 eta). Notation v := (v eta). Notation v1 := (v1 eta).
Definition c (r : R) : R := wave eta sigma 0 r.
Definition c1 (r : R) : R := slopes eta 0 r (theta eta sigma r).
Lemma c_is r : c r = cos (theta eta sigma r).
Proof. unfold c, wave, terms, turned. cbn [sum_f_R0 expansion fst snd pow]. field. Qed.
Lemma c1_is r : 0 < r -> c1 r = - ((1 - eta / r) * sin (theta eta sigma r)).
Proof. intros H. unfold c1, slopes, turned, times_i. cbn [sum_f_R0 expansion fst snd pow INR]. field. lra. Qed.
Lemma trig_le x : Rabs (cos x) <= 1 /\ Rabs (sin x) <= 1.
Proof. split; apply Rabs_le; [apply COS_bound | apply SIN_bound]. Qed.
Definition K : R := 2 * (Rabs (fst (expansion eta 1)) + Rabs (snd (expansion eta 1))).
Lemma K_pos : 0 <= K.
Proof. unfold K. pose proof (Rabs_pos (fst (expansion eta 1))). pose proof (Rabs_pos (snd (expansion eta 1))). lra. Qed.
Lemma rest_small r : 0 < r -> Rabs (remainder eta sigma 0 r) <= K / r ^ 2.
Proof.
  intros Hr. unfold remainder. change (0 + 2)%nat with 2%nat. assert (P : 0 < r ^ 2) by (apply pow_lt; exact Hr). unfold Rdiv. rewrite Rabs_mult, (Rabs_pos_eq (/ r ^ 2)) by (apply Rlt_le, Rinv_0_lt_compat, P).
  apply Rmult_le_compat_r; [apply Rlt_le, Rinv_0_lt_compat, P|]. cbn [INR]. replace (2 * (0 + 1)) with 2 by ring. rewrite Rabs_mult, (Rabs_pos_eq 2) by lra. unfold K. apply Rmult_le_compat_l; [lra|].
  set (q := expansion eta 1). unfold turned, times_i. cbn [fst snd]. destruct (trig_le (theta eta sigma r)) as [Tc Ts]. eapply Rle_trans; [apply Rabs_triang|]. rewrite Rabs_Ropp, !Rabs_mult, Rabs_Ropp.
  pose proof (Rabs_pos (fst q)). pose proof (Rabs_pos (snd q)). nra.
Qed.
Section One.
Variables w w1 : R -> R.
Hypothesis w_slope : forall r, 0 < r -> is_derive w r (w1 r).
Hypothesis w_equation : forall r, 0 < r -> is_derive w1 r (acceleration eta r (w r)).
Definition mixed (r : R) : R := c r * w1 r - c1 r * w r.
Lemma mixed_derive r : 0 < r -> is_derive mixed r (- (remainder eta sigma 0 r * w r)).
Proof.
  intros Hr. evar_last; [apply (wronskian_derive c c1 w w1 r _ _ (wave_slope eta sigma 0 r Hr) (wave_equation eta sigma 0 r Hr) (w_slope r Hr) (w_equation r Hr))|].
  unfold acceleration. fold (c r). ring.
Qed.
Lemma mixed_limit : exists l Q, 0 < Q /\ forall r, 4 * eta + 1 <= r -> Rabs (mixed r - l) <= Q / r.
Proof.
  destruct (solution_bounded eta w w1 eta0 w_slope w_equation) as (C & C0 & HC). set (Q := K * C + 1). assert (Q0 : 0 < Q) by (unfold Q; pose proof K_pos; nra).
  assert (S : forall r, 4 * eta + 1 <= r -> Rabs (remainder eta sigma 0 r * w r) <= Q / r ^ 2).
  { intros r Hr. assert (P : 0 < / r ^ 2) by (apply Rinv_0_lt_compat, pow_lt; lra). rewrite Rabs_mult. apply Rle_trans with (K / r ^ 2 * C).
    - apply Rmult_le_compat; [apply Rabs_pos | apply Rabs_pos | apply rest_small; lra | apply HC; exact Hr].
    - unfold Q, Rdiv. nra. }
  assert (M : forall sg r s, Rabs sg = 1 -> 4 * eta + 1 <= r -> r <= s -> sg * (mixed s - mixed r) <= Q / r - Q / s).
  { intros sg r s Hsg Hr Hs. pose proof (rising (fun r => - (Q / r) - sg * mixed r) (fun r => Q / r ^ 2 - sg * - (remainder eta sigma 0 r * w r)) (4 * eta + 1)) as R1.
    assert (- (Q / r) - sg * mixed r <= - (Q / s) - sg * mixed s); [|lra]. apply R1; try assumption.
    - intros x Hx. apply (is_derive_minus (fun r => - (Q / r)) (fun r => sg * mixed r)); [auto_derive; [lra | field; lra] | apply is_derive_scal, mixed_derive; lra].
    - intros x Hx. pose proof (S x Hx) as T. assert (Rabs (sg * - (remainder eta sigma 0 x * w x)) <= Q / x ^ 2) by (rewrite Rabs_mult, Hsg, Rabs_Ropp; lra). pose proof (Rle_abs (sg * - (remainder eta sigma 0 x * w x))). lra. }
  assert (N : forall r s, 4 * eta + 1 <= r -> r <= s -> Rabs (mixed s - mixed r) <= Q / r - Q / s).
  { intros r s Hr Hs. pose proof (M 1 r s ltac:(apply Rabs_R1) Hr Hs). pose proof (M (- 1) r s ltac:(rewrite Rabs_left; lra) Hr Hs). apply Rabs_le. lra. }
  assert (V : forall r s, 4 * eta + 1 <= r -> r <= s -> 0 <= Q / s <= Q / r).
  { intros r s Hr Hs. split; [apply Rdiv_le_0_compat; lra|]. unfold Rdiv. apply Rmult_le_compat_l; [lra|]. apply Rinv_le_contravar; lra. }
  assert (CV : ex_finite_lim_seq (fun n => mixed (INR n))).
  { apply ex_lim_seq_cauchy_corr. intros e. destruct (large (4 * eta + 1 + Q / e)) as [n0 Hn]. exists n0.
    assert (T : forall n m, (n0 <= n)%nat -> (n <= m)%nat -> Rabs (mixed (INR n) - mixed (INR m)) < e).
    { intros n m Hn0 Hm. specialize (Hn n Hn0). pose proof (cond_pos e) as E0. assert (X : 0 < Q / e) by (apply Rdiv_lt_0_compat; assumption). apply le_INR in Hm. rewrite Rabs_minus_sym.
      pose proof (N (INR n) (INR m) ltac:(lra) Hm) as A. pose proof (V (INR n) (INR m) ltac:(lra) Hm). assert (Y : Q / INR n < e); [|lra].
      apply (Rmult_lt_reg_r (INR n)); [lra|]. unfold Rdiv. rewrite Rmult_assoc, Rinv_l by lra. replace (Q * 1) with (Q / e * e) by (field; lra). nra. }
    intros n m Hn0 Hm0. destruct (Nat.le_ge_cases n m) as [L|L]; [apply T; assumption | rewrite Rabs_minus_sym; apply T; assumption]. }
  destruct CV as [l Hl]. exists l, Q. split; [exact Q0|]. intros r Hr.
  assert (L : is_lim_seq (fun n => Rabs (mixed (INR n) - mixed r)) (Rabs (l - mixed r))).
  { apply (is_lim_seq_abs _ (Finite (l - mixed r))). apply is_lim_seq_minus'; [exact Hl | apply is_lim_seq_const]. }
  rewrite Rabs_minus_sym. assert (U : Rbar_le (Finite (Rabs (l - mixed r))) (Finite (Q / r))); [|exact U].
  apply (is_lim_seq_le_loc (fun n => Rabs (mixed (INR n) - mixed r)) (fun _ => Q / r)); [|exact L | apply is_lim_seq_const].
  destruct (large r) as [n0 Hn]. exists n0. intros n Hn0. specialize (Hn n Hn0). pose proof (N r (INR n) Hr Hn). pose proof (V r (INR n) Hr Hn). lra.
Qed.
End One.
Theorem combination : exists G G1 C, (forall r, 0 < r -> is_derive G r (G1 r)) /\ (forall r, 0 < r -> is_derive G1 r (acceleration eta r (G r))) /\ 0 < C /\
  forall r, 4 * eta + 1 <= r -> Rabs (G r - cos (theta eta sigma r)) <= C / r /\ Rabs (G1 r + sin (theta eta sigma r)) <= C / r.
Proof.
  pose proof (fun r (_ : 0 < r) => u_derive eta r) as U. pose proof (u1_equation eta) as U1. pose proof (v_derive eta) as V. pose proof (v1_equation eta) as V1.
  destruct (mixed_limit u u1 U U1) as (p & P & P0 & Hp). destruct (mixed_limit v v1 V V1) as (q & Q & Q0 & Hq).
  destruct (solution_bounded eta u u1 eta0 U U1) as (C & C0 & HC). destruct (solution_bounded eta v v1 eta0 V V1) as (D & D0 & HD).
  exists (fun r => v r * p - u r * q), (fun r => v1 r * p - u1 r * q), (D * P + C * Q + eta).
  assert (L : forall a b, (forall r, 0 < r -> forall (x y : R -> R) dx dy, is_derive x r dx -> is_derive y r dy -> is_derive (fun r => x r * a - y r * b) r (dx * a - dy * b))).
  { intros a b r _ x y dx dy X Y. evar_last; [apply (is_derive_minus (fun r => x r * a) (fun r => y r * b)); apply (is_derive_scal_l (V := R_NormedModule)); eassumption|]. reflexivity. }
  split; [|split; [|split]].
  - intros r Hr. apply L; [exact Hr | apply V; exact Hr | apply U; exact Hr].
  - intros r Hr. evar_last; [apply L; [exact Hr | apply V1; exact Hr | apply U1; exact Hr]|]. unfold acceleration. ring.
  - assert (0 < D * P) by (apply Rmult_lt_0_compat; assumption). assert (0 < C * Q) by (apply Rmult_lt_0_compat; assumption). lra.
  - intros r Hr. assert (R0 : 0 < r) by lra. pose proof (independent eta r R0) as W. specialize (Hp r Hr). specialize (Hq r Hr). specialize (HC r Hr). specialize (HD r Hr). destruct HC as [HC HC1]. destruct HD as [HD HD1].
    assert (A : forall x y, Rabs x <= D -> Rabs y <= C -> Rabs (x * (p - mixed u u1 r) - y * (q - mixed v v1 r)) <= (D * P + C * Q) / r).
    { intros x y Hx Hy. eapply Rle_trans; [apply Rabs_triang|]. rewrite Rabs_Ropp, !Rabs_mult. replace ((D * P + C * Q) / r) with (D * (P / r) + C * (Q / r)) by (field; lra).
      apply Rplus_le_compat; (apply Rmult_le_compat; [apply Rabs_pos | apply Rabs_pos | assumption | rewrite Rabs_minus_sym; assumption]). }
    assert (E0 : eta / r >= 0) by (apply Rle_ge, Rdiv_le_0_compat; lra).
    split.
    + rewrite <- c_is. replace (v r * p - u r * q - c r) with (v r * (p - mixed u u1 r) - u r * (q - mixed v v1 r)) by (unfold mixed; replace (c r) with (- (u r * v1 r - u1 r * v r) * c r) at 3 by (rewrite W; ring); ring).
      eapply Rle_trans; [apply A; assumption|]. unfold Rdiv in *. nra.
    + replace (v1 r * p - u1 r * q + sin (theta eta sigma r)) with (v1 r * (p - mixed u u1 r) - u1 r * (q - mixed v v1 r) + (c1 r + sin (theta eta sigma r))) by (unfold mixed; replace (c1 r) with (- (u r * v1 r - u1 r * v r) * c1 r) at 3 by (rewrite W; ring); ring).
      eapply Rle_trans; [apply Rabs_triang|]. rewrite c1_is by exact R0. replace (- ((1 - eta / r) * sin (theta eta sigma r)) + sin (theta eta sigma r)) with (eta / r * sin (theta eta sigma r)) by ring.
      replace ((D * P + C * Q + eta) / r) with ((D * P + C * Q) / r + eta / r) by (field; lra). apply Rplus_le_compat; [apply A; assumption|]. rewrite Rabs_mult, (Rabs_pos_eq (eta / r)) by lra. destruct (trig_le (theta eta sigma r)). nra.
Qed.
End Exists.
Lemma vanishes C (f : R -> R) a : 0 < C -> 0 < a -> (forall r, a <= r -> Rabs (f r) <= C / r) -> is_lim f p_infty 0.
Proof.
  intros HC Ha H. apply is_lim_spec. intros e. pose proof (cond_pos e) as E. exists (Rmax a (C / e)). intros r Hr. assert (R1 : a < r) by (eapply Rle_lt_trans; [apply Rmax_l | exact Hr]). assert (R2 : C / e < r) by (eapply Rle_lt_trans; [apply Rmax_r | exact Hr]).
  rewrite Rminus_0_r. eapply Rle_lt_trans; [apply H; lra|]. apply (Rmult_lt_reg_r r); [lra|]. unfold Rdiv. rewrite Rmult_assoc, Rinv_l by lra. replace (C * 1) with (C / e * e) by (field; lra). nra.
Qed.
Theorem irregular_exists eta : 0 <= eta -> exists G G1, irregular eta G G1.
Proof.
  intros He. destruct (phase_exists eta) as (sigma & Hs & _). destruct (combination eta He sigma) as (G & G1 & C & S & E & C0 & F). exists G, G1. split; [exact S | exact E|].
  intros s' Hs'. rewrite (phase_unique eta s' sigma Hs' Hs). split; (apply (vanishes C _ (4 * eta + 1)); [exact C0 | lra | intros r Hr; apply F; exact Hr]).
Qed.
(** * Only one *)
Theorem irregular_unique eta G G1 H H1 : 0 <= eta -> irregular eta G G1 -> irregular eta H H1 -> forall r, 0 < r -> G r = H r /\ G1 r = H1 r.
Proof.
  intros He IG IH. destruct (phase_exists eta) as (sigma & Hs & _). destruct (ir_far _ _ _ IG sigma Hs) as [FG FG1]. destruct (ir_far _ _ _ IH sigma Hs) as [FH FH1]. set (a := 2 * eta + 1).
  assert (N : forall r, a <= r -> G r = H r /\ G1 r = H1 r).
  { intros r Hr. destruct (near eta a 0 G G1 (fun _ => 0) H H1 (fun _ => 0) (fun _ => 0)) with (r := r) as [A B]; try (unfold a; lra); try exact Hr.
    - intros x Hx. apply IG. unfold a in Hx. lra.
    - intros x Hx. rewrite Rplus_0_r. apply IG. unfold a in Hx. lra.
    - intros x Hx. apply IH. unfold a in Hx. lra.
    - intros x Hx. apply IH. unfold a in Hx. lra.
    - intros x _. apply @is_derive_const.
    - intros x _. rewrite Rabs_R0. lra.
    - apply is_lim_const.
    - intros e E. apply is_lim_spec in FG, FG1, FH, FH1. set (k := Rmin 1 (e / 8)). assert (K0 : 0 < k) by (apply Rmin_pos; lra). assert (K1 : k <= 1) by apply Rmin_l. assert (K2 : k <= e / 8) by apply Rmin_r.
      destruct (FG (mkposreal k K0)) as [m0 M0]. destruct (FG1 (mkposreal k K0)) as [m1 M1]. destruct (FH (mkposreal k K0)) as [m2 M2]. destruct (FH1 (mkposreal k K0)) as [m3 M3]. cbn in M0, M1, M2, M3.
      exists (Rmax (Rmax m0 m1) (Rmax m2 m3) + 1). intros x Hx. pose proof (Rmax_l m0 m1). pose proof (Rmax_r m0 m1). pose proof (Rmax_l m2 m3). pose proof (Rmax_r m2 m3). pose proof (Rmax_l (Rmax m0 m1) (Rmax m2 m3)). pose proof (Rmax_r (Rmax m0 m1) (Rmax m2 m3)).
      specialize (M0 x ltac:(lra)). specialize (M1 x ltac:(lra)). specialize (M2 x ltac:(lra)). specialize (M3 x ltac:(lra)). rewrite Rminus_0_r in *.
      apply Rabs_def2 in M0, M1, M2, M3. set (t := theta eta sigma x) in *. assert (- (2 * k) < G x - H x < 2 * k) by lra. assert (- (2 * k) < G1 x - H1 x < 2 * k) by lra. nra.
    - rewrite Rplus_0_r in A, B. pose proof (Rabs_pos (G1 r - H1 r)). assert (Z : G1 r - H1 r = 0) by (apply Rabs_eq_0; lra).
      assert (P : 0 < sqrt (1 - 2 * eta / r)) by (apply sqrt_lt_R0; apply (factor_pos eta a); [exact He | unfold a; lra | exact Hr]). pose proof (Rabs_pos (G r - H r)). assert (Y : G r - H r = 0) by (apply Rabs_eq_0; nra). lra. }
  intros r Hr. set (D := fun r => G r - H r). set (D1 := fun r => G1 r - H1 r).
  assert (S : forall r, 0 < r -> is_derive D r (D1 r)) by (intros x Hx; apply (is_derive_minus G H); [apply IG | apply IH]; exact Hx).
  assert (S1 : forall r, 0 < r -> is_derive D1 r (acceleration eta r (D r))). { intros x Hx. evar_last; [apply (is_derive_minus G1 H1); [apply IG | apply IH]; exact Hx|]. unfold minus, plus, opp, acceleration, D; cbn. ring. }
  assert (K : forall w w1 : R -> R, (forall r, 0 < r -> is_derive w r (w1 r)) -> (forall r, 0 < r -> is_derive w1 r (acceleration eta r (w r))) -> D r * w1 r - D1 r * w r = 0).
  { intros w w1 W W1. transitivity ((fun r => D r * w1 r - D1 r * w r) a).
    - apply (constant (fun r => D r * w1 r - D1 r * w r)); [|exact Hr | unfold a; lra]. intros x Hx. evar_last; [apply (wronskian_derive D D1 w w1 x _ _ (S x Hx) (S1 x Hx) (W x Hx) (W1 x Hx))|]. unfold acceleration. ring.
    - destruct (N a ltac:(lra)) as [N0 N1]. cbv beta. unfold D, D1. rewrite N0, N1. ring. }
  pose proof (K (u eta) (u1 eta) (fun r _ => u_derive eta r) (u1_equation eta)) as KU. pose proof (K (v eta) (v1 eta) (v_derive eta) (v1_equation eta)) as KV. pose proof (independent eta r Hr) as W.
  assert (Z : D r = 0 /\ D1 r = 0).
  { split.
    - replace (D r) with (- (u eta r * v1 eta r - u1 eta r * v eta r) * D r) by (rewrite W; ring). transitivity (v eta r * (D r * u1 eta r - D1 r * u eta r) - u eta r * (D r * v1 eta r - D1 r * v eta r)); [ring | rewrite KU, KV; ring].
    - replace (D1 r) with (- (u eta r * v1 eta r - u1 eta r * v eta r) * D1 r) by (rewrite W; ring). transitivity (v1 eta r * (D r * u1 eta r - D1 r * u eta r) - u1 eta r * (D r * v1 eta r - D1 r * v eta r)); [ring | rewrite KU, KV; ring]. }
  unfold D, D1 in Z. lra.
Qed.
