(** The asymptotic expansion that starts the Coulomb wave functions above the turning point. *)
From Coq Require Import ZArith Reals Bool Lia Lra.
From Coquelicot Require Import Coquelicot.
From Verif Require Import ListFacts CoulombWaveModel CoulombWaveSpec CoulombExactModel CoulombExactProofs CoulombRealProofs.
Open Scope R_scope.

(** * The expansion as a function of x = 2 eta / rho; z is 1 / (2 eta) *)
Definition u1 (x : R) : R := 1 / (1 - x).
Definition u2 (x : R) : R := sqrt (1 - x).
Definition v0 (z x : R) : R := z * z * u1 x * u1 x * u1 x.
Definition a1 (x : R) : R := - (x * (9 * x - 12) + 8) / 48.
Definition a2 (x : R) : R := - (x * (x * (x * (x * (x * (- 1890 * x + 7560) - 12240) - 13440) + 16128) - 9216) + 2048) / 92160.
Definition a3 (x : R) : R := - (x * (x * (x * (x * (x * (x * (x * (x * (x * (130977 * x - 873180) + 2487240) - 3588480) + 13520640) - 9225216)
                 + 15178880) - 11714560) + 6389760) - 1966080) + 262144) / 10321920.
Definition b1 (x : R) : R := - (8 - 3 * x) / 64.
Definition b2 (x : R) : R := 3 * (x * (x * (- 39 * x + 208) - 448) + 1024) / 8192.
Definition b3 (x : R) : R := - (x * (x * (x * (x * (- 5697 * x + 45576) - 159552) + 314624) - 55296) + 1105920) / 393216.
Definition e1 (x : R) : R := (8 - 3 * x) / 32.
Definition e2 (x : R) : R := - (x * (x * (- 63 * x + 336) - 704) + 1536) / 2048.
Definition e3 (x : R) : R := (x * (x * (x * (x * (- 2079 * x + 16632) - 57792) + 114944) - 30720) + 368640) / 65536.
Definition h1 (x : R) : R := - 3 * (x * (x - 4) + 8) / 64.
Definition h2 (x : R) : R := 3 * (x * (x * (x * (39 * x - 260) + 728) - 832) + 2560) / 4096.
Definition h3 (x : R) : R := - 3 * (x * (x * (x * (x * (x * (1899 * x - 17724) + 73432) - 177280) + 308480) + 196608) + 860160) / 131072.
Definition w0 (z x : R) : R := v0 z x * (x * x).
Definition lead (x : R) : R := u2 x / x + 5 / 10 * ln ((1 - u2 x) / (1 + u2 x)).
Definition fai (y z x : R) : R := 2 * y * lead x + @PI_4 real + sqrt (v0 z x) * (a1 x + v0 z x * (a2 x + v0 z x * a3 x)).
Definition psi (z x : R) : R := x * w0 z x * (b1 x + w0 z x * (b2 x + w0 z x * b3 x)).
Definition aa (z x : R) : R := u2 x / x * (1 / x + w0 z x * (e1 x + w0 z x * (e2 x + w0 z x * e3 x))).
Definition sigma (z x : R) : R := w0 z x * (h1 x + w0 z x * (h2 x + w0 z x * h3 x)).
Definition bb (z x : R) : R := u1 x * z / 4 + sigma z x.
Definition mm (z x : R) : R := 1 / sqrt (u2 x) * exp (psi z x).

Lemma case4_real ra y : let x := 2 * y / ra in let z := 1 / (2 * y) in omGcase4 real ra y =
  (mm z x * cos (fai y z x), - x * x * (aa z x * mm z x * sin (fai y z x) + bb z x * (mm z x * cos (fai y z x)))).
Proof. reflexivity. Qed.

(** * Everything is finite above the turning point *)
Section Case4.
Variables ra y : R.
Hypothesis H : 0 < 2 * y < ra.
Lemma x_range : 0 < 2 * y / ra < 1.
Proof.
  split; [apply Rdiv_lt_0_compat; lra|]. apply (Rmult_lt_reg_r ra); [lra|]. unfold Rdiv. rewrite Rmult_assoc, Rinv_l by lra. lra.
Qed.
Lemma u2_range x : 0 < x < 1 -> 0 < u2 x < 1.
Proof. intros Hx. unfold u2. split; [apply sqrt_lt_R0; lra|]. rewrite <- sqrt_1. apply sqrt_lt_1; rewrite ?sqrt_1; lra. Qed.
Lemma case4_lift : omGcase4 exact (Fin ra) (Fin y) = lifted (omGcase4 real ra y).
Proof.
  pose proof x_range as Hx. set (rhs := lifted _). cbv beta delta [omGcase4].
  bind_let x ltac:(lra).
  assert (Hx' : 0 < x < 1) by exact Hx. 
  bind_let x1 ltac:(cbn [real_dec]; lra).
  assert (Hx1 : 0 < x1) by (unfold x1; cbn [real_dec]; apply Rdiv_lt_0_compat; lra).
  bind_let x2 ltac:(cbn [real_dec]; lra).
  assert (Hx2 : 0 < x2 < 1) by (apply (u2_range x Hx')).
  bind_let y1 ltac:(cbn [real_dec]; lra).
  assert (Hy1 : 0 < y1) by (unfold y1; cbn [real_dec]; apply Rdiv_lt_0_compat; lra).
  bind_let y2 ltac:(idtac).
  bind_let g0 ltac:(idtac).
  assert (Hg0 : 0 < g0) by (unfold g0, y2; apply Rmult_lt_0_compat; [apply Rmult_lt_0_compat; [apply Rmult_lt_0_compat; [apply Rmult_lt_0_compat|]|]|]; lra).
  bind_let g1 ltac:(cbn [real_dec]; lra).
  bind_let g2 ltac:(cbn [real_dec]; lra).
  bind_let g3 ltac:(cbn [real_dec]; lra).
  bind_let g4 ltac:(first [apply Rdiv_lt_0_compat; cbn [real_dec]; lra | cbn [real_dec]; lra]).
  bind_let ph ltac:(lra).
  bind_let k0 ltac:(idtac).
  bind_let k1 ltac:(cbn [real_dec]; lra).
  bind_let k2 ltac:(cbn [real_dec]; lra).
  bind_let k3 ltac:(cbn [real_dec]; lra).
  bind_let ps ltac:(idtac).
  bind_let l1 ltac:(cbn [real_dec]; lra).
  bind_let l2 ltac:(cbn [real_dec]; lra).
  bind_let l3 ltac:(cbn [real_dec]; lra).
  bind_let a ltac:(lra).
  bind_let m1 ltac:(cbn [real_dec]; lra).
  bind_let m2 ltac:(cbn [real_dec]; lra).
  bind_let m3 ltac:(cbn [real_dec]; lra).
  bind_let b ltac:(cbn [real_dec]; lra).
  bind_let m ltac:(first [apply Rgt_not_eq, sqrt_lt_R0; lra | lra]).
  bind_let p0 ltac:(idtac).
  unfold rhs. pose proof (case4_real ra y) as E. cbv zeta in E. rewrite E. reflexivity.
Qed.
End Case4.

(** * The derivatives with respect to x *)
Ltac real_eq := match goal with |- @eq _ ?a ?b => change (@eq R a b) end.
Section Derivatives.
Variable x : R.
Hypothesis Hx : 0 < x < 1.
Lemma u2_sq : u2 x * u2 x = 1 - x.
Proof. apply sqrt_sqrt. lra. Qed.
Lemma u2_derive : is_derive u2 x (- (u2 x / (2 * (1 - x)))).
Proof.
  pose proof (u2_range x Hx) as P. pose proof u2_sq as Q. unfold u2 at 1. auto_derive; [lra|]. change (sqrt (1 + - x)) with (u2 x). rewrite <- Q. field. lra.
Qed.
Lemma over_u2 (f : R -> R) df k : is_derive f x df -> is_derive (fun t => f t / u2 t ^ k) x ((df + f x * (INR k / (2 * (1 - x)))) / u2 x ^ k).
Proof.
  intros D. pose proof (u2_range x Hx) as P. assert (N : u2 x ^ k <> 0) by (apply pow_nonzero; lra).
  evar_last; [apply is_derive_div; [exact D | apply is_derive_pow; exact u2_derive | exact N]|]. real_eq.
  destruct k as [|k]; [cbn [pow INR pred]; field; lra|]. cbn [pred pow] in *. field. split; [lra|]. split; [|lra]. intros Z. apply N. rewrite Z. ring.
Qed.
Lemma lead_derive : is_derive lead x (- u2 x / (x * x)).
Proof.
  pose proof (u2_range x Hx) as P. pose proof u2_sq as Q. pose proof u2_derive as D.
  evar_last.
  { apply (is_derive_plus (fun x => u2 x / x) (fun x => 5 / 10 * ln ((1 - u2 x) / (1 + u2 x)))).
    - apply (is_derive_div u2 (fun x => x)); [exact D | apply is_derive_id | lra].
    - apply is_derive_scal. apply (is_derive_comp ln (fun x => (1 - u2 x) / (1 + u2 x))).
      + apply is_derive_ln. apply Rdiv_lt_0_compat; lra.
      + apply (is_derive_div (fun x => 1 - u2 x) (fun x => 1 + u2 x)); [| |lra].
        * apply (is_derive_minus (fun _ => 1) u2); [apply @is_derive_const | exact D].
        * apply (is_derive_plus (fun _ => 1) u2); [apply @is_derive_const | exact D]. }
  unfold minus, plus, opp, scal, one, zero; cbn. unfold mult; cbn. real_eq. set (s := u2 x) in *. assert (X : x = 1 - s * s) by lra. rewrite X. field. repeat split; nra.
Qed.
Lemma root_v0 z t : 0 < z -> 0 < t < 1 -> sqrt (v0 z t) = z / u2 t ^ 3.
Proof.
  intros Hz Ht. pose proof (u2_range t Ht) as P. unfold v0, u1. assert (Q : u2 t * u2 t = 1 - t) by (apply sqrt_sqrt; lra). rewrite <- Q.
  replace (z * z * (1 / (u2 t * u2 t)) * (1 / (u2 t * u2 t)) * (1 / (u2 t * u2 t))) with ((z / u2 t ^ 3) * (z / u2 t ^ 3)) by (field; lra).
  apply sqrt_square. apply Rlt_le, Rdiv_lt_0_compat; [exact Hz | apply pow_lt; lra].
Qed.
Lemma near : locally x (fun t => 0 < t < 1).
Proof. apply (open_and (fun t => 0 < t) (fun t => t < 1)); [apply open_gt | apply open_lt | exact Hx]. Qed.
(** the phase, order by order *)
Lemma a1_derive : is_derive a1 x ((- x * e1 x - 3 / 2 * a1 x) / (1 - x)).
Proof. unfold a1, e1. auto_derive; [exact I | field; lra]. Qed.
Lemma a2_derive : is_derive a2 x ((- x ^ 3 * e2 x - 9 / 2 * a2 x) / (1 - x)).
Proof. unfold a2, e2. auto_derive; [exact I | field; lra]. Qed.
Lemma a3_derive : is_derive a3 x ((- x ^ 5 * e3 x - 15 / 2 * a3 x - 2000000 / 10321920 * x ^ 3 * (4 + 7 / 2 * x)) / (1 - x)).
Proof. unfold a3, e3. auto_derive; [exact I | field; lra]. Qed.
Lemma fai_derive y z : 2 * y * z = 1 -> 0 < z -> is_derive (fai y z) x (- (aa z x + z ^ 6 * slipped x) / z).
Proof.
  intros Hy Hz. pose proof (u2_range x Hx) as P. pose proof u2_sq as Q. assert (N : forall k, u2 x ^ k <> 0) by (intros; apply pow_nonzero; lra).
  apply (is_derive_ext_loc (fun t => 2 * y * lead t + (@PI_4 real + (z * (a1 t / u2 t ^ 3) + (z ^ 3 * (a2 t / u2 t ^ 9) + z ^ 5 * (a3 t / u2 t ^ 15)))))).
  { apply (filter_imp (fun t => 0 < t < 1)); [|exact near]. intros t Ht. unfold fai. rewrite root_v0 by assumption. pose proof (u2_range t Ht) as Pt.
    assert (Qt : u2 t * u2 t = 1 - t) by (apply sqrt_sqrt; lra). assert (V : v0 z t = z * z / u2 t ^ 6) by (unfold v0, u1; rewrite <- Qt; field; lra). rewrite V. real_eq. field. lra. }
  pose proof (over_u2 a1 _ 3 a1_derive) as D1. pose proof (over_u2 a2 _ 9 a2_derive) as D2. pose proof (over_u2 a3 _ 15 a3_derive) as D3.
  evar_last.
  { apply (is_derive_plus (fun t => 2 * y * lead t)); [apply is_derive_scal; exact lead_derive|].
    apply (is_derive_plus (fun t => @PI_4 real)); [apply @is_derive_const|].
    apply (is_derive_plus (fun t => z * (a1 t / u2 t ^ 3))); [apply is_derive_scal; exact D1|].
    apply (is_derive_plus (fun t => z ^ 3 * (a2 t / u2 t ^ 9))); [apply is_derive_scal; exact D2|]. apply is_derive_scal; exact D3. }
  unfold plus, zero; cbn [AbelianGroup.plus]. cbn. real_eq. unfold aa, w0, slipped, v0, u1. change (sqrt (1 - x)) with (u2 x).
  generalize (e1 x) (e2 x) (e3 x) (a1 x) (a2 x) (a3 x). intros k1 k2 k3 j1 j2 j3. set (s := u2 x) in *.
  assert (Y : y = 1 / (2 * z)) by (apply (Rmult_eq_reg_r (2 * z)); [|lra]; unfold Rdiv; rewrite Rmult_1_l, Rinv_l by lra; lra). rewrite Y. rewrite <- Q. field. repeat split; lra.
Qed.
Lemma psi_derive z : is_derive (psi z) x (u1 x * sigma z x).
Proof.
  unfold psi, sigma, w0, v0, u1, b1, b2, b3, h1, h2, h3. auto_derive; [lra|]. field. lra.
Qed.
Lemma mm_derive z : is_derive (mm z) x (mm z x * (u1 x / 4 + u1 x * sigma z x)).
Proof.
  pose proof (u2_range x Hx) as P. pose proof u2_sq as Q. pose proof u2_derive as D. assert (R0 : 0 < sqrt (u2 x)) by (apply sqrt_lt_R0; lra). assert (R1 : sqrt (u2 x) * sqrt (u2 x) = u2 x) by (apply sqrt_sqrt; lra).
  evar_last.
  { apply (is_derive_mult (fun t => 1 / sqrt (u2 t)) (fun t => exp (psi z t))); [| |intros; apply Rmult_comm].
    - apply (is_derive_div (fun _ => 1) (fun t => sqrt (u2 t))); [apply @is_derive_const | apply (is_derive_sqrt u2); [exact D | lra] | lra].
    - apply (is_derive_comp exp (psi z)); [apply is_derive_exp | apply psi_derive]. }
  unfold mm, plus, scal, zero; cbn. unfold mult; cbn. real_eq. unfold u1. rewrite <- Q. set (s := u2 x) in *. set (r := sqrt s) in *. rewrite <- R1. field. lra.
Qed.
End Derivatives.

(** * The value and the slope *)
Lemma sigma_tail z x : x < 1 -> sigma z x = tail z x.
Proof. intros H. unfold sigma, tail, w0, v0, u1, h1, h2, h3. field. lra. Qed.
Definition f4 (y r : R) : R := fst (omGcase4 real r y).
Definition f4' (y r : R) : R := snd (omGcase4 real r y).
Lemma f4_derive y r : 0 < 2 * y < r -> let x := 2 * y / r in let z := 1 / (2 * y) in
  is_derive (f4 y) r (f4' y r + x ^ 2 * ((1 - z / (1 - x)) * tail z x * f4 y r - z ^ 6 * slipped x * mm z x * sin (fai y z x))).
Proof.
  intros H x z. pose proof (x_range r y H) as Hx. fold x in Hx. assert (Hz : 0 < z) by (apply Rdiv_lt_0_compat; lra). assert (Yz : 2 * y * z = 1) by (unfold z; field; lra).
  assert (D : is_derive (fun t => mm z t * cos (fai y z t)) x (mm z x * (u1 x / 4 + u1 x * sigma z x) * cos (fai y z x) + mm z x * (- sin (fai y z x) * (- (aa z x + z ^ 6 * slipped x) / z)))).
  { evar_last; [apply (is_derive_mult (mm z) (fun t => cos (fai y z t))); [apply mm_derive; exact Hx | apply (is_derive_comp cos (fai y z)); [apply is_derive_cos | apply fai_derive; assumption] | intros; apply Rmult_comm]|].
    match goal with |- @eq _ (plus (mult ?a ?b) (mult ?c (scal ?d ?e))) ?g => change (@eq R (a * b + c * (d * e)) g) end. ring. }
  evar_last.
  { apply (is_derive_ext (fun t => (fun u => mm z u * cos (fai y z u)) (2 * y / t))).
    - intros t. unfold f4. pose proof (case4_real t y) as E. cbv zeta in E. rewrite E. reflexivity.
    - apply (is_derive_comp (fun u => mm z u * cos (fai y z u)) (fun t => 2 * y / t)); [exact D|]. evar_last; [auto_derive; [lra | reflexivity]|]. instantiate (1 := - (x * x * z)). unfold x, z. field. lra. }
  match goal with |- @eq _ (scal ?a ?b) ?c => change (@eq R (a * b) c) end. unfold f4, f4'. pose proof (case4_real r y) as E. cbv zeta in E. fold x z in E. rewrite E. cbn [fst snd].
  rewrite <- sigma_tail by lra. unfold bb, u1. generalize (slipped x) (aa z x) (mm z x) (sigma z x). intros. field. lra.
Qed.
Theorem oscillation_slope y : 0 < y -> exists f f1 m phi : R -> R,
  (forall r, 2 * y < r -> omGcase4 exact (Fin r) (Fin y) = (Fin (f r), Fin (f1 r))) /\
  (forall r, 2 * y < r -> let x := 2 * y / r in let z := 1 / (2 * y) in
    f r = m r * cos (phi r) /\
    is_derive f r (f1 r + x ^ 2 * ((1 - z / (1 - x)) * tail z x * f r - z ^ 6 * slipped x * (m r * sin (phi r))))).
Proof.
  intros Hy. exists (f4 y), (f4' y), (fun r => mm (1 / (2 * y)) (2 * y / r)), (fun r => fai y (1 / (2 * y)) (2 * y / r)). split; intros r Hr.
  - rewrite (case4_lift r y) by lra. unfold lifted, f4, f4'. destruct (omGcase4 real r y). reflexivity.
  - cbv zeta. split.
    + unfold f4. pose proof (case4_real r y) as E. cbv zeta in E. rewrite E. reflexivity.
    + rewrite <- Rmult_assoc. apply f4_derive. lra.
Qed.

(** * An eta at which the slope is off by more than two percent *)
Lemma half_root : u2 (1 / 2) * u2 (1 / 2) = 1 / 2.
Proof. unfold u2. rewrite sqrt_sqrt; lra. Qed.
Lemma half_bounds : 7 / 10 <= u2 (1 / 2) <= 71 / 100.
Proof. pose proof half_root as Q. pose proof (u2_range (1 / 2) ltac:(lra)). split; nra. Qed.
Lemma exp_power x n : exp (INR n * x) = exp x ^ n.
Proof. induction n as [|n IH]; [cbn [INR pow]; rewrite Rmult_0_l; apply exp_0|]. rewrite S_INR, Rmult_plus_distr_r, Rmult_1_l, exp_plus, IH. cbn [pow]. ring. Qed.
Lemma lead_bounds : 45 / 100 <= lead (1 / 2) <= 72 / 100.
Proof.
  pose proof half_bounds as B. unfold lead. set (s := u2 (1 / 2)) in *.
  assert (L1 : ln ((1 - s) / (1 + s)) <= - (14 / 10)).
  { assert (E : 18 / 100 <= exp (- (14 / 10))). { replace (- (14 / 10)) with (INR 20 * (- (7 / 100))) by (cbn [INR]; lra). rewrite exp_power. pose proof (exp_ineq1_le (- (7 / 100))) as I.
      apply Rle_trans with ((93 / 100) ^ 20); [cbn [pow]; lra|]. apply pow_incr. lra. }
    replace (- (14 / 10)) with (ln (exp (- (14 / 10)))) by apply ln_exp. apply ln_le; [apply Rdiv_lt_0_compat; lra|]. apply Rle_trans with (18 / 100); [|exact E].
    apply (Rmult_le_reg_r (1 + s)); [lra|]. unfold Rdiv. rewrite Rmult_assoc, Rinv_l by lra. lra. }
  assert (L2 : - (19 / 10) <= ln ((1 - s) / (1 + s))).
  { assert (E : exp (- (19 / 10)) <= 164 / 1000). { rewrite exp_Ropp. assert (I : 61 / 10 <= exp (19 / 10)). { replace (19 / 10) with (INR 32 * (19 / 320)) by (cbn [INR]; lra). rewrite exp_power. pose proof (exp_ineq1_le (19 / 320)) as I.
        apply Rle_trans with ((339 / 320) ^ 32); [cbn [pow]; lra|]. apply pow_incr. lra. }
      apply Rle_trans with (/ (61 / 10)); [apply Rinv_le_contravar; lra | lra]. }
    replace (- (19 / 10)) with (ln (exp (- (19 / 10)))) by apply ln_exp. apply ln_le; [apply exp_pos|]. eapply Rle_trans; [exact E|].
    apply (Rmult_le_reg_r (1 + s)); [lra|]. unfold Rdiv at 2. rewrite Rmult_assoc, Rinv_l by lra. lra. }
  replace (s / (1 / 2)) with (2 * s) by lra. lra.
Qed.
Definition phase_half (y : R) : R :=
  2 * y * lead (1 / 2) + @PI_4 real + u2 (1 / 2) * (4 * a1 (1 / 2) * (1 / (2 * y)) + 32 * a2 (1 / 2) * (1 / (2 * y)) ^ 3 + 256 * a3 (1 / 2) * (1 / (2 * y)) ^ 5).
Lemma phase_half_fai y : 0 < y -> fai y (1 / (2 * y)) (1 / 2) = phase_half y.
Proof.
  intros Hy. assert (Hz : 0 < 1 / (2 * y)) by (apply Rdiv_lt_0_compat; lra). set (z := 1 / (2 * y)) in *. unfold fai, phase_half. fold z. rewrite root_v0 by (lra || exact Hz).
  pose proof half_root as Q. pose proof half_bounds as B. set (s := u2 (1 / 2)) in *. assert (V : v0 z (1 / 2) = z * z * 8) by (unfold v0, u1; field). rewrite V.
  assert (S3 : z / s ^ 3 = 4 * s * z). { replace (s ^ 3) with (s * s * s) by ring. rewrite Q. apply (Rmult_eq_reg_r s); [|lra]. replace (4 * s * z * s) with (4 * (s * s) * z) by ring. rewrite Q. field. lra. }
  rewrite S3. ring.
Qed.
Lemma phase_value : exists y, 5 <= y <= 14 /\ phase_half y = 3 * PI.
Proof.
  pose proof half_bounds as B. pose proof lead_bounds as L. pose proof PI_RGT_0 as P0. pose proof Rtrigo1.PI_4 as P4.
  assert (P3 : 3 < PI) by (pose proof PI2_3_2; lra).
  assert (A1 : a1 (1 / 2) = - 17 / 192) by (unfold a1; lra). assert (A2 : - 1 / 100 <= a2 (1 / 2) <= 1 / 100) by (unfold a2; lra). assert (A3 : - 1 / 10 <= a3 (1 / 2) <= 1 / 10) by (unfold a3; lra).
  assert (K : 78 / 100 <= @PI_4 real <= 79 / 100) by (cbv [CoulombWaveModel.PI_4 real dec real_dec]; lra).
  destruct (Ranalysis5.IVT_interv (fun y => phase_half y - 3 * PI) 5 14) as (y & Hy & E).
  - intros y Hy. apply continuity_pt_filterlim, (ex_derive_continuous (fun y => phase_half y - 3 * PI)). unfold phase_half. auto_derive. repeat split; lra.
  - lra.
  - unfold phase_half. rewrite A1. set (s := u2 (1 / 2)) in *. set (k2 := a2 (1 / 2)) in *. set (k3 := a3 (1 / 2)) in *. 
    assert (S : s * (4 * (-17 / 192) * (1 / (2 * 5)) + 32 * k2 * (1 / (2 * 5)) ^ 3 + 256 * k3 * (1 / (2 * 5)) ^ 5) <= 71 / 100 * (1 / 10)) by (apply Rle_trans with (s * (1 / 10)); [apply Rmult_le_compat_l; lra | lra]). lra.
  - unfold phase_half. rewrite A1. set (s := u2 (1 / 2)) in *. set (k2 := a2 (1 / 2)) in *. set (k3 := a3 (1 / 2)) in *. 
    assert (S : - (71 / 100) <= s * (4 * (-17 / 192) * (1 / (2 * 14)) + 32 * k2 * (1 / (2 * 14)) ^ 3 + 256 * k3 * (1 / (2 * 14)) ^ 5)) by (apply Rle_trans with (s * (- 1)); [lra | apply Rmult_le_compat_l; lra]). lra.
  - exists y. split; [exact Hy | lra].
Qed.
Theorem oscillation_slope_wrong : exists y r f f1 d, 5 <= y < 15 /\ 25 / 10 * y + 75 / 10 <= r /\
  (forall r, 2 * y < r -> omGcase4 exact (Fin r) (Fin y) = (Fin (f r), Fin (f1 r))) /\
  is_derive f r d /\ d <> 0 /\ Rabs d / 40 < Rabs (f1 r - d).
Proof.
  destruct phase_value as (y & Hy & E). exists y, (4 * y), (f4 y), (f4' y).
  assert (X : 2 * y / (4 * y) = 1 / 2) by (field; lra). pose proof (f4_derive y (4 * y) ltac:(lra)) as D. cbv zeta in D. rewrite X in D. set (z := 1 / (2 * y)) in *.
  assert (Hz : 1 / 28 <= z <= 1 / 10). { unfold z. split; (apply (Rmult_le_reg_r (2 * y)); [lra|]; unfold Rdiv; rewrite ?(Rmult_assoc 1), ?Rinv_l by lra; lra). }
  assert (PH : fai y z (1 / 2) = 3 * PI) by (unfold z; rewrite phase_half_fai by lra; exact E). rewrite PH in D.
  assert (S0 : sin (3 * PI) = 0) by (replace (3 * PI) with (PI + 2 * INR 1 * PI) by (cbn [INR]; ring); rewrite sin_period; apply sin_PI).
  assert (C0 : cos (3 * PI) = - 1) by (replace (3 * PI) with (PI + 2 * INR 1 * PI) by (cbn [INR]; ring); rewrite cos_period; apply cos_PI).
  rewrite S0 in D. rewrite Rmult_0_r, Rminus_0_r in D.
  assert (F : f4 y (4 * y) = - mm z (1 / 2) /\ f4' y (4 * y) = 1 / 4 * bb z (1 / 2) * mm z (1 / 2)).
  { unfold f4, f4'. pose proof (case4_real (4 * y) y) as R4. cbv zeta in R4. rewrite X in R4. fold z in R4. rewrite PH in R4. rewrite R4. cbn [fst snd]. rewrite S0, C0. split; [ring | field]. }
  destruct F as [F1 F2]. rewrite F1, F2 in D. unfold bb in D. rewrite (sigma_tail z (1 / 2)) in D by lra.
  assert (T : - (6 / 10) * z ^ 2 <= tail z (1 / 2) <= - (5 / 10) * z ^ 2).
  { unfold tail. cbv zeta. set (w := z ^ 2). assert (W : 0 <= w <= 1 / 100) by (unfold w; nra). 
    assert (W2 : 0 <= w ^ 2 <= w / 100) by nra. assert (W3 : 0 <= w ^ 3 <= w / 10000) by (replace (w ^ 3) with (w ^ 2 * w) by ring; nra).
    replace (w * (1 / 2) ^ 2 / (1 - 1 / 2) ^ 3) with (2 * w) by field. replace ((2 * w) ^ 2) with (4 * w ^ 2) by ring. replace ((2 * w) ^ 3) with (8 * w ^ 3) by ring. nra. }
  set (m := mm z (1 / 2)) in *. assert (M : 0 < m). { unfold m, mm. apply Rmult_lt_0_compat; [apply Rdiv_lt_0_compat; [lra|]; apply sqrt_lt_R0; pose proof half_bounds; lra | apply exp_pos]. }
  set (v := tail z (1 / 2)) in *. unfold u1 in D.
  exists (m * (z / 8 + z / 2 * v)). split; [lra|]. split; [lra|]. split; [|split; [|split]].
  - intros r Hr. rewrite (case4_lift r y) by lra. unfold lifted, f4, f4'. destruct (omGcase4 real r y). reflexivity.
  - evar_last; [exact D|]. field.
  - apply Rgt_not_eq. apply Rmult_lt_0_compat; [exact M|]. nra.
  - rewrite F2. unfold bb. rewrite (sigma_tail z (1 / 2)) by lra. fold m v. unfold u1. replace (1 / 4 * (1 / (1 - 1 / 2) * z / 4 + v) * m - m * (z / 8 + z / 2 * v)) with (- (m * (- v * (1 / 4 - z / 2)))) by field.
    rewrite Rabs_Ropp, !Rabs_pos_eq; [|apply Rmult_le_pos; [lra|]; nra | apply Rmult_le_pos; [lra|]; nra]. 
    unfold Rdiv. rewrite Rmult_assoc. apply Rmult_lt_compat_l; [exact M|].
    assert (z ^ 2 / 10 <= - v * (1 / 4 - z / 2)) by nra. assert (z / 28 <= z ^ 2) by nra. assert (z * v <= 0) by nra. lra.
Qed.
