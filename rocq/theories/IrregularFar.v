(** The sums of the asymptotic expansion are near the irregular Coulomb function. *)
From Coq Require Import Reals Lra Lia.
From Coquelicot Require Import Coquelicot.
From Verif Require Import NewmarkSpec AsymptoticSpec AsymptoticProofs SigmaSpec SigmaProofs IrregularSpec IrregularSeries IrregularProofs.
Open Scope R_scope.

(** * Far away *)
Lemma sin_le x : Rabs (sin x) <= Rabs x.
Proof.
  destruct (MVT_gen sin 0 x cos) as (c & _ & E).
  - intros y _. apply is_derive_sin.
  - intros y _. apply continuity_pt_filterlim, (ex_derive_continuous sin). eexists. apply is_derive_sin.
  - rewrite sin_0, !Rminus_0_r in E. rewrite E, Rabs_mult. pose proof (proj1 (trig_le c)). pose proof (Rabs_pos x). nra.
Qed.
Lemma chord a b : (cos a - cos b) ^ 2 + (sin a - sin b) ^ 2 <= (a - b) ^ 2.
Proof.
  assert (E : (cos a - cos b) ^ 2 + (sin a - sin b) ^ 2 = 2 - 2 * cos (a - b)). { rewrite cos_minus. pose proof (sin2_cos2 a) as A. pose proof (sin2_cos2 b) as B. unfold Rsqr in *. nra. }
  rewrite E. replace (a - b) with (2 * ((a - b) / 2)) at 1 by field. rewrite cos_2a_sin. pose proof (sin_le ((a - b) / 2)) as S. set (h := (a - b) / 2) in *.
  assert (Q : sin h ^ 2 <= h ^ 2) by (rewrite <- (pow2_abs h), <- (pow2_abs (sin h)); pose proof (Rabs_pos (sin h)); nra). replace ((a - b) ^ 2) with (4 * h ^ 2) by (unfold h; field). lra.
Qed.
Lemma far_pair eta s sigma f f1 G G1 : is_lim (fun r => f r - cos (theta eta s r)) p_infty 0 -> is_lim (fun r => f1 r + sin (theta eta s r)) p_infty 0 ->
  is_lim (fun r => G r - cos (theta eta sigma r)) p_infty 0 -> is_lim (fun r => G1 r + sin (theta eta sigma r)) p_infty 0 ->
  forall e, 0 < e -> exists M, forall r, M <= r -> (f r - G r) ^ 2 + (f1 r - G1 r) ^ 2 <= Rabs (s - sigma) ^ 2 + e.
Proof.
  intros F F1 H H1 e E. rewrite pow2_abs. apply is_lim_spec in F, F1, H, H1. set (k := Rmin 1 (e / 40)). assert (K0 : 0 < k) by (apply Rmin_pos; lra). assert (K1 : k <= 1) by apply Rmin_l. assert (K2 : k <= e / 40) by apply Rmin_r.
  destruct (F (mkposreal k K0)) as [m0 M0]. destruct (F1 (mkposreal k K0)) as [m1 M1]. destruct (H (mkposreal k K0)) as [m2 M2]. destruct (H1 (mkposreal k K0)) as [m3 M3]. cbn in M0, M1, M2, M3.
  exists (Rmax (Rmax m0 m1) (Rmax m2 m3) + 1). intros x Hx. pose proof (Rmax_l m0 m1). pose proof (Rmax_r m0 m1). pose proof (Rmax_l m2 m3). pose proof (Rmax_r m2 m3). pose proof (Rmax_l (Rmax m0 m1) (Rmax m2 m3)). pose proof (Rmax_r (Rmax m0 m1) (Rmax m2 m3)).
  specialize (M0 x ltac:(lra)). specialize (M1 x ltac:(lra)). specialize (M2 x ltac:(lra)). specialize (M3 x ltac:(lra)). rewrite Rminus_0_r in *. apply Rabs_def2 in M0, M1, M2, M3.
  pose proof (chord (theta eta s x) (theta eta sigma x)) as C. replace (theta eta s x - theta eta sigma x) with (s - sigma) in C by (unfold theta; ring).
  pose proof (COS_bound (theta eta s x)). pose proof (COS_bound (theta eta sigma x)). pose proof (SIN_bound (theta eta s x)). pose proof (SIN_bound (theta eta sigma x)).
  set (p := cos (theta eta s x) - cos (theta eta sigma x)) in *. set (q := sin (theta eta s x) - sin (theta eta sigma x)) in *. 
  assert (X : exists u, - (2 * k) <= u <= 2 * k /\ f x - G x = p + u) by (exists (f x - G x - p); unfold p; split; lra).
  assert (Y : exists u, - (2 * k) <= u <= 2 * k /\ f1 x - G1 x = - q + u) by (exists (f1 x - G1 x + q); unfold q; split; lra).
  destruct X as (u & U & ->). destruct Y as (w & W & ->). assert (P : - 2 <= p <= 2) by (unfold p; lra). assert (Q : - 2 <= q <= 2) by (unfold q; lra).
  replace ((p + u) ^ 2 + (- q + w) ^ 2) with (p ^ 2 + q ^ 2 + (2 * p * u + u ^ 2) + (w ^ 2 - 2 * q * w)) by ring.
  assert (2 * p * u + u ^ 2 <= 12 * k) by nra. assert (w ^ 2 - 2 * q * w <= 12 * k) by nra. lra.
Qed.
(** * Bounds of a solution *)
Lemma solution_one eta s G G1 r : 0 <= eta -> 2 * eta < r -> (forall r, 0 < r -> is_derive G r (G1 r)) -> (forall r, 0 < r -> is_derive G1 r (acceleration eta r (G r))) ->
  is_lim (fun r => G r - cos (theta eta s r)) p_infty 0 -> is_lim (fun r => G1 r + sin (theta eta s r)) p_infty 0 ->
  Rabs (G1 r) <= 1 /\ sqrt (1 - 2 * eta / r) * Rabs (G r) <= 1.
Proof.
  intros He Hr S E F F1. destruct (near eta r 1 G G1 (fun _ => 0) (fun _ => 0) (fun _ => 0) (fun _ => 0) (fun _ => 0)) with (r := r) as [A B]; try lra.
  - intros x Hx. apply S. lra.
  - intros x Hx. rewrite Rplus_0_r. apply E. lra.
  - intros x _. apply @is_derive_const.
  - intros x _. evar_last; [apply @is_derive_const|]. unfold acceleration, zero; cbn. ring.
  - intros x _. apply @is_derive_const.
  - intros x _. rewrite Rabs_R0. lra.
  - apply is_lim_const.
  - intros e E0. apply is_lim_spec in F, F1. set (k := Rmin 1 (e / 8)). assert (K0 : 0 < k) by (apply Rmin_pos; lra). assert (K1 : k <= 1) by apply Rmin_l. assert (K2 : k <= e / 8) by apply Rmin_r.
    destruct (F (mkposreal k K0)) as [m0 M0]. destruct (F1 (mkposreal k K0)) as [m1 M1]. cbn in M0, M1. exists (Rmax m0 m1 + 1). intros x Hx. pose proof (Rmax_l m0 m1). pose proof (Rmax_r m0 m1).
    specialize (M0 x ltac:(lra)). specialize (M1 x ltac:(lra)). rewrite Rminus_0_r in *. apply Rabs_def2 in M0, M1. pose proof (sin2_cos2 (theta eta s x)) as Q. unfold Rsqr in Q. pose proof (COS_bound (theta eta s x)). pose proof (SIN_bound (theta eta s x)).
    set (p := cos (theta eta s x)) in *. set (q := sin (theta eta s x)) in *.
    assert (X : exists u, - k <= u <= k /\ G x = p + u) by (exists (G x - p); split; lra). assert (Y : exists u, - k <= u <= k /\ G1 x = - q + u) by (exists (G1 x + q); split; lra).
    destruct X as (u & U & ->). destruct Y as (w & W & ->). replace ((p + u - 0) ^ 2 + (- q + w - 0) ^ 2) with (q * q + p * p + (2 * p * u + u ^ 2) + (w ^ 2 - 2 * q * w)) by ring.
    assert (2 * p * u + u ^ 2 <= 3 * k) by nra. assert (w ^ 2 - 2 * q * w <= 3 * k) by nra. lra.
  - rewrite !Rminus_0_r in *. lra.
Qed.

(** * The sums *)
Definition size (c : R * R) : R := sqrt (fst c ^ 2 + snd c ^ 2).
Lemma size_pos c : 0 <= size c.
Proof. apply sqrt_pos. Qed.
Lemma size_i c : size (times_i c) = size c.
Proof. unfold size, times_i. cbn [fst snd]. f_equal. ring. Qed.
Lemma turned_le angle c : Rabs (turned angle c) <= size c.
Proof.
  unfold turned, size. rewrite <- sqrt_Rsqr_abs. apply sqrt_le_1_alt. pose proof (sin2_cos2 angle) as Q. unfold Rsqr in *. set (p := cos angle) in *. set (q := sin angle) in *.
  replace (fst c ^ 2 + snd c ^ 2) with ((q * q + p * p) * (fst c ^ 2 + snd c ^ 2)) by (rewrite Q; ring). pose proof (pow2_ge_0 (fst c * q + snd c * p)). nra.
Qed.
Lemma inv_le_1 r k : 1 <= r -> 0 < / r ^ S k <= / r.
Proof. intros H. split; [apply Rinv_0_lt_compat, pow_lt; lra|]. apply Rinv_le_contravar; [lra|]. cbn [pow]. pose proof (pow_R1_Rle r k H). nra. Qed.
Lemma terms_far eta s N : 0 <= eta -> exists C, 0 < C /\ forall r, eta + 1 <= r ->
  Rabs (wave eta s N r - cos (theta eta s r)) <= C / r /\ Rabs (slopes eta N r (theta eta s r) + sin (theta eta s r)) <= C / r.
Proof.
  intros He. assert (X : forall r, eta + 1 <= r -> 0 <= eta / r <= 1). { intros r Hr. split; [apply Rdiv_le_0_compat; lra|]. apply (Rmult_le_reg_r r); [lra|]. unfold Rdiv. rewrite Rmult_assoc, Rinv_l by lra. lra. }
  induction N as [|N (C & C0 & IH)].
  - exists (eta + 1). split; [lra|]. intros r Hr. assert (P : 0 < / r) by (apply Rinv_0_lt_compat; lra). fold (c eta s r) (c1 eta s r). rewrite c_is, c1_is by lra. split.
    + rewrite Rminus_diag_eq by reflexivity. rewrite Rabs_R0. unfold Rdiv. nra.
    + replace (- ((1 - eta / r) * sin (theta eta s r)) + sin (theta eta s r)) with (eta / r * sin (theta eta s r)) by ring. rewrite Rabs_mult, (Rabs_pos_eq (eta / r)) by (apply X; exact Hr). pose proof (proj2 (trig_le (theta eta s r))). pose proof (X r Hr). unfold Rdiv in *. nra.
  - set (q := size (expansion eta (S N))). pose proof (size_pos (expansion eta (S N))) as Q0. fold q in Q0. exists (C + q * (2 + INR N)). pose proof (pos_INR N) as N0. split; [nra|]. intros r Hr. destruct (IH r Hr) as [A B]. pose proof (X r Hr) as Xr.
    pose proof (inv_le_1 r N ltac:(lra)) as I. pose proof (inv_le_1 r (S N) ltac:(lra)) as I2. set (t := theta eta s r) in *.
    pose proof (turned_le t (expansion eta (S N))) as T. fold q in T. pose proof (turned_le t (times_i (expansion eta (S N)))) as T1. rewrite size_i in T1. fold q in T1.
    assert (P : 0 < / r) by (apply Rinv_0_lt_compat; lra). split.
    + unfold wave, terms. fold t. cbn [sum_f_R0]. fold (terms eta N r t). change (terms eta N r t) with (wave eta s N r).
      replace (wave eta s N r + turned t (expansion eta (S N)) / r ^ S N - cos t) with ((wave eta s N r - cos t) + turned t (expansion eta (S N)) / r ^ S N) by ring.
      eapply Rle_trans; [apply Rabs_triang|]. unfold Rdiv at 1. rewrite Rabs_mult, (Rabs_pos_eq (/ r ^ S N)) by lra.
      assert (Rabs (turned t (expansion eta (S N))) * / r ^ S N <= q * / r) by (apply Rmult_le_compat; [apply Rabs_pos | lra | exact T | lra]). assert (0 <= q * / r * (1 + INR N)) by (apply Rmult_le_pos; [apply Rmult_le_pos; lra | lra]). unfold Rdiv in *. lra.
    + unfold slopes. cbn [sum_f_R0]. fold (slopes eta N r t).
      match goal with |- Rabs (_ + (?a - ?b) + _) <= _ => replace (slopes eta N r t + (a - b) + sin t) with ((slopes eta N r t + sin t) + (a - b)) by ring; set (a0 := a); set (b0 := b) end.
      eapply Rle_trans; [apply Rabs_triang|]. assert (HA : Rabs a0 <= q * / r).
      { unfold a0, Rdiv at 1. rewrite !Rabs_mult, (Rabs_pos_eq (/ r ^ S N)), (Rabs_pos_eq (1 - eta / r)) by lra. apply Rmult_le_compat; [|lra| |lra]; [apply Rmult_le_pos; [lra | apply Rabs_pos]|]. pose proof (Rabs_pos (turned t (times_i (expansion eta (S N))))). nra. }
      assert (HB : Rabs b0 <= INR (S N) * q * / r).
      { unfold b0, Rdiv. rewrite !Rabs_mult, (Rabs_pos_eq (/ r ^ S (S N))), (Rabs_pos_eq (INR (S N))) by (lra || apply pos_INR). apply Rmult_le_compat; [|lra| |lra]; [apply Rmult_le_pos; [apply pos_INR | apply Rabs_pos]|]. apply Rmult_le_compat_l; [apply pos_INR | exact T]. }
      assert (HC : Rabs (a0 - b0) <= Rabs a0 + Rabs b0) by (unfold Rminus; eapply Rle_trans; [apply Rabs_triang | rewrite Rabs_Ropp; lra]).
      rewrite S_INR in HB. replace ((C + q * (2 + INR N)) / r) with (C / r + (q * / r + (INR N + 1) * q * / r)) by (field; lra). lra.
Qed.
Lemma remainder_le eta s N r : 0 < r -> Rabs (remainder eta s N r) <= 2 * (INR N + 1) * size (expansion eta (S N)) / r ^ (N + 2).
Proof.
  intros Hr. unfold remainder, Rdiv. pose proof (pos_INR N). assert (P : 0 < / r ^ (N + 2)) by (apply Rinv_0_lt_compat, pow_lt, Hr). rewrite Rabs_mult, (Rabs_pos_eq (/ r ^ (N + 2))) by lra.
  apply Rmult_le_compat_r; [lra|]. rewrite Rabs_mult, (Rabs_pos_eq (2 * (INR N + 1))) by lra. apply Rmult_le_compat_l; [lra|]. rewrite <- (size_i (expansion eta (S N))). apply turned_le.
Qed.
Section Near.
Variables (eta s sigma : R) (G G1 : R -> R).
Hypothesis He : 0 <= eta.
Hypothesis slope : forall r, 0 < r -> is_derive G r (G1 r).
Hypothesis equation : forall r, 0 < r -> is_derive G1 r (acceleration eta r (G r)).
Hypothesis far : is_lim (fun r => G r - cos (theta eta sigma r)) p_infty 0.
Hypothesis far1 : is_lim (fun r => G1 r + sin (theta eta sigma r)) p_infty 0.
(** Twice the next term *)
Lemma wave_near N r : 2 * eta < r -> let e := Rabs (s - sigma) + 2 * size (expansion eta (S N)) / r ^ S N in
  Rabs (slopes eta N r (theta eta s r) - G1 r) <= e /\ sqrt (1 - 2 * eta / r) * Rabs (wave eta s N r - G r) <= e.
Proof.
  intros Hr e. set (q := size (expansion eta (S N))). destruct (terms_far eta s N He) as (C & C0 & F).
  apply (near eta r (Rabs (s - sigma)) (wave eta s N) (fun r => slopes eta N r (theta eta s r)) (remainder eta s N) G G1 (fun r => 2 * q / r ^ S N) (fun r => - (2 * (INR N + 1) * q / r ^ (N + 2)))); try lra.
  - intros x Hx. apply wave_slope. lra.
  - intros x Hx. apply wave_equation. lra.
  - intros x Hx. apply slope. lra.
  - intros x Hx. apply equation. lra.
  - intros x Hx. assert (P : x ^ S N <> 0) by (apply pow_nonzero; lra). evar_last; [apply (is_derive_div (fun _ => 2 * q) (fun x => x ^ S N)); [apply @is_derive_const | apply (is_derive_pow (fun x => x)), is_derive_id | exact P]|].
    unfold minus, plus, opp, mult, scal, zero, one; cbn -[INR pow]. unfold mult; cbn -[INR pow]. match goal with |- @eq _ ?a ?b => change (@eq R a b) end. rewrite S_INR. replace (N + 2)%nat with (S (S N)) by lia. cbn [pow pred]. assert (Q : x ^ N <> 0) by (apply pow_nonzero; lra). generalize dependent (x ^ N). intros. field. lra.
  - intros x Hx. rewrite Ropp_involutive. apply remainder_le. lra.
  - apply (vanishes (2 * q + 1) _ 1); [pose proof (size_pos (expansion eta (S N))) as Q0; fold q in Q0; lra | lra|]. intros x Hx. pose proof (inv_le_1 x N Hx) as I. pose proof (size_pos (expansion eta (S N))) as Q0. fold q in Q0.
    assert (P : 0 < / x) by (apply Rinv_0_lt_compat; lra). rewrite Rabs_pos_eq by (apply Rdiv_le_0_compat; [lra | apply pow_lt; lra]). unfold Rdiv. nra.
  - apply Rabs_pos.
  - apply (far_pair eta s sigma); [| |exact far | exact far1]; (apply (vanishes C _ (eta + 1)); [exact C0 | lra | intros x Hx; apply F; exact Hx]).
Qed.
End Near.
Theorem terms_near eta sigma G G1 N r : 0 <= eta -> irregular eta G G1 -> coulomb_phase eta sigma -> 2 * eta < r ->
  let (a, b) := expansion eta (S N) in let e := 2 * sqrt (a ^ 2 + b ^ 2) / r ^ S N in
  is_derive (wave eta sigma N) r (slopes eta N r (theta eta sigma r)) /\
  Rabs (slopes eta N r (theta eta sigma r) - G1 r) <= e /\ sqrt (1 - 2 * eta / r) * Rabs (wave eta sigma N r - G r) <= e.
Proof.
  intros He I Hs Hr. destruct (ir_far _ _ _ I sigma Hs) as [F F1].
  pose proof (wave_near eta sigma sigma G G1 He (ir_slope _ _ _ I) (ir_equation _ _ _ I) F F1 N r Hr) as W. cbv zeta in W. unfold size in W.
  rewrite (Rminus_diag_eq sigma sigma eq_refl), Rabs_R0 in W. destruct (expansion eta (S N)) as [a b]. cbn [fst snd] in W. cbv zeta. rewrite Rplus_0_l in W. destruct W as [W W'].
  apply Logic.conj; [|apply Logic.conj; [exact W | exact W']]. apply wave_slope. lra.
Qed.
