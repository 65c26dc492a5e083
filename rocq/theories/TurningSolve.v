(** The sum of the first orders solves the Coulomb equation up to the next order, and has the
    Wronskian of the Airy functions up to the next order. *)
From Coq Require Import Reals List Lra Lia.
From Coquelicot Require Import Coquelicot.
From Verif Require Import TurningSpec TurningProofs.
Import ListNotations.
Open Scope R_scope.

Section Solve.
Variables (n : nat) (p q : nat -> R -> R) (A A1 : R -> R) (e : R).
Hypotheses (T : turning_expansion n p q) (HA : airy A A1).

Definition w1 k x := (Derive (p k) x - x * q k x) * A x + (p k x + Derive (q k) x) * A1 x.
Definition w2 k x := (defect_p (p k) (q k) x - x * p k x) * A x + (defect_q (p k) (q k) x - x * q k x) * A1 x.
Lemma polynomial_smooth k : (k <= n)%nat -> forall x, is_derive (p k) x (Derive (p k) x) /\ is_derive (Derive (p k)) x (Derive_n (p k) 2 x) /\ is_derive (q k) x (Derive (q k) x) /\ is_derive (Derive (q k)) x (Derive_n (q k) 2 x).
Proof.
  intros Hk x. destruct (te_polynomial _ _ _ T k Hk) as (l & m & E).
  assert (S : forall f l, (forall x, f x = polynomial l x) -> is_derive f x (Derive f x) /\ is_derive (Derive f) x (Derive_n f 2 x)).
  { intros f g Ef. split.
    - apply Derive_correct. exists (polynomial (slope g) x). apply (is_derive_ext (polynomial g)); [intros; symmetry; apply Ef | apply polynomial_derive].
    - apply (Derive_correct (Derive f)). exists (polynomial (slope (slope g)) x). apply (is_derive_ext (polynomial (slope g))); [|apply polynomial_derive].
      intros t. rewrite (Derive_ext f (polynomial g)) by exact Ef. symmetry. apply polynomial_Derive. }
  destruct (S (p k) l (fun t => proj1 (E t))) as [B1 B2]. destruct (S (q k) m (fun t => proj2 (E t))) as [B3 B4]. exact (Logic.conj B1 (Logic.conj B2 (Logic.conj B3 B4))).
Qed.
Lemma first_derivative k x : (k <= n)%nat -> is_derive (fun x => p k x * A x + q k x * A1 x) x (w1 k x).
Proof.
  intros Hk. destruct (polynomial_smooth k Hk x) as (P1 & P2 & Q1 & Q2). destruct (HA x) as [D1 D2]. unfold w1.
  evar_last. { apply @is_derive_plus; apply @is_derive_mult; [exact P1 | exact D1 | intros a b; apply Rmult_comm | exact Q1 | exact D2 | intros a b; apply Rmult_comm]. }
  unfold plus, mult; cbn. ring.
Qed.
Lemma second_derivative k x : (k <= n)%nat -> is_derive (w1 k) x (w2 k x).
Proof.
  intros Hk. destruct (polynomial_smooth k Hk x) as (P1 & P2 & Q1 & Q2). destruct (HA x) as [D1 D2]. unfold w1, w2, defect_p, defect_q.
  evar_last. { apply @is_derive_plus; apply @is_derive_mult; [apply @is_derive_minus; [exact P2 | apply @is_derive_mult; [apply is_derive_id | exact Q1 | intros a b; apply Rmult_comm]] | exact D1 | intros a b; apply Rmult_comm
    | apply @is_derive_plus; [exact P1 | exact Q2] | exact D2 | intros a b; apply Rmult_comm]. }
  unfold minus, plus, mult, opp, one; cbn. ring.
Qed.
Lemma sum_derive (f g : nat -> R -> R) m x : (forall k, (k <= m)%nat -> is_derive (f k) x (g k x)) -> is_derive (fun x => sum_f_R0 (fun k => e ^ k * f k x) m) x (sum_f_R0 (fun k => e ^ k * g k x) m).
Proof.
  intros H. induction m as [|m IH]; cbn [sum_f_R0].
  - apply (is_derive_scal (f 0%nat) x (e ^ 0)). apply H. lia.
  - apply @is_derive_plus; [apply IH; intros k Hk; apply H; lia|]. apply (is_derive_scal (f (S m)) x (e ^ S m)). apply H. lia.
Qed.
Definition sum1 x := sum_f_R0 (fun k => e ^ k * w1 k x) n.
Definition sum2 x := sum_f_R0 (fun k => e ^ k * w2 k x) n.
Lemma expansion_derive x : is_derive (expansion n p q A A1 e) x (sum1 x).
Proof. apply (sum_derive (fun k x => p k x * A x + q k x * A1 x) w1). intros k Hk. apply first_derivative. exact Hk. Qed.
Lemma sum1_derive x : is_derive sum1 x (sum2 x).
Proof. apply (sum_derive w1 w2). intros k Hk. apply second_derivative. exact Hk. Qed.
Lemma first_defect x : defect_p (p 0%nat) (q 0%nat) x = 0 /\ defect_q (p 0%nat) (q 0%nat) x = 0.
Proof.
  assert (D0 : forall f c, (forall y : R, f y = c) -> Derive f x = 0 /\ Derive_n f 2 x = 0).
  { intros f c E. assert (forall t, Derive f t = 0) by (intros t; rewrite (Derive_ext f (fun _ => c)) by exact E; apply Derive_const).
    split; [apply H|]. cbn. rewrite (Derive_ext (fun t => Derive (fun y => f y) t) (fun _ => 0)) by exact H. apply Derive_const. }
  destruct (D0 (p 0%nat) 1) as [P1 P2]; [intros y; apply (te_first _ _ _ T y)|]. destruct (D0 (q 0%nat) 0) as [Q1 Q2]; [intros y; apply (te_first _ _ _ T y)|].
  unfold defect_p, defect_q. rewrite P1, P2, Q1, Q2. destruct (te_first _ _ _ T x) as [_ ->]. split; ring.
Qed.
Lemma residual x : (1 + e * x) * sum2 x + x * expansion n p q A A1 e x = e ^ S n * (x * w2 n x).
Proof.
  unfold sum2, expansion.
  assert (G : forall m, (m <= n)%nat -> (1 + e * x) * sum_f_R0 (fun k => e ^ k * w2 k x) m + x * sum_f_R0 (fun k => e ^ k * (p k x * A x + q k x * A1 x)) m = e ^ S m * (x * w2 m x)); [|apply G; lia].
  induction m as [|m IH]; intros Hm.
  - cbn [sum_f_R0]. unfold w2. destruct (first_defect x) as [-> ->]. destruct (te_first _ _ _ T x) as [-> ->]. ring.
  - cbn [sum_f_R0]. specialize (IH ltac:(lia)). set (s2 := sum_f_R0 (fun k => e ^ k * w2 k x) m) in *. set (s0 := sum_f_R0 (fun k => e ^ k * (p k x * A x + q k x * A1 x)) m) in *.
    destruct (te_order _ _ _ T m x Hm) as [O1 O2].
    assert (E : w2 (S m) x + x * (p (S m) x * A x + q (S m) x * A1 x) = - (x * w2 m x)).
    { unfold w2. replace (defect_p (p (S m)) (q (S m)) x) with (- (x * (defect_p (p m) (q m) x - x * p m x))) by lra.
      replace (defect_q (p (S m)) (q (S m)) x) with (- (x * (defect_q (p m) (q m) x - x * q m x))) by lra. ring. }
    replace ((1 + e * x) * (s2 + e ^ S m * w2 (S m) x) + x * (s0 + e ^ S m * (p (S m) x * A x + q (S m) x * A1 x)))
      with (((1 + e * x) * s2 + x * s0) + e ^ S m * (w2 (S m) x + x * (p (S m) x * A x + q (S m) x * A1 x)) + e ^ S (S m) * (x * w2 (S m) x)) by (cbn [pow]; ring).
    rewrite IH, E. ring.
Qed.
End Solve.

(** * In terms of rho *)
Lemma shifted (f g : R -> R) a c rho : (forall x, is_derive f x (g x)) -> c <> 0 -> is_derive (fun r => f ((r - a) / c)) rho (/ c * g ((rho - a) / c)).
Proof.
  intros H Hc. evar_last. { apply (is_derive_comp f (fun r => (r - a) / c)); [apply H|]. auto_derive; [exact Logic.I | reflexivity]. }
  unfold scal; cbn; unfold mult; cbn. field. exact Hc.
Qed.
Theorem solves n p q : turning_expansion n p q -> forall A A1 eta, airy A A1 -> 0 < eta ->
  let c := Rpower (2 * eta) (1 / 3) in let e := Rpower (2 * eta) (- (2 / 3)) in
  exists w1, w1 (2 * eta) = / c * sum_f_R0 (fun k => e ^ k * (Derive (p k) 0 * A 0 + (p k 0 + Derive (q k) 0) * A1 0)) n /\
  forall rho, 0 < rho -> let x := (rho - 2 * eta) / c in
    is_derive (fun r => expansion n p q A A1 e ((r - 2 * eta) / c)) rho (w1 rho) /\
    is_derive w1 rho ((2 * eta / rho - 1) * expansion n p q A A1 e x
      + e ^ S (S n) * (2 * eta / rho) * (x * ((defect_p (p n) (q n) x - x * p n x) * A x + (defect_q (p n) (q n) x - x * q n x) * A1 x))).
Proof.
  intros T A A1 eta HA He c e.
  assert (Hc : 0 < c) by apply exp_pos. assert (He0 : 0 < e) by apply exp_pos.
  assert (Cube : c * (c * c) = 2 * eta). { unfold c. rewrite <- !Rpower_plus. replace (1 / 3 + (1 / 3 + 1 / 3)) with 1 by lra. apply Rpower_1. lra. }
  assert (Ec : e * (c * c) = 1). { unfold c, e. rewrite <- !Rpower_plus. replace (- (2 / 3) + (1 / 3 + 1 / 3)) with 0 by lra. apply Rpower_O. lra. }
  exists (fun r => / c * sum1 n p q A A1 e ((r - 2 * eta) / c)). split.
  - f_equal. unfold sum1. apply sum_eq. intros k Hk. f_equal. unfold w1. replace ((2 * eta - 2 * eta) / c) with 0 by (field; lra). ring.
  - intros rho Hr x. split; [apply (shifted (expansion n p q A A1 e) (sum1 n p q A A1 e)); [intros t; apply expansion_derive; assumption | lra]|].
    evar_last. { apply (is_derive_scal (fun r => sum1 n p q A A1 e ((r - 2 * eta) / c)) rho (/ c)). apply (shifted (sum1 n p q A A1 e) (sum2 n p q A A1 e)); [intros t; apply sum1_derive; assumption | lra]. }
    pose proof (residual n p q A A1 e T x) as R. fold x. set (W := expansion n p q A A1 e x) in *. set (W2 := sum2 n p q A A1 e x) in *.
    fold (w2 p q A A1 n x). set (E := x * w2 p q A A1 n x) in *.
    assert (Ex : 1 + e * x = rho / (2 * eta)).
    { unfold x. apply (Rmult_eq_reg_r (2 * eta)); [|lra]. replace (rho / (2 * eta) * (2 * eta)) with rho by (field; lra).
      replace ((1 + e * ((rho - 2 * eta) / c)) * (2 * eta)) with (2 * eta + (rho - 2 * eta) * (e * (2 * eta) / c)) by (field; lra).
      rewrite <- Cube. replace (e * (c * (c * c)) / c) with (e * (c * c)) by (field; lra). rewrite Ec, Cube. ring. }
    assert (Xe : e * x = rho / (2 * eta) - 1) by lra.
    assert (Ei : / c * (/ c * W2) = e * W2). { replace e with (/ (c * c)); [field; lra|]. apply (Rmult_eq_reg_r (c * c)); [|nra]. rewrite Ec. field. lra. }
    rewrite Ei. rewrite Ex in R. 
    assert (W2 = (2 * eta / rho) * (e ^ S n * E - x * W)) by (apply (Rmult_eq_reg_l (rho / (2 * eta))); [rewrite <- R; field; lra | apply Rgt_not_eq; apply Rdiv_lt_0_compat; lra]).
    rewrite H. replace (e * (2 * eta / rho * (e ^ S n * E - x * W))) with ((2 * eta / rho) * (e ^ S (S n) * E) - (2 * eta / rho) * (e * x) * W) by (cbn [pow]; ring).
    rewrite Xe. field. lra.
Qed.

(** * The Wronskian *)
Lemma truncated (u v : nat -> R) n : exists c, forall e, 0 <= e <= 1 ->
  Rabs (sum_f_R0 (fun k => e ^ k * u k) (S n) * sum_f_R0 (fun k => e ^ k * v k) (S n) - sum_f_R0 (fun k => e ^ k * sum_f_R0 (fun i => u i * v (k - i)%nat) k) (S n)) <= c * e ^ S (S n).
Proof.
  exists (sum_f_R0 (fun k => sum_f_R0 (fun l => Rabs (u (S (l + k)) * v (S n - l)%nat)) (pred (S n - k))) (pred (S n))). intros e He.
  rewrite (cauchy_finite (fun k => e ^ k * u k) (fun k => e ^ k * v k) (S n)) by lia.
  replace (sum_f_R0 (fun k => sum_f_R0 (fun i => e ^ i * u i * (e ^ (k - i) * v (k - i)%nat)) k) (S n)) with (sum_f_R0 (fun k => e ^ k * sum_f_R0 (fun i => u i * v (k - i)%nat) k) (S n)).
  2: { apply sum_eq. intros k Hk. rewrite scal_sum. apply sum_eq. intros i Hi. replace (e ^ k) with (e ^ i * e ^ (k - i)) by (rewrite <- pow_add; f_equal; lia). ring. }
  match goal with |- Rabs (?a + ?b - ?a) <= _ => replace (a + b - a) with b by ring end.
  rewrite Rmult_comm, scal_sum. eapply Rle_trans; [apply Rsum_abs|]. apply sum_Rle. intros k Hk. rewrite Rmult_comm, scal_sum. eapply Rle_trans; [apply Rsum_abs|]. apply sum_Rle. intros l Hl.
  assert (X : e ^ S (l + k) * e ^ (S n - l) = e ^ k * e ^ S (S n)) by (rewrite <- !pow_add; f_equal; lia).
  replace (e ^ S (l + k) * u (S (l + k)) * (e ^ (S n - l) * v (S n - l)%nat)) with (u (S (l + k)) * v (S n - l)%nat * (e ^ S (l + k) * e ^ (S n - l)))
    by (generalize (e ^ S (l + k)), (e ^ (S n - l)); intros; ring).
  rewrite X, <- Rmult_assoc.
  rewrite !Rabs_mult, (Rabs_pos_eq (e ^ k)), (Rabs_pos_eq (e ^ S (S n))) by (apply pow_le; lra).
  rewrite <- Rabs_mult. set (a := Rabs (u (S (l + k)) * v (S n - l)%nat)). assert (0 <= a) by apply Rabs_pos. assert (0 <= e ^ S (S n)) by (apply pow_le; lra).
  assert (e ^ k <= 1) by (rewrite <- (pow1 k); apply pow_incr; lra). assert (0 <= e ^ k) by (apply pow_le; lra).
  apply Rmult_le_compat_r; [assumption|]. rewrite <- (Rmult_1_r a) at 2. apply Rmult_le_compat_l; assumption.
Qed.

Theorem wronskian_kept n p q : turning_expansion (S n) p q -> exists c, forall A A1 B B1 e, airy A A1 -> airy B B1 -> 0 <= e <= 1 ->
  let W A A1 := sum_f_R0 (fun k => e ^ k * (p k 0 * A 0 + q k 0 * A1 0)) (S n) in
  let W' A A1 := sum_f_R0 (fun k => e ^ k * (Derive (p k) 0 * A 0 + (p k 0 + Derive (q k) 0) * A1 0)) (S n) in
  Rabs (W A A1 * W' B B1 - W' A A1 * W B B1 - (A 0 * B1 0 - A1 0 * B 0)) <= c * Rabs (A 0 * B1 0 - A1 0 * B 0) * e ^ S (S n).
Proof.
  intros T. destruct (truncated (fun k => p k 0) (fun k => p k 0 + Derive (q k) 0) n) as [c1 C1]. destruct (truncated (fun k => q k 0) (fun k => Derive (p k) 0) n) as [c2 C2].
  exists (c1 + c2). intros A A1 B B1 e HA HB He W W'. specialize (C1 e He). specialize (C2 e He).
  set (P := sum_f_R0 (fun k => e ^ k * p k 0) (S n)) in *. set (Q := sum_f_R0 (fun k => e ^ k * q k 0) (S n)) in *.
  set (P1 := sum_f_R0 (fun k => e ^ k * Derive (p k) 0) (S n)) in *. set (PQ := sum_f_R0 (fun k => e ^ k * (p k 0 + Derive (q k) 0)) (S n)) in *.
  assert (Lin : forall (f g : nat -> R) a b, sum_f_R0 (fun k => e ^ k * (f k * a + g k * b)) (S n) = sum_f_R0 (fun k => e ^ k * f k) (S n) * a + sum_f_R0 (fun k => e ^ k * g k) (S n) * b).
  { intros f g a b. rewrite (Rmult_comm _ a), (Rmult_comm _ b), !scal_sum, <- sum_plus. apply sum_eq. intros; ring. }
  unfold W, W'. rewrite (Lin (fun k => p k 0) (fun k => q k 0)), (Lin (fun k => Derive (p k) 0) (fun k => p k 0 + Derive (q k) 0)).
  rewrite (Lin (fun k => p k 0) (fun k => q k 0)), (Lin (fun k => Derive (p k) 0) (fun k => p k 0 + Derive (q k) 0)). fold P Q P1 PQ.
  replace ((P * A 0 + Q * A1 0) * (P1 * B 0 + PQ * B1 0) - (P1 * A 0 + PQ * A1 0) * (P * B 0 + Q * B1 0) - (A 0 * B1 0 - A1 0 * B 0)) with ((P * PQ - Q * P1 - 1) * (A 0 * B1 0 - A1 0 * B 0)) by ring.
  rewrite Rabs_mult. replace ((c1 + c2) * Rabs (A 0 * B1 0 - A1 0 * B 0) * e ^ S (S n)) with ((c1 * e ^ S (S n) + c2 * e ^ S (S n)) * Rabs (A 0 * B1 0 - A1 0 * B 0)) by ring.
  apply Rmult_le_compat_r; [apply Rabs_pos|].
  assert (One : sum_f_R0 (fun k => e ^ k * sum_f_R0 (fun i => p i 0 * (p (k - i)%nat 0 + Derive (q (k - i)%nat) 0)) k) (S n) - sum_f_R0 (fun k => e ^ k * sum_f_R0 (fun i => q i 0 * Derive (p (k - i)%nat) 0) k) (S n) = 1).
  { rewrite <- minus_sum. rewrite (sum_eq _ (fun k => match k with O => 1 | S _ => 0 end)).
    - rewrite decomp_sum by lia. cbn [pred]. rewrite sum_cte. ring.
    - intros k Hk. rewrite <- Rmult_minus_distr_l, <- minus_sum. change (e ^ k * sum_f_R0 (fun i => wronskian_term p q i (k - i)) k = match k with O => 1 | S _ => 0 end). destruct k as [|k].
      + cbn [sum_f_R0 Nat.sub]. unfold wronskian_term. destruct (te_first _ _ _ T 0) as [-> ->]. rewrite (Derive_ext (q 0%nat) (fun _ => 0)) by (intros t; apply (te_first _ _ _ T t)). rewrite Derive_const. ring.
      + rewrite (te_wronskian _ _ _ T k) by lia. ring. }
  revert C1 C2 One. generalize (c1 * e ^ S (S n)) (c2 * e ^ S (S n)). intros r1 r2 C1 C2 One.
  apply Rabs_le_between in C1. apply Rabs_le_between in C2. apply Rabs_le_between. lra.
Qed.
