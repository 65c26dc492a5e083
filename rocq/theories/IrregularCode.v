(** Far from the turning point the code computes the irregular Coulomb function to seven digits. *)
From Coq Require Import ZArith QArith Qreals Reals Lra Lia List.
From Coquelicot Require Import Coquelicot.
From Verif Require Import Outcome CoulombWaveModel CoulombWaveSpec CoulombExactModel CoulombExactProofs CoulombMeshProofs NewmarkSpec AsymptoticSpec AsymptoticProofs SigmaSpec SigmaProofs SigmaTheorems IrregularSpec IrregularSeries IrregularProofs IrregularFar.
Open Scope R_scope.

(** * The size of the terms *)
Definition square (c : R * R) : R := fst c ^ 2 + snd c ^ 2.
Lemma square_next eta k : square (expansion eta (S k)) = square (multiplier eta k) * square (expansion eta k).
Proof. cbn [expansion]. destruct (multiplier eta k) as [p q]. destruct (expansion eta k) as [x y]. unfold square. cbn [fst snd]. ring. Qed.
Lemma square_pos c : 0 <= square c.
Proof. unfold square. pose proof (pow2_ge_0 (fst c)). pose proof (pow2_ge_0 (snd c)). lra. Qed.
Lemma square_multiplier eta k : square (multiplier eta k) = (INR k ^ 2 + eta ^ 2) * ((INR k + 1) ^ 2 + eta ^ 2) / (4 * (INR k + 1) ^ 2).
Proof. unfold square, multiplier. cbn [fst snd]. pose proof (pos_INR k). field. lra. Qed.
Definition term2 (eta rho : R) (k : nat) : R := square (expansion eta k) / (rho ^ k) ^ 2.
Lemma term2_next eta rho k : 0 < rho -> term2 eta rho (S k) = square (multiplier eta k) / rho ^ 2 * term2 eta rho k.
Proof. intros H. unfold term2. rewrite square_next. cbn [pow]. pose proof (pow_lt rho k H). field. lra. Qed.
Lemma term2_pos eta rho k : 0 < rho -> 0 <= term2 eta rho k.
Proof. intros H. apply Rdiv_le_0_compat; [apply square_pos | apply pow_lt, pow_lt, H]. Qed.
Lemma term_size eta rho k : 0 < rho -> size (expansion eta k) / rho ^ k = sqrt (term2 eta rho k).
Proof. intros H. unfold term2. pose proof (pow_lt rho k H) as P. rewrite sqrt_div by (apply square_pos || apply pow_lt, P). rewrite sqrt_pow2 by lra. reflexivity. Qed.

(** eta between two integers *)
Definition factor (i : Z) (k : nat) : Q :=
  let n := inject_Z (Z.of_nat k) in let h := inject_Z (i + 1) in let d := inject_Z (2 * i + 10) in
  ((n * n + h * h) * ((n + 1) * (n + 1) + h * h) / (4 * (n + 1) * (n + 1) * d * d))%Q.
Fixpoint product (i : Z) (n : nat) : Q :=
  match n with O => 1%Q | S n => Qred (factor i n * product i n) end.
Lemma Q2R_Z z : Q2R (inject_Z z) = IZR z.
Proof. unfold Q2R, inject_Z. cbn [Qnum Qden]. field. Qed.
Lemma factor_is i k : (0 <= i)%Z -> Q2R (factor i k) = (INR k ^ 2 + IZR (i + 1) ^ 2) * ((INR k + 1) ^ 2 + IZR (i + 1) ^ 2) / (4 * (INR k + 1) ^ 2) / IZR (2 * i + 10) ^ 2.
Proof.
  intros Hi. unfold factor. assert (D : 0 < IZR (2 * i + 10)) by (apply IZR_lt; lia). pose proof (pos_INR k) as K.
  assert (Nk : (inject_Z (Z.of_nat k) + 1 == inject_Z (Z.of_nat k + 1))%Q) by (unfold Qeq; cbn; lia).
  assert (NZ : ~ (4 * (inject_Z (Z.of_nat k) + 1) * (inject_Z (Z.of_nat k) + 1) * inject_Z (2 * i + 10) * inject_Z (2 * i + 10) == 0)%Q) by (unfold Qeq; cbn [Qnum Qden Qmult Qplus inject_Z]; nia).
  rewrite Q2R_div by exact NZ. rewrite !Q2R_mult, !Q2R_plus, !Q2R_mult, ?Q2R_plus, !Q2R_Z, <- INR_IZR_INZ. change (Q2R 1) with (Q2R (inject_Z 1)). change (Q2R 4) with (Q2R (inject_Z 4)). rewrite !Q2R_Z. field. split; lra.
Qed.
Section Piece.
Variables (i : Z) (eta rho : R).
Hypothesis i0 : (0 <= i)%Z.
Hypothesis piece : IZR i <= eta <= IZR (i + 1).
Hypothesis away : 2 * eta + 10 <= rho.
Lemma factor_le k : square (multiplier eta k) / rho ^ 2 <= Q2R (factor i k).
Proof.
  rewrite factor_is, square_multiplier by exact i0. assert (I0 : 0 <= IZR i) by (apply IZR_le; exact i0). pose proof (pos_INR k) as K.
  assert (D : 0 < IZR (2 * i + 10) <= rho). { rewrite plus_IZR, mult_IZR in *. lra. }
  set (h := IZR (i + 1)) in *. set (d := IZR (2 * i + 10)) in *. assert (E : 0 <= eta ^ 2 <= h ^ 2) by (split; [apply pow2_ge_0 | apply pow_incr; lra]).
  assert (P : 0 < 4 * (INR k + 1) ^ 2) by (assert (0 < (INR k + 1) ^ 2) by (apply pow_lt; lra); lra). pose proof (pow2_ge_0 (INR k)). pose proof (pow2_ge_0 (INR k + 1)).
  unfold Rdiv at 1 3. apply Rmult_le_compat; [apply Rdiv_le_0_compat; [nra | exact P] | apply Rlt_le, Rinv_0_lt_compat, pow_lt; lra | | apply Rinv_le_contravar; [apply pow_lt; lra | apply pow_incr; lra]].
  unfold Rdiv. apply Rmult_le_compat_r; [apply Rlt_le, Rinv_0_lt_compat, P|]. apply Rmult_le_compat; lra.
Qed.
Lemma product_le n : term2 eta rho n <= Q2R (product i n).
Proof.
  assert (I0 : 0 <= IZR i) by (apply IZR_le; exact i0). assert (R0 : 0 < rho) by lra.
  induction n as [|n IH]; [unfold term2, square; cbn [product expansion fst snd pow]; unfold Q2R; cbn; lra|]. cbn [product]. rewrite term2_next by exact R0. rewrite (Qeq_eqR _ _ (Qred_correct _)), Q2R_mult.
  apply Rmult_le_compat; [apply Rdiv_le_0_compat; [apply square_pos | apply pow_lt, R0] | apply term2_pos, R0 | apply factor_le | exact IH].
Qed.
Lemma shrinks k : Qle_bool (factor i k) 1 = true -> shrinking eta rho k.
Proof.
  intros H. apply Qle_bool_iff, Qle_Rle in H. pose proof (factor_le k) as F. replace (Q2R 1) with 1 in H by (unfold Q2R; cbn; lra). assert (I0 : 0 <= IZR i) by (apply IZR_le; exact i0). assert (P : 0 < rho ^ 2) by (apply pow_lt; lra).
  unfold shrinking. fold (square (multiplier eta k)). apply (Rmult_le_reg_r (/ rho ^ 2)); [apply Rinv_0_lt_compat, P|]. rewrite Rinv_r by lra. unfold Rdiv in F. lra.
Qed.
End Piece.
Definition small_enough (i : Z) : bool := Qle_bool (product i 18) (Qmake 1 10000000000000000) && forallb (fun k => Qle_bool (factor i k) 1) (seq 0 18).
Lemma all_small : forallb small_enough (0 :: 1 :: 2 :: 3 :: 4 :: nil)%Z = true.
Proof. vm_compute. reflexivity. Qed.
Lemma in_piece eta : 0 <= eta <= 5 -> exists i, (0 <= i)%Z /\ small_enough i = true /\ IZR i <= eta <= IZR (i + 1).
Proof.
  intros H. assert (A : forall i, In i (0 :: 1 :: 2 :: 3 :: 4 :: nil)%Z -> small_enough i = true) by (apply forallb_forall, all_small).
  assert (X : forall i, In i (0 :: 1 :: 2 :: 3 :: 4 :: nil)%Z -> (0 <= i)%Z -> IZR i <= eta <= IZR i + 1 -> exists i, (0 <= i)%Z /\ small_enough i = true /\ IZR i <= eta <= IZR (i + 1)).
  { intros i Hi H0 B. exists i. split; [exact H0|]. split; [apply A, Hi|]. rewrite plus_IZR. exact B. }
  destruct (Rle_or_lt eta 1); [apply (X 0%Z); [do 0 right; left; reflexivity | lia | lra]|]. destruct (Rle_or_lt eta 2); [apply (X 1%Z); [do 1 right; left; reflexivity | lia | lra]|].
  destruct (Rle_or_lt eta 3); [apply (X 2%Z); [do 2 right; left; reflexivity | lia | lra]|]. destruct (Rle_or_lt eta 4); [apply (X 3%Z); [do 3 right; left; reflexivity | lia | lra]|].
  apply (X 4%Z); [do 4 right; left; reflexivity | lia | lra].
Qed.
Lemma early eta rho : 0 <= eta <= 5 -> 2 * eta + 10 <= rho -> term2 eta rho 18 <= / 10 ^ 16 /\ forall k, (k < 18)%nat -> shrinking eta rho k.
Proof.
  intros He Hr. destruct (in_piece eta He) as (i & I0 & S & P). unfold small_enough in S. apply andb_true_iff in S. destruct S as [S1 S2]. split.
  - eapply Rle_trans; [apply (product_le i); assumption|]. apply Qle_bool_iff, Qle_Rle in S1. replace (/ 10 ^ 16) with (Q2R (Qmake 1 10000000000000000)); [exact S1|]. unfold Q2R. cbn [Qnum Qden]. rewrite Rmult_1_l. f_equal. ring.
  - intros k Hk. apply (shrinks i); try assumption. rewrite forallb_forall in S2. apply S2, in_seq. lia.
Qed.
Lemma later eta rho N : 0 < rho -> (forall k, (k < N)%nat -> shrinking eta rho k) -> forall n, (n <= N)%nat -> term2 eta rho N <= term2 eta rho n.
Proof.
  intros R0 H n L. induction L as [|m L IH]; [lra|]. eapply Rle_trans; [|apply IH; intros k Hk; apply H; lia]. rewrite term2_next by exact R0. pose proof (term2_pos eta rho m R0) as P. pose proof (H m ltac:(lia)) as S. unfold shrinking in S. fold (square (multiplier eta m)) in S.
  assert (Q : square (multiplier eta m) / rho ^ 2 <= 1). { assert (0 < rho ^ 2) by (apply pow_lt, R0). apply (Rmult_le_reg_r (rho ^ 2)); [assumption|]. unfold Rdiv. rewrite Rmult_assoc, Rinv_l by lra. lra. } nra.
Qed.
(** The sum has at least 19 terms, unless two look the same, and the last is less than 1e-8 *)
Lemma last_small eta rho N : 0 <= eta <= 5 -> 2 * eta + 10 <= rho -> (forall k, (k < 18)%nat -> ~ repeating eta rho k) -> last_term eta rho N -> (18 <= N <= 100)%nat /\ size (expansion eta N) / rho ^ N <= / 10 ^ 8.
Proof.
  intros He Hr Hn (S & L & E). destruct (early eta rho He Hr) as [T K]. assert (N18 : (18 <= N)%nat). { destruct (Nat.lt_ge_cases N 18) as [X|X]; [|exact X]. exfalso. destruct E as [E|[E|E]]; [lia | apply E, K, X | apply (Hn N X E)]. }
  split; [lia|]. rewrite term_size by lra. replace (/ 10 ^ 8) with (sqrt (/ 10 ^ 16)); [apply sqrt_le_1_alt; eapply Rle_trans; [apply (later eta rho N); [lra | exact S | exact N18] | exact T]|].
  replace (/ 10 ^ 16) with ((/ 10 ^ 8) ^ 2) by field. apply sqrt_pow2. apply Rlt_le, Rinv_0_lt_compat. lra.
Qed.

(** * The values *)
Section Values.
Variables (eta rho : R) (N : nat).
Hypothesis He : 0 <= eta <= 5.
Hypothesis Hr : 2 * eta + 10 <= rho.
Hypothesis HN : (18 <= N <= 100)%nat.
Hypothesis small : size (expansion eta N) / rho ^ N <= / 10 ^ 8.
Lemma root_half : sqrt (1 - 2 * eta / rho) * (1415 / 1000) >= 1.
Proof.
  assert (X : 2 * eta / rho <= 1 / 2) by (apply (Rmult_le_reg_r rho); [lra|]; unfold Rdiv; rewrite Rmult_assoc, Rinv_l by lra; lra).
  apply Rle_ge. rewrite <- (sqrt_pow2 (1415 / 1000)), <- sqrt_mult by lra. rewrite <- sqrt_1 at 1. apply sqrt_le_1_alt. nra.
Qed.
Lemma values_near s sigma G G1 : (forall r, 0 < r -> is_derive G r (G1 r)) -> (forall r, 0 < r -> is_derive G1 r (acceleration eta r (G r))) ->
  is_lim (fun r => G r - cos (theta eta sigma r)) p_infty 0 -> is_lim (fun r => G1 r + sin (theta eta sigma r)) p_infty 0 ->
  Rabs (slopes eta N rho (theta eta s rho) - G1 rho) <= Rabs (s - sigma) + 13 / 10 ^ 8 /\ Rabs (wave eta s N rho - G rho) <= 1415 / 1000 * (Rabs (s - sigma) + 3 / 10 ^ 8).
Proof.
  intros SL E F F1. destruct N as [|n]; [lia|]. destruct (wave_near eta s sigma G G1 (proj1 He) SL E F F1 n rho ltac:(lra)) as [A B]. set (t := size (expansion eta (S n)) / rho ^ S n) in *. set (ph := theta eta s rho) in *.
  replace (2 * size (expansion eta (S n)) / rho ^ S n) with (2 * t) in A, B by (unfold t, Rdiv; ring). pose proof (turned_le ph (expansion eta (S n))) as T. pose proof (turned_le ph (times_i (expansion eta (S n)))) as T1. rewrite size_i in T1.
  assert (PN : 0 < / rho ^ S n) by (apply Rinv_0_lt_compat, pow_lt; lra). assert (T0 : 0 <= t) by (apply Rdiv_le_0_compat; [apply size_pos | apply pow_lt; lra]).
  assert (X : 0 <= eta / rho <= 1). { split; [apply Rdiv_le_0_compat; lra|]. apply (Rmult_le_reg_r rho); [lra|]. unfold Rdiv. rewrite Rmult_assoc, Rinv_l by lra. lra. }
  split.
  - unfold slopes. cbn [sum_f_R0]. fold (slopes eta n rho ph).
    match goal with |- Rabs (_ + (?a - ?b) - _) <= _ => replace (slopes eta n rho ph + (a - b) - G1 rho) with ((slopes eta n rho ph - G1 rho) + (a - b)) by ring; set (a0 := a); set (b0 := b) end.
    assert (HA : Rabs a0 <= t).
    { unfold a0, t, Rdiv at 1 3. rewrite !Rabs_mult, (Rabs_pos_eq (/ rho ^ S n)), (Rabs_pos_eq (1 - eta / rho)) by lra. apply Rmult_le_compat_r; [lra|]. pose proof (Rabs_pos (turned ph (times_i (expansion eta (S n))))). nra. }
    assert (HB : Rabs b0 <= 10 * t).
    { assert (Z : b0 = INR (S n) / rho * (turned ph (expansion eta (S n)) * / rho ^ S n)) by (unfold b0; change (rho ^ S (S n)) with (rho * rho ^ S n); field; split; [apply pow_nonzero; lra | lra]). rewrite Z.
      assert (M : INR (S n) <= 100) by (replace 100 with (INR 100) by (cbn; lra); apply le_INR; lia). assert (M0 : 0 <= INR (S n) / rho) by (apply Rdiv_le_0_compat; [apply pos_INR | lra]).
      assert (M1 : INR (S n) / rho <= 10) by (apply (Rmult_le_reg_r rho); [lra|]; unfold Rdiv; rewrite Rmult_assoc, Rinv_l by lra; lra).
      rewrite !Rabs_mult, (Rabs_pos_eq (/ rho ^ S n)), (Rabs_pos_eq (INR (S n) / rho)) by lra. apply Rmult_le_compat; [lra | apply Rmult_le_pos; [apply Rabs_pos | lra] | exact M1|]. unfold t, Rdiv. apply Rmult_le_compat_r; lra. }
    assert (HC : Rabs (a0 - b0) <= Rabs a0 + Rabs b0) by (unfold Rminus; eapply Rle_trans; [apply Rabs_triang | rewrite Rabs_Ropp; lra]).
    eapply Rle_trans; [apply Rabs_triang|]. lra.
  - unfold wave, terms. fold ph. cbn [sum_f_R0]. fold (terms eta n rho ph). change (terms eta n rho ph) with (wave eta s n rho).
    replace (wave eta s n rho + turned ph (expansion eta (S n)) / rho ^ S n - G rho) with ((wave eta s n rho - G rho) + turned ph (expansion eta (S n)) / rho ^ S n) by ring.
    assert (HT : Rabs (turned ph (expansion eta (S n)) / rho ^ S n) <= t). { unfold t, Rdiv. rewrite Rabs_mult, (Rabs_pos_eq (/ rho ^ S n)) by lra. apply Rmult_le_compat_r; lra. }
    assert (HW : Rabs (wave eta s n rho - G rho) <= 1415 / 1000 * (Rabs (s - sigma) + 2 * t)). { pose proof root_half as Rh. pose proof (Rabs_pos (wave eta s n rho - G rho)). pose proof (Rabs_pos (s - sigma)). set (w := Rabs (wave eta s n rho - G rho)) in *. set (q := sqrt (1 - 2 * eta / rho)) in *. nra. }
    eapply Rle_trans; [apply Rabs_triang|]. pose proof (Rabs_pos (s - sigma)). lra.
Qed.
(** The Wronskian of the sums is one to six digits *)
Lemma turn a : terms eta N rho a * slopes eta N rho (a - PI / 2) - slopes eta N rho a * terms eta N rho (a - PI / 2) = wronskian eta N rho.
Proof.
  assert (R0 : 0 < rho) by lra. rewrite wronskian_is by exact R0. destruct (sum_turned a rho eta N R0) as [A B]. destruct (sum_turned (a - PI / 2) rho eta N R0) as [C D]. rewrite <- A, <- B, <- C, <- D.
  rewrite cos_minus, sin_minus, cos_PI2, sin_PI2. pose proof (sin2_cos2 a) as Q. unfold Rsqr in Q. set (p := cos a) in *. set (q := sin a) in *. 
  generalize (sum_f_R0 (zs rho eta) N) (sum_f_R0 (zt rho eta) N) (sum_f_R0 (qs rho eta) N) (sum_f_R0 (qt rho eta) N). intros x y z w.
  transitivity ((q * q + p * p) * (x * w - z * y)); [ring | rewrite Q; ring].
Qed.
Lemma accepted : Rabs (wronskian eta N rho - 1) <= / 1000000.
Proof.
  assert (E0 : 0 <= eta) by lra. assert (R0 : 0 < rho) by lra.
  destruct (combination eta E0 0) as (G & G1 & C & S & E & C0 & F). destruct (combination eta E0 (0 - PI / 2)) as (H & H1 & D & T & U & D0 & V).
  assert (FG : is_lim (fun r => G r - cos (theta eta 0 r)) p_infty 0 /\ is_lim (fun r => G1 r + sin (theta eta 0 r)) p_infty 0) by (split; apply (vanishes C _ (4 * eta + 1)); try lra; apply F).
  assert (FH : is_lim (fun r => H r - cos (theta eta (0 - PI / 2) r)) p_infty 0 /\ is_lim (fun r => H1 r + sin (theta eta (0 - PI / 2) r)) p_infty 0) by (split; apply (vanishes D _ (4 * eta + 1)); try lra; apply V).
  destruct FG as [FG FG1]. destruct FH as [FH FH1].
  assert (W : G rho * H1 rho - G1 rho * H rho = 1).
  { set (w := fun r => G r * H1 r - G1 r * H r). change (w rho = 1). assert (K : forall r, 0 < r -> w r = w rho).
    { intros r Hr0. apply (constant w); [|exact Hr0 | exact R0]. intros x Hx. evar_last; [apply (wronskian_derive G G1 H H1 x _ _ (S x Hx) (E x Hx) (T x Hx) (U x Hx))|]. unfold acceleration. ring. }
    assert (L : forall r, 4 * eta + 1 <= r -> Rabs (w rho - 1) <= (2 * C + 2 * D + 2 * C * D) / r).
    { intros r Hr1. rewrite <- (K r) by lra. destruct (F r Hr1) as [A B]. destruct (V r Hr1) as [A' B']. assert (TH : theta eta (0 - PI / 2) r = theta eta 0 r - PI / 2) by (unfold theta; ring).
      rewrite TH, cos_minus, cos_PI2, sin_PI2 in A'. rewrite TH, sin_minus, cos_PI2, sin_PI2 in B'. pose proof (sin2_cos2 (theta eta 0 r)) as Q. unfold Rsqr in Q. destruct (trig_le (theta eta 0 r)) as [Tc Ts]. set (p := cos (theta eta 0 r)) in *. set (q := sin (theta eta 0 r)) in *.
      set (x := G r - p) in *. set (y := G1 r + q) in *. set (z := H r - (p * 0 + q * 1)) in *. set (v := H1 r + (q * 0 - p * 1)) in *.
      replace (w r - 1) with (p * v + x * p + x * v + q * z - y * q - y * z) by (rewrite <- Q; unfold w, x, y, z, v; ring).
      assert (I : 0 < / r <= 1). { split; [apply Rinv_0_lt_compat; lra|]. rewrite <- Rinv_1. apply Rinv_le_contravar; lra. }
      assert (M : forall a b a' b', Rabs a <= a' -> Rabs b <= b' -> Rabs (a * b) <= a' * b') by (intros a b a' b' Ha Hb; rewrite Rabs_mult; apply Rmult_le_compat; (apply Rabs_pos || assumption)).
      pose proof (M p v 1 (D / r) Tc B') as M1. pose proof (M x p (C / r) 1 A Tc) as M2. pose proof (M x v (C / r) (D / r) A B') as M3. pose proof (M q z 1 (D / r) Ts A') as M4. pose proof (M y q (C / r) 1 B Ts) as M5. pose proof (M y z (C / r) (D / r) B A') as M6.
      assert (CD : C / r * (D / r) <= C * D / r). { unfold Rdiv. replace (C * / r * (D * / r)) with (C * D * / r * / r) by ring. assert (0 < C * D * / r) by (apply Rmult_lt_0_compat; [apply Rmult_lt_0_compat; assumption | lra]). nra. }
      apply Rabs_le_between in M1, M2, M3, M4, M5, M6. apply Rabs_le_between. replace ((2 * C + 2 * D + 2 * C * D) / r) with (2 * (C / r) + 2 * (D / r) + 2 * (C * D / r)) by (field; lra). lra. }
    set (K0 := 2 * C + 2 * D + 2 * C * D) in *. assert (P : 0 < K0) by (unfold K0; assert (0 < C * D) by (apply Rmult_lt_0_compat; assumption); lra).
    destruct (Rle_or_lt (Rabs (w rho - 1)) 0) as [Z|Z]; [pose proof (Rabs_pos (w rho - 1)); assert (w rho - 1 = 0) by (apply Rabs_eq_0; lra); lra|]. exfalso.
    set (m := Rabs (w rho - 1)) in *. specialize (L (4 * eta + 1 + 2 * K0 / m)). assert (Y : 0 < 2 * K0 / m) by (apply Rdiv_lt_0_compat; lra). specialize (L ltac:(lra)).
    apply (Rmult_le_compat_r (4 * eta + 1 + 2 * K0 / m)) in L; [|lra]. unfold Rdiv at 2 in L. rewrite Rmult_assoc, Rinv_l in L by lra. assert (m * (2 * K0 / m) = 2 * K0) by (field; lra). nra. }
  destruct (values_near 0 0 G G1 S E FG FG1) as [A B]. destruct (values_near (0 - PI / 2) (0 - PI / 2) H H1 T U FH FH1) as [A' B']. rewrite (Rminus_diag_eq 0 0 eq_refl), Rabs_R0 in A, B. rewrite (Rminus_diag_eq (0 - PI / 2) _ eq_refl), Rabs_R0 in A', B'.
  destruct (solution_one eta 0 G G1 rho E0 ltac:(lra) S E FG FG1) as [g1 g]. destruct (solution_one eta (0 - PI / 2) H H1 rho E0 ltac:(lra) T U FH FH1) as [h1 h]. pose proof root_half as Rh.
  assert (g' : Rabs (G rho) <= 1415 / 1000) by (pose proof (Rabs_pos (G rho)); set (w := Rabs (G rho)) in *; set (q := sqrt (1 - 2 * eta / rho)) in *; nra).
  assert (h' : Rabs (H rho) <= 1415 / 1000) by (pose proof (Rabs_pos (H rho)); set (w := Rabs (H rho)) in *; set (q := sqrt (1 - 2 * eta / rho)) in *; nra).
  rewrite <- (turn (theta eta 0 rho)). replace (theta eta 0 rho - PI / 2) with (theta eta (0 - PI / 2) rho) by (unfold theta; ring). change (terms eta N rho (theta eta 0 rho)) with (wave eta 0 N rho). change (terms eta N rho (theta eta (0 - PI / 2) rho)) with (wave eta (0 - PI / 2) N rho).
  set (f := wave eta 0 N rho) in *. set (f1 := slopes eta N rho (theta eta 0 rho)) in *. set (k := wave eta (0 - PI / 2) N rho) in *. set (k1 := slopes eta N rho (theta eta (0 - PI / 2) rho)) in *. rewrite <- W.
  replace (f * k1 - f1 * k - (G rho * H1 rho - G1 rho * H rho)) with ((f - G rho) * (k1 - H1 rho) + (f - G rho) * H1 rho + G rho * (k1 - H1 rho) - (f1 - G1 rho) * (k - H rho) - (f1 - G1 rho) * H rho - G1 rho * (k - H rho)) by ring.
  assert (M : forall a b a' b', Rabs a <= a' -> Rabs b <= b' -> - (a' * b') <= a * b <= a' * b') by (intros a b a' b' Ha Hb; apply Rabs_le_between; rewrite Rabs_mult; apply Rmult_le_compat; (apply Rabs_pos || assumption)).
  pose proof (M _ _ _ _ B A') as M1. pose proof (M _ _ _ _ B h1) as M2. pose proof (M _ _ _ _ g' A') as M3. pose proof (M _ _ _ _ A B') as M4. pose proof (M _ _ _ _ A h') as M5. pose proof (M _ _ _ _ g1 B') as M6.
  apply Rabs_le_between. lra.
Qed.
End Values.

(** * What the code computes *)
Theorem far_code eta rho G G1 : 0 <= eta <= 5 -> 2 * eta + 10 <= rho -> irregular eta G G1 -> (forall k, (k < 18)%nat -> ~ repeating eta rho k) ->
  exists s g g1, sigma0_of exact (Fin eta) = Fin s /\ omGcase3 exact (Fin rho) (Fin eta) (Fin s) = Ok (Fin g, Fin g1) /\
    Rabs (g - G rho) <= / 10 ^ 7 /\ Rabs (g1 - G1 rho) <= 2 / 10 ^ 7.
Proof.
  intros He Hr I Hn. destruct (phase_code eta) as (s & Es & sigma & Hs & Ds). destruct (ir_far _ _ _ I sigma Hs) as [F F1].
  destruct (case3_exact rho eta s ltac:(lra)) as (N & L & K). cbv zeta in L, K.
  assert (X : rho + 5 * INR 0 = rho) by (cbn [INR]; ring). pose proof (L O) as L0. rewrite X in L0. destruct (last_small eta rho (N O) He Hr Hn L0) as [N18 T].
  pose proof (accepted eta rho (N O) He Hr N18 T) as A. exists s, (wave eta s (N O) rho), (slopes eta (N O) rho (theta eta s rho)). split; [exact Es|].
  destruct (values_near eta rho (N O) He Hr N18 T s sigma G G1 (ir_slope _ _ _ I) (ir_equation _ _ _ I) F F1) as [B1 B0].
  split; [|split; [lra|lra]].
  destruct K as [(j & _ & J1 & J2 & J3)|[J _]]; [|exfalso; apply (J O); [lia | rewrite X; exact A]].
  destruct j as [|j]; [rewrite X in J3; exact J3 | exfalso; apply (J1 O); [lia | rewrite X; exact A]].
Qed.
Theorem far_asymptotic eta rho G G1 : 0 <= eta < 5 -> 2 * eta + 10 <= rho -> irregular eta G G1 -> (forall k, (k < 18)%nat -> ~ repeating eta rho k) ->
  exists g g1, omAsymptotic exact (Fin rho) (Fin eta) (sigma0_of exact (Fin eta)) = Ok (Fin g, Fin g1) /\ Rabs (g - G rho) <= / 10 ^ 7 /\ Rabs (g1 - G1 rho) <= 2 / 10 ^ 7.
Proof.
  intros He Hr I Hn. destruct (far_code eta rho G G1 ltac:(lra) Hr I Hn) as (s & g & g1 & Es & E & A & B). exists g, g1. split; [|split; [exact A | exact B]]. rewrite Es. apply asymptotic_there.
  unfold startAsymptotic. change (#15%num : exact) with (Fin 15 : exact). change (#5%num : exact) with (Fin 5 : exact). rewrite !le_false by lra. cbv zeta.
  change (#2%num * (Fin eta : exact) + #10)%num with (Fin (2 * eta + 10) : exact).
  destruct (Req_dec (2 * eta + 10) rho) as [X|X]; [rewrite X, lt_false by lra | rewrite lt_true by lra]; rewrite E; reflexivity.
Qed.
