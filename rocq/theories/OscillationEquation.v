(** The expansion of omGcase4 put into the Coulomb equation, order by order. *)
From Coq Require Import ZArith Reals Bool Lia Lra.
From Coquelicot Require Import Coquelicot.
From Verif Require Import CoulombWaveModel CoulombWaveSpec CoulombExactModel CoulombExactProofs CoulombRealProofs CoulombOscillationProofs NewmarkSpec.
Open Scope R_scope.

(** * The orders of the logarithmic derivative of the amplitude and of the derivative of the phase *)
Definition over (n : R -> R) (k : nat) (x : R) : R := n x / (1 - x) ^ k.
Lemma over_derive n d k x : x < 1 -> is_derive n x d -> is_derive (over n k) x ((d * (1 - x) + INR k * n x) / (1 - x) ^ S k).
Proof.
  intros Hx H. unfold over.
  assert (P : is_derive (fun x => (1 - x) ^ k) x (- (INR k * (1 - x) ^ pred k))) by (evar_last; [apply (is_derive_pow (fun x => 1 - x) k x (-1)); auto_derive; [exact Logic.I | ring] | ring]).
  assert (E : is_derive (fun x => n x / (1 - x) ^ k) x ((d * (1 - x) ^ k - n x * - (INR k * (1 - x) ^ pred k)) / ((1 - x) ^ k) ^ 2)) by (apply is_derive_div; [exact H | exact P | apply pow_nonzero; lra]).
  replace ((d * (1 - x) + INR k * n x) / (1 - x) ^ S k) with ((d * (1 - x) ^ k - n x * - (INR k * (1 - x) ^ pred k)) / ((1 - x) ^ k) ^ 2); [exact E|].
  destruct k as [|k]; [cbn; field; lra|]. cbn [pred]. cbn [pow]. assert (N : (1 - x) ^ k <> 0) by (apply pow_nonzero; lra). clear P E. revert N. generalize ((1 - x) ^ k). intros w N. field. split; lra.
Qed.
Definition n1 (x : R) : R := x ^ 2 / 4.
Definition n3 (x : R) : R := x ^ 4 * h1 x.
Definition n5 (x : R) : R := x ^ 6 * h2 x.
Definition n7 (x : R) : R := x ^ 8 * h3 x.
Definition m2 (x : R) : R := x ^ 3 * e1 x.
Definition m4 (x : R) : R := x ^ 5 * e2 x.
Definition m6 (x : R) : R := x ^ 7 * e3 x + 2000000 / 10321920 * x ^ 5 * (4 + 7 / 2 * x).
Definition p1 := over n1 1. Definition p3 := over n3 4. Definition p5 := over n5 7. Definition p7 := over n7 10.
Definition q2 := over m2 3. Definition q4 := over m4 6. Definition q6 := over m6 9.
Definition dn1 (x : R) : R := x / 2.
Definition dn3 (x : R) : R := 4 * x ^ 3 * h1 x + x ^ 4 * (-3 * (2 * x - 4) / 64).
Definition dn5 (x : R) : R := 6 * x ^ 5 * h2 x + x ^ 6 * (3 * (156 * x ^ 3 - 780 * x ^ 2 + 1456 * x - 832) / 4096).
Definition dn7 (x : R) : R := 8 * x ^ 7 * h3 x + x ^ 8 * (-3 * (11394 * x ^ 5 - 88620 * x ^ 4 + 293728 * x ^ 3 - 531840 * x ^ 2 + 616960 * x + 196608) / 131072).
Definition dm2 (x : R) : R := 3 * x ^ 2 * e1 x - 3 / 32 * x ^ 3.
Definition dm4 (x : R) : R := 5 * x ^ 4 * e2 x + x ^ 5 * (- (- 189 * x ^ 2 + 672 * x - 704) / 2048).
Definition dm6 (x : R) : R := 7 * x ^ 6 * e3 x + x ^ 7 * ((- 10395 * x ^ 4 + 66528 * x ^ 3 - 173376 * x ^ 2 + 229888 * x - 30720) / 65536) + 2000000 / 10321920 * (20 * x ^ 4 + 21 * x ^ 5).
Definition d_over (n d : R -> R) (k : nat) (x : R) : R := (d x * (1 - x) + INR k * n x) / (1 - x) ^ S k.
Lemma poly_derives x : is_derive n1 x (dn1 x) /\ is_derive n3 x (dn3 x) /\ is_derive n5 x (dn5 x) /\ is_derive n7 x (dn7 x) /\ is_derive m2 x (dm2 x) /\ is_derive m4 x (dm4 x) /\ is_derive m6 x (dm6 x).
Proof.
  unfold n1, n3, n5, n7, m2, m4, m6, dn1, dn3, dn5, dn7, dm2, dm4, dm6, h1, h2, h3, e1, e2, e3.
  refine (Logic.conj _ (Logic.conj _ (Logic.conj _ (Logic.conj _ (Logic.conj _ (Logic.conj _ _)))))); (auto_derive; [exact Logic.I | field]).
Qed.

(** * Order by order *)
Section Orders.
Variable x : R.
Hypothesis Hx : x < 1.
Let dp1 := d_over n1 dn1 1 x. Let dp3 := d_over n3 dn3 4 x. Let dp5 := d_over n5 dn5 7 x. Let dp7 := d_over n7 dn7 10 x.
Let dq2 := d_over m2 dm2 3 x. Let dq4 := d_over m4 dm4 6 x. Let dq6 := d_over m6 dm6 9 x.
Ltac open := unfold dp1, dp3, dp5, dp7, dq2, dq4, dq6, p1, p3, p5, p7, q2, q4, q6, d_over, over, n1, n3, n5, n7, m2, m4, m6, dn1, dn3, dn5, dn7, dm2, dm4, dm6, h1, h2, h3, e1, e2, e3; cbn [INR].
Lemma real_2 : x ^ 2 * dp1 + p1 x ^ 2 - 2 * (1 - x) * q2 x = 0.
Proof. open. field. lra. Qed.
Lemma real_4 : x ^ 2 * dp3 + 2 * p1 x * p3 x - (1 - x) * (2 * q4 x + q2 x ^ 2) = 0.
Proof. open. field. lra. Qed.
Lemma real_6 : x ^ 2 * dp5 + 2 * p1 x * p5 x + p3 x ^ 2 - (1 - x) * (2 * q6 x + 2 * q2 x * q4 x) = - x ^ 5 * (3125 / 2016 + 3125 / 2304 * x) / (1 - x) ^ 8.
Proof. open. field. lra. Qed.
Lemma imag_1 : 2 * p1 x - x ^ 2 / (2 * (1 - x)) = 0.
Proof. open. field. lra. Qed.
Lemma imag_3 : 2 * (p1 x * q2 x + p3 x) + x ^ 2 * (dq2 - q2 x / (2 * (1 - x))) = 0.
Proof. open. field. lra. Qed.
Lemma imag_5 : 2 * (p1 x * q4 x + p3 x * q2 x + p5 x) + x ^ 2 * (dq4 - q4 x / (2 * (1 - x))) = - x ^ 7 * (3 / 32 - 21 / 256 * x + 15 / 512 * x ^ 2 - 9 / 2048 * x ^ 3) / (1 - x) ^ 7.
Proof. open. field. lra. Qed.
Lemma imag_7 : 2 * (p1 x * q6 x + p3 x * q4 x + p5 x * q2 x + p7 x) + x ^ 2 * (dq6 - q6 x / (2 * (1 - x))) = x ^ 6 * (15625 / 4032 + 115625 / 16128 * x + 3125 / 1536 * x ^ 2) / (1 - x) ^ 10.
Proof. open. field. lra. Qed.
End Orders.

(** * The equation *)
Definition P4 (z x : R) : R := z * p1 x + z ^ 3 * p3 x + z ^ 5 * p5 x + z ^ 7 * p7 x.
Definition Q4 (z x : R) : R := u2 x * (1 + z ^ 2 * q2 x + z ^ 4 * q4 x + z ^ 6 * q6 x).
Definition dP4 (z x : R) : R := z * d_over n1 dn1 1 x + z ^ 3 * d_over n3 dn3 4 x + z ^ 5 * d_over n5 dn5 7 x + z ^ 7 * d_over n7 dn7 10 x.
Definition dQ4 (z x : R) : R := u2 x * ((z ^ 2 * (d_over m2 dm2 3 x - q2 x / (2 * (1 - x))) + z ^ 4 * (d_over m4 dm4 6 x - q4 x / (2 * (1 - x))) + z ^ 6 * (d_over m6 dm6 9 x - q6 x / (2 * (1 - x)))) - 1 / (2 * (1 - x))).
Lemma P4_derive z x : 0 < x < 1 -> is_derive (P4 z) x (dP4 z x).
Proof.
  intros Hx. destruct (poly_derives x) as (D1 & D3 & D5 & D7 & _). unfold P4, dP4, d_over.
  apply (is_derive_plus (fun x => z * p1 x + z ^ 3 * p3 x + z ^ 5 * p5 x)); [apply (is_derive_plus (fun x => z * p1 x + z ^ 3 * p3 x)); [apply (is_derive_plus (fun x => z * p1 x))|]|];
    apply is_derive_scal; apply over_derive; (lra || assumption).
Qed.
Lemma Q4_derive z x : 0 < x < 1 -> is_derive (Q4 z) x (dQ4 z x).
Proof.
  intros Hx. destruct (poly_derives x) as (_ & _ & _ & _ & D2 & D4 & D6). pose proof (u2_derive x Hx) as U. unfold Q4.
  assert (D : is_derive (fun x => 1 + z ^ 2 * q2 x + z ^ 4 * q4 x + z ^ 6 * q6 x) x (0 + z ^ 2 * d_over m2 dm2 3 x + z ^ 4 * d_over m4 dm4 6 x + z ^ 6 * d_over m6 dm6 9 x)).
  { apply (is_derive_plus (fun x => 1 + z ^ 2 * q2 x + z ^ 4 * q4 x)); [apply (is_derive_plus (fun x => 1 + z ^ 2 * q2 x)); [apply (is_derive_plus (fun _ => 1)); [apply @is_derive_const|]|]|];
      apply is_derive_scal; apply over_derive; (lra || assumption). }
  evar_last; [apply (is_derive_mult u2); [exact U | exact D | intros; apply Rmult_comm]|].
  match goal with |- @eq _ (plus (mult ?a ?b) (mult ?c ?e)) ?g => change (@eq R (a * b + c * e) g) end. unfold dQ4. generalize (d_over m2 dm2 3 x) (d_over m4 dm4 6 x) (d_over m6 dm6 9 x) (q2 x) (q4 x) (q6 x) (u2 x). intros. field. lra.
Qed.
Lemma P4_is z x : 0 < x < 1 -> x ^ 2 * z * (u1 x / 4 + u1 x * sigma z x) = P4 z x.
Proof. intros Hx. unfold P4, p1, p3, p5, p7, over, n1, n3, n5, n7, sigma, w0, v0, u1. generalize (h1 x) (h2 x) (h3 x). intros. field. lra. Qed.
Lemma Q4_is z x : 0 < x < 1 -> x ^ 2 * (aa z x + z ^ 6 * slipped x) = Q4 z x.
Proof.
  intros Hx. pose proof (u2_sq x Hx) as S. pose proof (u2_range x Hx) as R. unfold Q4, q2, q4, q6, over, m2, m4, m6, aa, slipped, w0, v0, u1. change (sqrt (1 - x)) with (u2 x). generalize (e1 x) (e2 x) (e3 x). intros.
  replace (u2 x ^ 17) with ((1 - x) ^ 8 * u2 x) by (rewrite <- S; ring). 
  replace (2000000 / 10321920 * x ^ 3 * (4 + 7 / 2 * x) / ((1 - x) ^ 8 * u2 x)) with (2000000 / 10321920 * x ^ 3 * (4 + 7 / 2 * x) * u2 x / (1 - x) ^ 9) by (rewrite <- S; field; lra).
  field. lra.
Qed.

(** What is left of the equation *)
Definition rest_real (z x : R) : R := x ^ 2 * z * dP4 z x + P4 z x ^ 2 - Q4 z x ^ 2 - (x - 1).
Definition rest_imag (z x : R) : R := 2 * P4 z x * Q4 z x + x ^ 2 * z * dQ4 z x.
Definition g4 (y r : R) : R := let x := 2 * y / r in let z := 1 / (2 * y) in - (P4 z x * (mm z x * cos (fai y z x)) + Q4 z x * (mm z x * sin (fai y z x))).
Definition rest4 (y r : R) : R := let x := 2 * y / r in let z := 1 / (2 * y) in mm z x * (rest_real z x * cos (fai y z x) + rest_imag z x * sin (fai y z x)).
Lemma f4_value y r : let x := 2 * y / r in let z := 1 / (2 * y) in f4 y r = mm z x * cos (fai y z x).
Proof. unfold f4. pose proof (case4_real r y) as E. cbv zeta in E. rewrite E. reflexivity. Qed.
Section Equation.
Variables (y r : R).
Hypothesis H : 0 < 2 * y < r.
Let x := 2 * y / r.
Let z := 1 / (2 * y).
Lemma inner : is_derive (fun t => 2 * y / t) r (- (x ^ 2 * z)).
Proof. unfold x, z. auto_derive; [lra|]. field. lra. Qed.
Lemma along (f : R -> R) d : is_derive f x d -> is_derive (fun t => f (2 * y / t)) r (- (x ^ 2 * z) * d).
Proof. intros D. apply (is_derive_comp f (fun t => 2 * y / t)); [exact D | exact inner]. Qed.
Lemma cos_derive : is_derive (fun t => mm z t * cos (fai y z t)) x (mm z x * ((u1 x / 4 + u1 x * sigma z x) * cos (fai y z x) + (aa z x + z ^ 6 * slipped x) / z * sin (fai y z x))).
Proof.
  pose proof (x_range r y H) as Hx. fold x in Hx. assert (Hz : 0 < z) by (apply Rdiv_lt_0_compat; lra). assert (Yz : 2 * y * z = 1) by (unfold z; field; lra).
  evar_last; [apply (is_derive_mult (mm z) (fun t => cos (fai y z t))); [apply mm_derive; exact Hx | apply (is_derive_comp cos (fai y z)); [apply is_derive_cos | apply fai_derive; assumption] | intros; apply Rmult_comm]|].
  match goal with |- @eq _ (plus (mult ?a ?b) (mult ?c (scal ?d ?e))) ?g => change (@eq R (a * b + c * (d * e)) g) end. field. lra.
Qed.
Lemma sin_derive : is_derive (fun t => mm z t * sin (fai y z t)) x (mm z x * ((u1 x / 4 + u1 x * sigma z x) * sin (fai y z x) - (aa z x + z ^ 6 * slipped x) / z * cos (fai y z x))).
Proof.
  pose proof (x_range r y H) as Hx. fold x in Hx. assert (Hz : 0 < z) by (apply Rdiv_lt_0_compat; lra). assert (Yz : 2 * y * z = 1) by (unfold z; field; lra).
  evar_last; [apply (is_derive_mult (mm z) (fun t => sin (fai y z t))); [apply mm_derive; exact Hx | apply (is_derive_comp sin (fai y z)); [apply is_derive_sin | apply fai_derive; assumption] | intros; apply Rmult_comm]|].
  match goal with |- @eq _ (plus (mult ?a ?b) (mult ?c (scal ?d ?e))) ?g => change (@eq R (a * b + c * (d * e)) g) end. field. lra.
Qed.
Lemma f4_slope : is_derive (f4 y) r (g4 y r).
Proof.
  pose proof (x_range r y H) as Hx. fold x in Hx. assert (Hz : 0 < z) by (apply Rdiv_lt_0_compat; lra).
  apply (is_derive_ext (fun t => (fun u => mm z u * cos (fai y z u)) (2 * y / t))); [intros t; symmetry; apply (f4_value y t)|].
  evar_last; [apply (along (fun u => mm z u * cos (fai y z u))); exact cos_derive|]. unfold g4. cbv zeta. fold x z. rewrite <- P4_is, <- Q4_is by exact Hx. field. lra.
Qed.
Lemma g4_slope : is_derive (g4 y) r (acceleration y r (f4 y r) + rest4 y r).
Proof.
  pose proof (x_range r y H) as Hx. fold x in Hx. assert (Hz : 0 < z) by (apply Rdiv_lt_0_compat; lra).
  assert (D : is_derive (fun u => - (P4 z u * (mm z u * cos (fai y z u)) + Q4 z u * (mm z u * sin (fai y z u)))) x
    (- ((dP4 z x * (mm z x * cos (fai y z x)) + P4 z x * (mm z x * ((u1 x / 4 + u1 x * sigma z x) * cos (fai y z x) + (aa z x + z ^ 6 * slipped x) / z * sin (fai y z x))))
      + (dQ4 z x * (mm z x * sin (fai y z x)) + Q4 z x * (mm z x * ((u1 x / 4 + u1 x * sigma z x) * sin (fai y z x) - (aa z x + z ^ 6 * slipped x) / z * cos (fai y z x))))))).
  { apply @is_derive_opp. apply (is_derive_plus (fun u => P4 z u * (mm z u * cos (fai y z u)))).
    - apply (is_derive_mult (P4 z) (fun u => mm z u * cos (fai y z u))); [apply P4_derive; exact Hx | exact cos_derive | intros; apply Rmult_comm].
    - apply (is_derive_mult (Q4 z) (fun u => mm z u * sin (fai y z u))); [apply Q4_derive; exact Hx | exact sin_derive | intros; apply Rmult_comm]. }
  evar_last; [apply (along (fun u => - (P4 z u * (mm z u * cos (fai y z u)) + Q4 z u * (mm z u * sin (fai y z u))))); exact D|].
  unfold rest4, rest_real, rest_imag, acceleration. cbv zeta. rewrite f4_value. fold x z. replace (2 * y / r) with x by reflexivity.
  pose proof (P4_is z x Hx) as EP. pose proof (Q4_is z x Hx) as EQ. set (A := aa z x + z ^ 6 * slipped x) in *. set (L := u1 x / 4 + u1 x * sigma z x) in *.
  rewrite <- EP, <- EQ. generalize (dP4 z x) (dQ4 z x) (mm z x) (cos (fai y z x)) (sin (fai y z x)). intros. field. lra.
Qed.
End Equation.
