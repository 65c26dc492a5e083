(** Airy functions exist: the power series with a (n+3) = - a n / ((n+3) (n+2)). *)
From Coq Require Import Reals Lra Lia.
From Coquelicot Require Import Coquelicot.
From Verif Require Import TurningSpec.
Open Scope R_scope.

Section Airy.
Variables a0 a1 : R.
Fixpoint three (n : nat) : R * R * R :=
  match n with
  | O => (a0, a1, 0)
  | S m => let '(u, v, w) := three m in (v, w, - u / (INR (m + 3) * INR (m + 2)))
  end.
Definition a (n : nat) : R := fst (fst (three n)).
Lemma three_is n : three n = (a n, a (S n), a (S (S n))).
Proof.
  unfold a. cbn [three]. destruct (three n) as [[u v] w]. reflexivity.
Qed.
Lemma a_step n : a (S (S (S n))) = - a n / (INR (n + 3) * INR (n + 2)).
Proof. assert (E : three (S n) = (a (S n), a (S (S n)), a (S (S (S n))))) by apply three_is. cbn [three] in E. rewrite three_is in E. injection E. intros ->. reflexivity. Qed.
Lemma bounded r : 0 <= r -> exists M, forall n, Rabs (a n * r ^ n) <= M.
Proof.
  intros Hr. destruct (archimed (r ^ 3)) as [K _]. set (N := Z.to_nat (up (r ^ 3))).
  assert (HN : r ^ 3 <= INR N). { unfold N. rewrite INR_IZR_INZ. assert (0 <= r ^ 3) by (apply pow_le; exact Hr). assert (0 <= up (r ^ 3))%Z by (apply le_IZR; lra). rewrite Z2Nat.id by assumption. lra. }
  assert (F : forall m, exists M, 0 <= M /\ forall n, (n < m)%nat -> Rabs (a n * r ^ n) <= M).
  { induction m as [|m [M [P IH]]]; [exists 0; split; [lra | intros n Hn; lia]|]. exists (M + Rabs (a m * r ^ m)). pose proof (Rabs_pos (a m * r ^ m)). split; [lra|].
    intros n Hn. destruct (Nat.eq_dec n m) as [->|D]; [lra|]. pose proof (IH n ltac:(lia)). lra. }
  destruct (F (N + 3)%nat) as [M [P B]]. exists M. intros n. induction n as [n IH] using (well_founded_induction Wf_nat.lt_wf).
  destruct (Nat.lt_ge_cases n (N + 3)) as [L|L]; [apply B; exact L|]. destruct n as [|[|[|n]]]; try lia. rewrite a_step.
  assert (INR N <= INR n) by (apply le_INR; lia). assert (P2 : 1 <= INR (n + 2)) by (apply (le_INR 1); lia). assert (P3 : INR n <= INR (n + 3)) by (apply le_INR; lia).
  assert (P4 : 1 <= INR (n + 3)) by (apply (le_INR 1); lia). assert (Q : r ^ 3 <= INR (n + 3) * INR (n + 2)) by nra.
  replace (- a n / (INR (n + 3) * INR (n + 2)) * r ^ S (S (S n))) with (- (a n * r ^ n) * (r ^ 3 / (INR (n + 3) * INR (n + 2)))) by (cbn [pow]; field; lra).
  rewrite Rabs_mult, Rabs_Ropp. apply Rle_trans with (Rabs (a n * r ^ n) * 1); [|rewrite Rmult_1_r; apply IH; lia]. apply Rmult_le_compat_l; [apply Rabs_pos|].
  assert (0 <= r ^ 3) by (apply pow_le; exact Hr). assert (D : 0 < INR (n + 3) * INR (n + 2)) by nra. rewrite Rabs_pos_eq by (apply Rdiv_le_0_compat; assumption).
  apply (Rmult_le_reg_r (INR (n + 3) * INR (n + 2))); [exact D|]. unfold Rdiv. rewrite Rmult_assoc, Rinv_l by lra. lra.
Qed.
Lemma radius : CV_radius a = p_infty.
Proof.
  destruct (CV_radius_bounded a) as [U _]. assert (H : forall r, 0 <= r -> Rbar_le (Finite r) (CV_radius a)) by (intros r Hr; apply U; apply bounded; exact Hr).
  pose proof (CV_radius_ge_0 a) as G. destruct (CV_radius a) as [r| |]; [|reflexivity | destruct G].
  exfalso. cbn in G. specialize (H (r + 1) ltac:(lra)). cbn in H. lra.
Qed.
Theorem airy_exists : exists A A1, airy A A1 /\ A 0 = a0 /\ A1 0 = a1.
Proof.
  exists (PSeries a), (PSeries (PS_derive a)). split; [intros x; split|split].
  - apply is_derive_PSeries. rewrite radius. exact Logic.I.
  - evar_last. { apply is_derive_PSeries. rewrite CV_radius_derive, radius. exact Logic.I. }
    rewrite (PSeries_ext _ (PS_opp (PS_incr_1 a))).
    + rewrite PSeries_opp, PSeries_incr_1. ring.
    + intros n. unfold PS_derive, PS_opp, PS_incr_1. destruct n as [|n].
      * change (a 2) with 0. unfold opp; cbn. ring.
      * rewrite a_step. unfold opp; cbn. replace (n + 3)%nat with (S (S (S n))) by lia. replace (n + 2)%nat with (S (S n)) by lia.
        pose proof (lt_0_INR (S (S (S n))) ltac:(lia)). pose proof (lt_0_INR (S (S n)) ltac:(lia)).
        change (match n with O => 1 | S _ => INR n + 1 end) with (INR (S n)). change (INR (S n) + 1) with (INR (S (S n))). change (INR (S (S n)) + 1) with (INR (S (S (S n)))). field. lra.
  - rewrite PSeries_0. reflexivity.
  - rewrite PSeries_0. unfold PS_derive. change (a 1) with a1. cbn [INR]. ring.
Qed.
End Airy.
