(** The code's phase is Stirling's sum. *)
From Coq Require Import ZArith Reals Bool Lra Lia.
From Coquelicot Require Import Coquelicot.
From Verif Require Import ListFacts CoulombWaveModel CoulombExactModel CoulombExactProofs CoulombRealProofs SigmaSpec SigmaProofs.
Open Scope R_scope.

Lemma sigma0_exact eta : sigma0_of exact (Fin eta) = Fin (partial eta 0).
Proof.
  rewrite partial_code. unfold sigma0_of. assert (P : 0 < 16 + eta * eta) by nra. assert (Q : 0 < (16 + eta * eta) * (16 + eta * eta)) by (apply Rmult_lt_0_compat; exact P).
  assert (P105 : 0 < 105 * ((16 + eta * eta) * (16 + eta * eta)) * ((16 + eta * eta) * (16 + eta * eta))) by (apply Rmult_lt_0_compat; lra).
  norm. change (ext_dec 16 0) with (Fin 16). change (ext_dec 2 0) with (Fin 2). change (ext_dec 35 (-1)) with (Fin (35 / 10)). change (ext_dec 4 0) with (Fin 4). change (ext_dec 3 0) with (Fin 3). change (ext_dec 1 0) with (Fin 1).
  change (ext_dec 48 0) with (Fin 48). change (ext_dec 30 0) with (Fin 30). change (ext_dec 160 0) with (Fin 160). change (ext_dec 1280 0) with (Fin 1280). change (ext_dec 105 0) with (Fin 105). change (ext_dec 12 0) with (Fin 12).
  cbn [ext_mul ext_add ext_sub ext_log ext_opp]. rewrite Rltb_true by lra. cbn [ext_mul ext_add ext_sub ext_opp]. rewrite !div_Fin by lra. cbn [ext_atan ext_mul ext_add ext_sub ext_opp]. rewrite !div_Fin by lra. cbn [ext_mul ext_add ext_sub ext_opp]. f_equal.
Qed.
Lemma phase_code eta : exists s, sigma0_of exact (Fin eta) = Fin s /\ exists sigma, coulomb_phase eta sigma /\ Rabs (s - sigma) <= / 1512 * / 4 ^ 7.
Proof.
  exists (partial eta 0). split; [apply sigma0_exact|]. destruct (phase_exists eta) as (sigma & H & B). exists sigma. split; [exact H|]. rewrite Rabs_minus_sym. exact B.
Qed.
Lemma phase_odd eta sigma : coulomb_phase eta sigma -> coulomb_phase (- eta) (- sigma).
Proof.
  intros H. unfold coulomb_phase in *. apply (is_lim_seq_opp _ _) in H. cbn [Rbar_opp] in H. eapply is_lim_seq_ext; [|exact H]. intros n. cbv beta. rewrite Ropp_minus_distr.
  assert (E : sum_f_R0 (fun k => atan (- eta / INR (S k))) n = - sum_f_R0 (fun k => atan (eta / INR (S k))) n).
  { induction n as [|n IH]; cbn [sum_f_R0]; [|rewrite IH]; unfold Rdiv; rewrite Ropp_mult_distr_l_reverse, atan_opp; ring. }
  rewrite E. ring.
Qed.
Lemma phase_none : coulomb_phase 0 0 /\ sigma0_of exact (Fin 0) = Fin 0.
Proof.
  split.
  - unfold coulomb_phase. eapply is_lim_seq_ext; [|apply is_lim_seq_const]. intros n. assert (E : sum_f_R0 (fun k => atan (0 / INR (S k))) n = 0).
    { induction n as [|n IH]; cbn [sum_f_R0]; [|rewrite IH]; unfold Rdiv; rewrite Rmult_0_l, atan_0; lra. }
    rewrite E. lra.
  - rewrite sigma0_exact, partial_code. f_equal. unfold Rdiv. rewrite !Rmult_0_l, atan_0. ring.
Qed.
Lemma phase_ten : exists sigma, coulomb_phase 10 sigma /\ 2 < sigma.
Proof.
  destruct (phase_exists 10) as (sigma & H & B). exists sigma. split; [exact H|]. rewrite partial_code in B. apply Rabs_le_between in B.
  assert (L : 4 < ln (16 + 10 * 10)).
  { apply exp_lt_inv. rewrite exp_ln by lra. replace 4 with (1 + 1 + (1 + 1)) by lra. rewrite !exp_plus. pose proof exp_le_3. pose proof (exp_pos 1). assert (exp 1 * exp 1 <= 3 * 3) by (apply Rmult_le_compat; lra). assert (exp 1 * exp 1 * (exp 1 * exp 1) <= 9 * 9) by (apply Rmult_le_compat; nra). lra. }
  assert (A : forall t, atan t < 2) by (intros t; pose proof (atan_bound t); pose proof Rtrigo1.PI_4; lra). assert (A0 : 0 < atan (10 / 4)) by (rewrite <- atan_0; apply atan_increasing; lra).
  pose proof (A 10). pose proof (A (10 / 2)). pose proof (A (10 / 3)). lra.
Qed.
