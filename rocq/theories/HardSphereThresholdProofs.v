(** Hard-sphere functions at small arguments. *)
From Coq Require Import Reals Lra Lia String.
From Coquelicot Require Import Coquelicot.
From Verif Require Import Outcome HardSphereModel HardSphereSpec HardSphereProofs ContinuityChannelProofs WignerSpec.
Local Open Scope R_scope.

(** P / rho^(2l+1) *)
Definition reduced_P (l : nat) (r : R) : R :=
  let s := r * r in
  1 / match l with
  | 0%nat => 1
  | 1%nat => 1 + s
  | 2%nat => (1 * s + 3) * s + 9
  | 3%nat => ((1 * s + 6) * s + 45) * s + 225
  | _ => (((1 * s + 10) * s + 135) * s + 1575) * s + 11025
  end.
Lemma reduced_P_spec l r : (l <= 4)%nat -> Pv l r = r ^ (2 * l + 1) * reduced_P l r.
Proof.
  intros H; destruct (ContinuityChannelProofs.den_pos r) as (d1 & d2 & d3 & d4).
  five l H; unfold Pv, reduced_P; cbn; field; lra.
Qed.
Lemma reduced_P_cont l r : (l <= 4)%nat -> continuity_pt (reduced_P l) r.
Proof.
  intros H; destruct (ContinuityChannelProofs.den_pos r) as (d1 & d2 & d3 & d4); apply by_derive; five l H; unfold reduced_P;
    auto_derive; repeat split; try exact I; lra.
Qed.
Lemma reduced_P_0 l : (l <= 4)%nat -> reduced_P l 0 = / (odd_factorial l * odd_factorial l).
Proof. intros H; five l H; unfold reduced_P; cbn; field. Qed.
Lemma odd_factorial_pos l : 0 < odd_factorial l.
Proof.
  induction l; cbn [odd_factorial]; [lra|]. apply Rmult_lt_0_compat; [|assumption].
  apply lt_0_INR. change (0 < 2 * l + 1)%nat. lia.
Qed.

Lemma no_pole l r : (l <= 4)%nat -> 0 < r < 1 -> ~ pole l r.
Proof. intros H Hr; five l H; unfold pole; try tauto; intros E; nra. Qed.
Lemma phase_value_phiv l r : phase_value l r = phiv l r.
Proof. reflexivity. Qed.
Lemma phiv_0 l : (l <= 4)%nat -> phiv l 0 = 0.
Proof.
  intros H; five l H; unfold phiv, phase_neutron; cbn; unfold atan_quotient;
    try (destruct Req_EM_T; [exfalso; lra|]); rewrite ?Rmult_0_l, ?Rmult_0_r, ?Rmult_1_l; unfold Rdiv; rewrite ?Rmult_0_l, ?atan_0; lra.
Qed.
Lemma phiv_slope l r : (l <= 4)%nat -> 0 < r < 1 -> is_derive (phiv l) r (r ^ (2 * l) * reduced_P l r).
Proof.
  intros H Hr. pose proof (phase_slope l r ltac:(lra) H (no_pole l r H Hr)) as D.
  replace (r ^ (2 * l) * reduced_P l r) with (P_spec l r / r); [exact D|].
  assert (E : P_spec l r = r ^ (2 * l + 1) * reduced_P l r).
  { rewrite <- reduced_P_spec by exact H. unfold Pv. rewrite penetrability_code by (lra || exact H). reflexivity. }
  rewrite E, pow_add, pow_1. field; lra.
Qed.

Lemma atan_quotient_cont (n d : R -> R) r : d r <> 0 -> ex_derive n r -> ex_derive d r -> continuity_pt (fun x => atan_quotient (n x) (d x)) r.
Proof.
  intros H [n' Hn] [d' Hd]. apply by_derive. eexists. exact (atan_quotient_derive n d n' d' r H Hn Hd).
Qed.
Lemma phiv_cont_0 l : (l <= 4)%nat -> continuity_pt (phiv l) 0.
Proof.
  intros H. assert (i : continuity_pt (fun x => x) 0) by (apply derivable_continuous_pt, derivable_pt_id).
  five l H; unfold phiv, phase_neutron; cbn.
  - exact i.
  - apply by_derive. auto_derive. exact I.
  - apply (continuity_pt_minus (fun x => x) (fun x => atan_quotient (3 * x) (3 - x * x))); [exact i|].
    apply (atan_quotient_cont (fun x => 3 * x) (fun x => 3 - x * x)); [lra|auto_derive; exact I|auto_derive; exact I].
  - apply (continuity_pt_minus (fun x => x) (fun x => atan_quotient (x * (15 - x * x)) (15 - 6 * (x * x)))); [exact i|].
    apply (atan_quotient_cont (fun x => x * (15 - x * x)) (fun x => 15 - 6 * (x * x))); [lra|auto_derive; exact I|auto_derive; exact I].
  - match goal with |- continuity_pt (fun x => x - atan_quotient (@?n x) (@?d x)) 0 =>
      apply (continuity_pt_minus (fun x => x) (fun x => atan_quotient (n x) (d x))); [exact i|];
      apply (atan_quotient_cont n d); [lra|auto_derive; exact I|auto_derive; exact I] end.
Qed.

(** phi / rho^(2l+1), with the limit in place at zero *)
Definition reduced_phi (l : nat) (r : R) : R :=
  if Req_EM_T r 0 then / (odd_factorial l * odd_factorial (S l)) else phiv l r / r ^ (2 * l + 1).
Lemma reduced_phi_spec l r : (l <= 4)%nat -> phiv l r = r ^ (2 * l + 1) * reduced_phi l r.
Proof.
  intros H. unfold reduced_phi. destruct Req_EM_T as [->|n].
  - rewrite phiv_0, pow_ne_zero by (lia || exact H). ring.
  - field. apply pow_nonzero, n.
Qed.
Lemma phase_small l eps : (l <= 4)%nat -> 0 < eps -> exists d, 0 < d /\ forall r, 0 < r < d ->
  Rabs (phiv l r / r ^ (2 * l + 1) - / (odd_factorial l * odd_factorial (S l))) < eps.
Proof.
  intros Hl He. set (c := / (odd_factorial l * odd_factorial (S l))).
  assert (Ec : INR (2 * l + 1) * c = reduced_P l 0).
  { rewrite reduced_P_0 by exact Hl. unfold c. cbn [odd_factorial]. change (ssrnat.addn (ssrnat.muln 2 l) 1) with (2 * l + 1)%nat.
    pose proof (odd_factorial_pos l). assert (0 < INR (2 * l + 1)) by (apply lt_0_INR; lia). field. lra. }
  destruct (reduced_P_cont l 0 Hl (eps / 2) ltac:(lra)) as [d [Hd Hc]].
  exists (Rmin d 1). split; [apply Rmin_pos; lra|]. intros r [H0 H1].
  pose proof (Rmin_l d 1). pose proof (Rmin_r d 1).
  destruct (MVT_gen (fun x => phiv l x - c * x ^ (2 * l + 1)) 0 r
    (fun x => x ^ (2 * l) * (reduced_P l x - reduced_P l 0))) as [x [Hx E]].
  - intros x Hx. rewrite Rmin_left, Rmax_right in Hx by lra.
    apply (is_derive_ext (fun x => minus (phiv l x) (c * x ^ (2 * l + 1)))); [reflexivity|].
    replace (x ^ (2 * l) * (reduced_P l x - reduced_P l 0)) with (minus (x ^ (2 * l) * reduced_P l x) (c * (INR (2 * l + 1) * x ^ (2 * l)))).
    + apply (is_derive_minus (phiv l) (fun x => c * x ^ (2 * l + 1))); [apply phiv_slope; [exact Hl|lra]|].
      auto_derive; [exact I|]. replace (Init.Nat.pred (l + (l + 0) + 1)) with (2 * l)%nat by lia. change (l + (l + 0) + 1)%nat with (2 * l + 1)%nat.
      set (k := INR _). set (y := x ^ (2 * l)). ring.
    + rewrite <- Ec. unfold minus, plus, opp; cbn. ring.
  - intros x Hx. rewrite Rmin_left, Rmax_right in Hx by lra.
    apply (continuity_pt_minus (phiv l) (fun x => c * x ^ (2 * l + 1))).
    + destruct (Req_EM_T x 0) as [->|n]; [apply phiv_cont_0, Hl|]. apply by_derive. eexists. apply phiv_slope; [exact Hl|lra].
    + apply by_derive. auto_derive. exact I.
  - rewrite Rmin_left, Rmax_right in Hx by lra. rewrite phiv_0, pow_ne_zero, !Rmult_0_r, !Rminus_0_r in E by (lia || exact Hl).
    assert (rp : 0 < r ^ (2 * l + 1)) by (apply pow_lt; lra).
    replace (phiv l r / r ^ (2 * l + 1) - c) with ((phiv l r - c * r ^ (2 * l + 1)) / r ^ (2 * l + 1)) by (field; lra).
    unfold Rdiv. rewrite Rabs_mult, (Rabs_right (/ _)) by (apply Rle_ge, Rlt_le, Rinv_0_lt_compat; exact rp).
    apply (Rmult_lt_reg_r (r ^ (2 * l + 1))); [exact rp|]. rewrite Rmult_assoc, Rinv_l, Rmult_1_r by lra.
    rewrite E, !Rabs_mult, (Rabs_right r) by lra.
    assert (D : Rabs (reduced_P l x - reduced_P l 0) <= eps / 2).
    { destruct (Req_EM_T x 0) as [->|n]; [rewrite Rminus_diag_eq, Rabs_R0 by reflexivity; lra|].
      left. apply (Hc x). split; [split; [exact I|apply not_eq_sym, n]|]. simpl. unfold R_dist. rewrite Rminus_0_r, Rabs_right; lra. }
    assert (P1 : Rabs (x ^ (2 * l)) <= r ^ (2 * l)).
    { rewrite Rabs_right by (apply Rle_ge, pow_le; lra). apply pow_incr. lra. }
    rewrite pow_add, pow_1.
    assert (0 < r ^ (2 * l)) by (apply pow_lt; lra). pose proof (Rabs_pos (x ^ (2 * l))). pose proof (Rabs_pos (reduced_P l x - reduced_P l 0)).
    apply (Rle_lt_trans _ (r ^ (2 * l) * (eps / 2) * r)).
    + apply Rmult_le_compat_r; [lra|]. apply Rmult_le_compat; assumption.
    + assert (0 < r ^ (2 * l) * r) by (apply Rmult_lt_0_compat; lra). nra.
Qed.
(** the limit from above *)
Lemma reduced_phi_cont l : (l <= 4)%nat -> continuity_pt (fun x => reduced_phi l (Rabs x)) 0.
Proof.
  intros Hl eps He. destruct (phase_small l eps Hl He) as [d [Hd H]]. exists d. split; [exact Hd|].
  intros x [[_ n] Hx]. simpl in *. unfold R_dist in *. rewrite Rminus_0_r in Hx. rewrite Rabs_R0.
  unfold reduced_phi. destruct (Req_EM_T 0 0) as [_|k]; [|now destruct k].
  destruct (Req_EM_T (Rabs x) 0) as [k|_]; [exfalso; apply n; symmetry; apply Rabs_eq_0, k|].
  apply H. split; [apply Rabs_pos_lt, not_eq_sym, n|exact Hx].
Qed.
