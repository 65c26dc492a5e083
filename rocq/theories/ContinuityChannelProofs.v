(** Continuity of what the channels deliver. *)
From Coq Require Import Reals Lra Lia String.
From Coquelicot Require Import Coquelicot.
From Verif Require Import Outcome HardSphereModel HardSphereSpec HardSphereProofs.
Local Open Scope R_scope.

Definition Pv (l : nat) (r : R) : R := match penetrability_neutron l r with Ok p => p | _ => 0 end.
Definition Sv (l : nat) (r : R) : R := match shift_neutron l r with Ok p => p | _ => 0 end.
Definition phiv (l : nat) (r : R) : R := match phase_neutron l r with Ok p => p | _ => 0 end.

Ltac five l Hl := destruct l as [|[|[|[|[|l]]]]]; [| | | | |exfalso; lia].
Lemma Pv_ok l r : (l <= 4)%nat -> penetrability_neutron l r = Ok (Pv l r).
Proof. intros H; five l H; reflexivity. Qed.
Lemma Sv_ok l r : (l <= 4)%nat -> shift_neutron l r = Ok (Sv l r).
Proof. intros H; five l H; reflexivity. Qed.
Lemma phiv_ok l r : (l <= 4)%nat -> phase_neutron l r = Ok (phiv l r).
Proof. intros H; five l H; reflexivity. Qed.
Lemma Pv_0 l : (l <= 4)%nat -> Pv l 0 = 0.
Proof. intros H; five l H; cbn; unfold Rdiv; ring. Qed.
Lemma Sv_0 l : (l <= 4)%nat -> Sv l 0 = - INR l.
Proof. intros H; five l H; cbn; field; lra. Qed.

Lemma den_pos r : 0 < 1 + r * r /\ 0 < (1 * (r * r) + 3) * (r * r) + 9 /\ 0 < ((1 * (r * r) + 6) * (r * r) + 45) * (r * r) + 225 /\
  0 < (((1 * (r * r) + 10) * (r * r) + 135) * (r * r) + 1575) * (r * r) + 11025.
Proof.
  assert (h : 0 <= r * r) by nra. set (x := r * r) in *. clearbody x.
  assert (h2 : 0 <= x * x) by nra. assert (h3 : 0 <= x * x * x) by nra. assert (h4 : 0 <= x * x * x * x) by nra.
  repeat split; nra.
Qed.
Lemma by_derive f x : ex_derive f x -> continuity_pt f x.
Proof. intros H; apply continuity_pt_filterlim; exact (ex_derive_continuous f x H). Qed.
Lemma Pv_cont l r : (l <= 4)%nat -> continuity_pt (Pv l) r.
Proof.
  intros H; destruct (den_pos r) as (d1 & d2 & d3 & d4); apply by_derive; five l H; unfold Pv, Sv; cbn;
    auto_derive; repeat split; try exact I; lra.
Qed.
Lemma Sv_cont l r : (l <= 4)%nat -> continuity_pt (Sv l) r.
Proof.
  intros H; destruct (den_pos r) as (d1 & d2 & d3 & d4); apply by_derive; five l H; unfold Pv, Sv; cbn;
    auto_derive; repeat split; try exact I; lra.
Qed.
Lemma amplitude2_cont l r : 0 < r -> continuity_pt (waveF l) r /\ continuity_pt (waveG l) r /\ continuity_pt (amplitude2 l) r.
Proof.
  intros H.
  assert (hF : continuity_pt (waveF l) r) by (apply by_derive; eexists; apply waveF_derive; exact H).
  assert (hG : continuity_pt (waveG l) r) by (apply by_derive; eexists; apply waveG_derive; exact H).
  split; [exact hF|split; [exact hG|]].
  assert (sq : forall f, continuity_pt f r -> continuity_pt (fun x => f x ^ 2) r).
  { intros f hf. apply (continuity_pt_comp f (fun y => y ^ 2) r hf), by_derive. auto_derive; exact I. }
  apply (continuity_pt_plus (fun x => waveF l x ^ 2) (fun x => waveG l x ^ 2)); apply sq; assumption.
Qed.
Lemma double_cont l r : (l <= 4)%nat -> 0 < r ->
  continuity_pt (fun r => cos (2 * phiv l r)) r /\ continuity_pt (fun r => sin (2 * phiv l r)) r.
Proof.
  intros Hl Hr. destruct (amplitude2_cont l r Hr) as (hF & hG & hA).
  assert (sq : forall f, continuity_pt f r -> continuity_pt (fun x => f x ^ 2) r).
  { intros f hf. apply (continuity_pt_comp f (fun y => y ^ 2) r hf), by_derive. auto_derive; exact I. }
  assert (n0 : amplitude2 l r <> 0) by (apply Rgt_not_eq, amplitude2_pos).
  assert (near : forall y, Rabs (y - r) < r -> 0 < y) by (intros y Hy; apply Rabs_def2 in Hy; lra).
  split.
  - apply (continuity_pt_locally_ext (fun r => (waveG l r ^ 2 - waveF l r ^ 2) / amplitude2 l r) _ r r Hr).
    + intros y Hy. specialize (near y Hy). destruct (phase_double_angle l y near Hl) as (phi & E & H & _).
      unfold phiv; rewrite E; symmetry; exact H.
    + apply (continuity_pt_div (fun r => waveG l r ^ 2 - waveF l r ^ 2) (amplitude2 l) r); [|exact hA|exact n0].
      apply (continuity_pt_minus (fun x => waveG l x ^ 2) (fun x => waveF l x ^ 2)); apply sq; assumption.
  - apply (continuity_pt_locally_ext (fun r => 2 * waveF l r * waveG l r / amplitude2 l r) _ r r Hr).
    + intros y Hy. specialize (near y Hy). destruct (phase_double_angle l y near Hl) as (phi & E & _ & H).
      unfold phiv; rewrite E; symmetry; exact H.
    + apply (continuity_pt_div (fun r => 2 * waveF l r * waveG l r) (amplitude2 l) r); [|exact hA|exact n0].
      apply (continuity_pt_mult (fun r => 2 * waveF l r) (waveG l)); [|exact hG].
      apply (continuity_pt_mult (fun _ => 2) (waveF l)); [apply continuity_pt_const; intros u v; reflexivity|exact hF].
Qed.
