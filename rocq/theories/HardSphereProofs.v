From Coq Require Import String List ZArith Lia Reals Lra Psatz.
From Coquelicot Require Import Coquelicot.
From Verif Require Import Outcome HardSphereModel HardSphereSpec.
Import ListNotations.
Open Scope R_scope.

(** ** Horner *)

Lemma horner_acc x : forall r y,
  fold_left (fun y c => y * x + c) r y = y * x ^ length r + polynomial (rev r) x.
Proof.
  assert (Hp : forall a b, polynomial (a ++ b) x = polynomial a x + x ^ length a * polynomial b x).
  { induction a as [|c a IH]; intros b; cbn; [ring|rewrite IH; ring]. }
  induction r as [|c r IH]; intros y; cbn; [ring|].
  rewrite IH, Hp. rewrite rev_length. cbn. ring.
Qed.

Lemma polynomial_power_sum a x : polynomial a x = power_sum a x.
Proof.
  unfold power_sum. induction a as [|c a IH]; [reflexivity|].
  cbn [length seq map fold_right polynomial nth]. rewrite IH.
  assert (H : forall s, fold_right Rplus 0 (map (fun k => nth k (c :: a) 0 * x ^ k) (map S s)) =
              x * fold_right Rplus 0 (map (fun k => nth k a 0 * x ^ k) s)).
  { induction s as [|k s IHs]; cbn [map fold_right]; [ring|]. rewrite IHs. cbn. ring. }
  rewrite <- seq_shift, H. cbn. ring.
Qed.

Lemma horner_r_spec a x : a <> [] -> horner_r a x = Ok (power_sum a x).
Proof.
  intros H. rewrite <- polynomial_power_sum. unfold horner_r, horner.
  destruct (rev a) as [|c r] eqn:E.
  - exfalso; apply H. rewrite <- (rev_involutive a), E. reflexivity.
  - f_equal. rewrite horner_acc. rewrite <- (rev_involutive a), E. cbn [rev].
    assert (Hp : forall a b, polynomial (a ++ b) x = polynomial a x + x ^ length a * polynomial b x).
    { induction a0 as [|d a0 IH]; intros b; cbn; [ring|rewrite IH; ring]. }
    rewrite Hp, rev_length. cbn. ring.
Qed.

Lemma horner_spec a x : a <> [] -> horner a x = Ok (power_sum (rev a) x).
Proof.
  intros H. rewrite <- (horner_r_spec (rev a) x).
  - unfold horner_r. rewrite rev_involutive. reflexivity.
  - intros E. apply H. rewrite <- (rev_involutive a), E. reflexivity.
Qed.

Lemma horner_empty x : is_ub (horner [] x).
Proof. eexists; reflexivity. Qed.

(** ** The free waves solve the radial equation *)

Section Wave.
Context (um u0 : R -> R).
Context (Dm : forall x, is_derive um x (- u0 x)) (D0 : forall x, is_derive u0 x (um x)).

Lemma wave_derive l rho : 0 < rho ->
  is_derive (fun x => snd (wave um u0 l x)) rho
    (fst (wave um u0 l rho) - INR l / rho * snd (wave um u0 l rho)) /\
  is_derive (fun x => fst (wave um u0 l x)) rho
    (- snd (wave um u0 l rho) + INR l / rho * fst (wave um u0 l rho)).
Proof.
  intros Hr. induction l as [|n [IH1 IH2]].
  - cbn. split; [replace (um rho - 0 / rho * u0 rho) with (um rho) by (field; lra)
                |replace (- u0 rho + 0 / rho * um rho) with (- u0 rho) by (field; lra)]; auto.
  - assert (E : forall x, wave um u0 (S n) x =
        (snd (wave um u0 n x), (2 * INR n + 1) / x * snd (wave um u0 n x) - fst (wave um u0 n x))).
    { intros x. cbn [wave]. destruct (wave um u0 n x); reflexivity. }
    split.
    + apply is_derive_ext with (fun x => (2 * INR n + 1) / x * snd (wave um u0 n x) - fst (wave um u0 n x)).
      { intros t; rewrite E; reflexivity. }
      rewrite E; cbn [fst snd].
      evar_last.
      { apply @is_derive_minus; [|exact IH2].
        apply @is_derive_mult; [|exact IH1|intros; apply Rmult_comm].
        apply (is_derive_div (fun _ => 2 * INR n + 1) (fun x => x)); [apply @is_derive_const|apply @is_derive_id|lra]. }
      rewrite S_INR. unfold minus, plus, opp, mult, zero, one; cbn. field. lra.
    + apply is_derive_ext with (fun x => snd (wave um u0 n x)).
      { intros t; rewrite E; reflexivity. }
      rewrite E; cbn [fst snd]. evar_last; [exact IH1|]. rewrite S_INR. field. lra.
Qed.
End Wave.

Lemma waveF_derive l rho : 0 < rho -> is_derive (waveF l) rho (dF l rho).
Proof.
  intros H. apply (wave_derive cos sin); auto.
  - intros x. auto_derive; [exact I|ring].
  - intros x. auto_derive; [exact I|ring].
Qed.

Lemma waveG_derive l rho : 0 < rho -> is_derive (waveG l) rho (dG l rho).
Proof.
  intros H. apply (wave_derive (fun x => - sin x) cos); auto.
  - intros x. auto_derive; [exact I|ring].
  - intros x. auto_derive; [exact I|ring].
Qed.

Lemma dwave_ode um u0 l rho (Dm : forall x, is_derive um x (- u0 x)) (D0 : forall x, is_derive u0 x (um x)) :
  0 < rho ->
  is_derive (fun x => fst (wave um u0 l x) - INR l / x * snd (wave um u0 l x)) rho
    ((INR l * (INR l + 1) / rho ^ 2 - 1) * snd (wave um u0 l rho)).
Proof.
  intros Hr. destruct (wave_derive um u0 Dm D0 l rho Hr) as [H1 H2].
  evar_last.
  { apply @is_derive_minus; [exact H2|].
    apply @is_derive_mult; [|exact H1|intros; apply Rmult_comm].
    apply (is_derive_div (fun _ => INR l) (fun x => x)); [apply @is_derive_const|apply @is_derive_id|lra]. }
  unfold minus, plus, opp, mult, zero, one; cbn. field. lra.
Qed.

Lemma waveF_ode l rho : 0 < rho ->
  is_derive (dF l) rho ((INR l * (INR l + 1) / rho ^ 2 - 1) * waveF l rho).
Proof.
  intros H. apply (dwave_ode cos sin); auto; intros x; auto_derive; try exact I; ring.
Qed.

Lemma waveG_ode l rho : 0 < rho ->
  is_derive (dG l) rho ((INR l * (INR l + 1) / rho ^ 2 - 1) * waveG l rho).
Proof.
  intros H. apply (dwave_ode (fun x => - sin x) cos); auto; intros x; auto_derive; try exact I; ring.
Qed.

Lemma wave_wronskian l rho :
  waveF' l rho * waveG l rho - waveF l rho * waveG' l rho = 1.
Proof.
  unfold waveF', waveG, waveF, waveG'. induction l as [|n IH].
  - cbn. pose proof (sin2_cos2 rho). unfold Rsqr in *. lra.
  - cbn [wave]. destruct (wave cos sin n rho) as [a b], (wave (fun x => - sin x) cos n rho) as [c d].
    cbn [fst snd] in *. rewrite <- IH. ring.
Qed.

Lemma wronskian l rho : dF l rho * waveG l rho - waveF l rho * dG l rho = 1.
Proof. unfold dF, dG. rewrite <- (wave_wronskian l rho). ring. Qed.

Lemma amplitude2_pos l rho : 0 < amplitude2 l rho.
Proof.
  unfold amplitude2. pose proof (wronskian l rho) as W.
  assert (H1 := pow2_ge_0 (waveF l rho)). assert (H2 := pow2_ge_0 (waveG l rho)).
  destruct (Req_dec (waveF l rho) 0) as [E|E].
  - destruct (Req_dec (waveG l rho) 0) as [E'|E'].
    + rewrite E, E' in W. lra.
    + assert (H := pow2_gt_0 _ E'). lra.
  - assert (H := pow2_gt_0 _ E). lra.
Qed.

(** The recursion of the ENDF manual, for every l. *)
Lemma succF l rho : 0 < rho -> waveF (S l) rho = (INR l + 1) / rho * waveF l rho - dF l rho.
Proof.
  intros Hr. unfold dF, waveF, waveF'. cbn [wave]. destruct (wave cos sin l rho); cbn [fst snd]. field; lra.
Qed.
Lemma succG l rho : 0 < rho -> waveG (S l) rho = (INR l + 1) / rho * waveG l rho - dG l rho.
Proof.
  intros Hr. unfold dG, waveG, waveG'. cbn [wave]. destruct (wave _ cos l rho); cbn [fst snd]. field; lra.
Qed.
Lemma succF' l rho : waveF' (S l) rho = waveF l rho.
Proof. unfold waveF, waveF'. cbn [wave]. destruct (wave cos sin l rho); reflexivity. Qed.
Lemma succG' l rho : waveG' (S l) rho = waveG l rho.
Proof. unfold waveG, waveG'. cbn [wave]. destruct (wave _ cos l rho); reflexivity. Qed.

Definition recursion_denominator l rho := (INR (S l) - S_spec l rho) ^ 2 + P_spec l rho ^ 2.

Lemma amplitude_succ l rho : 0 < rho ->
  amplitude2 (S l) rho * rho ^ 2 = amplitude2 l rho * recursion_denominator l rho.
Proof.
  intros Hr. pose proof (amplitude2_pos l rho) as HA. pose proof (wronskian l rho) as W.
  unfold recursion_denominator, S_spec, P_spec.
  unfold amplitude2 at 1. rewrite succF, succG by assumption. rewrite S_INR.
  set (F := waveF l rho) in *. set (G := waveG l rho) in *. set (f := dF l rho) in *. set (g := dG l rho) in *.
  assert (EA : amplitude2 l rho = F ^ 2 + G ^ 2) by reflexivity.
  set (A := amplitude2 l rho) in *.
  assert (HA' : A <> 0) by lra.
  apply Rmult_eq_reg_r with A; [|exact HA'].
  replace (A * ((INR l + 1 - rho * (F * f + G * g) / A) ^ 2 + (rho / A) ^ 2) * A)
    with (((INR l + 1) * A - rho * (F * f + G * g)) ^ 2 + rho ^ 2) by (field; exact HA').
  replace (rho ^ 2) with (rho ^ 2 * (f * G - F * g) ^ 2) at 2 by (rewrite W; ring).
  rewrite EA. field. lra.
Qed.

Lemma P_recursion l rho : 0 < rho ->
  P_spec (S l) rho = rho ^ 2 * P_spec l rho / recursion_denominator l rho.
Proof.
  intros Hr. pose proof (amplitude_succ l rho Hr) as E.
  pose proof (amplitude2_pos l rho) as HA. pose proof (amplitude2_pos (S l) rho) as HA'.
  assert (HD : 0 < recursion_denominator l rho).
  { apply Rmult_lt_reg_l with (amplitude2 l rho); [lra|]. rewrite Rmult_0_r, <- E.
    apply Rmult_lt_0_compat; [lra|apply pow_lt; lra]. }
  unfold P_spec.
  apply Rmult_eq_reg_r with (amplitude2 (S l) rho * rho ^ 2); [|assert (0 < rho ^ 2) by (apply pow_lt; lra); nra].
  rewrite E at 2. field. lra.
Qed.

Lemma S_recursion l rho : 0 < rho ->
  S_spec (S l) rho =
  rho ^ 2 * (INR (S l) - S_spec l rho) / recursion_denominator l rho - INR (S l).
Proof.
  intros Hr. pose proof (amplitude_succ l rho Hr) as E.
  pose proof (amplitude2_pos l rho) as HA. pose proof (amplitude2_pos (S l) rho) as HA'.
  assert (HD : 0 < recursion_denominator l rho).
  { apply Rmult_lt_reg_l with (amplitude2 l rho); [lra|]. rewrite Rmult_0_r, <- E.
    apply Rmult_lt_0_compat; [lra|apply pow_lt; lra]. }
  assert (ED : recursion_denominator l rho = amplitude2 (S l) rho * rho ^ 2 / amplitude2 l rho).
  { rewrite E. field. lra. }
  rewrite ED. clear ED E HD.
  unfold S_spec. unfold dF at 1, dG at 1. rewrite succF', succG'.
  replace (rho * (waveF (S l) rho * (waveF l rho - INR (S l) / rho * waveF (S l) rho) +
                  waveG (S l) rho * (waveG l rho - INR (S l) / rho * waveG (S l) rho)))
    with (rho * (waveF (S l) rho * waveF l rho + waveG (S l) rho * waveG l rho) - INR (S l) * amplitude2 (S l) rho)
    by (unfold amplitude2; field; lra).
  rewrite (succF l), (succG l) by assumption. rewrite S_INR.
  assert (EA : amplitude2 l rho = waveF l rho ^ 2 + waveG l rho ^ 2) by reflexivity.
  set (A' := amplitude2 (S l) rho) in *.
  set (F := waveF l rho) in *. set (G := waveG l rho) in *. set (f := dF l rho) in *. set (g := dG l rho) in *.
  set (A := amplitude2 l rho) in *.
  replace (rho * (((INR l + 1) / rho * F - f) * F + ((INR l + 1) / rho * G - g) * G))
    with ((INR l + 1) * A - rho * (F * f + G * g)) by (rewrite EA; field; lra).
  field. lra.
Qed.

(** ** The code computes these functions *)

Definition wA (l : nat) (r : R) : R :=
  match l with
  | 0%nat => 1 | 1%nat => / r | 2%nat => 3 / r ^ 2 - 1 | 3%nat => 15 / r ^ 3 - 6 / r
  | _ => 105 / r ^ 4 - 45 / r ^ 2 + 1
  end.
Definition wB (l : nat) (r : R) : R :=
  match l with
  | 0%nat => 0 | 1%nat => -1 | 2%nat => - (3 / r) | 3%nat => - (15 / r ^ 2) + 1
  | _ => - (105 / r ^ 3) + 10 / r
  end.

Lemma wave_small l r : 0 < r -> (l <= 4)%nat ->
  waveF l r = wA l r * sin r + wB l r * cos r /\ waveG l r = wA l r * cos r - wB l r * sin r.
Proof.
  intros Hr Hl. unfold waveF, waveG.
  destruct l as [|[|[|[|[|l]]]]]; [..|lia]; cbn [wave wA wB snd fst INR]; split; field; lra.
Qed.

Lemma wave'_small l r : 0 < r -> (l < 4)%nat ->
  waveF' (S l) r = wA l r * sin r + wB l r * cos r /\ waveG' (S l) r = wA l r * cos r - wB l r * sin r.
Proof. intros Hr Hl. rewrite succF', succG'. apply wave_small; [assumption|lia]. Qed.

Lemma amplitude2_small l r : 0 < r -> (l <= 4)%nat -> amplitude2 l r = wA l r ^ 2 + wB l r ^ 2.
Proof.
  intros Hr Hl. unfold amplitude2. destruct (wave_small l r Hr Hl) as [-> ->].
  pose proof (sin2_cos2 r) as E. unfold Rsqr in E.
  transitivity ((wA l r ^ 2 + wB l r ^ 2) * (sin r * sin r + cos r * cos r)); [ring|rewrite E; ring].
Qed.

(** Denominator of the l-th functions *)
Definition den (l : nat) (r : R) : R :=
  match l with
  | 0%nat => 1 | 1%nat => 1 + r ^ 2 | 2%nat => 9 + 3 * r ^ 2 + r ^ 4
  | 3%nat => 225 + 45 * r ^ 2 + 6 * r ^ 4 + r ^ 6
  | _ => 11025 + 1575 * r ^ 2 + 135 * r ^ 4 + 10 * r ^ 6 + r ^ 8
  end.

Lemma den_pos l r : 0 < r -> 0 < den l r.
Proof.
  intros H. assert (H2 : 0 < r ^ 2) by (apply pow_lt; lra). assert (H4 : 0 < r ^ 4) by (apply pow_lt; lra).
  assert (H6 : 0 < r ^ 6) by (apply pow_lt; lra). assert (H8 : 0 < r ^ 8) by (apply pow_lt; lra).
  unfold den. destruct l as [|[|[|[|l]]]]; lra.
Qed.

Lemma amplitude2_den l r : 0 < r -> (l <= 4)%nat -> amplitude2 l r = den l r / r ^ (2 * l).
Proof.
  intros Hr Hl. rewrite amplitude2_small by assumption.
  destruct l as [|[|[|[|[|l]]]]]; [..|lia]; cbn [wA wB den Nat.mul Nat.add pow]; field; lra.
Qed.

Lemma P_spec_den l r : 0 < r -> (l <= 4)%nat -> P_spec l r = r * r ^ (2 * l) / den l r.
Proof.
  intros Hr Hl. unfold P_spec. rewrite amplitude2_den by assumption.
  pose proof (den_pos l r Hr). assert (0 < r ^ (2 * l)) by (apply pow_lt; lra). field. lra.
Qed.

Ltac horner_eval := unfold horner_r, horner; cbn [rev app fold_left bind].

Lemma penetrability_code l r : 0 < r -> (l <= 4)%nat -> penetrability_neutron l r = Ok (P_spec l r).
Proof.
  intros Hr Hl. rewrite P_spec_den by assumption. pose proof (den_pos l r Hr) as Hd.
  destruct l as [|[|[|[|[|l]]]]]; [..|lia]; cbn [penetrability_neutron]; horner_eval; f_equal;
    cbn [den Nat.mul Nat.add] in *.
  all: assert (H2 : 0 < r * r) by nra; assert (H4 : 0 < r * r * (r * r)) by nra;
    assert (H6 : 0 < r * r * (r * r) * (r * r)) by nra;
    assert (H8 : 0 < r * r * (r * r) * (r * r) * (r * r)) by nra.
  all: field; repeat split; try (apply Rgt_not_eq; nra).
Qed.

Definition num_shift (l : nat) (r : R) : R :=
  match l with
  | 0%nat => 0 | 1%nat => 1 | 2%nat => 18 + 3 * r ^ 2
  | 3%nat => 675 + 90 * r ^ 2 + 6 * r ^ 4
  | _ => 44100 + 4725 * r ^ 2 + 270 * r ^ 4 + 10 * r ^ 6
  end.

Lemma S_spec_den l r : 0 < r -> (l <= 4)%nat -> S_spec l r = - num_shift l r / den l r.
Proof.
  intros Hr Hl. unfold S_spec. 
  assert (E : waveF l r * dF l r + waveG l r * dG l r =
     match l with 0%nat => 0 | S n => wA l r * wA n r + wB l r * wB n r end - INR l / r * amplitude2 l r).
  { unfold dF, dG. pose proof (amplitude2_small l r Hr Hl) as EA.
    replace (waveF l r * (waveF' l r - INR l / r * waveF l r) + waveG l r * (waveG' l r - INR l / r * waveG l r))
      with (waveF l r * waveF' l r + waveG l r * waveG' l r - INR l / r * amplitude2 l r)
      by (unfold amplitude2; ring).
    f_equal. destruct l as [|n].
    - unfold waveF, waveF', waveG, waveG'. cbn. ring.
    - destruct (wave'_small n r Hr ltac:(lia)) as [-> ->]. destruct (wave_small (S n) r Hr Hl) as [-> ->].
      pose proof (sin2_cos2 r) as E. unfold Rsqr in E.
      transitivity ((wA (S n) r * wA n r + wB (S n) r * wB n r) * (sin r * sin r + cos r * cos r)); [ring|rewrite E; ring]. }
  rewrite E, amplitude2_den by assumption. pose proof (den_pos l r Hr) as Hd.
  destruct l as [|[|[|[|[|l]]]]]; [..|lia]; cbn [wA wB den num_shift Nat.mul Nat.add INR pow] in *; field;
    repeat split; nra.
Qed.

Lemma shift_code l r : 0 < r -> (l <= 4)%nat -> shift_neutron l r = Ok (S_spec l r).
Proof.
  intros Hr Hl. rewrite S_spec_den by assumption. pose proof (den_pos l r Hr) as Hd.
  destruct l as [|[|[|[|[|l]]]]]; [..|lia]; cbn [shift_neutron]; horner_eval; f_equal;
    cbn [den num_shift Nat.mul Nat.add] in *.
  all: assert (H2 : 0 < r * r) by nra; assert (H4 : 0 < r * r * (r * r)) by nra;
    assert (H6 : 0 < r * r * (r * r) * (r * r)) by nra;
    assert (H8 : 0 < r * r * (r * r) * (r * r) * (r * r)) by nra.
  all: field; repeat split; try (apply Rgt_not_eq; nra).
Qed.

(** *** Phase shift *)

Lemma phase_from_ratio A B r phi l : 0 < r -> (l <= 4)%nat ->
  wA l r = A -> wB l r = B ->
  (cos (r - phi) * - B = sin (r - phi) * A) ->
  is_phase l r phi.
Proof.
  intros Hr Hl HA HB H.
  destruct (wave_small l r Hr Hl) as [HF HG]. rewrite HA, HB in *.
  pose proof (amplitude2_pos l r) as Hpos. pose proof (amplitude2_small l r Hr Hl) as Hamp.
  rewrite HA, HB in Hamp.
  set (t := r - phi) in *. replace phi with (r - t) by (unfold t; ring).
  (* c := A cos t - B sin t is plus or minus the amplitude *)
  set (c := A * cos t - B * sin t).
  pose proof (sin2_cos2 t) as Et. unfold Rsqr in Et.
  assert (EA : A = c * cos t).
  { unfold c. replace ((A * cos t - B * sin t) * cos t) with (A * (cos t * cos t) + sin t * (cos t * - B)) by ring.
    rewrite H. replace (A * (cos t * cos t) + sin t * (sin t * A)) with (A * (sin t * sin t + cos t * cos t)) by ring.
    rewrite Et; ring. }
  assert (EB : - B = c * sin t).
  { unfold c. replace ((A * cos t - B * sin t) * sin t) with (cos t * (sin t * A) - B * (sin t * sin t)) by ring.
    rewrite <- H. replace (cos t * (cos t * - B) - B * (sin t * sin t)) with (- B * (sin t * sin t + cos t * cos t)) by ring.
    rewrite Et; ring. }
  assert (Ec : c * c = amplitude2 l r).
  { rewrite Hamp. replace (B ^ 2) with ((- B) ^ 2) by ring. rewrite EA at 1. rewrite EB at 1.
    replace ((c * cos t) ^ 2 + (c * sin t) ^ 2) with (c * c * (sin t * sin t + cos t * cos t)) by ring.
    rewrite Et; ring. }
  assert (HF' : waveF l r = c * sin (r - t)).
  { rewrite HF, sin_minus. replace B with (- (- B)) by ring. rewrite EA at 1. rewrite EB at 1. ring. }
  assert (HG' : waveG l r = c * cos (r - t)).
  { rewrite HG, cos_minus. replace B with (- (- B)) by ring. rewrite EA at 1. rewrite EB at 1. ring. }
  destruct (Rle_lt_dec 0 c) as [Hc|Hc].
  - exists 1. split; [auto|]. rewrite <- Ec, sqrt_square by lra. split; [rewrite HG'|rewrite HF']; ring.
  - exists (-1). split; [auto|]. replace (amplitude2 l r) with ((- c) * (- c)) by lra.
    rewrite sqrt_square by lra. split; [rewrite HG'|rewrite HF']; ring.
Qed.

Lemma cos_atan_pos x : 0 < cos (atan x).
Proof. pose proof (atan_bound x). apply cos_gt_0; lra. Qed.

Lemma atan_quotient_spec n d : n <> 0 \/ d <> 0 ->
  cos (atan_quotient n d) * n = sin (atan_quotient n d) * d.
Proof.
  intros H. unfold atan_quotient. destruct (Req_EM_T d 0) as [E|E].
  - rewrite E. destruct (Rlt_dec n 0); rewrite ?cos_neg, cos_PI2; ring.
  - set (t := atan (n / d)).
    assert (Hc : 0 < cos t) by (unfold t; apply cos_atan_pos).
    assert (Ht : n / d = tan t) by (unfold t; rewrite tan_atan; reflexivity).
    unfold tan in Ht.
    replace n with (sin t / cos t * d) by (rewrite <- Ht; field; exact E). field. lra.
Qed.

Lemma scale_phase k A B t : k <> 0 -> cos t * (k * - B) = sin t * (k * A) -> cos t * - B = sin t * A.
Proof. intros Hk H. apply Rmult_eq_reg_l with k; [|exact Hk]. lra. Qed.

Lemma phase_code l r : 0 < r -> (l <= 4)%nat ->
  exists phi, phase_neutron l r = Ok phi /\ is_phase l r phi.
Proof.
  intros Hr Hl.
  assert (Hrm : forall n, 0 < r ^ n) by (intros; apply pow_lt; lra).
  destruct l as [|[|[|[|[|l]]]]]; [..|lia]; cbn [phase_neutron]; horner_eval; eexists; (split; [reflexivity|]).
  - apply (phase_from_ratio 1 0); [assumption|lia|reflexivity|reflexivity|].
    replace (r - r) with 0 by ring. rewrite sin_0. ring.
  - apply (phase_from_ratio (/ r) (-1)); [assumption|lia|reflexivity|reflexivity|].
    replace (r - (r - atan r)) with (atan r) by ring.
    apply (scale_phase r); [lra|].
    replace (r * / r) with 1 by (field; lra). replace (r * - -1) with r by ring.
    assert (Hc : 0 < cos (atan r)) by apply cos_atan_pos.
    rewrite Rmult_1_r. rewrite <- (tan_atan r) at 2. unfold tan. field. lra.
  - eapply (phase_from_ratio); [assumption|lia|reflexivity|reflexivity|]. cbn [wA wB].
    match goal with |- context [r - (r - ?t)] => replace (r - (r - t)) with t by ring end.
    apply (scale_phase (r ^ 2)); [specialize (Hrm 2%nat); lra|].
    replace (r ^ 2 * - - (3 / r)) with (3 * r) by (field; lra).
    replace (r ^ 2 * (3 / r ^ 2 - 1)) with (3 - r * r) by (field; lra).
    apply atan_quotient_spec. left; lra.
  - eapply (phase_from_ratio); [assumption|lia|reflexivity|reflexivity|]. cbn [wA wB].
    match goal with |- context [r - (r - ?t)] => replace (r - (r - t)) with t by ring end.
    apply (scale_phase (r ^ 3)); [specialize (Hrm 3%nat); lra|].
    replace (r ^ 3 * - (- (15 / r ^ 2) + 1)) with (r * (15 - r * r)) by (field; lra).
    replace (r ^ 3 * (15 / r ^ 3 - 6 / r)) with (15 - 6 * (r * r)) by (field; lra).
    apply atan_quotient_spec.
    destruct (Req_dec (15 - 6 * (r * r)) 0); [left; nra|right; assumption].
  - eapply (phase_from_ratio); [assumption|lia|reflexivity|reflexivity|]. cbn [wA wB].
    match goal with |- context [r - (r - ?t)] => replace (r - (r - t)) with t by ring end.
    apply (scale_phase (r ^ 4)); [specialize (Hrm 4%nat); lra|].
    replace (r ^ 4 * - (- (105 / r ^ 3) + 10 / r)) with (r * (105 - 10 * (r * r))) by (field; lra).
    replace (r ^ 4 * (105 / r ^ 4 - 45 / r ^ 2 + 1)) with ((1 * (r * r) + -45) * (r * r) + 105) by (field; lra).
    apply atan_quotient_spec.
    destruct (Req_dec (105 - 10 * (r * r)) 0); [right|left; nra].
    assert (E : r * r = 10.5) by lra. rewrite E. lra.
Qed.

Lemma hard_sphere_throws l r : (4 < l)%nat ->
  throws (penetrability_neutron l r) /\ throws (shift_neutron l r) /\ throws (phase_neutron l r).
Proof.
  intros H. destruct l as [|[|[|[|[|l]]]]]; try lia. repeat split; eexists; reflexivity.
Qed.

(** What a cross section can see of a phase. *)
Lemma is_phase_double l r phi : is_phase l r phi ->
  cos (2 * phi) = (waveG l r ^ 2 - waveF l r ^ 2) / amplitude2 l r /\
  sin (2 * phi) = 2 * waveF l r * waveG l r / amplitude2 l r.
Proof.
  intros (s & Hs & HG & HF). pose proof (amplitude2_pos l r) as Hp.
  assert (Es : s * s = 1) by (destruct Hs as [-> | ->]; ring).
  assert (Eq : sqrt (amplitude2 l r) * sqrt (amplitude2 l r) = amplitude2 l r) by (apply sqrt_sqrt; lra).
  rewrite HG, HF. rewrite cos_2a, sin_2a. set (q := sqrt (amplitude2 l r)) in *.
  rewrite <- Eq. assert (Hq : q <> 0) by (intros E; rewrite E in Eq; lra).
  split.
  - replace ((s * q * cos phi) ^ 2 - (s * q * sin phi) ^ 2)
      with ((s * s) * (q * q) * (cos phi * cos phi - sin phi * sin phi)) by ring.
    rewrite Es. field. exact Hq.
  - replace (2 * (s * q * sin phi) * (s * q * cos phi))
      with ((s * s) * (q * q) * (2 * sin phi * cos phi)) by ring.
    rewrite Es. field. exact Hq.
Qed.

(** ** Ranges *)

Lemma P_range l r : 0 < r -> (l <= 4)%nat -> 0 < P_spec l r <= r.
Proof.
  intros Hr Hl. rewrite P_spec_den by assumption. pose proof (den_pos l r Hr) as Hd.
  assert (Hn : 0 < r ^ (2 * l)) by (apply pow_lt; lra).
  assert (Hle : r ^ (2 * l) <= den l r).
  { assert (Hrm : forall n, 0 < r ^ n) by (intros; apply pow_lt; lra).
    pose proof (Hrm 2%nat). pose proof (Hrm 4%nat). pose proof (Hrm 6%nat).
    destruct l as [|[|[|[|[|l]]]]]; [..|lia]; cbn [den Nat.mul Nat.add]; simpl in *; lra. }
  split.
  - apply Rdiv_lt_0_compat; [apply Rmult_lt_0_compat; lra|exact Hd].
  - apply Rmult_le_reg_r with (den l r); [exact Hd|].
    unfold Rdiv. rewrite Rmult_assoc, Rinv_l, Rmult_1_r by lra. apply Rmult_le_compat_l; lra.
Qed.

Lemma S_range l r : 0 < r -> (l <= 4)%nat -> - INR l <= S_spec l r <= 0.
Proof.
  intros Hr Hl. rewrite S_spec_den by assumption. pose proof (den_pos l r Hr) as Hd.
  assert (Hrm : forall n, 0 < r ^ n) by (intros; apply pow_lt; lra).
  pose proof (Hrm 2%nat) as H2. pose proof (Hrm 4%nat) as H4. pose proof (Hrm 6%nat) as H6. pose proof (Hrm 8%nat) as H8.
  assert (Hn : 0 <= num_shift l r <= INR l * den l r).
  { destruct l as [|[|[|[|[|l]]]]]; [..|lia]; cbn [num_shift den INR]; lra. }
  split; apply Rmult_le_reg_r with (den l r); try exact Hd;
    unfold Rdiv; rewrite Rmult_assoc, Rinv_l, Rmult_1_r by lra; lra.
Qed.

Lemma pow_cross a b k n : 0 < a -> a <= b -> (k <= n)%nat -> a ^ n * b ^ k <= b ^ n * a ^ k.
Proof.
  intros Ha Hab Hk. replace n with (k + (n - k))%nat by lia. rewrite !pow_add.
  assert (H1 : a ^ (n - k) <= b ^ (n - k)) by (apply pow_incr; lra).
  assert (H2 : 0 < a ^ k * b ^ k) by (apply Rmult_lt_0_compat; apply pow_lt; lra). nra.
Qed.

Lemma P_increasing l a b : 0 < a < b -> (l <= 4)%nat -> P_spec l a < P_spec l b.
Proof.
  intros [Ha Hab] Hl. rewrite !P_spec_den by (assumption || lra).
  pose proof (den_pos l a Ha) as Hda. assert (Hb : 0 < b) by lra. pose proof (den_pos l b Hb) as Hdb.
  assert (Hc : a ^ (2 * l) * den l b <= b ^ (2 * l) * den l a).
  { assert (C : forall k n, (k <= n)%nat -> a ^ n * b ^ k <= b ^ n * a ^ k)
      by (intros; apply pow_cross; lra || assumption).
    destruct l as [|[|[|[|[|l]]]]]; [..|lia]; cbn [den Nat.mul Nat.add].
    - simpl; lra.
    - pose proof (C 0%nat 2%nat ltac:(lia)); pose proof (C 2%nat 2%nat ltac:(lia)); simpl in *; lra.
    - pose proof (C 0%nat 4%nat ltac:(lia)); pose proof (C 2%nat 4%nat ltac:(lia)); pose proof (C 4%nat 4%nat ltac:(lia)); simpl in *; lra.
    - pose proof (C 0%nat 6%nat ltac:(lia)); pose proof (C 2%nat 6%nat ltac:(lia)); pose proof (C 4%nat 6%nat ltac:(lia));
      pose proof (C 6%nat 6%nat ltac:(lia)); simpl in *; lra.
    - pose proof (C 0%nat 8%nat ltac:(lia)); pose proof (C 2%nat 8%nat ltac:(lia)); pose proof (C 4%nat 8%nat ltac:(lia));
      pose proof (C 6%nat 8%nat ltac:(lia)); pose proof (C 8%nat 8%nat ltac:(lia)); simpl in *; lra. }
  assert (Hp : 0 < b ^ (2 * l)) by (apply pow_lt; lra).
  assert (Hq : a ^ (2 * l) / den l a <= b ^ (2 * l) / den l b).
  { apply Rmult_le_reg_r with (den l a * den l b); [apply Rmult_lt_0_compat; assumption|].
    replace (a ^ (2 * l) / den l a * (den l a * den l b)) with (a ^ (2 * l) * den l b) by (field; lra).
    replace (b ^ (2 * l) / den l b * (den l a * den l b)) with (b ^ (2 * l) * den l a) by (field; lra).
    exact Hc. }
  assert (Hq0 : 0 < b ^ (2 * l) / den l b) by (apply Rdiv_lt_0_compat; assumption).
  unfold Rdiv in *. rewrite !Rmult_assoc.
  apply Rle_lt_trans with (a * (b ^ (2 * l) * / den l b)).
  - apply Rmult_le_compat_l; lra.
  - apply Rmult_lt_compat_r; lra.
Qed.

(** ** The two interfaces agree *)

Definition fst_ok {A B} (o : outcome (A * B)) : outcome A := omap fst o.
Definition snd_ok {A B} (o : outcome (A * B)) : outcome B := omap snd o.

Lemma old_unsupported L r : (L < 0 \/ 4 < L)%Z ->
  penetrationShift L r = unsupported /\ phaseShift L r = unsupported.
Proof.
  intros H. unfold penetrationShift, phaseShift.
  destruct (Z.eqb_spec L 0); [lia|]. destruct (Z.eqb_spec L 1); [lia|]. destruct (Z.eqb_spec L 2); [lia|].
  destruct (Z.eqb_spec L 3); [lia|]. destruct (Z.eqb_spec L 4); [lia|]. auto.
Qed.

Lemma new_unsupported l r : (4 < l)%nat ->
  penetrability_neutron l r = unsupported /\ shift_neutron l r = unsupported /\ phase_neutron l r = unsupported.
Proof. intros H. destruct l as [|[|[|[|[|l]]]]]; try lia. auto. Qed.

Lemma interfaces_agree l r : 0 <= r ->
  omap fst (penetrationShift (Z.of_nat l) r) = penetrability_neutron l r /\
  omap snd (penetrationShift (Z.of_nat l) r) = shift_neutron l r.
Proof.
  intros Hr.
  destruct (le_lt_dec l 4) as [Hl|Hl].
  2:{ destruct (old_unsupported (Z.of_nat l) r ltac:(lia)) as [-> _].
      destruct (new_unsupported l r Hl) as (-> & -> & _). auto. }
  unfold penetrationShift.
  assert (H2 : 0 <= r * r) by nra.
  assert (H4 : 0 <= r * r * (r * r)) by nra.
  assert (H6 : 0 <= r * r * (r * r) * (r * r)) by nra.
  assert (H8 : 0 <= r * r * (r * r) * (r * r) * (r * r)) by nra.
  assert (Hpr : (if Rlt_dec 0 r then 1 else 0) * r = r) by (destruct (Rlt_dec 0 r); lra).
  rewrite Hpr.
  destruct l as [|[|[|[|[|l]]]]]; [..|lia];
    cbn [Z.of_nat Z.eqb Pos.eqb Pos.of_succ_nat Pos.succ penetrability_neutron shift_neutron];
    horner_eval; unfold omap; cbn [bind fst snd]; split; f_equal; field; repeat split; apply Rgt_not_eq; nra.
Qed.

Lemma atan_scaled_quotient x n d : 0 < x -> n <> 0 \/ d <> 0 -> atan_scaled x n d = atan_quotient (x * n) d.
Proof.
  intros Hx _. unfold atan_scaled, atan_quotient. destruct (Req_EM_T d 0) as [E|E].
  - destruct (Rlt_dec n 0), (Rlt_dec (x * n) 0); try reflexivity; nra.
  - f_equal. field. exact E.
Qed.

Lemma phases_agree l r : 0 < r -> phaseShift (Z.of_nat l) r = phase_neutron l r.
Proof.
  intros Hr.
  destruct (le_lt_dec l 4) as [Hl|Hl].
  2:{ destruct (old_unsupported (Z.of_nat l) r ltac:(lia)) as [_ ->].
      destruct (new_unsupported l r Hl) as (_ & _ & ->). auto. }
  unfold phaseShift.
  destruct l as [|[|[|[|[|l]]]]]; [..|lia]; cbn [Z.of_nat Z.eqb Pos.eqb Pos.of_succ_nat Pos.succ phase_neutron]; horner_eval.
  - reflexivity.
  - rewrite Rmult_1_r. reflexivity.
  - rewrite atan_scaled_quotient by (try assumption; left; lra). rewrite (Rmult_comm r 3). reflexivity.
  - rewrite atan_scaled_quotient; [reflexivity|assumption|].
    destruct (Req_dec (15 - r * r) 0); [right; lra|left; assumption].
  - replace ((1 * (r * r) + -45) * (r * r) + 105) with (105 + r * r * (r * r - 45)) by ring.
    rewrite atan_scaled_quotient; [reflexivity|assumption|].
    destruct (Req_dec (105 - 10 * (r * r)) 0); [right|left; assumption].
    assert (E : r * r = 10.5) by lra. rewrite E. lra.
Qed.

(** Arguments that are not valid in either interface: a negative L (int) throws. *)
Lemma old_negative_L L r : (L < 0)%Z -> throws (penetrationShift L r) /\ throws (phaseShift L r).
Proof.
  intros H. destruct (old_unsupported L r ltac:(lia)) as [-> ->]. split; eexists; reflexivity.
Qed.

(** ** Slope of the phase shift *)

Definition pole (l : nat) (r : R) : Prop :=
  match l with
  | 2%nat => 3 - r * r = 0 | 3%nat => 15 - 6 * (r * r) = 0
  | 4%nat => 105 + r * r * (r * r - 45) = 0 | _ => False
  end.

(** The value returned, as a function of rho. *)
Definition phase_value (l : nat) (r : R) : R := match phase_neutron l r with Ok x => x | _ => 0 end.

Lemma atan_quotient_derive (n d : R -> R) n' d' r : d r <> 0 ->
  is_derive n r n' -> is_derive d r d' ->
  is_derive (fun x => atan_quotient (n x) (d x)) r ((n' * d r - n r * d') / (d r ^ 2 + n r ^ 2)).
Proof.
  intros Hd Hn Hd'.
  assert (Hc : continuous d r).
  { apply (ex_derive_continuous d). exists d'. exact Hd'. }
  assert (Hloc : locally r (fun x => d x <> 0)).
  { apply (Hc (fun y => y <> 0)). apply open_neq. exact Hd. }
  apply is_derive_ext_loc with (fun x => atan (n x / d x)).
  - eapply filter_imp; [|exact Hloc]. intros x Hx. unfold atan_quotient. destruct (Req_EM_T (d x) 0); [contradiction|reflexivity].
  - evar_last.
    { apply (is_derive_comp atan (fun x => n x / d x)).
      - apply is_derive_Reals. apply derivable_pt_lim_atan.
      - apply is_derive_div; [exact Hn|exact Hd'|exact Hd]. }
    cbn. unfold scal; cbn; unfold mult; cbn. field.
    assert (0 < d r ^ 2) by (apply pow2_gt_0; exact Hd). assert (0 <= n r ^ 2) by apply pow2_ge_0.
    assert (0 < d r * d r) by nra. assert (0 <= n r * n r) by nra.
    repeat split; nra.
Qed.

Lemma phase_slope l r : 0 < r -> (l <= 4)%nat -> ~ pole l r ->
  is_derive (phase_value l) r (P_spec l r / r).
Proof.
  intros Hr Hl Hp. rewrite P_spec_den by assumption. pose proof (den_pos l r Hr) as Hd.
  assert (H2 : 0 < r * r) by nra. assert (H4 : 0 < r * r * (r * r)) by nra.
  assert (H6 : 0 < r * r * (r * r) * (r * r)) by nra.
  assert (H8 : 0 < r * r * (r * r) * (r * r) * (r * r)) by nra.
  destruct l as [|[|[|[|[|l]]]]]; [..|lia]; cbn [pole den Nat.mul Nat.add] in *.
  - evar_last; [apply @is_derive_id|]. cbn. unfold one; cbn. field. lra.
  - apply is_derive_ext with (fun x => x - atan x); [reflexivity|].
    auto_derive; [exact I|]. unfold Rsqr. field. nra.
  - apply is_derive_ext with (fun x => x - atan_quotient (3 * x) (3 - x * x)); [reflexivity|].
    evar_last.
    { apply @is_derive_minus; [apply @is_derive_id|].
      apply atan_quotient_derive; [exact Hp| |]; auto_derive; try exact I; reflexivity. }
    unfold minus, plus, opp, one; cbn.
    assert (E : 0 < (3 - r * r) ^ 2 + (3 * r) ^ 2) by nra. cbn in E.
    field. repeat split; nra.
  - apply is_derive_ext with (fun x => x - atan_quotient (x * (15 - x * x)) (15 - 6 * (x * x))); [reflexivity|].
    evar_last.
    { apply @is_derive_minus; [apply @is_derive_id|].
      apply atan_quotient_derive; [exact Hp| |]; auto_derive; try exact I; reflexivity. }
    unfold minus, plus, opp, one; cbn.
    assert (E : (15 - 6 * (r * r)) ^ 2 + (r * (15 - r * r)) ^ 2 = den 3 r) by (cbn; ring). cbn in E.
    rewrite E. field. lra.
  - apply is_derive_ext with (fun x => x - atan_quotient (x * (105 - 10 * (x * x))) ((1 * (x * x) + -45) * (x * x) + 105)); [reflexivity|].
    evar_last.
    { apply @is_derive_minus; [apply @is_derive_id|].
      apply atan_quotient_derive; [lra| |]; auto_derive; try exact I; reflexivity. }
    unfold minus, plus, opp, one; cbn.
    assert (E : ((1 * (r * r) + -45) * (r * r) + 105) ^ 2 + (r * (105 - 10 * (r * r))) ^ 2 = den 4 r) by (cbn; ring). cbn in E.
    rewrite E. field. lra.
Qed.

(** The phase recursion of the ENDF manual. *)
Lemma phase_recursion l r phi : 0 < r -> S_spec l r < INR (S l) ->
  is_phase l r phi -> is_phase (S l) r (phi - atan (P_spec l r / (INR (S l) - S_spec l r))).
Proof.
  intros Hr HS (s & Hs & HG & HF).
  pose proof (amplitude2_pos l r) as HA. pose proof (amplitude2_pos (S l) r) as HA'.
  pose proof (wronskian l r) as W. pose proof (amplitude_succ l r Hr) as EA.
  set (u := INR (S l) - S_spec l r). set (p := P_spec l r).
  assert (Hu : 0 < u) by (unfold u; lra).
  set (t := atan (p / u)).
  assert (Hc : 0 < cos t) by apply cos_atan_pos.
  assert (Ht : p = u * (sin t / cos t)).
  { change (sin t / cos t) with (tan t). unfold t. rewrite tan_atan. field. lra. }
  set (A := amplitude2 l r) in *.
  assert (HGs : waveG (S l) r = (u * waveG l r + p * waveF l r) / r).
  { rewrite succG by assumption. unfold u, p, S_spec, P_spec. rewrite S_INR. fold A.
    assert (E : A = waveF l r ^ 2 + waveG l r ^ 2) by reflexivity.
    apply Rmult_eq_reg_r with (r * A); [|nra].
    replace ((((INR l + 1 - r * (waveF l r * dF l r + waveG l r * dG l r) / A) * waveG l r + r / A * waveF l r) / r) * (r * A))
      with ((INR l + 1) * A * waveG l r - r * (waveF l r * dF l r + waveG l r * dG l r) * waveG l r + r * waveF l r * 1)
      by (field; lra).
    rewrite <- W. rewrite E. field. lra. }
  assert (HFs : waveF (S l) r = (u * waveF l r - p * waveG l r) / r).
  { rewrite succF by assumption. unfold u, p, S_spec, P_spec. rewrite S_INR. fold A.
    assert (E : A = waveF l r ^ 2 + waveG l r ^ 2) by reflexivity.
    apply Rmult_eq_reg_r with (r * A); [|nra].
    replace ((((INR l + 1 - r * (waveF l r * dF l r + waveG l r * dG l r) / A) * waveF l r - r / A * waveG l r) / r) * (r * A))
      with ((INR l + 1) * A * waveF l r - r * (waveF l r * dF l r + waveG l r * dG l r) * waveF l r - r * waveG l r * 1)
      by (field; lra).
    rewrite <- W. rewrite E. field. lra. }
  set (q := sqrt A) in *.
  assert (Hq : q * q = A) by (apply sqrt_sqrt; lra).
  assert (Hq0 : 0 <= q) by apply sqrt_pos.
  (* new amplitude *)
  set (q' := q * (u / cos t) / r).
  assert (Hq' : 0 <= q').
  { unfold q'. apply Rmult_le_pos; [apply Rmult_le_pos; [exact Hq0|apply Rlt_le, Rdiv_lt_0_compat; lra]|].
    apply Rlt_le, Rinv_0_lt_compat, Hr. }
  assert (Esqrt : sqrt (amplitude2 (S l) r) = q').
  { apply sqrt_lem_1; [lra|exact Hq'|].
    assert (E : u ^ 2 + p ^ 2 = (u / cos t) * (u / cos t)).
    { rewrite Ht. pose proof (sin2_cos2 t) as E2. unfold Rsqr in E2.
      transitivity (u ^ 2 * (sin t * sin t + cos t * cos t) / (cos t * cos t)); [field; lra|rewrite E2; field; lra]. }
    apply Rmult_eq_reg_r with (r ^ 2); [|assert (0 < r ^ 2) by (apply pow_lt; lra); lra].
    rewrite EA. unfold recursion_denominator. fold u p. rewrite E.
    unfold q'. rewrite <- Hq. field. lra. }
  exists s. split; [exact Hs|]. rewrite Esqrt. unfold q'.
  rewrite cos_minus, sin_minus. rewrite HGs, HFs, HG, HF, Ht. split; field; lra.
Qed.

Lemma recursion_code l r p s phi : 0 < r -> (l < 4)%nat ->
  penetrability_neutron l r = Ok p -> shift_neutron l r = Ok s -> phase_neutron l r = Ok phi ->
  penetrability_neutron (S l) r = Ok (r ^ 2 * p / ((INR (S l) - s) ^ 2 + p ^ 2)) /\
  shift_neutron (S l) r = Ok (r ^ 2 * (INR (S l) - s) / ((INR (S l) - s) ^ 2 + p ^ 2) - INR (S l)) /\
  exists phi' k, phase_neutron (S l) r = Ok phi' /\
    phi' = phi - atan (p / (INR (S l) - s)) + IZR k * PI.
Proof.
  intros Hr Hl Hp Hs Hphi.
  rewrite penetrability_code in Hp by (assumption || lia). injection Hp as <-.
  rewrite shift_code in Hs by (assumption || lia). injection Hs as <-.
  split; [rewrite penetrability_code by (assumption || lia); f_equal; apply P_recursion; exact Hr|].
  split; [rewrite shift_code by (assumption || lia); f_equal; apply S_recursion; exact Hr|].
  destruct (phase_code l r Hr ltac:(lia)) as (phi0 & E0 & H0).
  rewrite Hphi in E0. injection E0 as ->.
  destruct (phase_code (S l) r Hr ltac:(lia)) as (phi1 & E1 & H1).
  assert (HS : S_spec l r < INR (S l)).
  { pose proof (S_range l r Hr ltac:(lia)). rewrite S_INR. pose proof (pos_INR l). lra. }
  pose proof (phase_recursion l r phi0 Hr HS H0) as H2.
  set (phi2 := phi0 - atan (P_spec l r / (INR (S l) - S_spec l r))) in *.
  assert (Hsin : sin (phi1 - phi2) = 0).
  { destruct H1 as (s1 & Hs1 & G1 & F1), H2 as (s2 & Hs2 & G2 & F2).
    assert (Hq : 0 < sqrt (amplitude2 (S l) r)) by (apply sqrt_lt_R0, amplitude2_pos).
    set (q := sqrt (amplitude2 (S l) r)) in *. rewrite sin_minus.
    assert (EC : s1 * cos phi1 = s2 * cos phi2) by (apply Rmult_eq_reg_l with q; [|lra]; rewrite G1 in G2; lra).
    assert (ES : s1 * sin phi1 = s2 * sin phi2) by (apply Rmult_eq_reg_l with q; [|lra]; rewrite F1 in F2; lra).
    destruct Hs1 as [-> | ->], Hs2 as [-> | ->].
    - replace (cos phi1) with (cos phi2) by lra. replace (sin phi1) with (sin phi2) by lra. ring.
    - replace (cos phi1) with (- cos phi2) by lra. replace (sin phi1) with (- sin phi2) by lra. ring.
    - replace (cos phi1) with (- cos phi2) by lra. replace (sin phi1) with (- sin phi2) by lra. ring.
    - replace (cos phi1) with (cos phi2) by lra. replace (sin phi1) with (sin phi2) by lra. ring. }
  apply sin_eq_0_0 in Hsin. destruct Hsin as [k Hk].
  exists phi1, k. split; [exact E1|]. unfold phi2 in *. lra.
Qed.

Lemma penetrability_mono l a b p q : 0 < a < b -> (l <= 4)%nat ->
  penetrability_neutron l a = Ok p -> penetrability_neutron l b = Ok q -> p < q.
Proof.
  intros H Hl Hp Hq. rewrite penetrability_code in Hp, Hq by (assumption || lra).
  injection Hp as <-; injection Hq as <-. apply P_increasing; assumption.
Qed.

Lemma phase_double_angle l r : 0 < r -> (l <= 4)%nat -> exists phi, phase_neutron l r = Ok phi /\
  cos (2 * phi) = (waveG l r ^ 2 - waveF l r ^ 2) / amplitude2 l r /\
  sin (2 * phi) = 2 * waveF l r * waveG l r / amplitude2 l r.
Proof.
  intros Hr Hl. destruct (phase_code l r Hr Hl) as (phi & E & H). exists phi. split; [exact E|].
  apply is_phase_double, H.
Qed.
