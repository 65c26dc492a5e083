(** Where the check of the Coulomb wave functions does not help, in exact arithmetic. *)
From Coq Require Import String List ZArith Reals Bool Lia Lra.
From Coquelicot Require Import Coquelicot.
From Verif Require Import Outcome ListFacts HardSphereSpec HardSphereProofs CoulombWaveModel CoulombExactModel CoulombWaveSpec CoulombWaveProofs CoulombExactProofs CoulombNeutralProofs.
Import ListNotations.
Open Scope R_scope.

(** * Far away, without charge: F is not the regular wave although the Wronskian is one *)
Definition far (m : nat) : R := PI / 6 + 2 * PI * INR m.
Lemma far_sin m : sin (far m) = 1 / 2.
Proof. unfold far. replace (PI / 6 + 2 * PI * INR m) with (PI / 6 + 2 * INR m * PI) by ring. rewrite sin_period. apply sin_PI6. Qed.
Lemma far_cos m : cos (far m) = sqrt 3 / 2.
Proof. unfold far. replace (PI / 6 + 2 * PI * INR m) with (PI / 6 + 2 * INR m * PI) by ring. rewrite cos_period. apply cos_PI6. Qed.
Lemma far_pos m : 0 < far m.
Proof. unfold far. pose proof PI_RGT_0. pose proof (pos_INR m). nra. Qed.
Lemma far_inf : is_lim_seq (fun m => / far m) 0.
Proof.
  apply (is_lim_seq_inv far p_infty); [|discriminate]. unfold far. apply (is_lim_seq_plus _ _ (PI / 6) p_infty); [apply is_lim_seq_const | | reflexivity].
  apply (is_lim_seq_mult _ _ (2 * PI) p_infty); [apply is_lim_seq_const | apply is_lim_seq_INR|]. apply is_Rbar_mult_sym, is_Rbar_mult_p_infty_pos. cbn. pose proof PI_RGT_0. lra.
Qed.
(** The limits of u_{l-1} and u_l *)
Fixpoint ends (a b : R) (l : nat) : R * R := match l with O => (a, b) | S n => let (x, y) := ends a b n in (y, - x) end.
Lemma wave_ends um u0 a b : (forall m, um (far m) = a) -> (forall m, u0 (far m) = b) -> forall l,
  is_lim_seq (fun m => fst (wave um u0 l (far m))) (fst (ends a b l)) /\ is_lim_seq (fun m => snd (wave um u0 l (far m))) (snd (ends a b l)).
Proof.
  intros Ha Hb. induction l as [|l [A B]].
  - cbn [wave ends fst snd]. split; [apply (is_lim_seq_ext (fun _ => a)); [intros; symmetry; apply Ha | apply is_lim_seq_const] | apply (is_lim_seq_ext (fun _ => b)); [intros; symmetry; apply Hb | apply is_lim_seq_const]].
  - assert (E : forall m, wave um u0 (S l) (far m) = (snd (wave um u0 l (far m)), (2 * INR l + 1) * / far m * snd (wave um u0 l (far m)) - fst (wave um u0 l (far m)))).
    { intros m. cbn [wave]. destruct (wave um u0 l (far m)). reflexivity. }
    cbn [ends]. destruct (ends a b l) as [x y]. cbn [fst snd] in *. split.
    + apply (is_lim_seq_ext (fun m => snd (wave um u0 l (far m)))); [intros m; rewrite E; reflexivity | exact B].
    + apply (is_lim_seq_ext (fun m => (2 * INR l + 1) * / far m * snd (wave um u0 l (far m)) - fst (wave um u0 l (far m)))); [intros m; rewrite E; reflexivity|].
      replace (- x) with ((2 * INR l + 1) * 0 * y - x) by ring.
      apply is_lim_seq_minus'; [|exact A]. apply is_lim_seq_mult'; [|exact B]. apply is_lim_seq_mult'; [apply is_lim_seq_const | exact far_inf].
Qed.
Lemma ends_values a b l : snd (ends a b l) = a \/ snd (ends a b l) = b \/ snd (ends a b l) = - a \/ snd (ends a b l) = - b.
Proof.
  enough (H : (fst (ends a b l) = a /\ snd (ends a b l) = b) \/ (fst (ends a b l) = b /\ snd (ends a b l) = - a) \/
    (fst (ends a b l) = - a /\ snd (ends a b l) = - b) \/ (fst (ends a b l) = - b /\ snd (ends a b l) = a)) by tauto.
  induction l as [|l IH]; [left; split; reflexivity|]. cbn [ends]. destruct (ends a b l) as [x y]. cbn [fst snd] in *.
  destruct IH as [[-> ->]|[[-> ->]|[[-> ->]|[-> ->]]]]; [right; left | right; right; left | right; right; right | left]; split; try reflexivity; apply Ropp_involutive.
Qed.
Lemma ends_period a b l : ends a b (4 + l) = ends a b l.
Proof. cbn [Nat.add ends]. destruct (ends a b l). rewrite !Ropp_involutive. reflexivity. Qed.
Lemma ends_69 a b : snd (ends a b 69) = - a.
Proof.
  assert (H : forall n, ends a b (n * 4 + 1) = ends a b 1). { induction n as [|n IH]; [reflexivity|]. rewrite <- IH. replace (S n * 4 + 1)%nat with (4 + (n * 4 + 1))%nat by lia. apply ends_period. }
  change 69%nat with (17 * 4 + 1)%nat. rewrite H. reflexivity.
Qed.
Lemma eventually_close (u : nat -> R) (x : R) d : 0 < d -> is_lim_seq u x -> exists M, forall m, (M <= m)%nat -> Rabs (u m - x) < d.
Proof. intros Hd H. apply is_lim_seq_spec in H. exact (H (mkposreal d Hd)). Qed.
Lemma all_close um u0 a b d n : 0 < d -> (forall m, um (far m) = a) -> (forall m, u0 (far m) = b) ->
  exists M, forall m, (M <= m)%nat -> forall l, (l <= n)%nat -> Rabs (snd (wave um u0 l (far m)) - snd (ends a b l)) < d.
Proof.
  intros Hd Ha Hb. induction n as [|n (M & IH)].
  - destruct (eventually_close _ _ d Hd (proj2 (wave_ends um u0 a b Ha Hb 0))) as (M & H). exists M. intros m Hm l Hl. replace l with 0%nat by lia. apply H, Hm.
  - destruct (eventually_close _ _ d Hd (proj2 (wave_ends um u0 a b Ha Hb (S n)))) as (M' & H). exists (Nat.max M M'). intros m Hm l Hl. destruct (Nat.eq_dec l (S n)) as [->|]; [apply H; lia | apply IH; lia].
Qed.
Lemma sqrt3_bounds : 17 / 10 < sqrt 3 < 18 / 10.
Proof. pose proof (sqrt_sqrt 3 ltac:(lra)). pose proof (sqrt_pos 3). split; nra. Qed.
Theorem far_wrong : exists r f df, 0 < r /\ waveF 0 r = 1 / 2 /\
  coulombWaveFunctions exact 0 (Fin r) (Fin 0) = Ok ((Fin (waveG 0 r), Fin f), (Fin (dG 0 r), Fin df)) /\ df * waveG 0 r - dG 0 r * f = 1 /\ 3 / 2 < f.
Proof.
  pose proof sqrt3_bounds as S3.
  destruct (all_close cos sin (sqrt 3 / 2) (1 / 2) (1 / 100) 69 ltac:(lra) far_cos far_sin) as (M1 & H1).
  destruct (all_close (fun x => - sin x) cos (- (1 / 2)) (sqrt 3 / 2) (1 / 100) 69 ltac:(lra) (fun m => f_equal Ropp (far_sin m)) far_cos) as (M2 & H2).
  set (m := Nat.max M1 M2). specialize (H1 m ltac:(lia)). specialize (H2 m ltac:(lia)). set (r := far m) in *.
  assert (Hr : 0 < r) by apply far_pos.
  assert (HG : forall n, (n <= 69)%nat -> 2 / 5 < Rabs (waveG n r) < 1).
  { intros n Hn. specialize (H2 n Hn). change (snd (wave (fun x => - sin x) cos n r)) with (waveG n r) in H2.
    apply Rabs_def2 in H2. destruct (ends_values (- (1 / 2)) (sqrt 3 / 2) n) as [E|[E|[E|E]]]; rewrite E in H2; unfold Rabs; destruct (Rcase_abs (waveG n r)); lra. }
  destruct (neutral_exact 0 r ltac:(lra) ltac:(lia)) as (N & HN & _ & C & E). { intros n Hn Z. specialize (HG n ltac:(lia)). rewrite Z, Rabs_R0 in HG. lra. }
  assert (N69 : N = 69%nat).
  { destruct C as [C|C]; [exact C|]. exfalso. specialize (HG (N - 10)%nat ltac:(lia)). set (g := waveG (N - 10) r) in *.
    assert (g2 : 4 / 25 < g * g < 1). { rewrite <- (Rabs_right (g * g)) by nra. rewrite Rabs_mult. nra. }
    change (ext_lt (ext_div (Fin 1) (Fin (g * g))) (Fin (1 / IZR (10 ^ 10))) = true) in C. rewrite div_Fin in C by lra. cbn [ext_lt] in C. unfold Rltb in C. destruct (Rlt_dec (1 / (g * g)) _) as [L|]; [|discriminate].
    change (10 ^ 10)%Z with 10000000000%Z in L. assert (1 < 1 / (g * g)). { apply (Rmult_lt_reg_r (g * g)); [lra|]. unfold Rdiv. rewrite Rmult_assoc, Rinv_l by lra. lra. } lra. }
  subst N. cbv zeta in E. change (Z.to_nat 0) with 0%nat in E. set (q := waveF 69 r / waveG 69 r) in *. exists r, (waveF 0 r - q * waveG 0 r), (dF 0 r - q * dG 0 r).
  split; [exact Hr|]. split; [apply far_sin|]. split; [exact E|]. split; [pose proof (wronskian 0 r); lra|].
  change (waveF 0 r) with (sin r). change (waveG 0 r) with (cos r). unfold r. rewrite far_sin, far_cos.
  assert (F69 : Rabs (waveF 69 r - - (sqrt 3 / 2)) < 1 / 100) by (rewrite <- (ends_69 (sqrt 3 / 2) (1 / 2)); exact (H1 69%nat ltac:(lia))).
  assert (G69 : Rabs (waveG 69 r - - - (1 / 2)) < 1 / 100) by (rewrite <- (ends_69 (- (1 / 2)) (sqrt 3 / 2)); exact (H2 69%nat ltac:(lia))).
  apply Rabs_def2 in F69, G69. set (f := waveF 69 r) in *. set (g := waveG 69 r) in *.
  assert (Q : q < - (14 / 10)).
  { unfold q. apply (Rmult_lt_reg_r g); [lra|]. unfold Rdiv. rewrite Rmult_assoc, Rinv_l by lra. lra. }
  nra.
Qed.
