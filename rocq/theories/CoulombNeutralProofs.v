(** The Coulomb wave functions without charge, in exact arithmetic: against the free waves. *)
From Coq Require Import String List ZArith Reals Bool Lia Lra.
From Coquelicot Require Import Coquelicot.
From Verif Require Import Outcome ListFacts HardSphereSpec HardSphereProofs CoulombWaveModel CoulombExactModel CoulombWaveSpec CoulombWaveProofs CoulombExactProofs.
Import ListNotations.
Open Scope R_scope.

(** * The free waves solve the recurrence *)
Lemma cR_0 l : (1 <= l)%nat -> cR 0 l = 1.
Proof. intros H. unfold cR. assert (0 < INR l) by (apply lt_0_INR; lia). rewrite Rmult_0_l, Rplus_0_r, sqrt_square by lra. field. lra. Qed.
Lemma waveG_succ l r : waveG (S l) r = (2 * INR l + 1) / r * waveG l r - waveG' l r.
Proof. unfold waveG, waveG'. cbn [wave]. destruct (wave _ _ l r). reflexivity. Qed.
Lemma waveF_succ l r : waveF (S l) r = (2 * INR l + 1) / r * waveF l r - waveF' l r.
Proof. unfold waveF, waveF'. cbn [wave]. destruct (wave _ _ l r). reflexivity. Qed.
Lemma waveG_solves r : r <> 0 -> solves 0 r (fun l => waveG l r).
Proof.
  intros Hr [|l] Hl; [lia|]. rewrite !cR_0 by lia. unfold cS. cbn [pred]. rewrite (waveG_succ (S l)), succG', !S_INR. assert (0 < INR l + 1) by (pose proof (pos_INR l); lra). field. repeat split; lra.
Qed.
Lemma waveF_solves r : r <> 0 -> solves 0 r (fun l => waveF l r).
Proof.
  intros Hr [|l] Hl; [lia|]. rewrite !cR_0 by lia. unfold cS. cbn [pred]. rewrite (waveF_succ (S l)), succF', !S_INR. assert (0 < INR l + 1) by (pose proof (pos_INR l); lra). field. repeat split; lra.
Qed.
Lemma waveG_derived r l : r <> 0 -> derived 0 r (fun l => waveG l r) l = dG l r.
Proof. intros Hr. unfold derived, cS, dG. rewrite cR_0 by lia. rewrite waveG_succ, S_INR. pose proof (pos_INR l). field. split; lra. Qed.
Lemma waveF_derived r l : r <> 0 -> derived 0 r (fun l => waveF l r) l = dF l r.
Proof. intros Hr. unfold derived, cS, dF. rewrite cR_0 by lia. rewrite waveF_succ, S_INR. pose proof (pos_INR l). field. split; lra. Qed.

(** * A solution is known from its Wronskian with G and a zero *)
Lemma solves_minus e r X Y q : solves e r X -> solves e r Y -> solves e r (fun k => X k - q * Y k).
Proof. intros HX HY l Hl. specialize (HX l Hl). specialize (HY l Hl). cbv beta. rewrite Rmult_minus_distr_l, HX. replace (cR e (S l) * (q * Y (S l))) with (q * (cR e (S l) * Y (S l))) by ring. rewrite HY. ring. Qed.
Lemma vanishing e r X N : r <> 0 -> solves e r X -> X (S N) = 0 -> X N = 0 -> forall k, (k <= N)%nat -> X k = 0.
Proof.
  intros Hr HX. induction N as [|N IH]; intros A B k Hk.
  - replace k with 0%nat by lia. exact B.
  - assert (C : X N = 0).
    { pose proof (solves_relation e r X (Z.of_nat (S N)) HX ltac:(lia)) as Q. apply relation_F in Q; [|exact Hr | lia].
      replace (Z.to_nat (Z.of_nat (S N) - 1)) with N in Q by lia. replace (Z.to_nat (Z.of_nat (S N) + 1)) with (S (S N)) in Q by lia. replace (Z.to_nat (Z.of_nat (S N))) with (S N) in Q by lia.
      rewrite Q, A, B. unfold Fstep, Rdiv. ring. }
    destruct (Nat.eq_dec k (S N)) as [->|]; [exact B|]. apply IH; [exact B | exact C | lia].
Qed.
Lemma determined r F N : r <> 0 -> (1 <= N)%nat -> waveG N r <> 0 -> solves 0 r F -> F N = 0 ->
  (forall k, derived 0 r F k * waveG k r - derived 0 r (fun l => waveG l r) k * F k = 1) ->
  forall k, (k <= N)%nat -> F k = waveF k r - waveF N r / waveG N r * waveG k r.
Proof.
  intros Hr HN NG HF F0 W. set (q := waveF N r / waveG N r). set (H := fun k => waveF k r - q * waveG k r).
  assert (HH : solves 0 r H) by (apply (solves_minus 0 r (fun l => waveF l r) (fun l => waveG l r)); [apply waveF_solves | apply waveG_solves]; exact Hr).
  assert (HD : solves 0 r (fun k => F k - 1 * H k)) by (apply solves_minus; assumption).
  assert (H0 : H N = 0) by (unfold H, q; field; exact NG).
  assert (WH : casorati H (fun l => waveG l r) 0 N = 1).
  { rewrite <- (wronskian_casorati 0 r). replace (derived 0 r H N) with (derived 0 r (fun l => waveF l r) N - q * derived 0 r (fun l => waveG l r) N) by (unfold derived, H; ring).
    rewrite waveF_derived, waveG_derived by exact Hr. unfold H. pose proof (wronskian N r). lra. }
  assert (WF : casorati F (fun l => waveG l r) 0 N = 1) by (rewrite <- (wronskian_casorati 0 r); apply W).
  assert (E : F (S N) = H (S N)).
  { unfold casorati in WH, WF. rewrite cR_0 in WH, WF by lia. rewrite H0 in WH. rewrite F0 in WF. apply (Rmult_eq_reg_l (waveG N r)); [lra | exact NG]. }
  intros k Hk. assert (D : F k - 1 * H k = 0). { apply (vanishing 0 r _ N Hr HD); [rewrite E; ring | rewrite F0, H0; ring | exact Hk]. } unfold H in D. lra.
Qed.

(** * What the code returns *)
Definition start_G r : waveG 0 r = cos r := eq_refl.
Theorem neutral_exact l r : r <> 0 -> (0 <= l <= 58)%Z -> (forall n, (12 <= n <= 69)%nat -> waveG n r <> 0) ->
  exists N, (Z.to_nat l + 11 <= N <= 69)%nat /\ (12 <= N)%nat /\
    (N = 69%nat \/ lt (div (#1%num : exact) (mul (Fin (waveG (N - 10) r)) (Fin (waveG (N - 10) r)))) CRIT_LMAX = true) /\
    let q := waveF N r / waveG N r in let n := Z.to_nat l in
    coulombWaveFunctions exact l (Fin r) (Fin 0) =
      Ok ((Fin (waveG n r), Fin (waveF n r - q * waveG n r)), (Fin (dG n r), Fin (dF n r - q * dG n r))).
Proof.
  intros Hr Hl NG. unfold coulombWaveFunctions, omExternalFunction, startValues. cbn [exact eqb dec ext_dec ext_eq]. 
  assert (E0 : Reqb 0 0 = true) by (unfold Reqb; destruct (Req_EM_T 0 0); [reflexivity | contradiction]). rewrite E0. cbn [bind fcos fsin finite exact div add].
  rewrite (div_Fin _ r Hr). cbn [ext_add]. set (G := fun l => waveG l r).
  assert (G1 : cos r / r + sin r = G 1%nat) by (unfold G; rewrite waveG_succ; unfold waveG', waveG; cbn [wave fst snd INR]; field; exact Hr).
  rewrite G1. change (cos r) with (G 0%nat).
  match goal with |- context [omWaves exact l _ _ _ _ ?w ?d] => destruct (waves_exact 0 r Hr l G w d) as (F & wf & df & lmax & E & H1 & H2 & C & HF & F0 & W & Qw & Qd);
    [apply waveG_solves; exact Hr | exact NG | apply repeat_length | apply repeat_length|] end.
  change ext with (num exact) in *. setoid_rewrite E. cbn [bind]. rewrite (proj2 (get_read exact wf l _) (Qw l ltac:(lia))). cbn [bind]. rewrite (proj2 (get_read exact df l _) (Qd l ltac:(lia))). cbn [bind].
  exists (Z.to_nat (lmax + 11)). split; [lia|]. split; [lia|]. split.
  { destruct C as [->|C]; [left; reflexivity|]. right. replace (Z.to_nat (lmax + 11) - 10)%nat with (Z.to_nat (lmax + 1)) by lia. unfold at_nat, G in C. cbn [exact eqb dec ext_dec ext_eq] in C. rewrite E0 in C. exact C. }
  cbv zeta. set (N := Z.to_nat (lmax + 11)). set (n := Z.to_nat l).
  assert (D : forall k, (k <= N)%nat -> F k = waveF k r - waveF N r / waveG N r * waveG k r).
  { apply (determined r F N Hr ltac:(lia)); [apply NG; lia | exact HF | exact F0 | exact W]. }
  unfold at_nat. fold n. rewrite (D n) by lia. repeat f_equal.
  - apply waveG_derived. exact Hr.
  - unfold derived. rewrite (D n), (D (S n)) by lia. rewrite <- waveF_derived, <- waveG_derived by exact Hr. unfold derived. ring.
Qed.

(** * At small distances *)
(** r^l F_l without the division by r *)
Fixpoint phi_pair (l : nat) (t : R) : R * R :=
  match l with
  | O => (sin t, sin t - t * cos t)
  | S m => let (a, b) := phi_pair m t in (b, (2 * INR (S m) + 1) * b - t * t * a)
  end.
Definition phi (l : nat) (t : R) : R := fst (phi_pair l t).
Lemma phi_succ l t : snd (phi_pair l t) = phi (S l) t.
Proof. unfold phi. cbn [phi_pair]. destruct (phi_pair l t). reflexivity. Qed.
Lemma phi_step l t : phi (S (S l)) t = (2 * INR (S l) + 1) * phi (S l) t - t * t * phi l t.
Proof. rewrite <- (phi_succ (S l)), <- (phi_succ l). unfold phi. cbn [phi_pair]. destruct (phi_pair l t). reflexivity. Qed.
Lemma phi_wave r : r <> 0 -> forall l, phi l r = r ^ l * waveF l r /\ phi (S l) r = r ^ S l * waveF (S l) r.
Proof.
  intros Hr. induction l as [|l [A B]].
  - split; [unfold phi, waveF; cbn; ring|]. rewrite waveF_succ. unfold phi, waveF, waveF'. cbn [phi_pair fst wave snd INR pow]. field. exact Hr.
  - split; [exact B|]. rewrite phi_step, A, B, (waveF_succ (S l)), succF'. cbn [pow]. field. exact Hr.
Qed.
Lemma phi_derive t : forall l, is_derive (phi (S l)) t (t * phi l t) /\ is_derive (phi (S (S l))) t (t * phi (S l) t).
Proof.
  assert (D0 : is_derive (phi 0) t (cos t)) by (unfold phi; cbn [phi_pair fst]; auto_derive; [exact I | ring]).
  assert (D1 : is_derive (phi 1) t (t * phi 0 t)) by (unfold phi; cbn [phi_pair fst]; auto_derive; [exact I | ring]).
  induction l as [|l [A B]].
  - split; [exact D1|]. apply (is_derive_ext (fun x => (2 * INR 1 + 1) * phi 1 x - x * x * phi 0 x)); [intros x; symmetry; apply phi_step|].
    evar_last; [apply @is_derive_minus; [apply @is_derive_scal; exact D1 | apply @is_derive_mult; [apply @is_derive_mult; [apply @is_derive_id | apply @is_derive_id | intros; apply Rmult_comm] | exact D0 | intros; apply Rmult_comm]]|].
    unfold minus, plus, opp, mult, scal, one; cbn. unfold phi; cbn. unfold mult; cbn. ring.
  - split; [exact B|]. apply (is_derive_ext (fun x => (2 * INR (S (S l)) + 1) * phi (S (S l)) x - x * x * phi (S l) x)); [intros x; symmetry; apply phi_step|].
    evar_last; [apply @is_derive_minus; [apply @is_derive_scal; exact B | apply @is_derive_mult; [apply @is_derive_mult; [apply @is_derive_id | apply @is_derive_id | intros; apply Rmult_comm] | exact A | intros; apply Rmult_comm]]|].
    rewrite (phi_step l t), !S_INR. unfold minus, plus, opp, mult, scal, one; cbn -[INR phi]. unfold mult; cbn -[INR phi]. ring.
Qed.
Lemma increasing_on (f df : R -> R) a b : (forall x, is_derive f x (df x)) -> (forall x, a <= x <= b -> 0 <= df x) -> a <= b -> f a <= f b.
Proof.
  intros D P H. destruct (MVT_gen f a b df) as (c & [C1 C2] & E).
  - intros x _. apply D.
  - intros x _. apply continuity_pt_filterlim, (ex_derive_continuous f). eexists. apply D.
  - rewrite Rmin_left in C1 by exact H. rewrite Rmax_right in C2 by exact H. specialize (P c (Logic.conj C1 C2)). nra.
Qed.
Lemma increasing_from_zero (f df : R -> R) t : (forall x, is_derive f x (df x)) -> f 0 = 0 -> (forall x, 0 <= x -> 0 <= df x) -> 0 <= t -> 0 <= f t.
Proof. intros D F0 P Ht. rewrite <- F0. apply (increasing_on f df); [exact D | intros x Hx; apply P; lra | exact Ht]. Qed.
Fixpoint odd_factorial (l : nat) : R := match l with O => 1 | S m => (2 * INR (S m) + 1) * odd_factorial m end.
Lemma odd_factorial_pos l : 0 < odd_factorial l.
Proof. induction l as [|l IH]; cbn -[INR]; [lra|]. pose proof (pos_INR (S l)). nra. Qed.
Lemma odd_factorial_mono k n : (k <= n)%nat -> odd_factorial k <= odd_factorial n.
Proof. intros H. induction H; [lra|]. change (odd_factorial (S m)) with ((2 * INR (S m) + 1) * odd_factorial m). pose proof (pos_INR (S m)). pose proof (odd_factorial_pos m). nra. Qed.
Lemma derive_power m c x : is_derive (fun y => y ^ S m / c) x (INR (S m) * x ^ m / c).
Proof. auto_derive; [exact I|]. change (match m with 0%nat => 1 | S _ => INR m + 1 end) with (INR (S m)). unfold Rdiv. ring. Qed.
Lemma phi_bound : forall l t, 0 <= t -> Rabs (phi l t) <= t ^ (2 * l + 1) / odd_factorial l.
Proof.
  assert (Z : forall l, phi l 0 = 0). { enough (H : forall l, phi l 0 = 0 /\ phi (S l) 0 = 0) by apply H. induction l as [|l [A B]]; [unfold phi; cbn; rewrite sin_0; split; ring|]. split; [exact B|]. rewrite phi_step, A, B. ring. }
  induction l as [|l IH]; intros t Ht.
  - unfold phi. cbn. rewrite Rmult_1_r, Rdiv_1. apply Rabs_le. 
    assert (A : 0 <= t - sin t). { apply (increasing_from_zero (fun x => x - sin x) (fun x => 1 - cos x)); [|rewrite sin_0; ring | |exact Ht]; [intros x; auto_derive; [exact I | ring] | intros x _; pose proof (COS_bound x); lra]. }
    assert (B : 0 <= t + sin t). { apply (increasing_from_zero (fun x => x + sin x) (fun x => 1 + cos x)); [|rewrite sin_0; ring | |exact Ht]; [intros x; auto_derive; [exact I | ring] | intros x _; pose proof (COS_bound x); lra]. }
    lra.
  - set (c := odd_factorial (S l)). assert (Hc : c = (2 * INR (S l) + 1) * odd_factorial l) by reflexivity. pose proof (odd_factorial_pos l) as Po. pose proof (pos_INR (S l)) as Pi.
    assert (DP : forall x, is_derive (fun y => y ^ (2 * S l + 1) / c) x (x * (x ^ (2 * l + 1) / odd_factorial l))).
    { intros x. replace (2 * S l + 1)%nat with (S (S (2 * l + 1))) by lia. evar_last; [apply derive_power|]. replace (INR (S (S (2 * l + 1)))) with (2 * INR (S l) + 1) by (rewrite !S_INR, plus_INR, mult_INR; cbn [INR]; ring).
      rewrite Hc. change (x ^ S (2 * l + 1)) with (x * x ^ (2 * l + 1)). field. split; lra. }
    assert (S1 : forall x, 0 <= x -> - (x ^ (2 * l + 1) / odd_factorial l) <= phi l x <= x ^ (2 * l + 1) / odd_factorial l) by (intros x Hx; apply Rabs_le_between, IH; exact Hx).
    apply Rabs_le. assert (A : 0 <= t ^ (2 * S l + 1) / c - phi (S l) t).
    { apply (increasing_from_zero (fun x => x ^ (2 * S l + 1) / c - phi (S l) x) (fun x => x * (x ^ (2 * l + 1) / odd_factorial l) - x * phi l x)); [| | |exact Ht].
      - intros x. apply @is_derive_minus; [apply DP | apply phi_derive].
      - rewrite Z, pow_i by lia. unfold Rdiv. ring.
      - intros x Hx. specialize (S1 x Hx). nra. }
    assert (B : 0 <= t ^ (2 * S l + 1) / c + phi (S l) t).
    { apply (increasing_from_zero (fun x => x ^ (2 * S l + 1) / c + phi (S l) x) (fun x => x * (x ^ (2 * l + 1) / odd_factorial l) + x * phi l x)); [| | |exact Ht].
      - intros x. apply @is_derive_plus; [apply DP | apply phi_derive].
      - rewrite Z, pow_i by lia. unfold Rdiv. ring.
      - intros x Hx. specialize (S1 x Hx). nra. }
    lra.
Qed.
Lemma waveF_bound l r : 0 < r -> Rabs (waveF l r) <= r ^ S l / odd_factorial l.
Proof.
  intros Hr. pose proof (phi_bound l r ltac:(lra)) as B. rewrite (proj1 (phi_wave r ltac:(lra) l)) in B. rewrite Rabs_mult in B. pose proof (pow_lt r l Hr) as P.
  rewrite (Rabs_pos_eq (r ^ l)) in B by lra. apply (Rmult_le_reg_l (r ^ l)); [exact P|]. eapply Rle_trans; [exact B|]. right. replace (2 * l + 1)%nat with (l + S l)%nat by lia. rewrite pow_add. unfold Rdiv. ring.
Qed.
Lemma waveG_grows r : 0 < r <= 1 -> forall l, 0 < waveG l r /\ waveG l r <= waveG (S l) r.
Proof.
  intros Hr. induction l as [|l [A B]].
  - rewrite waveG_succ. unfold waveG, waveG'. cbn [wave fst snd INR]. assert (0 < cos r) by (apply cos_gt_0; pose proof PI_RGT_0; pose proof PI2_1; lra). assert (0 < sin r) by (apply sin_gt_0; pose proof PI2_1; lra).
    split; [assumption|]. assert (E : cos r <= (2 * 0 + 1) / r * cos r). { rewrite <- (Rmult_1_l (cos r)) at 1. apply Rmult_le_compat_r; [lra|]. apply (Rmult_le_reg_r r); [lra|]. unfold Rdiv. rewrite Rmult_assoc, Rinv_l by lra. lra. } lra.
  - split; [lra|]. rewrite (waveG_succ (S l)), succG', S_INR. pose proof (pos_INR l). set (G := waveG (S l) r) in *.
    assert (E : 2 * G <= (2 * (INR l + 1) + 1) / r * G). { apply Rmult_le_compat_r; [lra|]. apply (Rmult_le_reg_r r); [lra|]. unfold Rdiv. rewrite Rmult_assoc, Rinv_l by lra. nra. }
    lra.
Qed.
Lemma waveG_step r l : 0 < r <= 1 -> 2 * INR (S l) * waveG (S l) r <= waveG (S (S l)) r.
Proof.
  intros Hr. rewrite (waveG_succ (S l)), succG'. destruct (waveG_grows r Hr l) as [A B]. destruct (waveG_grows r Hr (S l)) as [A' _]. pose proof (pos_INR (S l)). set (G := waveG (S l) r) in *.
  assert (E : (2 * INR (S l) + 1) * G <= (2 * INR (S l) + 1) / r * G). { apply Rmult_le_compat_r; [lra|]. apply (Rmult_le_reg_r r); [lra|]. unfold Rdiv. rewrite Rmult_assoc, Rinv_l by lra. nra. }
  lra.
Qed.
Lemma waveG_mono r k n : 0 < r <= 1 -> (k <= n)%nat -> waveG k r <= waveG n r.
Proof. intros Hr H. induction H; [lra|]. destruct (waveG_grows r Hr m). lra. Qed.
Fixpoint even_factorial (j : nat) : R := match j with O => 1 | S m => 2 * INR (S m) * even_factorial m end.
Lemma even_factorial_pos j : 0 < even_factorial j.
Proof. induction j as [|j IH]; [cbn; lra|]. change (even_factorial (S j)) with (2 * INR (S j) * even_factorial j). pose proof (lt_0_INR (S j) ltac:(lia)). nra. Qed.
Lemma waveG_far r k : 0 < r <= 1 -> (1 <= k)%nat -> forall j, even_factorial j * waveG k r <= waveG (k + j) r.
Proof.
  intros Hr Hk. induction j as [|j IH]; [cbn; rewrite Nat.add_0_r; lra|]. destruct k as [|k]; [lia|]. replace (S k + S j)%nat with (S (S (k + j))) by lia. replace (S k + j)%nat with (S (k + j)) in IH by lia.
  eapply Rle_trans; [|apply waveG_step; exact Hr]. destruct (waveG_grows r Hr (S k)) as [P _]. change (even_factorial (S j)) with (2 * INR (S j) * even_factorial j).
  assert (L : INR (S j) <= INR (S (k + j))) by (apply le_INR; lia). pose proof (lt_0_INR (S j) ltac:(lia)). rewrite Rmult_assoc.
  eapply Rle_trans; [apply Rmult_le_compat_l; [nra | exact IH]|]. apply Rmult_le_compat_r; [|lra]. destruct (waveG_grows r Hr (S (k + j))). lra.
Qed.
Lemma odd_factorial_product k j : odd_factorial k * odd_factorial j <= odd_factorial (k + j).
Proof.
  induction j as [|j IH]; [cbn; rewrite Nat.add_0_r; lra|]. replace (k + S j)%nat with (S (k + j)) by lia. change (odd_factorial (S (k + j))) with ((2 * INR (S (k + j)) + 1) * odd_factorial (k + j)).
  change (odd_factorial (S j)) with ((2 * INR (S j) + 1) * odd_factorial j). assert (L : INR (S j) <= INR (S (k + j))) by (apply le_INR; lia). pose proof (pos_INR (S j)).
  pose proof (odd_factorial_pos k). pose proof (odd_factorial_pos j). assert (P : 0 < odd_factorial k * odd_factorial j) by nra.
  replace (odd_factorial k * ((2 * INR (S j) + 1) * odd_factorial j)) with ((2 * INR (S j) + 1) * (odd_factorial k * odd_factorial j)) by ring. apply Rmult_le_compat; lra.
Qed.
Lemma waveG_upper r k : 0 < r <= 1 -> r ^ S k * waveG (S k) r <= 2 * odd_factorial k.
Proof.
  intros Hr. induction k as [|k IH].
  - rewrite waveG_succ. unfold waveG, waveG'. cbn [wave fst snd INR pow odd_factorial]. pose proof (COS_bound r). pose proof (SIN_bound r).
    replace (r * 1 * ((2 * 0 + 1) / r * cos r - - sin r)) with (cos r + r * sin r) by (field; lra). nra.
  - rewrite (waveG_succ (S k)), succG'. destruct (waveG_grows r Hr k) as [P _]. change (odd_factorial (S k)) with ((2 * INR (S k) + 1) * odd_factorial k).
    replace (r ^ S (S k) * ((2 * INR (S k) + 1) / r * waveG (S k) r - waveG k r)) with ((2 * INR (S k) + 1) * (r ^ S k * waveG (S k) r) - r ^ S (S k) * waveG k r) by (cbn [pow]; field; lra).
    pose proof (pow_lt r (S (S k)) ltac:(lra)). pose proof (pos_INR (S k)). assert (0 < r ^ S (S k) * waveG k r) by (apply Rmult_lt_0_compat; assumption). nra.
Qed.
Lemma phi_grows l : forall x t, 0 <= x <= t -> t <= 1 -> 0 <= phi l x <= phi l t.
Proof.
  assert (Z : forall l, phi l 0 = 0). { enough (H : forall l, phi l 0 = 0 /\ phi (S l) 0 = 0) by apply H. induction l0 as [|n [A B]]; [unfold phi; cbn; rewrite sin_0; split; ring|]. split; [exact B|]. rewrite phi_step, A, B. ring. }
  induction l as [|l IH]; intros x t Hx Ht.
  - unfold phi. cbn [phi_pair fst]. pose proof PI2_1. split; [apply sin_ge_0; lra|]. destruct (Req_dec x t) as [->|N]; [lra|]. apply Rlt_le, sin_increasing_1; lra.
  - rewrite <- (Z (S l)) at 1. split; (apply (increasing_on _ (fun y => y * phi l y)); [intros y; apply phi_derive | |lra]); intros y Hy; (apply Rmult_le_pos; [lra|]); apply (IH y y); lra.
Qed.
Lemma waveF_nonneg r l : 0 < r <= 1 -> 0 <= waveF l r.
Proof. intros Hr. pose proof (phi_grows l r r ltac:(lra) ltac:(lra)) as [P _]. rewrite (proj1 (phi_wave r ltac:(lra) l)) in P. pose proof (pow_lt r l ltac:(lra)). nra. Qed.
Lemma waveF_falls r l : 0 < r <= 1 -> waveF (S l) r <= r / 2 * waveF l r.
Proof.
  intros Hr. assert (H : phi (S l) r <= r ^ 2 / 2 * phi l r).
  { enough (Q : 0 ^ 2 / 2 * phi l r - phi (S l) 0 <= r ^ 2 / 2 * phi l r - phi (S l) r).
    { pose proof (phi_bound (S l) 0 ltac:(lra)) as B. rewrite pow_i in B by lia. unfold Rdiv in B. rewrite Rmult_0_l in B. pose proof (Rabs_pos (phi (S l) 0)). assert (E : phi (S l) 0 = 0) by (apply Rabs_eq_0; lra). rewrite E in Q. lra. }
    apply (increasing_on (fun x => x ^ 2 / 2 * phi l r - phi (S l) x) (fun x => x * phi l r - x * phi l x)); [| |lra].
    - intros x. apply @is_derive_minus; [auto_derive; [exact I | field]|apply phi_derive].
    - intros x Hx. destruct (phi_grows l x r ltac:(lra) ltac:(lra)). nra. }
  destruct (phi_wave r ltac:(lra) l) as [A B]. rewrite A, B in H. pose proof (pow_lt r (S l) ltac:(lra)) as P. apply (Rmult_le_reg_l (r ^ S l)); [exact P|]. eapply Rle_trans; [exact H|]. right. cbn [pow]. field.
Qed.

(** The multiple of G that is mixed into F *)
Lemma mixing r N k : 0 < r <= 1 -> (k + 11 <= N)%nat -> waveF N r / waveG N r * (waveG (S k) r * waveG (S k) r) <= 2 / 1000000000000000000000.
Proof.
  intros Hr Hk. destruct (waveG_grows r Hr N) as [PN _]. destruct (waveG_grows r Hr (S k)) as [Pk _]. pose proof (waveF_nonneg r N Hr) as FN.
  pose proof (waveF_bound N r ltac:(lra)) as B. rewrite (Rabs_pos_eq _ FN) in B. pose proof (waveG_far r (S k) Hr ltac:(lia) 10) as W. pose proof (waveG_mono r (S k + 10) N Hr ltac:(lia)) as M.
  assert (E2 : even_factorial 10 = 3715891200) by (unfold even_factorial; cbn [INR]; lra). rewrite E2 in W.
  pose proof (waveG_upper r k Hr) as U. pose proof (odd_factorial_product k (N - k)) as O. replace (k + (N - k))%nat with N in O by lia. pose proof (odd_factorial_mono 11 (N - k) ltac:(lia)) as O2.
  assert (E1 : odd_factorial 11 = 316234143225) by (unfold odd_factorial; cbn [INR]; lra). rewrite E1 in O2. pose proof (odd_factorial_pos k) as Ok. pose proof (odd_factorial_pos N) as On.
  assert (P1 : 0 < r ^ S k <= 1) by (split; [apply pow_lt; lra | rewrite <- (pow1 (S k)); apply pow_incr; lra]).
  assert (P2 : r ^ S N <= r ^ S k). { replace (S N) with (S k + (N - k))%nat by lia. rewrite pow_add. assert (r ^ (N - k) <= 1) by (rewrite <- (pow1 (N - k)); apply pow_incr; lra). nra. }
  set (G := waveG (S k) r) in *. set (GN := waveG N r) in *. set (F := waveF N r) in *. set (a := odd_factorial k) in *. set (b := odd_factorial N) in *.
  assert (Q1 : G / GN <= 1 / 3715891200). { apply (Rmult_le_reg_r GN); [exact PN|]. unfold Rdiv. rewrite Rmult_assoc, Rinv_l by lra. lra. }
  assert (Q2 : F * G <= 2 / 316234143225).
  { assert (F * b <= r ^ S k). { apply (Rmult_le_compat_r b) in B; [|lra]. unfold Rdiv in B. rewrite Rmult_assoc, Rinv_l in B by lra. lra. }
    assert (b >= 316234143225 * a) by nra. assert (H1 : F * G * b <= 2 * a). { replace (F * G * b) with ((F * b) * G) by ring. apply (Rle_trans _ (r ^ S k * G)); [apply Rmult_le_compat_r; lra | exact U]. }
    assert (H2 : F * G * (316234143225 * a) <= 2 * a). { eapply Rle_trans; [|exact H1]. apply Rmult_le_compat_l; [apply Rmult_le_pos; lra | lra]. }
    apply (Rmult_le_reg_r (316234143225 * a)); [lra|]. lra. }
  replace (F / GN * (G * G)) with (F * G * (G / GN)) by (field; lra).
  apply (Rle_trans _ (2 / 316234143225 * (1 / 3715891200))); [|lra]. apply Rmult_le_compat; [apply Rmult_le_pos; lra | apply Rlt_le, Rdiv_lt_0_compat; lra | exact Q2 | exact Q1].
Qed.

Theorem neutral_accurate l r : 0 < r <= 1 -> (0 <= l <= 58)%Z -> let n := Z.to_nat l in
  exists f df, coulombWaveFunctions exact l (Fin r) (Fin 0) = Ok ((Fin (waveG n r), Fin f), (Fin (dG n r), Fin df)) /\
    Rabs (f - waveF n r) <= waveF n r / 10 ^ 18 /\ Rabs (df - dF n r) <= dF n r / 10 ^ 18.
Proof.
  intros Hr Hl n. destruct (neutral_exact l r ltac:(lra) Hl) as (N & HN & _ & _ & E). { intros k _. destruct (waveG_grows r Hr k). lra. }
  cbv zeta in E. fold n in E, HN. do 2 eexists. split; [exact E|]. set (q := waveF N r / waveG N r) in *. pose proof (mixing r N n Hr ltac:(lia)) as M. fold q in M.
  destruct (waveG_grows r Hr N) as [PN _]. destruct (waveG_grows r Hr n) as [Pn Pm]. pose proof (waveF_nonneg r N Hr) as FN. pose proof (waveF_nonneg r (S n) Hr) as F1. pose proof (waveF_falls r n Hr) as F2.
  assert (Q : 0 <= q) by (unfold q; apply Rmult_le_pos; [exact FN | apply Rlt_le, Rinv_0_lt_compat; exact PN]).
  pose proof (succG n r ltac:(lra)) as SG. pose proof (succF n r ltac:(lra)) as SF. pose proof (wronskian n r) as W.
  set (G := waveG n r) in *. set (G1 := waveG (S n) r) in *. set (F := waveF n r) in *. set (Fs := waveF (S n) r) in *. set (d := dG n r) in *. set (dd := dF n r) in *.
  assert (HW : F * G1 - G * Fs = 1) by (rewrite SG, SF; nra).
  assert (FG : 1 <= F * G1) by nra. assert (F0 : 0 < F) by nra.
  assert (QF : q * G1 <= 2 / 1000000000000000000000 * F). { apply (Rmult_le_reg_r G1); [lra|]. assert (0 <= q * (G1 * G1)) by (apply Rmult_le_pos; [exact Q | nra]). nra. }
  split.
  - replace (F - q * G - F) with (- (q * G)) by ring. rewrite Rabs_Ropp, Rabs_pos_eq by nra. nra.
  - replace (dd - q * d - dd) with (- (q * d)) by ring. rewrite Rabs_Ropp, Rabs_mult, (Rabs_pos_eq q) by exact Q.
    assert (In : 0 <= INR n <= 58) by (split; [apply pos_INR|]; unfold n; rewrite INR_to_nat by lia; apply IZR_le; lia).
    set (j := INR n + 1) in *. assert (R1 : 1 <= / r) by (rewrite <- Rinv_1; apply Rinv_le_contravar; lra).
    assert (Hd : Rabs d <= (j * / r + 1) * G1). { apply Rabs_le. assert (E' : d = j * / r * G - G1) by (unfold Rdiv in SG; lra). rewrite E'. assert (0 <= j * / r) by (unfold j; nra). nra. }
    assert (Hdd : / r * F / 2 <= dd). { assert (E' : dd = j * / r * F - Fs) by (unfold Rdiv in SF; lra). rewrite E'. unfold j in *. assert (r <= / r) by lra. assert (r * F <= / r * F) by (apply Rmult_le_compat_r; lra).
      assert (/ r * F <= (INR n + 1) * / r * F) by (apply Rmult_le_compat_r; [lra|]; nra). nra. }
    apply (Rle_trans _ (q * ((j * / r + 1) * G1))); [apply Rmult_le_compat_l; assumption|].
    replace (q * ((j * / r + 1) * G1)) with ((j * / r + 1) * (q * G1)) by ring.
    assert (J : j * / r + 1 <= 60 * / r) by (unfold j; nra).
    apply (Rle_trans _ (60 * / r * (2 / 1000000000000000000000 * F))); [apply Rmult_le_compat; [unfold j; nra | apply Rmult_le_pos; lra | exact J | exact QF]|].
    apply (Rle_trans _ (/ r * F / 2 / 10 ^ 18)); [|unfold Rdiv; apply Rmult_le_compat_r; [lra | exact Hdd]].
    assert (0 < / r * F) by nra. lra.
Qed.
