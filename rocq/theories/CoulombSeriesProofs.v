(** A solution of the Coulomb equation for l = 0 exists: the regular one, by its power series. *)
From Coq Require Import Reals Lia Lra Psatz.
From Coquelicot Require Import Coquelicot.
From Verif Require Import NewmarkSpec.
Open Scope R_scope.

Section Regular.
Variable eta : R.
(** a_0 = 0, a_1 = 1 and (k + 1) (k + 2) a_(k+2) = 2 eta a_(k+1) - a_k *)
Fixpoint pairs (k : nat) : R * R :=
  match k with
  | O => (0, 1)
  | S k => let (a, b) := pairs k in (b, (2 * eta * b - a) / (INR (S k) * INR (S (S k))))
  end.
Definition coefficient (k : nat) : R := fst (pairs k).
Lemma coefficient_step k : INR (S k) * INR (S (S k)) * coefficient (S (S k)) = 2 * eta * coefficient (S k) - coefficient k.
Proof.
  unfold coefficient. cbn [pairs]. destruct (pairs k) as [a b]. cbn [fst]. field. split; apply not_0_INR; lia.
Qed.
Let M := 2 * Rabs eta + 1.
Lemma coefficient_bound k : Rabs (coefficient k) * INR (fact k) <= INR k * M ^ k /\ Rabs (coefficient (S k)) * INR (fact (S k)) <= INR (S k) * M ^ S k.
Proof.
  assert (M1 : 1 <= M) by (unfold M; pose proof (Rabs_pos eta); lra).
  induction k as [|k [IH0 IH1]]; [unfold coefficient; cbn [pairs fst]; rewrite Rabs_R0, Rabs_R1; cbn [fact INR Nat.mul Nat.add pow]; lra|]. split; [exact IH1|].
  assert (E : Rabs (coefficient (S (S k))) * INR (fact (S (S k))) = Rabs (2 * eta * coefficient (S k) - coefficient k) * INR (fact k)).
  { rewrite <- coefficient_step. rewrite !Rabs_mult, !(Rabs_pos_eq (INR _)) by apply pos_INR. change (fact (S (S k))) with (S (S k) * (S k * fact k))%nat. rewrite !mult_INR. ring. }
  rewrite E. change (fact (S k)) with (S k * fact k)%nat in IH1. rewrite mult_INR in IH1.
  set (a := Rabs (coefficient k)) in *. set (b := Rabs (coefficient (S k))) in *. set (F := INR (fact k)) in *. assert (F0 : 0 < F) by apply INR_fact_lt_0.
  assert (I : b * F <= M ^ S k) by (pose proof (lt_0_INR (S k) ltac:(lia)); apply (Rmult_le_reg_l (INR (S k))); [assumption | lra]).
  assert (T : Rabs (2 * eta * coefficient (S k) - coefficient k) <= 2 * Rabs eta * b + a) by (eapply Rle_trans; [apply Rabs_triang|]; rewrite Rabs_Ropp, !Rabs_mult, (Rabs_pos_eq 2) by lra; unfold a, b; lra).
  assert (P : 0 < M ^ k) by (apply pow_lt; lra). pose proof (pos_INR k) as K0. rewrite !S_INR.
  apply Rle_trans with ((2 * Rabs eta * b + a) * F); [apply Rmult_le_compat_r; lra|]. cbn [pow] in *.
  assert (2 * Rabs eta * (b * F) <= M * (M * M ^ k)) by (apply Rmult_le_compat; [pose proof (Rabs_pos eta); lra | apply Rmult_le_pos; [apply Rabs_pos | lra] | unfold M; lra | exact I]).
  assert (INR k * M ^ k <= (INR k + 1) * (M * (M * M ^ k))).
  { assert (M ^ k <= M * (M * M ^ k)) by (rewrite <- Rmult_assoc; rewrite <- (Rmult_1_l (M ^ k)) at 1; apply Rmult_le_compat_r; nra). assert (INR k * M ^ k <= INR k * (M * (M * M ^ k))) by (apply Rmult_le_compat_l; assumption). lra. }
  lra.
Qed.
Lemma below_pow k : INR k <= 2 ^ k.
Proof. induction k as [|k IH]; [cbn; lra|]. rewrite S_INR. cbn [pow]. assert (1 <= 2 ^ k) by (apply pow_R1_Rle; lra). lra. Qed.
Lemma coefficient_series x : is_lim_seq (fun k => coefficient k * x ^ k) 0.
Proof.
  apply is_lim_seq_abs_0. set (y := 2 * M * Rabs x).
  assert (M1 : 1 <= M) by (unfold M; pose proof (Rabs_pos eta); lra).
  apply (is_lim_seq_le_le (fun _ => 0) _ (fun k => / INR (fact k) * y ^ k)); [|apply is_lim_seq_const|].
  - intros k. split; [apply Rabs_pos|]. pose proof (INR_fact_lt_0 k) as F. destruct (coefficient_bound k) as [B _].
    rewrite Rabs_mult, <- RPow_abs. apply (Rmult_le_reg_l (INR (fact k))); [exact F|]. replace (INR (fact k) * (/ INR (fact k) * y ^ k)) with (y ^ k) by (field; lra).
    replace (INR (fact k) * (Rabs (coefficient k) * Rabs x ^ k)) with (Rabs (coefficient k) * INR (fact k) * Rabs x ^ k) by ring. unfold y. rewrite !Rpow_mult_distr. apply Rmult_le_compat_r; [apply pow_le, Rabs_pos|]. eapply Rle_trans; [exact B|]. apply Rmult_le_compat_r; [apply pow_le; lra | apply below_pow].
  - apply ex_series_lim_0. exists (exp y). pose proof (is_exp_Reals y) as E. apply (is_series_ext (fun k => scal (pow_n y k) (/ INR (fact k)))); [|exact E].
    intros k. rewrite pow_n_pow. unfold scal; cbn; unfold mult; cbn. ring.
Qed.
Lemma everywhere x : Rbar_lt (Rabs x) (CV_radius coefficient).
Proof.
  destruct (Rbar_lt_dec (Rabs x) (CV_radius coefficient)) as [L|L]; [exact L|]. exfalso. apply Rbar_not_lt_le in L.
  apply (CV_disk_outside coefficient (Rabs x + 1)); [|apply coefficient_series].
  eapply Rbar_le_lt_trans; [exact L|]. cbn. rewrite (Rabs_pos_eq (Rabs x + 1)) by (pose proof (Rabs_pos x); lra). lra.
Qed.
Definition regular : R -> R := PSeries coefficient.
Definition regular_slope : R -> R := PSeries (PS_derive coefficient).
Lemma regular_solution lo hi : 0 < lo -> solution eta lo hi regular regular_slope.
Proof.
  intros Hlo. split; intros x Hx; [apply is_derive_PSeries, everywhere|].
  assert (E : acceleration eta x (regular x) = PSeries (PS_derive (PS_derive coefficient)) x).
  2: { rewrite E. apply is_derive_PSeries. rewrite CV_radius_derive. apply everywhere. }
  assert (D : regular x = x * PSeries (PS_decr_1 coefficient) x).
  { unfold regular. rewrite (PSeries_decr_1 coefficient x); [unfold coefficient at 1; cbn [pairs fst]; ring|]. apply CV_radius_inside, everywhere. }
  assert (C : ex_pseries (PS_decr_1 coefficient) x) by (apply CV_radius_inside; rewrite CV_radius_decr_1; apply everywhere).
  rewrite (PSeries_ext (PS_derive (PS_derive coefficient)) (PS_plus (PS_scal (2 * eta) (PS_decr_1 coefficient)) (PS_opp coefficient))).
  - rewrite PSeries_plus, PSeries_scal, PSeries_opp.
    + set (p := PSeries (PS_decr_1 coefficient) x) in *. fold regular. unfold acceleration. replace (2 * eta * p) with (2 * eta / x * regular x) by (rewrite D; field; lra). ring.
    + apply ex_pseries_scal; [apply Rmult_comm | exact C].
    + apply ex_pseries_opp, CV_radius_inside, everywhere.
  - intros k. unfold PS_derive, PS_plus, PS_scal, PS_opp, PS_decr_1. unfold plus, scal, opp; cbn -[INR]; unfold mult; cbn -[INR]. rewrite <- Rmult_assoc. rewrite coefficient_step. ring.
Qed.
Lemma regular_origin : regular 0 = 0 /\ regular_slope 0 = 1.
Proof. unfold regular, regular_slope. rewrite !PSeries_0. unfold PS_derive, coefficient. cbn. split; lra. Qed.
End Regular.
