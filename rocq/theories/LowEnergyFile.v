(** Limits for small energies of the textbook formulas of a Breit-Wigner file. *)
From Coq Require Import List ZArith Reals Lra Lia Psatz.
From Coquelicot Require Import Coquelicot.
From Verif Require Import ListFacts QuantumSpec HardSphereSpec HardSphereProofs Cplx ChannelModel BreitWignerModel BreitWignerSpec BreitWignerProofs LowEnergySpec LowEnergyProofs.
Import ListNotations.
Open Scope R_scope.

Lemma amplitude2_0 r : amplitude2 0 r = 1.
Proof. unfold amplitude2, waveF, waveG; cbn. pose proof (sin2_cos2 r) as H. unfold Rsqr in H. lra. Qed.
Lemma P_spec_0 r : P_spec 0 r = r.
Proof. unfold P_spec. rewrite amplitude2_0. field. Qed.
Lemma S_spec_0 r : S_spec 0 r = 0.
Proof.
  unfold S_spec. rewrite amplitude2_0. unfold dF, dG, waveF, waveG, waveF', waveG'. cbn. unfold Rdiv. rewrite !Rmult_0_l. ring.
Qed.
Lemma P_spec_ge0 l r : 0 <= r -> 0 <= P_spec l r.
Proof. intros H. unfold P_spec. pose proof (amplitude2_pos l r). apply Rmult_le_pos; [exact H | apply Rlt_le, Rinv_0_lt_compat; assumption]. Qed.

Section File.
Variables (kappa a ahat : R) (q : bw_lstate -> R) (I : Z).
Hypotheses (Hkappa : 0 < kappa) (Ha : 0 < a) (Hahat : 0 < ahat).
Let k (e : R) := kappa * sqrt (Rabs e).
Let radius (_ : R) := a.

Lemma k_at e : 0 < e -> k e = kappa * sqrt e.
Proof. intros H. unfold k. rewrite Rabs_pos_eq by lra. reflexivity. Qed.
Lemma rho_pos c e : 0 < c -> 0 < e -> 0 < k e * c.
Proof. intros Hc He. rewrite k_at by exact He. repeat apply Rmult_lt_0_compat; try assumption. apply sqrt_lt_R0, He. Qed.
Lemma rho_lim c : lim (fun e => k e * c) 0.
Proof.
  apply (lim_ext (fun e => kappa * sqrt e * c)); [intros e He; rewrite k_at by exact He; reflexivity|].
  apply (lim_eq _ (kappa * 0 * c)); [|ring]. apply lim_mult; [apply lim_mult; [apply lim_const | exact lim_sqrt] | apply lim_const].
Qed.
Lemma P_at_ge0 l e : 0 <= P_at k radius l e.
Proof. unfold P_at. apply P_spec_ge0. unfold k, radius. repeat apply Rmult_le_pos; try lra. apply sqrt_pos. Qed.

(** the potential scattering divided by sqrt E *)
Definition potential_low (l : nat) : cx := if Nat.eqb l 0 then Cx 0 (2 * (kappa * ahat)) else cx_zero.
Lemma potential_lim ls : clim (fun e => cx_mul (rcx (/ sqrt e)) (cx_add cx_one (cx_opp (U0_of k e ahat ls)))) (potential_low (ls_L ls)).
Proof.
  pose proof (potential_near (ls_L ls)) as [N1 N2].
  assert (C1 : clim (fun e => cx_mul (rcx (/ (k e * ahat))) (potential (ls_L ls) (k e * ahat))) (if Nat.eqb (ls_L ls) 0 then Cx 0 2 else cx_zero)).
  { split.
    - exact (lim_comp _ (fun e => k e * ahat) _ _ (fun e He => rho_pos ahat e Hahat He) (rho_lim ahat) N1 eq_refl).
    - exact (lim_comp _ (fun e => k e * ahat) _ _ (fun e He => rho_pos ahat e Hahat He) (rho_lim ahat) N2 eq_refl). }
  pose proof (clim_mul _ _ _ _ (clim_const (rcx (kappa * ahat))) C1) as C2.
  assert (E : cx_mul (rcx (kappa * ahat)) (if Nat.eqb (ls_L ls) 0 then Cx 0 2 else cx_zero) = potential_low (ls_L ls)).
  { unfold potential_low. destruct (Nat.eqb _ _); unfold cx_mul, rcx, cx_zero; cbn [re im]; f_equal; ring. }
  rewrite E in C2. revert C2. apply clim_ext. intros e He. rewrite (k_at e He). pose proof (sqrt_lt_R0 e He) as Hs.
  unfold U0_of. fold (potential (ls_L ls) (k e * ahat)). rewrite (k_at e He). generalize (potential (ls_L ls) (kappa * sqrt e * ahat)). intros [u v].
  unfold cx_mul, rcx; cbn [re im]. f_equal; field; lra.
Qed.
(** the phase factor itself tends to one *)
Lemma U0_lim ls : clim (fun e => U0_of k e ahat ls) cx_one.
Proof.
  pose proof (clim_add _ _ _ _ (clim_const cx_one) (clim_opp _ _ (clim_mul _ _ _ _ (rcx_lim _ _ lim_sqrt) (potential_lim ls)))) as C.
  assert (E : cx_add cx_one (cx_opp (cx_mul (rcx 0) (potential_low (ls_L ls)))) = cx_one).
  { destruct (potential_low (ls_L ls)) as [u v]. unfold cx_add, cx_opp, cx_mul, rcx, cx_one; cbn [re im]. f_equal; ring. }
  rewrite E in C. revert C. apply clim_ext. intros e He. pose proof (sqrt_lt_R0 e He) as Hs. destruct (U0_of k e ahat ls) as [u v].
  unfold cx_add, cx_opp, cx_mul, rcx, cx_one; cbn [re im]. f_equal; field; lra.
Qed.

Section Line.
Variables (ls : bw_lstate) (x : bw_line).
Hypothesis Hx : proper_line q ls x.
Let v (e : R) : level := level_of k radius e q ls x.

Lemma P_line_pos e : e <> 0 -> 0 < P_at k radius (ls_L ls) e.
Proof.
  intros He. unfold P_at, P_spec. apply Rdiv_lt_0_compat; [|apply amplitude2_pos]. unfold k, radius.
  repeat apply Rmult_lt_0_compat; try assumption. apply sqrt_lt_R0, Rabs_pos_lt, He.
Qed.
(** what is not the neutron width of the total *)
Lemma width_bounds e : 0 < e -> 0 <= w_n (v e) /\ ln_GG x + ln_GF x <= w_T (v e).
Proof.
  intros He. destruct Hx as (H0 & HN & HG & HF & HT & HX). unfold v, level_of; cbn [w_n w_T].
  assert (N : 0 <= ln_GN x * P_at k radius (ls_L ls) e / P_at k radius (ls_L ls) (ln_ER x)).
  { apply Rmult_le_pos; [apply Rmult_le_pos; [exact HN | apply P_at_ge0] | apply Rlt_le, Rinv_0_lt_compat, P_line_pos, H0]. }
  split; [exact N|]. destruct (ls_LRX ls).
  - destruct (HX eq_refl) as [G1 G2].
    assert (0 <= ln_GX x * P_at k radius (ls_L ls) (e + q ls) / P_at k radius (ls_L ls) (ln_ER x + q ls)); [|lra].
    apply Rmult_le_pos; [apply Rmult_le_pos; [exact G1 | apply P_at_ge0] | apply Rlt_le, Rinv_0_lt_compat, P_line_pos, G2].
  - lra.
Qed.
Lemma pole_nonzero e : 0 < e -> norm2 (pole e (v e)) <> 0.
Proof.
  intros He. destruct (width_bounds e He) as [_ B]. destruct Hx as (_ & _ & _ & _ & HT & _). unfold pole, norm2; cbn [re im]. apply Rgt_not_eq. pose proof (Rle_0_sqr (w_E (v e) - e)) as Q1. assert (Q2 : 0 < w_T (v e) * w_T (v e)) by (apply Rmult_lt_0_compat; lra). unfold Rsqr in Q1. lra.
Qed.

(** neutron width divided by sqrt E *)
Lemma neutron_lim : lim (fun e => w_n (v e) / sqrt e) (if Nat.eqb (ls_L ls) 0 then reduced_width x else 0).
Proof.
  destruct Hx as (H0 & _). assert (Hr : 0 < sqrt (Rabs (ln_ER x))) by (apply sqrt_lt_R0, Rabs_pos_lt, H0).
  destruct (ls_L ls) as [|l] eqn:El; cbn [Nat.eqb].
  - apply (lim_ext (fun _ => reduced_width x)); [|apply lim_const]. intros e He. unfold v, level_of; cbn [w_n]. rewrite El.
    unfold P_at. rewrite !P_spec_0. unfold radius. rewrite (k_at e He). unfold k, reduced_width. pose proof (sqrt_lt_R0 e He). field. repeat split; lra.
  - apply (lim_ext (fun e => ln_GN x * (kappa * a) / P_at k radius (S l) (ln_ER x) * / amplitude2 (S l) (k e * a))).
    + intros e He. unfold v, level_of; cbn [w_n]. rewrite El. unfold P_at at 2. unfold P_spec. unfold radius at 2 3. rewrite (k_at e He).
      pose proof (P_line_pos _ H0) as Pp. rewrite El in Pp. pose proof (sqrt_lt_R0 e He). pose proof (amplitude2_pos (S l) (kappa * sqrt e * a)). field. repeat split; lra.
    + apply (lim_eq _ (ln_GN x * (kappa * a) / P_at k radius (S l) (ln_ER x) * 0)); [|ring]. apply lim_mult; [apply lim_const|].
      exact (lim_comp _ (fun e => k e * a) _ _ (fun e He => rho_pos a e Ha He) (rho_lim a) (amplitude_near l) eq_refl).
Qed.

(** the pole of an s wave *)
Lemma pole_lim : ls_L ls = 0%nat -> clim (fun e => pole e (v e)) (pole_at_zero q ls x).
Proof.
  intros El. destruct Hx as (H0 & HN & HG & HF & HT & HX). assert (Hr : 0 < sqrt (Rabs (ln_ER x))) by (apply sqrt_lt_R0, Rabs_pos_lt, H0).
  pose proof neutron_lim as Ln. rewrite El in Ln. cbn [Nat.eqb] in Ln.
  assert (Ln0 : lim (fun e => w_n (v e)) 0).
  { apply (lim_ext (fun e => w_n (v e) / sqrt e * sqrt e)); [intros e He; field; pose proof (sqrt_lt_R0 e He); lra|].
    apply (lim_eq _ (reduced_width x * 0)); [|ring]. apply lim_mult; [exact Ln | exact lim_sqrt]. }
  split; cbn [re im pole pole_at_zero].
  - apply (lim_eq _ (ln_ER x - 0)); [|ring]. apply lim_minus; [|exact lim_id].
    apply (lim_ext (fun _ => ln_ER x)); [|apply lim_const]. intros e He. unfold v, level_of; cbn [w_E]. rewrite El. unfold S_at. rewrite !S_spec_0. unfold Rdiv. ring.
  - apply lim_opp. unfold Rdiv. apply lim_mult; [|apply lim_const]. unfold width_at_zero.
    set (c e := if ls_LRX ls then ln_GX x * P_at k radius (ls_L ls) (e + q ls) / P_at k radius (ls_L ls) (ln_ER x + q ls) else 0).
    assert (Lc : lim c (if ls_LRX ls then ln_GX x * sqrt (Rabs (q ls)) / sqrt (Rabs (ln_ER x + q ls)) else 0)).
    { unfold c. destruct (ls_LRX ls); [|apply lim_const]. destruct (HX eq_refl) as [G1 G2].
      assert (Hq : 0 < sqrt (Rabs (ln_ER x + q ls))) by (apply sqrt_lt_R0, Rabs_pos_lt, G2).
      apply (lim_ext (fun e => ln_GX x * sqrt (Rabs (e + q ls)) / sqrt (Rabs (ln_ER x + q ls)))).
      - intros e He. rewrite El. unfold P_at. rewrite !P_spec_0. unfold k, radius. field. repeat split; lra.
      - apply lim_div; [|apply lim_const|lra]. apply lim_mult; [apply lim_const|].
        apply (lim_eq _ (sqrt (Rabs (0 + q ls)))); [|rewrite Rplus_0_l; reflexivity].
        apply (lim_cont (fun e => Rabs (e + q ls)) (Rabs (0 + q ls)) sqrt); [|apply continuous_sqrt].
        apply (lim_cont (fun e => e + q ls) (0 + q ls) Rabs); [|apply continuous_Rabs]. apply lim_plus; [exact lim_id | apply lim_const]. }
    apply (lim_eq _ (0 + ln_GG x + ln_GF x + (if ls_LRX ls then ln_GX x * sqrt (Rabs (q ls)) / sqrt (Rabs (ln_ER x + q ls)) else 0))); [|unfold Rdiv; ring].
    apply (lim_ext (fun e => w_n (v e) + ln_GG x + ln_GF x + c e)); [intros; reflexivity|].
    apply lim_plus; [|exact Lc]. apply lim_plus; [|apply lim_const]. apply lim_plus; [exact Ln0 | apply lim_const].
Qed.
Lemma pole_at_zero_nonzero : norm2 (pole_at_zero q ls x) <> 0.
Proof.
  destruct Hx as (H0 & HN & HG & HF & HT & HX). unfold norm2, pole_at_zero; cbn [re im].
  assert (0 < ln_ER x * ln_ER x) by (destruct (Rtotal_order (ln_ER x) 0) as [?|[?|?]]; [nra | contradiction | nra]). apply Rgt_not_eq. pose proof (Rle_0_sqr (width_at_zero q ls x)) as Q. unfold Rsqr in Q. lra.
Qed.

(** a reaction, times sqrt E / E *)
Lemma reaction_lim w : lim (fun e => reaction e w (v e) / sqrt e) (if Nat.eqb (ls_L ls) 0 then reduced_width x * w / norm2 (pole_at_zero q ls x) else 0).
Proof.
  pose proof neutron_lim as Ln. destruct (Nat.eqb (ls_L ls) 0) eqn:El.
  - apply Nat.eqb_eq in El. apply (lim_ext (fun e => w_n (v e) / sqrt e * w / norm2 (pole e (v e)))).
    + intros e He. unfold reaction. pose proof (sqrt_lt_R0 e He). pose proof (pole_nonzero e He). field. split; (assumption || lra).
    + apply lim_div; [apply lim_mult; [exact Ln | apply lim_const] | apply norm2_lim, pole_lim, El | apply pole_at_zero_nonzero].
  - destruct Hx as (_ & _ & _ & _ & HT & _). set (G := ln_GG x + ln_GF x) in *.
    apply (lim_zero _ (fun e => w_n (v e) / sqrt e * (Rabs w * (4 / (G * G))))).
    + apply (lim_eq _ (0 * (Rabs w * (4 / (G * G))))); [|ring]. apply lim_mult; [exact Ln | apply lim_const].
    + exists 1. split; [lra|]. intros e [He _]. destruct (width_bounds e He) as [B1 B2]. fold G in B2. pose proof (sqrt_lt_R0 e He) as Hs.
      unfold reaction. set (M := norm2 (pole e (v e))). assert (HM : G * G / 4 <= M).
      { unfold M, pole, norm2; cbn [re im]. pose proof (Rle_0_sqr (w_E (v e) - e)) as Q1. unfold Rsqr in Q1.
        assert (Q2 : G * G <= w_T (v e) * w_T (v e)) by (apply Rmult_le_compat; lra). lra. }
      assert (HG : 0 < G * G / 4) by nra.
      replace (w_n (v e) * w / M / sqrt e) with (w_n (v e) / sqrt e * (w * / M)) by (field; split; lra).
      rewrite Rabs_mult. assert (Hq : 0 <= w_n (v e) / sqrt e) by (apply Rmult_le_pos; [exact B1 | apply Rlt_le, Rinv_0_lt_compat, Hs]).
      rewrite (Rabs_pos_eq (w_n (v e) / sqrt e)) by exact Hq. apply Rmult_le_compat_l; [exact Hq|]. rewrite Rabs_mult.
      apply Rmult_le_compat_l; [apply Rabs_pos|]. rewrite Rabs_pos_eq by (apply Rlt_le, Rinv_0_lt_compat; lra).
      replace (4 / (G * G)) with (/ (G * G / 4)) by (field; lra). apply Rinv_le_contravar; lra.
Qed.

(** the amplitude of a level, divided by sqrt E *)
Definition level_low : cx := if Nat.eqb (ls_L ls) 0 then cx_mul ci (cdiv (rcx (reduced_width x)) (pole_at_zero q ls x)) else cx_zero.
Lemma level_lim : clim (fun e => cx_mul (rcx (/ sqrt e)) (cdiv (cx_mul ci (rcx (w_n (v e)))) (pole e (v e)))) level_low.
Proof.
  pose proof neutron_lim as Ln. unfold level_low. destruct (Nat.eqb (ls_L ls) 0) eqn:El.
  - apply Nat.eqb_eq in El.
    apply (clim_ext (fun e => cx_mul ci (cdiv (rcx (w_n (v e) / sqrt e)) (pole e (v e))))).
    + intros e He. unfold cdiv. destruct (cx_inv (pole e (v e))) as [s t]. unfold cx_mul, rcx, ci; cbn [re im]. unfold Rdiv. f_equal; ring.
    + apply clim_mul; [apply clim_const|]. unfold cdiv. apply clim_mul; [apply rcx_lim, Ln|]. apply clim_inv; [apply pole_lim, El | apply pole_at_zero_nonzero].
  - destruct Hx as (_ & _ & _ & _ & HT & _). set (G := ln_GG x + ln_GF x) in *.
    assert (Lz : lim (fun e => w_n (v e) / sqrt e * (2 / G)) 0).
    { apply (lim_eq _ (0 * (2 / G))); [|ring]. apply lim_mult; [exact Ln | apply lim_const]. }
    assert (B : forall e, 0 < e -> forall u, Rabs u = Rabs (re (pole e (v e))) \/ Rabs u = Rabs (im (pole e (v e))) ->
      Rabs (w_n (v e) / sqrt e * (u / norm2 (pole e (v e)))) <= w_n (v e) / sqrt e * (2 / G)).
    { intros e He u Hu. destruct (width_bounds e He) as [B1 B2]. fold G in B2. pose proof (sqrt_lt_R0 e He) as Hs.
      assert (Hq : 0 <= w_n (v e) / sqrt e) by (apply Rmult_le_pos; [exact B1 | apply Rlt_le, Rinv_0_lt_compat, Hs]).
      rewrite Rabs_mult, (Rabs_pos_eq (w_n (v e) / sqrt e)) by exact Hq. apply Rmult_le_compat_l; [exact Hq|].
      set (M := norm2 (pole e (v e))) in *. unfold pole in Hu; cbn [re im] in Hu. rewrite Rabs_Ropp in Hu. set (s := w_E (v e) - e) in *. set (t := w_T (v e) / 2) in *.
      assert (Ht : G / 2 <= t) by (unfold t; lra). rewrite (Rabs_pos_eq t) in Hu by lra.
      assert (EM : M = Rabs s * Rabs s + t * t). { unfold M, pole, norm2; cbn [re im]. fold s t. rewrite <- Rabs_mult, (Rabs_pos_eq (s * s)) by nra. ring. }
      assert (HM : 0 < M) by (rewrite EM; pose proof (Rabs_pos s); nra).
      unfold Rdiv at 1. rewrite Rabs_mult, (Rabs_pos_eq (/ M)) by (apply Rlt_le, Rinv_0_lt_compat, HM).
      apply (Rmult_le_reg_r (M * G)); [nra|]. replace (Rabs u * / M * (M * G)) with (Rabs u * G) by (field; lra).
      replace (2 / G * (M * G)) with (2 * M) by (field; lra). rewrite EM. pose proof (Rabs_pos s).
      destruct Hu as [-> | ->]; [pose proof (pow2_ge_0 (Rabs s - t)); nra | nra]. }
    split; cbn [re im cx_zero]; apply (lim_zero _ _ Lz); exists 1; (split; [lra|]); intros e [He _];
      unfold cdiv, cx_mul, rcx, ci, cx_inv; cbn [re im].
    + match goal with |- Rabs ?z <= _ => replace z with (w_n (v e) / sqrt e * (im (pole e (v e)) / norm2 (pole e (v e)))) by (unfold Rdiv; ring) end.
      apply B; auto.
    + match goal with |- Rabs ?z <= _ => replace z with (w_n (v e) / sqrt e * (re (pole e (v e)) / norm2 (pole e (v e)))) by (unfold Rdiv; ring) end.
      apply B; auto.
Qed.
End Line.

(** |1 - U|^2 / E of a set of levels *)
Definition scattered_low (ls : bw_lstate) (xs : list bw_line) : R := if Nat.eqb (ls_L ls) 0 then norm2 (length_of q kappa ahat ls xs) else 0.
Lemma csum_scale c l : cx_mul c (csum l) = csum (map (cx_mul c) l).
Proof.
  induction l as [|y l IH]; cbn [csum map fold_right]; [destruct c as [c1 c2]; unfold cx_mul, cx_zero; cbn [re im]; f_equal; ring|].
  unfold csum in IH. rewrite <- IH. destruct c as [c1 c2], y as [y1 y2]. destruct (fold_right cx_add cx_zero l) as [s1 s2]. unfold cx_mul, cx_add; cbn [re im]. f_equal; ring.
Qed.
Lemma csum_zero {T} (l : list T) : csum (map (fun _ => cx_zero) l) = cx_zero.
Proof.
  induction l as [|y l IH]; cbn [csum map fold_right]; [reflexivity|]. unfold csum in IH. rewrite IH.
  unfold cx_add, cx_zero; cbn [re im]. f_equal; ring.
Qed.
Lemma scattered_lim ls xs : (forall x, In x xs -> proper_line q ls x) ->
  lim (fun e => scattered (collision (U0_of k e ahat ls) e (map (level_of k radius e q ls) xs)) / e) (scattered_low ls xs).
Proof.
  intros Hx.
  pose proof (clim_sum (fun x e => cx_mul (rcx (/ sqrt e)) (cdiv (cx_mul ci (rcx (w_n (level_of k radius e q ls x)))) (pole e (level_of k radius e q ls x))))
    (fun x => level_low ls x) xs (fun x Hi => level_lim ls x (Hx x Hi))) as Cs.
  pose proof (norm2_lim _ _ (clim_add _ _ _ _ (potential_lim ls) (clim_opp _ _ (clim_mul _ _ _ _ (U0_lim ls) Cs)))) as L.
  assert (E : norm2 (cx_add (potential_low (ls_L ls)) (cx_opp (cx_mul cx_one (csum (map (fun x => level_low ls x) xs))))) = scattered_low ls xs).
  { unfold scattered_low, potential_low, level_low, length_of. destruct (Nat.eqb (ls_L ls) 0).
    - rewrite <- (map_map (fun x => cdiv (rcx (reduced_width x)) (pole_at_zero q ls x)) (cx_mul ci)), <- csum_scale.
      destruct (csum (map (fun x => cdiv (rcx (reduced_width x)) (pole_at_zero q ls x)) xs)) as [s t].
      unfold norm2, cx_add, cx_opp, cx_mul, cx_one, ci, rcx; cbn [re im]. ring.
    - rewrite csum_zero. unfold norm2, cx_add, cx_opp, cx_mul, cx_one, cx_zero; cbn [re im]; ring. }
  rewrite E in L. revert L. apply lim_ext. intros e He. pose proof (sqrt_lt_R0 e He) as Hs.
  unfold scattered, collision. rewrite map_map.
  rewrite <- (map_map (fun x => cdiv (cx_mul ci (rcx (w_n (level_of k radius e q ls x)))) (pole e (level_of k radius e q ls x))) (cx_mul (rcx (/ sqrt e)))), <- csum_scale.
  destruct (csum _) as [s t]. destruct (U0_of k e ahat ls) as [u w].
  rewrite <- (sqrt_sqrt e) at 3 by lra. unfold norm2, cx_add, cx_opp, cx_mul, cx_one, rcx; cbn [re im]. field. lra.
Qed.
Lemma potential_scattered_lim ls : lim (fun e => scattered (U0_of k e ahat ls) / e) (scattered_low ls []).
Proof.
  apply (lim_ext (fun e => scattered (collision (U0_of k e ahat ls) e (map (level_of k radius e q ls) [])) / e)).
  - intros e He. do 2 f_equal. destruct (U0_of k e ahat ls) as [s t]. unfold collision; cbn [map csum fold_right]. unfold cx_mul, cx_add, cx_one, cx_zero; cbn [re im]. f_equal; ring.
  - apply scattered_lim. intros x [].
Qed.

Lemma barns_at e : 0 < e -> barns k e = pi_value / (kappa * kappa) * / e.
Proof.
  intros He. unfold barns. rewrite (k_at e He). pose proof (sqrt_lt_R0 e He). rewrite <- (sqrt_sqrt e) at 3 by lra. field. split; lra.
Qed.
Lemma sum_waves (f : bw_lstate -> R) lss : Rsum (map (fun ls => if Nat.eqb (ls_L ls) 0 then f ls else 0) lss) = Rsum (map f (s_waves lss)).
Proof.
  unfold s_waves. induction lss as [|ls lss IH]; cbn [map Rsum fold_right filter]; [reflexivity|]. unfold Rsum in IH.
  destruct (Nat.eqb (ls_L ls) 0); cbn [map fold_right]; rewrite IH; ring.
Qed.

Variable lss : list bw_lstate.
Hypothesis Hp : forall ls x, In ls lss -> In x (ls_lines ls) -> proper_line q ls x.

Lemma reactions_lim (w : bw_line -> R) :
  lim (fun e => sqrt e * (barns k e * Rsum (map (fun ls => Rsum (map (fun x => g_of I x * reaction e (w x) (level_of k radius e q ls x)) (ls_lines ls))) lss)))
      (one_over_v q kappa I w lss).
Proof.
  apply (lim_ext (fun e => pi_value / (kappa * kappa) * Rsum (map (fun ls => Rsum (map (fun x => g_of I x * (reaction e (w x) (level_of k radius e q ls x) / sqrt e)) (ls_lines ls))) lss))).
  - intros e He. rewrite (barns_at e He). pose proof (sqrt_lt_R0 e He) as Hs.
    rewrite (Rsum_ext _ (fun ls => / sqrt e * Rsum (map (fun x => g_of I x * reaction e (w x) (level_of k radius e q ls x)) (ls_lines ls)))).
    + rewrite Rsum_scale. rewrite <- (sqrt_sqrt e) at 3 by lra. field. split; lra.
    + intros ls _. rewrite <- Rsum_scale. apply Rsum_ext. intros x _. unfold Rdiv. ring.
  - unfold one_over_v. apply lim_mult; [apply lim_const|].
    apply (lim_sum_ext _ (fun ls => if Nat.eqb (ls_L ls) 0 then Rsum (map (fun x => g_neutron I (Z.abs (ln_AJ x)) * (reduced_width x * w x / norm2 (pole_at_zero q ls x))) (ls_lines ls)) else 0)); [|apply sum_waves].
    intros ls Hls.
    apply (lim_sum_ext _ (fun x => g_of I x * (if Nat.eqb (ls_L ls) 0 then reduced_width x * w x / norm2 (pole_at_zero q ls x) else 0))).
    + intros x Hxs. apply lim_mult; [apply lim_const | apply reaction_lim, Hp; assumption].
    + destruct (Nat.eqb (ls_L ls) 0); [reflexivity|]. rewrite (Rsum_ext _ (fun x => 0 * g_of I x)) by (intros; ring). rewrite Rsum_scale. ring.
Qed.

Lemma elastic_lim (F : bw_lstate -> R -> R) (L : bw_lstate -> R) : (forall ls, In ls lss -> lim (fun e => F ls e / e) (if Nat.eqb (ls_L ls) 0 then L ls else 0)) ->
  lim (fun e => barns k e * Rsum (map (fun ls => F ls e) lss)) (pi_value / (kappa * kappa) * Rsum (map L (s_waves lss))).
Proof.
  intros H. apply (lim_ext (fun e => pi_value / (kappa * kappa) * Rsum (map (fun ls => F ls e / e) lss))).
  - intros e He. rewrite (barns_at e He). rewrite (Rsum_ext _ (fun ls => / e * F ls e)) by (intros; unfold Rdiv; ring). rewrite Rsum_scale. ring.
  - apply lim_mult; [apply lim_const|]. rewrite <- sum_waves. apply lim_sum, H.
Qed.

Lemma SL_lim : lim (fun e => SLBW_elastic k radius e q ahat I lss) (SL_low q kappa ahat I lss).
Proof.
  unfold SLBW_elastic, SL_low. apply elastic_lim. intros ls Hls. unfold SL_elastic.
  set (S0 := scattered_low ls []). set (S1 x := scattered_low ls [x]).
  apply (lim_ext (fun e => (2 * INR (ls_L ls) + 1) * (scattered (U0_of k e ahat ls) / e)
    + Rsum (map (fun x => g_of I x * (scattered (collision (U0_of k e ahat ls) e [level_of k radius e q ls x]) / e - scattered (U0_of k e ahat ls) / e)) (ls_lines ls)))).
  - intros e He. symmetry. unfold Rdiv at 1. rewrite Rmult_plus_distr_r. apply f_equal2; [unfold Rdiv; ring|].
    rewrite (Rmult_comm (Rsum _)), <- Rsum_scale. apply Rsum_ext. intros x _. unfold Rdiv. ring.
  - apply (lim_eq _ ((2 * INR (ls_L ls) + 1) * S0 + Rsum (map (fun x => g_of I x * (S1 x - S0)) (ls_lines ls)))).
    + apply lim_plus; [apply lim_mult; [apply lim_const | apply potential_scattered_lim]|]. apply lim_sum. intros x Hxs.
      apply lim_mult; [apply lim_const|]. apply lim_minus; [|apply potential_scattered_lim].
      apply (scattered_lim ls [x]). intros y [<-|[]]. apply Hp; assumption.
    + unfold S0, S1, scattered_low. destruct (Nat.eqb (ls_L ls) 0) eqn:El.
      * apply Nat.eqb_eq in El. rewrite El. cbn [INR]. unfold g_of, abs_J. ring.
      * rewrite (Rsum_ext _ (fun x => 0 * g_of I x)) by (intros; ring). rewrite Rsum_scale. ring.
Qed.

Lemma ML_lim : lim (fun e => MLBW_elastic k radius e q ahat I lss) (ML_low q kappa ahat I lss).
Proof.
  unfold MLBW_elastic, ML_low. apply elastic_lim. intros ls Hls. unfold ML_elastic.
  set (js := Js abs_J (ls_lines ls)). set (S0 := scattered_low ls []). set (S1 j := scattered_low ls (of_J abs_J j (ls_lines ls))).
  apply (lim_ext (fun e => Rsum (map (fun j => g_neutron I j * (scattered (collision (U0_of k e ahat ls) e (map (level_of k radius e q ls) (of_J abs_J j (ls_lines ls)))) / e)) js)
    + (2 * INR (ls_L ls) + 1 - Rsum (map (g_neutron I) js)) * (scattered (U0_of k e ahat ls) / e))).
  - intros e He. symmetry. unfold Rdiv at 1. rewrite Rmult_plus_distr_r. apply f_equal2; [|unfold Rdiv; ring].
    rewrite (Rmult_comm (Rsum _)), <- Rsum_scale. apply Rsum_ext. intros x _. unfold Rdiv. ring.
  - apply (lim_eq _ (Rsum (map (fun j => g_neutron I j * S1 j) js) + (2 * INR (ls_L ls) + 1 - Rsum (map (g_neutron I) js)) * S0)).
    + apply lim_plus; [|apply lim_mult; [apply lim_const | apply potential_scattered_lim]]. apply lim_sum. intros j _.
      apply lim_mult; [apply lim_const|]. apply scattered_lim. intros x Hxs. apply Hp; [exact Hls|]. apply filter_In in Hxs. tauto.
    + unfold S0, S1, scattered_low. destruct (Nat.eqb (ls_L ls) 0) eqn:El.
      * apply Nat.eqb_eq in El. rewrite El. cbn [INR]. ring.
      * rewrite (Rsum_ext _ (fun x => 0 * g_neutron I x)) by (intros; ring). rewrite Rsum_scale. ring.
Qed.
End File.
