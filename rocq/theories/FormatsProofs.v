(** The cross sections of a file in the Breit-Wigner formats and of the same file in the Reich-Moore format. *)
From Coq Require Import String List ZArith Reals Bool Lra Lia.
From Verif Require Import Outcome QuantumModel QuantumSpec HardSphereModel HardSphereSpec HardSphereProofs KinematicsModel Cplx RMatrixModel KMatrixSpec ChannelModel
  BreitWignerModel BreitWignerSpec BreitWignerProofs ReichMooreModel ReichMooreSpec NewerRMSpec ListFacts ReichMooreProofs NewerAgreement AssemblyTheorems FormatsSpec FormatsLevel.
Import ListNotations.
Open Scope R_scope.

Lemma polar l rho : exists phi, is_phase l rho phi.
Proof.
  unfold is_phase. set (x := waveG l rho). set (y := waveF l rho).
  assert (A : amplitude2 l rho = y ^ 2 + x ^ 2) by reflexivity.
  assert (P : 0 <= amplitude2 l rho) by (rewrite A; pose proof (pow2_ge_0 x); pose proof (pow2_ge_0 y); lra).
  set (r := sqrt (amplitude2 l rho)). assert (Q : r * r = amplitude2 l rho) by (apply sqrt_sqrt; exact P). assert (R0 : 0 <= r) by apply sqrt_pos.
  destruct (Req_dec r 0) as [Z|Z].
  - exists 0. exists 1. rewrite cos_0, sin_0, Z in *. split; [left; reflexivity|].
    assert (x = 0 /\ y = 0) as [-> ->] by (split; nra). split; ring.
  - assert (C : -1 <= x / r <= 1).
    { assert (x * x <= r * r) by (pose proof (pow2_ge_0 y); nra).
      split; [apply (Rmult_le_reg_r r); [lra|]; unfold Rdiv; rewrite Rmult_assoc, Rinv_l by lra; nra
             |apply (Rmult_le_reg_r r); [lra|]; unfold Rdiv; rewrite Rmult_assoc, Rinv_l by lra; nra]. }
    assert (S : sqrt (1 - (x / r)²) = Rabs y / r).
    { replace (1 - (x / r)²) with (Rsqr (y / r)) by (unfold Rsqr; apply (Rmult_eq_reg_r (r * r)); [|nra]; replace ((1 - x / r * (x / r)) * (r * r)) with (r * r - x * x) by (field; lra);
        replace (y / r * (y / r) * (r * r)) with (y * y) by (field; lra); nra).
      rewrite sqrt_Rsqr_abs. unfold Rdiv. rewrite Rabs_mult, (Rabs_right (/ r)); [reflexivity|]. apply Rle_ge, Rlt_le, Rinv_0_lt_compat; lra. }
    exists (if Rle_dec 0 y then acos (x / r) else - acos (x / r)). exists 1. split; [left; reflexivity|]. fold r.
    destruct (Rle_dec 0 y) as [H|H].
    + rewrite cos_acos, sin_acos, S, (Rabs_right y) by lra. split; field; lra.
    + rewrite cos_neg, sin_neg, cos_acos, sin_acos, S, (Rabs_left y) by lra. split; field; lra.
Qed.

Lemma S_zero rho : S_spec 0 rho = 0.
Proof. unfold S_spec, dF, dG, waveF', waveG', waveF, waveG. cbn. unfold Rdiv. ring. Qed.

Lemma signed_square x : signed_sqrt x * signed_sqrt x = Rabs x.
Proof.
  unfold signed_sqrt. destruct (Rlt_dec x 0).
  - rewrite (Rabs_left x) by lra. pose proof (sqrt_sqrt (- x) ltac:(lra)). nra.
  - rewrite (Rabs_right x) by lra. apply sqrt_sqrt. lra.
Qed.

Lemma alone_in {A} (h : A -> Z) xs y : NoDup (map h xs) -> In y xs -> filter (fun x => Z.eqb (h x) (h y)) xs = [y].
Proof.
  induction xs as [|z xs IH]; [intros _ []|]. cbn [map]. intros N I. inversion N as [|? ? N1 N2]; subst. cbn [filter]. destruct I as [->|I].
  - rewrite Z.eqb_refl. f_equal. apply filter_no. intros x Hx. apply Z.eqb_neq. intros E. apply N1. rewrite <- E. apply in_map, Hx.
  - destruct (Z.eqb_spec (h z) (h y)) as [E|E]; [exfalso; apply N1; rewrite E; apply in_map, I|]. apply IH; assumption.
Qed.

Lemma each_alone {A} (h : A -> Z) xs (G : Z -> list A -> R) : NoDup (map h xs) ->
  Rsum (map (fun j => G j (filter (fun x => Z.eqb (h x) j) xs)) (nodup Z.eq_dec (map h xs))) = Rsum (map (fun x => G (h x) [x]) xs).
Proof.
  intros N. rewrite nodup_fixed_point by exact N. rewrite map_map. apply Rsum_ext. intros x Hx. rewrite alone_in by assumption. reflexivity.
Qed.
Lemma NoDup_of_abs {A} (h : A -> Z) xs : NoDup (map (fun x => Z.abs (h x)) xs) -> NoDup (map h xs).
Proof.
  induction xs as [|x xs IH]; [constructor|]. cbn [map]. intros N. inversion N as [|? ? N1 N2]; subst. constructor; [|exact (IH N2)].
  intros I. apply N1. apply in_map_iff in I as (y & E & Hy). rewrite <- E. apply (in_map (fun x => Z.abs (h x))), Hy.
Qed.

Lemma same_Js L M : Forall2 same_line L M -> map (fun x => Z.abs (ln_AJ x)) L = map (fun x => Z.abs (rl_AJ x)) M.
Proof. intros F. induction F as [|x y L M H F IH]; [reflexivity|]. cbn [map]. rewrite IH, (sm_AJ _ _ H). reflexivity. Qed.

(** A level that is not moved *)
Definition fixed_level (k a : R -> R) (E : R) (ls : bw_lstate) (x : bw_line) : level :=
  let n := ln_GN x * P_at k a (ls_L ls) E / P_at k a (ls_L ls) (ln_ER x) in Level (ln_ER x) n (ln_GG x) (ln_GF x) (n + ln_GG x + ln_GF x + 0).
Lemma unmoved_level k a E q ls x : ls_LRX ls = false -> ls_L ls = 0%nat \/ ln_GN x = 0 \/ S_at k a (ls_L ls) (ln_ER x) = S_at k a (ls_L ls) E ->
  level_of k a E q ls x = fixed_level k a E ls x.
Proof.
  intros HX Hun. unfold level_of, fixed_level. rewrite HX.
  assert (Sh : ln_GN x * (S_at k a (ls_L ls) (ln_ER x) - S_at k a (ls_L ls) E) / (2 * P_at k a (ls_L ls) (ln_ER x)) = 0).
  { destruct Hun as [L|[G|S]].
    - unfold S_at. rewrite L, !S_zero. unfold Rdiv. ring.
    - rewrite G. unfold Rdiv. ring.
    - rewrite S. unfold Rdiv. ring. }
  rewrite Sh, Rplus_0_r. reflexivity.
Qed.

Section Single.
Variables (k a : R -> R) (E : R) (I : Z) (phi : R) (ls : bw_lstate) (ls' : rm_lstate) (ap : R) (lev : bw_line -> level).
Hypotheses (HS : same_l ap ls ls') (HE : 0 < k E * a E).
Let l := ls_L ls.
Let U0 := cis (- (2 * phi)).
Hypothesis Hlev : forall x, In x (ls_lines ls) -> lev x = fixed_level k a E ls x.
Hypotheses (Her : forall x, In x (ls_lines ls) -> 0 < k (ln_ER x) * a (ln_ER x)) (Hreg : forall x, In x (ls_lines ls) -> ln_ER x <> E \/ ln_GG x <> 0).
Let a' (s : rm_lstate) := a.

Lemma P_same e : P_rm k a' ls' e = P_at k a l e.
Proof. unfold P_rm, P_at, a'. rewrite (sm_L _ _ _ HS). reflexivity. Qed.
Lemma P_positive e : 0 < k e * a e -> 0 < P_at k a l e.
Proof. apply P_spec_pos. Qed.

Lemma line_level x y : In x (ls_lines ls) -> same_line x y ->
  exists gn fa fb gc, newer_of k a' ls' y = Resonance (ln_ER x) [gn; fa; fb] gc /\ lev x = level_widths (P_rm k a' ls' E) (ln_ER x) gn fa fb gc /\
    (ln_ER x <> E \/ gc <> 0).
Proof.
  intros Hx [H1 H2 H3 H4 H5 H6 H7]. unfold newer_of. rewrite H1, H3, H4. do 4 eexists. split; [reflexivity|].
  pose proof (P_positive (ln_ER x) (Her x Hx)) as Pr. pose proof (P_positive E HE) as Pe.
  split.
  - rewrite (Hlev x Hx). unfold fixed_level, level_widths. fold l. rewrite !signed_square, !P_same.
    rewrite (Rabs_right (ln_GN x / (2 * P_at k a l (ln_ER x)))) by (apply Rle_ge, Rmult_le_pos; [lra | apply Rlt_le, Rinv_0_lt_compat; lra]).
    rewrite (Rabs_right (ln_GG x / 2)) by lra.
    assert (H : forall z, 2 * Rabs (z / 2) = Rabs z) by (intros z; unfold Rdiv; rewrite Rabs_mult, (Rabs_right (/ 2)) by lra; field).
    rewrite !H, H5. f_equal; field; lra.
  - destruct (Hreg x Hx) as [R0|R0]; [left; exact R0|right]. intros Z. pose proof (signed_square (ln_GG x / 2)) as Q. rewrite Z, (Rabs_right (ln_GG x / 2)) in Q by lra. lra.
Qed.

Lemma line_values x y : In x (ls_lines ls) -> same_line x y ->
  J_elastic E (P_rm k a' ls' E) phi [newer_of k a' ls' y] = scattered (collision U0 E [lev x]) /\
  J_capture E (P_rm k a' ls' E) phi [newer_of k a' ls' y] = reaction E (w_c (lev x)) (lev x) /\
  J_fission E (P_rm k a' ls' E) phi [newer_of k a' ls' y] = reaction E (w_f (lev x)) (lev x).
Proof.
  intros Hx Hs. destruct (line_level x y Hx Hs) as (gn & fa & fb & gc & -> & -> & Hr).
  assert (HP : 0 < P_rm k a' ls' E) by (rewrite P_same; apply P_positive, HE).
  split; [exact (one_scatter phi gn fa fb HP Hr)|]. split; [exact (one_capture phi gn fa fb HP Hr) | exact (one_fission phi gn fa fb HP Hr)].
Qed.
Lemma lines_In : Forall2 (fun x y => In x (ls_lines ls) /\ same_line x y) (ls_lines ls) (rs_lines ls').
Proof.
  pose proof (sm_lines _ _ _ HS) as F. assert (G : forall L, (forall x, In x L -> In x (ls_lines ls)) -> forall M, Forall2 same_line L M -> Forall2 (fun x y => In x (ls_lines ls) /\ same_line x y) L M).
  { intros L HL M HM. induction HM as [|x y L M Hxy HM IH]; constructor; [split; [apply HL; left; reflexivity | exact Hxy]|]. apply IH. intros z Hz. apply HL. right. exact Hz. }
  apply G; [auto | exact F].
Qed.
Lemma J_distinct : NoDup (map rl_AJ (rs_lines ls')).
Proof.
  apply NoDup_of_abs. pose proof (sm_J _ _ _ HS) as N. pose proof (sm_lines _ _ _ HS) as F.
  rewrite <- (same_Js _ _ F). exact N.
Qed.
Lemma newer_sum F (G : bw_line -> R) : (forall x y, In x (ls_lines ls) -> same_line x y -> F [newer_of k a' ls' y] = G x) ->
  newer_J k I a' ls' F = Rsum (map (fun x => g_of I x * G x) (ls_lines ls)).
Proof.
  intros H. unfold newer_J, signed_J, lines_of. rewrite (each_alone rl_AJ (rs_lines ls') (fun j ys => g_neutron I (Z.abs j) * F (map (newer_of k a' ls') ys)) J_distinct).
  symmetry. apply (Rsum_Forall2 _ _ _ _ _ lines_In). intros x y [Hx Hs]. cbn [map]. rewrite (H x y Hx Hs). unfold g_of, abs_J. rewrite (sm_AJ _ _ Hs). reflexivity.
Qed.
Lemma accounted_sum : accounted I ls' = Rsum (map (g_of I) (ls_lines ls)).
Proof.
  unfold accounted, signed_J. rewrite nodup_fixed_point by exact J_distinct. rewrite map_map. symmetry.
  apply (Rsum_Forall2 _ _ _ _ _ lines_In). intros x y [Hx Hs]. unfold g_of, abs_J. rewrite (sm_AJ _ _ Hs). reflexivity.
Qed.

Lemma l_elastic : SL_elastic l U0 E (g_of I) lev (ls_lines ls) =
  newer_J k I a' ls' (J_elastic E (P_rm k a' ls' E) phi) + (2 * INR l + 1 - accounted I ls') * scattered U0.
Proof.
  rewrite (newer_sum _ (fun x => scattered (collision U0 E [lev x]))) by (intros; apply line_values; assumption).
  rewrite accounted_sum. unfold SL_elastic.
  replace (Rsum (map (fun r => g_of I r * (scattered (collision U0 E [lev r]) - scattered U0)) (ls_lines ls)))
    with (Rsum (map (fun x => g_of I x * scattered (collision U0 E [lev x])) (ls_lines ls)) - scattered U0 * Rsum (map (g_of I) (ls_lines ls))); [ring|].
  rewrite <- Rsum_scale, <- Rsum_minus. apply Rsum_ext. intros x _. ring.
Qed.
Lemma l_capture : capture_sum E (g_of I) lev (ls_lines ls) = newer_J k I a' ls' (J_capture E (P_rm k a' ls' E) phi).
Proof. symmetry. apply newer_sum. intros. apply line_values; assumption. Qed.
Lemma l_fission : fission_sum E (g_of I) lev (ls_lines ls) = newer_J k I a' ls' (J_fission E (P_rm k a' ls' E) phi).
Proof. symmetry. apply newer_sum. intros. apply line_values; assumption. Qed.
Lemma l_multi U : ML_elastic l U E lev I abs_J (ls_lines ls) = SL_elastic l U E (g_of I) lev (ls_lines ls).
Proof.
  unfold ML_elastic, SL_elastic, Js, of_J.
  rewrite (each_alone abs_J (ls_lines ls) (fun j rs => g_neutron I j * scattered (collision U E (map lev rs))) (sm_J _ _ _ HS)).
  rewrite nodup_fixed_point by exact (sm_J _ _ _ HS). rewrite map_map. cbn [map]. fold (g_of I).
  replace (Rsum (map (fun r => g_of I r * (scattered (collision U E [lev r]) - scattered U)) (ls_lines ls)))
    with (Rsum (map (fun x => g_of I x * scattered (collision U E [lev x])) (ls_lines ls)) - scattered U * Rsum (map (g_of I) (ls_lines ls))).
  - unfold g_of at 2. unfold g_of. ring.
  - rewrite <- Rsum_scale, <- Rsum_minus. apply Rsum_ext. intros x _. ring.
Qed.
End Single.

(** * The whole file *)
Section File.
Variables (k a : R -> R) (E ahat : R) (b : bw_file) (f : rm_file) (q : bw_lstate -> R) (nlsc : nat) (phi : rm_lstate -> R) (phi0 : nat -> R).
Hypotheses (HS : same_file b f) (HE : 0 < k E * a E) (Hun : unmoved k a E b) (Hl : map ls_L (f_lstates b) = seq 0 nlsc).
Hypothesis Her : forall ls x, In ls (f_lstates b) -> In x (ls_lines ls) -> 0 < k (ln_ER x) * a (ln_ER x) /\ (ln_ER x <> E \/ ln_GG x <> 0).
Hypotheses (Hphi : forall ls, In ls (rf_lstates f) -> is_phase (rs_L ls) (k E * ahat) (phi ls)) (Hphi0 : forall l, (l < nlsc)%nat -> is_phase l (k E * ahat) (phi0 l)).
Let I := f_SPI b.
Let a' (s : rm_lstate) := a.
Definition paired (ls : bw_lstate) (ls' : rm_lstate) : Prop := In ls (f_lstates b) /\ In ls' (rf_lstates f) /\ same_l (f_AP b) ls ls'.

Lemma states_paired : Forall2 paired (f_lstates b) (rf_lstates f).
Proof.
  assert (G : forall L M, (forall x, In x L -> In x (f_lstates b)) -> (forall x, In x M -> In x (rf_lstates f)) -> Forall2 (same_l (f_AP b)) L M -> Forall2 paired L M).
  { intros L M HL HM F. induction F as [|x y L M Hxy F IH]; constructor; [split; [apply HL; left; reflexivity | split; [apply HM; left; reflexivity | exact Hxy]]|].
    apply IH; intros z Hz; [apply HL | apply HM]; right; exact Hz. }
  apply G; [auto | auto | exact (sm_ls _ _ HS)].
Qed.
Lemma same_Ls L M : Forall2 (same_l (f_AP b)) L M -> map rs_L M = map ls_L L.
Proof. intros F. induction F as [|x y L M Hxy F IH]; [reflexivity|]. cbn [map]. rewrite IH, (sm_L _ _ _ Hxy). reflexivity. Qed.
Lemma l_states : map rs_L (rf_lstates f) = seq 0 nlsc.
Proof. rewrite <- Hl. apply same_Ls, (sm_ls _ _ HS). Qed.

Lemma file_capture : BW_capture k a E q I (f_lstates b) = newer_capture k E I a' phi (rf_lstates f).
Proof.
  unfold BW_capture, newer_capture. f_equal. apply (Rsum_Forall2 _ _ _ _ _ states_paired). intros ls ls' (H1 & H2 & H3).
  apply (l_capture k a E I (phi ls') ls ls' (f_AP b) (level_of k a E q ls) H3 HE (fun x Hx => unmoved_level k a E q ls x (sm_LRX _ _ _ H3) (Hun ls x H1 Hx)) (fun x Hx => proj1 (Her ls x H1 Hx)) (fun x Hx => proj2 (Her ls x H1 Hx))).
Qed.
Lemma file_fission : BW_fission k a E q I (f_lstates b) = newer_fission k E I a' phi (rf_lstates f).
Proof.
  unfold BW_fission, newer_fission. f_equal. apply (Rsum_Forall2 _ _ _ _ _ states_paired). intros ls ls' (H1 & H2 & H3).
  apply (l_fission k a E I (phi ls') ls ls' (f_AP b) (level_of k a E q ls) H3 HE (fun x Hx => unmoved_level k a E q ls x (sm_LRX _ _ _ H3) (Hun ls x H1 Hx)) (fun x Hx => proj1 (Her ls x H1 Hx)) (fun x Hx => proj2 (Her ls x H1 Hx))).
Qed.
Lemma rest_sum : Rsum (map (newer_rest I phi0 (rf_lstates f)) (seq 0 nlsc)) =
  Rsum (map (fun ls => (2 * INR (rs_L ls) + 1 - accounted I ls) * scattered (cis (- (2 * phi ls)))) (rf_lstates f)).
Proof.
  rewrite <- l_states at 1. rewrite map_map. apply Rsum_ext. intros ls Hls. unfold newer_rest.
  rewrite one_of_each; [|rewrite l_states; apply seq_NoDup | exact Hls].
  assert (L : In (rs_L ls) (seq 0 nlsc)) by (rewrite <- l_states; apply in_map, Hls). apply in_seq in L.
  rewrite <- (hard_sphere_phase _ _ _ (Hphi ls Hls)), <- (hard_sphere_phase _ _ _ (Hphi0 (rs_L ls) ltac:(lia))). cbn [map]. unfold Rsum at 1. cbn [fold_right]. rewrite Rplus_0_r. reflexivity.
Qed.
Lemma file_elastic : SLBW_elastic k a E q ahat I (f_lstates b) = newer_elastic k E I a' phi phi0 nlsc (rf_lstates f).
Proof.
  unfold SLBW_elastic, newer_elastic. f_equal. rewrite rest_sum, <- Rsum_plus. apply (Rsum_Forall2 _ _ _ _ _ states_paired). intros ls ls' (H1 & H2 & H3).
  unfold U0_of. rewrite <- (sm_L _ _ _ H3), (hard_sphere_phase _ _ _ (Hphi ls' H2)), (sm_L _ _ _ H3).
  apply (l_elastic k a E I (phi ls') ls ls' (f_AP b) (level_of k a E q ls) H3 HE (fun x Hx => unmoved_level k a E q ls x (sm_LRX _ _ _ H3) (Hun ls x H1 Hx)) (fun x Hx => proj1 (Her ls x H1 Hx)) (fun x Hx => proj2 (Her ls x H1 Hx))).
Qed.
Lemma file_multi : MLBW_elastic k a E q ahat I (f_lstates b) = SLBW_elastic k a E q ahat I (f_lstates b).
Proof.
  unfold SLBW_elastic, MLBW_elastic. f_equal.
  assert (G : forall g h : bw_lstate -> R, (forall ls ls', paired ls ls' -> g ls = h ls) -> Rsum (map g (f_lstates b)) = Rsum (map h (f_lstates b))).
  { intros g h H. apply Rsum_ext. intros ls Hls. pose proof states_paired as F.
    assert (X : exists ls', paired ls ls'). { clear -F Hls. induction F as [|x y L M Hxy F IH]; [destruct Hls|]. destruct Hls as [->|Hls]; [exists y; exact Hxy | exact (IH Hls)]. }
    destruct X as [ls' X]. exact (H ls ls' X). }
  apply G. intros ls ls' (H1 & H2 & H3). apply (l_multi E I ls ls' (f_AP b) (level_of k a E q ls) H3).
Qed.
End File.
