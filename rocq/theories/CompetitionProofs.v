(** The competitive width below its threshold. *)
From Coq Require Import String List ZArith Reals Lra Lia Bool Psatz.
From Verif Require Import Outcome QuantumModel QuantumSpec QuantumProofs HardSphereModel HardSphereSpec HardSphereProofs
  KinematicsModel Cplx RMatrixModel ChannelModel BreitWignerModel BreitWignerSpec ListFacts BreitWignerProofs
  BreitWignerSystemProofs LegacyModel LegacyProofs LegacySystemProofs BreitWignerTheory BreitWignerTheorems CompetitionSpec.
Import ListNotations.
Open Scope R_scope.

(** * Without a competitive channel, or with one that opens at energy zero *)
Definition no_threshold (ls : bw_lstate) : Prop :=
  ls_LRX ls = false \/ ls_QX ls = 0 \/ forall x, In x (ls_lines ls) -> ln_GX x = 0.

Section Levels.
Variables (k a : R -> R) (E : R) (q : bw_lstate -> R) (I : Z) (ahat : R).

Lemma same_level ls x : 0 < E -> (ls_QX ls = 0 -> q ls = 0) -> no_threshold ls -> In x (ls_lines ls) ->
  level_of k a E q ls x = endf_level k a E ls x.
Proof.
  intros HE Hq H Hx. unfold level_of, endf_level, competitive_endf. destruct (ls_LRX ls) eqn:L; [|reflexivity].
  destruct H as [H | [H | H]]; [congruence | |].
  - assert (q_endf ls = 0) as -> by (unfold q_endf; rewrite H; ring). rewrite (Hq H). destruct (Rle_dec (E + 0) 0); [lra | reflexivity].
  - rewrite (H x Hx). f_equal. destruct (Rle_dec _ _); unfold Rdiv; ring.
Qed.
Lemma map_ext_In' {A B} (f g : A -> B) l : (forall x, In x l -> f x = g x) -> map f l = map g l.
Proof. apply map_ext_in. Qed.
Lemma same_all lss : 0 < E -> (forall ls, ls_QX ls = 0 -> q ls = 0) -> (forall ls, In ls lss -> no_threshold ls) ->
  SLBW_elastic k a E q ahat I lss = ENDF_single_elastic k a E ahat I lss /\
  MLBW_elastic k a E q ahat I lss = ENDF_multi_elastic k a E ahat I lss /\
  BW_capture k a E q I lss = ENDF_capture k a E I lss /\ BW_fission k a E q I lss = ENDF_fission k a E I lss.
Proof.
  intros HE Hq H. unfold SLBW_elastic, ENDF_single_elastic, MLBW_elastic, ENDF_multi_elastic, BW_capture, ENDF_capture, BW_fission, ENDF_fission.
  repeat split; f_equal; apply Rsum_ext; intros ls Hls.
  - unfold SL_elastic. do 2 f_equal. apply map_ext_in. intros x Hx. rewrite (same_level ls x HE (Hq ls) (H ls Hls) Hx). reflexivity.
  - unfold ML_elastic. f_equal. f_equal. apply map_ext_in. intros j _. do 3 f_equal. apply map_ext_in. intros x Hx. apply (same_level ls x HE (Hq ls) (H ls Hls)).
    unfold of_J in Hx. apply filter_In in Hx. apply Hx.
  - unfold capture_sum. f_equal. apply map_ext_in. intros x Hx. rewrite (same_level ls x HE (Hq ls) (H ls Hls) Hx). reflexivity.
  - unfold fission_sum. f_equal. apply map_ext_in. intros x Hx. rewrite (same_level ls x HE (Hq ls) (H ls Hls) Hx). reflexivity.
Qed.

(** * Below the threshold *)
Hypotheses (HI : is_spin I) (Hk : forall e, 0 <= k e * a e).
Lemma norm2_pole v : norm2 (pole E v) = (w_E v - E) * (w_E v - E) + w_T v * w_T v / 4.
Proof. unfold norm2, pole. cbn [re im]. field. Qed.
Lemma reaction_le (v w : level) r : w_n w = w_n v -> w_E w = w_E v -> 0 <= w_n v -> 0 <= r -> w_n v <= w_T w <= w_T v ->
  reaction E r v <= reaction E r w /\ (0 < w_n v -> 0 < r -> w_T w < w_T v -> reaction E r v < reaction E r w).
Proof.
  intros Hn He H1 H2 H3. unfold reaction. rewrite !norm2_pole, Hn, He. set (d := (w_E v - E) * (w_E v - E)). assert (D : 0 <= d) by (unfold d; apply Rle_0_sqr).
  assert (M : w_T w * w_T w <= w_T v * w_T v) by (apply Rmult_le_compat; lra). destruct (Rle_lt_or_eq_dec _ _ H1) as [P | Z].
  - assert (P1 : 0 < d + w_T w * w_T w / 4) by nra. assert (P2 : 0 < d + w_T v * w_T v / 4) by nra. split.
    + apply Rmult_le_compat_l; [apply Rmult_le_pos; lra|]. apply Rinv_le_contravar; lra.
    + intros _ R T. apply Rmult_lt_compat_l; [apply Rmult_lt_0_compat; assumption|]. apply Rinv_lt_contravar; [apply Rmult_lt_0_compat; assumption|]. nra.
  - rewrite <- Z. split; [unfold Rdiv; lra | lra].
Qed.
Lemma competitive_nonneg ls x : 0 <= ln_GX x -> 0 <= ln_GX x * P_at k a (ls_L ls) (E + q ls) / P_at k a (ls_L ls) (ln_ER x + q ls).
Proof. intros H. apply Rdiv_nonneg; [apply Rmult_le_pos; [exact H|]|]; apply P_at_nonneg; exact Hk. Qed.
Lemma line_le ls x r : 0 <= ln_GN x -> 0 <= ln_GG x -> 0 <= ln_GF x -> 0 <= ln_GX x -> 0 <= r -> (ls_LRX ls = true -> closed_at E ls) ->
  reaction E r (level_of k a E q ls x) <= reaction E r (endf_level k a E ls x) /\
  (ls_LRX ls = true -> 0 < r -> 0 < ln_GN x * P_at k a (ls_L ls) E / P_at k a (ls_L ls) (ln_ER x) ->
   0 < ln_GX x * P_at k a (ls_L ls) (E + q ls) / P_at k a (ls_L ls) (ln_ER x + q ls) -> reaction E r (level_of k a E q ls x) < reaction E r (endf_level k a E ls x)).
Proof.
  intros Hn Hg Hf Hx Hr Hc. pose proof (competitive_nonneg ls x Hx) as C0.
  assert (N : 0 <= ln_GN x * P_at k a (ls_L ls) E / P_at k a (ls_L ls) (ln_ER x)) by (apply Rdiv_nonneg; [apply Rmult_le_pos; [exact Hn|]|]; apply P_at_nonneg; exact Hk).
  unfold level_of, endf_level, competitive_endf. cbv zeta. destruct (ls_LRX ls) eqn:L.
  - specialize (Hc eq_refl). unfold closed_at in Hc. destruct (Rle_dec (E + q_endf ls) 0) as [_|n]; [|lra].
    destruct (reaction_le (level_of k a E q ls x) (endf_level k a E ls x) r) as [A B].
    1: reflexivity. 1: reflexivity. 1: exact N. 1: exact Hr.
    1: { unfold level_of, endf_level, competitive_endf. cbv zeta. cbn [w_T w_n]. rewrite L. destruct (Rle_dec (E + q_endf ls) 0) as [_|n]; [|lra]. lra. }
    unfold level_of, endf_level, competitive_endf in A, B. cbv zeta in A, B. rewrite L in A, B. destruct (Rle_dec (E + q_endf ls) 0) as [_|n]; [|lra].
    split; [exact A|]. intros _ H1 H2 H3. apply B; [exact H2 | exact H1|]. cbn [w_T]. lra.
  - split; [lra | discriminate].
Qed.
Lemma Rsum_lt {X} (f g : X -> R) l x : In x l -> f x < g x -> (forall y, In y l -> f y <= g y) -> Rsum (map f l) < Rsum (map g l).
Proof.
  intros Hx Hlt H. induction l as [|y l IH]; [destruct Hx|]. cbn [map]. rewrite !Rsum_cons. destruct Hx as [-> | Hx].
  - assert (Rsum (map f l) <= Rsum (map g l)) by (apply Rsum_le; intros z Hz; apply H; right; exact Hz). lra.
  - assert (f y <= g y) by (apply H; left; reflexivity). assert (Rsum (map f l) < Rsum (map g l)) by (apply IH; [exact Hx | intros z Hz; apply H; right; exact Hz]). lra.
Qed.
Lemma g_of_pos x : 0 < g_of I x.
Proof.
  unfold g_of, g_neutron, abs_J. pose proof (IZR_le _ _ (Z.abs_nonneg (ln_AJ x))). unfold is_spin in HI. assert (0 <= IZR I) by (apply IZR_le; lia). apply Rdiv_lt_0_compat; lra.
Qed.
Lemma capture_lower lss ls0 x0 : 0 < barns k E ->
  (forall ls x, In ls lss -> In x (ls_lines ls) -> 0 <= ln_GN x /\ 0 <= ln_GG x /\ 0 <= ln_GF x /\ 0 <= ln_GX x) ->
  (forall ls, In ls lss -> ls_LRX ls = true -> closed_at E ls) ->
  In ls0 lss -> In x0 (ls_lines ls0) -> ls_LRX ls0 = true -> 0 < ln_GG x0 ->
  0 < ln_GN x0 * P_at k a (ls_L ls0) E / P_at k a (ls_L ls0) (ln_ER x0) ->
  0 < ln_GX x0 * P_at k a (ls_L ls0) (E + q ls0) / P_at k a (ls_L ls0) (ln_ER x0 + q ls0) ->
  BW_capture k a E q I lss < ENDF_capture k a E I lss.
Proof.
  intros Hb Hw Hc Hls Hx L G N C. unfold BW_capture, ENDF_capture. apply Rmult_lt_compat_l; [exact Hb|].
  assert (B : forall ls x, In ls lss -> In x (ls_lines ls) -> g_of I x * reaction E (ln_GG x) (level_of k a E q ls x) <= g_of I x * reaction E (ln_GG x) (endf_level k a E ls x)).
  { intros ls x H1 H2. destruct (Hw ls x H1 H2) as (W1 & W2 & W3 & W4). apply Rmult_le_compat_l; [left; apply g_of_pos|]. apply line_le; try assumption. apply Hc, H1. }
  apply (Rsum_lt _ _ lss ls0 Hls).
  - unfold capture_sum. apply (Rsum_lt _ _ _ x0 Hx).
    + destruct (Hw ls0 x0 Hls Hx) as (W1 & W2 & W3 & W4). apply Rmult_lt_compat_l; [apply g_of_pos|].
      apply (line_le ls0 x0 (ln_GG x0) W1 W2 W3 W4 W2 (Hc ls0 Hls)); assumption.
    + intros y Hy. apply (B ls0 y Hls Hy).
  - intros ls H. unfold capture_sum. apply Rsum_le. intros y Hy. apply (B ls y H Hy).
Qed.
End Levels.

(** * The two interfaces *)
Definition widths (lss : list bw_lstate) : Prop := forall ls x, In ls lss -> In x (ls_lines ls) ->
  0 <= ln_GN x /\ 0 <= ln_GG x /\ 0 <= ln_GF x /\ 0 <= ln_GX x.
Definition defined (ch : R -> outcome R) : Prop := forall e, exists r, ch e = Ok r.
Lemma P_positive C A ch l e : 0 < C -> 0 < A -> positive ch -> defined ch -> e <> 0 -> 0 < P_at (k_old C A) (fun e => oval (ch e)) l e.
Proof.
  intros HC HA Hp Hd He. unfold P_at, P_spec. apply Rdiv_lt_0_compat; [|apply amplitude2_pos]. apply Rmult_lt_0_compat; [apply k_old_pos; assumption|].
  destruct (Hd e) as (r & Hr). rewrite Hr. cbn. apply (Hp e r Hr).
Qed.
Lemma barns_pos C A E : 0 < C -> 0 < A -> E <> 0 -> 0 < barns (k_old C A) E.
Proof. intros HC HA HE. pose proof (k_old_pos C A E HC HA HE). unfold barns. apply Rdiv_lt_0_compat; [unfold pi_value; lra | apply Rmult_lt_0_compat; assumption]. Qed.
Lemma interface_lower C A I ch lss q E ls0 x0 : 0 < C -> 0 < A -> is_spin I -> positive ch -> defined ch -> 0 < E -> widths lss ->
  (forall ls, In ls lss -> ls_LRX ls = true -> closed_at E ls) ->
  In ls0 lss -> In x0 (ls_lines ls0) -> ls_LRX ls0 = true -> 0 < ln_GN x0 -> 0 < ln_GG x0 -> 0 < ln_GX x0 -> ln_ER x0 <> 0 ->
  E + q ls0 <> 0 -> ln_ER x0 + q ls0 <> 0 ->
  BW_capture (k_old C A) (fun e => oval (ch e)) E q I lss < ENDF_capture (k_old C A) (fun e => oval (ch e)) E I lss.
Proof.
  intros HC HA HI Hp Hd HE Hw Hc Hls Hx L N G X R0 R1 R2. apply (capture_lower _ _ E q I HI) with (ls0 := ls0) (x0 := x0); try assumption.
  - intros e. apply old_rho; assumption.
  - apply barns_pos; lra.
  - apply Rdiv_lt_0_compat; [apply Rmult_lt_0_compat|]; try exact N; apply P_positive; try assumption; lra.
  - apply Rdiv_lt_0_compat; [apply Rmult_lt_0_compat|]; try exact X; apply P_positive; assumption.
Qed.
