(** Conservation of flux: two levels of the same J that lie on top of each other exceed the limits,
    and a file that keeps to them. *)
From Coq Require Import String List ZArith Reals Lra Lia Permutation Bool Psatz.
From Coquelicot Require Rcomplements.
From Verif Require Import Outcome QuantumModel QuantumSpec QuantumProofs SpinFactorModel HardSphereModel
  HardSphereSpec KinematicsModel CoulombModel Cplx RMatrixModel ChannelModel BreitWignerModel
  BreitWignerSpec ListFacts BreitWignerProofs BreitWignerSystemProofs LegacyModel LegacyProofs LegacySystemProofs
  BreitWignerTheory BreitWignerTheorems BreitWignerCases BreitWignerWitness FluxSpec FluxProofs FluxTheorems.
Import ListNotations.
Open Scope R_scope.

(** Er = 4, GN = 3, GG = 1, at the energy of the resonance *)
Definition over_line : bw_line := mkLine 4 1 3 1 0 0.
Definition over_ls : bw_lstate := mkLState 0 1 false 0 [over_line; over_line].
Definition over_file : bw_file := one_l (PI / 2) 1 false 0 [over_line; over_line].
Lemma PI2_pos : 0 < PI / 2.
Proof. pose proof PI_RGT_0. lra. Qed.
Lemma over_level q : level_of (k_old 2 1) (fun _ => PI / 2) 4 q over_ls over_line = Level 4 3 1 0 4.
Proof.
  unfold level_of; cbn [over_ls ls_L ls_LRX over_line ln_ER ln_GN ln_GG ln_GF ln_GX].
  unfold P_at, S_at. rewrite !P_spec_l0, !S_spec_l0, !k_1, !Rabs_right, sqrt_4 by lra.
  pose proof PI_RGT_0. f_equal; field; lra.
Qed.
Lemma over_U0 : U0_of (k_old 2 1) 4 (PI / 2) over_ls = cx_one.
Proof.
  unfold U0_of; cbn [ls_L over_ls]. rewrite k_1, Rabs_right, sqrt_4 by lra. replace (2 * (PI / 2)) with PI by field.
  rewrite (hard_sphere_phase _ _ _ (is_phase_l0 PI)). unfold cis, cx_one. rewrite cos_neg, sin_neg, cos_2PI, sin_2PI, Ropp_0. reflexivity.
Qed.
Lemma over_barns : 0 < barns (k_old 2 1) 4.
Proof. unfold barns. rewrite k_1, Rabs_right, sqrt_4 by lra. unfold pi_value. lra. Qed.
Lemma over_limit : unit_limit (k_old 2 1) 4 (f_lstates over_file) = barns (k_old 2 1) 4.
Proof. unfold unit_limit, over_file, one_l; cbn [f_lstates map ls_L]. rewrite Rsum_cons, Rsum_nil. cbn [INR]. ring. Qed.
Lemma over_g : g_of 0 over_line = 1.
Proof. unfold g_of, g_neutron, abs_J, over_line; cbn [ln_AJ Z.abs]. cbn. lra. Qed.
Lemma over_capture q : BW_capture (k_old 2 1) (fun _ => PI / 2) 4 q 0 (f_lstates over_file) = barns (k_old 2 1) 4 * (3 / 2).
Proof.
  unfold BW_capture, over_file, one_l; cbn [f_lstates map]. fold over_ls. rewrite Rsum_cons, Rsum_nil. unfold capture_sum; cbn [ls_lines over_ls map]. fold over_ls.
  rewrite !Rsum_cons, Rsum_nil, over_level, over_g. unfold reaction, norm2, pole; cbn [w_n w_c w_E w_T re im]. f_equal. field.
Qed.
Lemma over_fission q : BW_fission (k_old 2 1) (fun _ => PI / 2) 4 q 0 (f_lstates over_file) = 0.
Proof.
  unfold BW_fission, over_file, one_l; cbn [f_lstates map]. fold over_ls. rewrite Rsum_cons, Rsum_nil. unfold fission_sum; cbn [ls_lines over_ls map]. fold over_ls.
  rewrite !Rsum_cons, Rsum_nil, over_level, over_g. unfold reaction, norm2, pole; cbn [w_n w_f w_E w_T re im]. field.
Qed.
Lemma over_single q : SLBW_elastic (k_old 2 1) (fun _ => PI / 2) 4 q (PI / 2) 0 (f_lstates over_file) = barns (k_old 2 1) 4 * (9 / 2).
Proof.
  unfold SLBW_elastic, over_file, one_l; cbn [f_lstates map]. fold over_ls. rewrite Rsum_cons, Rsum_nil, over_U0. unfold SL_elastic; cbn [ls_lines over_ls map]. fold over_ls.
  rewrite !Rsum_cons, Rsum_nil, over_level, over_g.
  unfold collision, scattered; cbn [map csum fold_right]. unfold norm2, pole, cdiv, cx_inv, norm2, cx_mul, cx_add, cx_opp, cx_one, cx_zero, ci, rcx; cbn [re im w_n w_c w_E w_T]. f_equal. field.
Qed.
Lemma over_multi q : MLBW_elastic (k_old 2 1) (fun _ => PI / 2) 4 q (PI / 2) 0 (f_lstates over_file) = barns (k_old 2 1) 4 * 9.
Proof.
  unfold MLBW_elastic, over_file, one_l; cbn [f_lstates map]. fold over_ls. rewrite Rsum_cons, Rsum_nil, over_U0. unfold ML_elastic.
  change (Js abs_J (ls_lines over_ls)) with [1%Z]. cbn [map]. change (of_J abs_J 1%Z (ls_lines over_ls)) with [over_line; over_line]. cbn [map].
  rewrite !Rsum_cons, Rsum_nil, over_level. change (g_neutron 0 1) with (g_of 0 over_line). rewrite over_g.
  unfold collision, scattered; cbn [map csum fold_right ls_L over_ls INR]. unfold norm2, pole, cdiv, cx_inv, norm2, cx_mul, cx_add, cx_opp, cx_one, cx_zero, ci, rcx; cbn [re im w_n w_c w_E w_T]. f_equal. field.
Qed.
Lemma over_scattered : scattered (U0_of (k_old 2 1) 4 (PI / 2) over_ls) = 0.
Proof. rewrite over_U0. unfold scattered, norm2, cx_add, cx_opp, cx_one; cbn [re im]. ring. Qed.
Lemma over_lines : forall x, In x [over_line; over_line] -> ln_AJ x = 1%Z /\ ln_ER x <> 0 /\ (false = true -> ln_ER x - 0 <> 0) /\
  0 <= ln_GN x /\ 0 < ln_GG x /\ 0 <= ln_GF x /\ 0 <= ln_GX x.
Proof. intros x [<-|[<-|[]]]; cbn; repeat split; try lra; discriminate. Qed.
Lemma over_open : open_widths over_file.
Proof. intros ls x [<-|[]] [<-|[<-|[]]]; cbn; repeat split; try lra; discriminate. Qed.
Lemma over_coupled ls : In ls (f_lstates over_file) -> coupled 0 ls.
Proof.
  intros [<-|[]] x Hx. destruct (over_lines x Hx) as (HJ & _). exists 1%Z. unfold abs_J. rewrite HJ. split; unfold triangle; cbn; repeat split; try lia; exists 1%Z; lia.
Qed.

(** Both formats of the older interface, and of the R-matrix interface *)
Lemma over_old sort : sorts b_g sort -> exists s1 e1 c1 f1 s2 e2 c2 f2,
  bw_build 2 sort false over_file (fun _ => Ok (PI / 2)) (fun _ => Ok (PI / 2)) = Ok s1 /\ slbw_evaluate 2 s1 4 = Ok (Some (e1, c1, f1)) /\
  bw_build 2 sort true over_file (fun _ => Ok (PI / 2)) (fun _ => Ok (PI / 2)) = Ok s2 /\ mlbw_evaluate 2 s2 4 = Ok (Some (e2, c2, f2)) /\
  unit_limit (k_old 2 1) 4 (f_lstates over_file) < c1 + f1 /\ 4 * unit_limit (k_old 2 1) 4 (f_lstates over_file) < e1 /\
  unit_limit (k_old 2 1) 4 (f_lstates over_file) < c2 + f2 /\ 4 * unit_limit (k_old 2 1) 4 (f_lstates over_file) < e2.
Proof.
  intros Hs. pose proof (one_old_total 1 2 (PI / 2) 1 false 0 [over_line; over_line] ltac:(lra) ltac:(lra) PI2_pos ltac:(lra)
    over_lines sort 4 ltac:(lra) ltac:(discriminate) ltac:(discriminate) Hs) as [(s1 & [[e1 c1] f1] & Hb1 & He1) (s2 & [[e2 c2] f2] & Hb2 & He2)].
  rewrite C_2 in *. exists s1, e1, c1, f1, s2, e2, c2, f2. split; [exact Hb1|]. split; [exact He1|]. split; [exact Hb2|]. split; [exact He2|].
  assert (Hin : input_old (C_new 1 2) over_file 1 (fun _ => Ok (PI / 2)) (fun _ => Ok (PI / 2))) by (apply one_old_input; try lra; apply PI2_pos).
  rewrite C_2 in Hin.
  destruct (old_slbw 2 sort over_file 1 _ _ Hin s1 4 e1 c1 f1 Hb1 He1) as (_ & -> & -> & -> & _).
  destruct (old_mlbw 2 sort over_file 1 _ _ Hin s2 4 e2 c2 f2 Hs Hb2 He2) as (Hd & -> & -> & _).
  cbn [oval] in *. change (f_SPI over_file) with 0%Z in *. rewrite over_multi in Hd. rewrite over_single, over_capture, over_fission, over_limit.
  change (f_lstates over_file) with [over_ls] in Hd. cbn [map] in Hd. rewrite Rsum_cons, Rsum_nil, over_scattered, Rplus_0_r, Rmult_0_r in Hd.
  pose proof over_barns as B. apply Rcomplements.Rabs_le_between in Hd. repeat split; lra.
Qed.
Lemma over_new epsilon0 cwf : exists s m1 m2,
  makeLegacyBreitWigner 1 epsilon0 cwf 2 "n" "t" over_file None 1 = Ok (Some s) /\
  legacy_evaluate 1 (legacySLBW 1 epsilon0 cwf) s 4 (fun _ => None) = Ok (Some m1) /\
  legacy_evaluate 1 (legacyMLBW 1 epsilon0 cwf) s 4 (fun _ => None) = Ok (Some m2) /\
  forall m, m = m1 \/ m = m2 ->
    unit_limit (k_old (C_new 1 2) 1) 4 (f_lstates over_file) < mval m (capture_key "n" "t") + mval m (fission_key "n" "t") /\
    4 * unit_limit (k_old (C_new 1 2) 1) 4 (f_lstates over_file) < mval m (elastic_key "n" "t").
Proof.
  destruct (one_total 1 epsilon0 cwf 2 "n" "t" (PI / 2) 1 false 0 [over_line; over_line] ltac:(lra) ltac:(lra) PI2_pos ltac:(lra)
    ltac:(discriminate) over_lines 4 ltac:(lra) ltac:(lra) (fun _ => None)) as (s & Hb & (m1 & H1) & (m2 & H2)).
  exists s, m1, m2. split; [exact Hb|]. split; [exact H1|]. split; [exact H2|].
  pose proof (one_input 1 2 (PI / 2) 1 false 0 [over_line; over_line] ltac:(lra) ltac:(lra) PI2_pos ltac:(lra) ltac:(discriminate)) as Hin.
  destruct (new_slbw 1 epsilon0 cwf 2 "n" "t" over_file 1 None 1 _ 0 Hin s 4 _ m1 ltac:(lra) Hb H1) as (S1 & S2 & S3).
  destruct (new_mlbw 1 epsilon0 cwf 2 "n" "t" over_file 1 None 1 _ 0 Hin s 4 _ m2 ltac:(lra) Hb H2) as (M1 & M2 & M3).
  rewrite C_2 in *. cbn [r_P r_phi radii1 radius_at oval] in *. change (f_SPI over_file) with 0%Z in *.
  rewrite over_single in S1. rewrite over_multi in M1. rewrite over_capture in S2, M2. rewrite over_fission in S3, M3. assert (Z0 : forall key, mval (fun _ => None) key = 0) by reflexivity. rewrite Z0 in S1, S2, S3, M1, M2, M3.
  pose proof over_barns as B. intros m [->| ->]; rewrite over_limit; split; lra.
Qed.

(** One level with GN = GG at its energy absorbs as much as a wave can lose: the limit is reached *)
Definition full_line : bw_line := mkLine 4 1 2 2 0 0.
Definition full_ls : bw_lstate := mkLState 0 1 false 0 [full_line].
Definition full_file : bw_file := one_l (PI / 2) 1 false 0 [full_line].
Lemma full_lines : forall x, In x [full_line] -> ln_AJ x = 1%Z /\ ln_ER x <> 0 /\ (false = true -> ln_ER x - 0 <> 0) /\
  0 <= ln_GN x /\ 0 < ln_GG x /\ 0 <= ln_GF x /\ 0 <= ln_GX x.
Proof. intros x [<-|[]]; cbn; repeat split; try lra; discriminate. Qed.
Lemma full_open : open_widths full_file.
Proof. intros ls x [<-|[]] [<-|[]]; cbn; repeat split; try lra; discriminate. Qed.
Lemma full_isolated : isolated full_file.
Proof. intros ls [<-|[]]. cbn. constructor; [intros []|constructor]. Qed.
Lemma full_coupled ls : In ls (f_lstates full_file) -> coupled (f_SPI full_file) ls.
Proof.
  intros [<-|[]] x Hx. destruct (full_lines x Hx) as (HJ & _). exists 1%Z. unfold abs_J. rewrite HJ. split; unfold triangle; cbn; repeat split; try lia; exists 1%Z; lia.
Qed.
Lemma full_level q : level_of (k_old 2 1) (fun _ => PI / 2) 4 q full_ls full_line = Level 4 2 2 0 4.
Proof.
  unfold level_of; cbn [full_ls ls_L ls_LRX full_line ln_ER ln_GN ln_GG ln_GF ln_GX].
  unfold P_at, S_at. rewrite !P_spec_l0, !S_spec_l0, !k_1, !Rabs_right, sqrt_4 by lra.
  pose proof PI_RGT_0. f_equal; field; lra.
Qed.
Lemma full_capture q : BW_capture (k_old 2 1) (fun _ => PI / 2) 4 q 0 (f_lstates full_file) = unit_limit (k_old 2 1) 4 (f_lstates full_file).
Proof.
  unfold BW_capture, unit_limit, full_file, one_l; cbn [f_lstates map ls_L]. fold full_ls. rewrite !Rsum_cons, !Rsum_nil. unfold capture_sum; cbn [ls_lines full_ls map]. fold full_ls.
  rewrite !Rsum_cons, !Rsum_nil, full_level. change (g_of 0 full_line) with (g_of 0 over_line). rewrite over_g. unfold reaction, norm2, pole; cbn [w_n w_c w_E w_T re im INR]. f_equal. field.
Qed.
Lemma full_old sort : sorts b_g sort -> exists s e c fi,
  input_old 2 full_file 1 (fun _ => Ok (PI / 2)) (fun _ => Ok (PI / 2)) /\
  bw_build 2 sort false full_file (fun _ => Ok (PI / 2)) (fun _ => Ok (PI / 2)) = Ok s /\ slbw_evaluate 2 s 4 = Ok (Some (e, c, fi)) /\
  c = unit_limit (k_old 2 1) 4 (f_lstates full_file).
Proof.
  intros Hs. pose proof (one_old_total 1 2 (PI / 2) 1 false 0 [full_line] ltac:(lra) ltac:(lra) PI2_pos ltac:(lra)
    full_lines sort 4 ltac:(lra) ltac:(discriminate) ltac:(discriminate) Hs) as [(s & [[e c] fi] & Hb & He) _].
  rewrite C_2 in *. exists s, e, c, fi.
  assert (Hin : input_old (C_new 1 2) full_file 1 (fun _ => Ok (PI / 2)) (fun _ => Ok (PI / 2))) by (apply one_old_input; try lra; apply PI2_pos).
  rewrite C_2 in Hin.
  split; [exact Hin|]. split; [exact Hb|]. split; [exact He|]. destruct (old_slbw 2 sort full_file 1 _ _ Hin s 4 e c fi Hb He) as (_ & _ & -> & _).
  apply full_capture.
Qed.
Lemma full_new epsilon0 cwf : exists s m1 m2,
  input_new 1 2 full_file 1 None 1 (radii1 (Fixed (PI / 2))) 0 /\
  makeLegacyBreitWigner 1 epsilon0 cwf 2 "n" "t" full_file None 1 = Ok (Some s) /\
  legacy_evaluate 1 (legacySLBW 1 epsilon0 cwf) s 4 (fun _ => None) = Ok (Some m1) /\
  legacy_evaluate 1 (legacyMLBW 1 epsilon0 cwf) s 4 (fun _ => None) = Ok (Some m2) /\
  mval m1 (capture_key "n" "t") = unit_limit (k_old (C_new 1 2) 1) 4 (f_lstates full_file).
Proof.
  destruct (one_total 1 epsilon0 cwf 2 "n" "t" (PI / 2) 1 false 0 [full_line] ltac:(lra) ltac:(lra) PI2_pos ltac:(lra)
    ltac:(discriminate) full_lines 4 ltac:(lra) ltac:(lra) (fun _ => None)) as (s & Hb & (m1 & H1) & (m2 & H2)).
  exists s, m1, m2.
  pose proof (one_input 1 2 (PI / 2) 1 false 0 [full_line] ltac:(lra) ltac:(lra) PI2_pos ltac:(lra) ltac:(discriminate)) as Hin.
  split; [exact Hin|]. split; [exact Hb|]. split; [exact H1|]. split; [exact H2|].
  destruct (new_slbw 1 epsilon0 cwf 2 "n" "t" full_file 1 None 1 _ 0 Hin s 4 _ m1 ltac:(lra) Hb H1) as (_ & S2 & _).
  rewrite S2, C_2. cbn [r_P r_phi radii1 radius_at oval]. change (f_SPI full_file) with 0%Z. rewrite full_capture. unfold mval. ring.
Qed.

Lemma over_old_refuted sort : sorts b_g sort -> exists C f A ch sc E s1 e1 c1 f1 s2 e2 c2 f2,
  input_old C f A ch sc /\ open_widths f /\ (forall ls, In ls (f_lstates f) -> coupled (f_SPI f) ls) /\
  bw_build C sort false f ch sc = Ok s1 /\ slbw_evaluate C s1 E = Ok (Some (e1, c1, f1)) /\
  bw_build C sort true f ch sc = Ok s2 /\ mlbw_evaluate C s2 E = Ok (Some (e2, c2, f2)) /\
  unit_limit (k_old C A) E (f_lstates f) < c1 + f1 /\ 4 * unit_limit (k_old C A) E (f_lstates f) < e1 /\
  unit_limit (k_old C A) E (f_lstates f) < c2 + f2 /\ 4 * unit_limit (k_old C A) E (f_lstates f) < e2.
Proof.
  intros Hs. destruct (over_old sort Hs) as (s1 & e1 & c1 & f1 & s2 & e2 & c2 & f2 & H).
  exists 2, over_file, 1, (fun _ => Ok (PI / 2)), (fun _ => Ok (PI / 2)), 4, s1, e1, c1, f1, s2, e2, c2, f2.
  assert (Hin : input_old (C_new 1 2) over_file 1 (fun _ => Ok (PI / 2)) (fun _ => Ok (PI / 2))) by (apply one_old_input; try lra; apply PI2_pos).
  rewrite C_2 in Hin. split; [exact Hin|]. split; [exact over_open|]. split; [exact over_coupled | exact H].
Qed.
Lemma over_new_refuted epsilon0 cwf : exists hbar mn f A rad n E s m1 m2,
  input_new hbar mn f A None 1 rad n /\ open_widths f /\
  makeLegacyBreitWigner hbar epsilon0 cwf mn "n" "t" f None 1 = Ok (Some s) /\
  legacy_evaluate hbar (legacySLBW hbar epsilon0 cwf) s E (fun _ => None) = Ok (Some m1) /\
  legacy_evaluate hbar (legacyMLBW hbar epsilon0 cwf) s E (fun _ => None) = Ok (Some m2) /\
  forall m, m = m1 \/ m = m2 ->
    unit_limit (k_old (C_new hbar mn) A) E (f_lstates f) < mval m (capture_key "n" "t") + mval m (fission_key "n" "t") /\
    4 * unit_limit (k_old (C_new hbar mn) A) E (f_lstates f) < mval m (elastic_key "n" "t").
Proof.
  destruct (over_new epsilon0 cwf) as (s & m1 & m2 & H).
  exists 1, 2, over_file, 1, (radii1 (Fixed (PI / 2))), 0%nat, 4, s, m1, m2.
  split; [apply one_input; try lra; [apply PI2_pos | discriminate]|]. split; [exact over_open | exact H].
Qed.
