(** Files that are written in the three formats. *)
From Coq Require Import String List ZArith Reals Bool Lra Lia Epsilon.
From Verif Require Import Outcome QuantumModel QuantumSpec HardSphereModel HardSphereSpec HardSphereProofs KinematicsModel CoulombModel Cplx RMatrixModel ChannelModel SpinGroupModel
  BreitWignerModel BreitWignerSpec BreitWignerProofs BreitWignerSystemProofs BreitWignerTheorems BreitWignerCases ReichMooreModel ReichMooreSpec ReichMooreCases LegacyModel LegacyProofs LegacySystemProofs ListFacts
  GridModel AssemblyModel EndfModel EndfSpec EndfFlagProofs EndfReichMooreProofs EndfTheorems ReconstructionTheorems NewerFacts NewerRMSpec NewerWhole NewerTheorems NewerFrom LegacyTotalSpec LegacyTotal FormatsSpec FormatsProofs FormatsFrom.
Import ListNotations.
Open Scope R_scope.

Lemma k4 : k_old (C_new 2 2) 1 4 = 1.
Proof. rewrite C_one. exact k_4. Qed.
Lemma k_neg : k_old (C_new 2 2) 1 (-4) = 1.
Proof. pose proof k4 as H. unfold k_old in *. rewrite (Rabs_left (-4)) by lra. rewrite (Rabs_right 4) in H by lra. replace (- -4) with 4 by lra. exact H. Qed.
Lemma k_1 : k_old (C_new 2 2) 1 1 = 1 / 2.
Proof. pose proof k4 as H. unfold k_old in *. rewrite Rabs_right in * by lra. rewrite sqrt_1. replace (sqrt 4) with 2 in H by (symmetry; replace 4 with (2 * 2) by lra; apply sqrt_square; lra). lra. Qed.

(** A resonance for l = 0, with fission, and one for l = 1 *)
Section Case.
Variable er : R.
Hypothesis Her : er <> 0 /\ er <> 4 /\ er <> 5.
Definition bw_0 : bw_lstate := mkLState 0 1 false 0 [mkLine 5 1 1 1 3 0].
Definition bw_1 : bw_lstate := mkLState 1 1 false 0 [mkLine er 3 1 1 0 0].
Definition bw_pair : bw_file := mkFile 0 1 [bw_0; bw_1].
Definition rm_0 : rm_lstate := mkRMState 0 1 0 [mkRMLine 5 1 1 1 (-2) 1].
Definition rm_1 : rm_lstate := mkRMState 1 1 1 [mkRMLine er 3 1 1 0 0].
Definition rm_pair : rm_file := mkRMFile 0 1 [rm_0; rm_1].
Let rad := radii1 (Fixed 1).

Lemma same_pair : same_file bw_pair rm_pair.
Proof.
  constructor; [reflexivity | reflexivity|]. cbn. apply Forall2_cons; [|apply Forall2_cons; [|constructor]].
  - constructor; [reflexivity | reflexivity | left; reflexivity | | repeat constructor; intros []].
    cbn. apply Forall2_cons; [|constructor]. constructor; cbn; try reflexivity; try lra. rewrite (Rabs_left (-2)), (Rabs_right 1) by lra. lra.
  - constructor; [reflexivity | reflexivity | right; reflexivity | | repeat constructor; intros []].
    cbn. apply Forall2_cons; [|constructor]. constructor; cbn; try reflexivity; try lra. rewrite Rabs_R0. lra.
Qed.
Lemma bw_pair_input : input_new 2 2 bw_pair 1 None 1 rad 1.
Proof.
  constructor; cbn; try lra; try reflexivity.
  - unfold is_spin; lia.
  - intros e r H. injection H as <-. lra.
  - intros e r H. injection H as <-. lra.
  - intros l [<-|[<-|[]]]; reflexivity.
  - intros l [<-|[<-|[]]]; discriminate.
Qed.
Lemma rm_pair_input : newer_input 2 rm_pair 1 None 1 (fun _ => rad) rad.
Proof.
  constructor.
  - lra.
  - intros ls [<-|[<-|[]]]; reflexivity.
  - cbn. unfold is_spin. lia.
  - intros ls [<-|[<-|[]]]; unfold or_ap; cbn; [destruct (Req_EM_T 0 0)|destruct (Req_EM_T 1 0)]; try congruence; try lra; (split; [lra|]); cbn; auto.
  - split; [cbn; lra | cbn; auto].
  - discriminate.
  - intros J even. unfold of_wave, rm_pair. destruct even; cbn [rf_lstates filter rm_0 rm_1 rs_L Nat.even Bool.eqb]; cbn [map concat rs_lines]; rewrite ?app_nil_r; apply filter_nodup; cbn;
      repeat constructor; cbn; intros H; repeat destruct H as [H|H]; lra || contradiction.
Qed.
Lemma rm_pair_sensible : sensible rm_pair 2 None 1.
Proof.
  constructor; cbn; try lia; try lra; try discriminate; try (unfold is_spin; lia).
  - intros ls [<-|[<-|[]]]; cbn; lra.
  - intros ls [<-|[<-|[]]]; cbn; lia.
  - intros ls [<-|[<-|[]]]; cbn; lra.
  - intros ls r [<-|[<-|[]]]; cbn; intros [<-|[]]; cbn; lra.
  - exists [mkQ 0 1 1 1; mkQ 1 1 3 (-1)]. split; [|split].
    + repeat constructor; cbn; intros H; repeat destruct H as [H|H]; try discriminate; contradiction.
    + intros q [<-|[<-|[]]]; number.
    + cbn. repeat constructor.
Qed.
Lemma bw_pair_channels : own_channels bw_pair 2.
Proof.
  exists [mkQ 0 1 1 1; mkQ 1 1 3 (-1)]. split; [|split].
  - repeat constructor; cbn; intros H; repeat destruct H as [H|H]; try discriminate; contradiction.
  - intros q [<-|[<-|[]]]; number.
  - cbn. repeat constructor.
Qed.
Lemma bw_pair_fine : ~ opposite_spins bw_pair.
Proof. intros (ls & x & y & [<-|[<-|[]]] & Hx & Hy & _ & N); cbn in Hx, Hy; destruct Hx as [<-|[]], Hy as [<-|[]]; apply N; reflexivity. Qed.
Lemma bw_pair_usable : lines_usable bw_pair rad.
Proof. intros ls x [<-|[<-|[]]]; cbn; intros [<-|[]]; cbn; (split; [lra|]); (split; [eexists; reflexivity | discriminate]). Qed.
Lemma rm_pair_fine : ~ clash rm_pair.
Proof.
  unfold fissile; intros [(ls & r & r' & H & A & B & C & D & E & F)|(a & ls & b & ls' & c & r & r' & H & L & _)].
  - destruct H as [<-|[<-|[]]]; cbn in A, B; destruct A as [<-|[]], B as [<-|[]]; apply F; reflexivity.
  - cbn in H. destruct a as [|x [|y a]]; cbn in H.
    + injection H as <- H. destruct b as [|z b]; [injection H as <- _; discriminate|]. injection H as _ H. destruct b; discriminate.
    + injection H as _ _ H. destruct b; discriminate.
    + injection H as _ _ H. destruct a; discriminate.
Qed.

Lemma bw_pair_off : off_axis 2 2 bw_pair 1 rad 4.
Proof.
  intros ls x Hls Hx Q. assert (T : w_T (level_of (k_old (C_new 2 2) 1) (fun e => oval (radius_at (r_P rad) e)) 4 q_new ls x) <> 0).
  { assert (P : forall l e, e <> 0 -> 0 < P_at (k_old (C_new 2 2) 1) (fun e => oval (radius_at (r_P rad) e)) l e).
    { intros l e He. unfold P_at. apply ReichMooreProofs.P_spec_pos. cbn. rewrite Rmult_1_r. apply k_old_pos; [rewrite C_one; lra | lra | exact He]. }
    pose proof (P 0%nat 4 ltac:(lra)) as P1. pose proof (P 0%nat 5 ltac:(lra)) as P2. pose proof (P 1%nat 4 ltac:(lra)) as P3. pose proof (P 1%nat er ltac:(tauto)) as P4.
    destruct Hls as [<-|[<-|[]]]; cbn in Hx; destruct Hx as [<-|[]]; unfold level_of; cbn [w_T bw_0 bw_1 ls_L ls_LRX ln_GN ln_GG ln_GF ln_ER].
    - assert (0 < 1 * P_at (k_old (C_new 2 2) 1) (fun e => oval (radius_at (r_P rad) e)) 0 4 / P_at (k_old (C_new 2 2) 1) (fun e => oval (radius_at (r_P rad) e)) 0 5) by (apply Rdiv_lt_0_compat; lra). lra.
    - assert (0 < 1 * P_at (k_old (C_new 2 2) 1) (fun e => oval (radius_at (r_P rad) e)) 1 4 / P_at (k_old (C_new 2 2) 1) (fun e => oval (radius_at (r_P rad) e)) 1 er) by (apply Rdiv_lt_0_compat; lra). lra. }
  pose proof (norm2_pole_pos 4 _ T) as N. unfold C_new in *. lra.
Qed.

Section Run.
Variables (epsilon0 : R) (cwf : nat -> R -> R -> outcome coulomb) (elementaryCharge : R)
  (products : Z -> outcome (string * string)) (multiRegion : endf_radius -> outcome (R -> outcome R)) (initial : forall g, cache (gsize g)).
Definition r_slbw := mkERange 1 10 1 1 1 None (ParametersSLBW bw_pair).
Definition r_mlbw := mkERange 1 10 1 2 1 None (ParametersMLBW bw_pair).
Definition r_rm := mkERange 1 10 1 3 1 None (ParametersReichMoore rm_pair 2).
Let from := fromENDF 2 epsilon0 cwf 2 elementaryCharge "n" "t" products multiRegion initial.
Lemma legacy_pair : exists s m1 m2, makeLegacyBreitWigner 2 epsilon0 cwf 2 "n" "t" bw_pair None 1 = Ok (Some s) /\
  legacy_evaluate 2 (legacySLBW 2 epsilon0 cwf) s 4 (fun _ => None) = Ok (Some m1) /\ legacy_evaluate 2 (legacyMLBW 2 epsilon0 cwf) s 4 (fun _ => None) = Ok (Some m2).
Proof.
  destruct (proj1 (legacy_made 2 epsilon0 cwf 2 "n" "t" bw_pair 1 None 1 rad 1 bw_pair_input ltac:(lia) bw_pair_usable bw_pair_channels) bw_pair_fine) as (s & Hs).
  destruct (legacy_evaluates 2 epsilon0 cwf 2 "n" "t" bw_pair 1 None 1 rad 1 bw_pair_input ltac:(lia) bw_pair_usable 4 ltac:(lra) ltac:(eexists; reflexivity) ltac:(eexists; reflexivity)
    ltac:(intros ls [<-|[<-|[]]]; cbn; lra) s (fun _ => None) Hs) as [A B].
  destruct (proj1 A bw_pair_off) as (m1 & H1). destruct (proj1 B bw_pair_off) as (m2 & H2). exists s, m1, m2. auto.
Qed.
Lemma matrix_pair : exists gs gs' m, makeReichMooreCompoundSystem 2 epsilon0 cwf 2 "n" "t" rm_pair 2 None 1 = Ok (Some gs) /\
  evaluateSystem 2 epsilon0 cwf ShiftFactor (fresh initial gs) 4 (fun _ => None) = Ok (Some (gs', m)).
Proof.
  destruct (sensible_made 2 epsilon0 cwf 2 "n" "t" ltac:(lra) ltac:(lra) rm_pair 2 None 1 rm_pair_sensible ltac:(cbn; repeat split; discriminate) ltac:(cbn; repeat split; discriminate)) as [H _].
  destruct (H rm_pair_fine) as (gs & Hgs). exists gs.
  assert (Hobj : map (@projT1 _ _) (fresh initial gs) = gs) by (unfold fresh; rewrite map_map; cbn [projT1]; apply map_id).
  destruct (newer_evaluates 2 epsilon0 cwf 2 "n" "t" ltac:(lra) ltac:(lra) rm_pair 1 None 1 (fun _ => rad) rad rm_pair_input 4 ltac:(lra) 2%nat gs (fresh initial gs) (fun _ => None) Hgs Hobj ltac:(discriminate)) as [S _].
  destruct S as (gs' & m' & Ev).
  - split; [lia|]. intros ls x [<-|[<-|[]]]; cbn; intros Hx; repeat destruct Hx as [<-|Hx]; try contradiction; cbn; right; lra.
  - exists gs', m'. auto.
Qed.
Lemma all_three : exists rc1 rc2 rc3 o1 o2 o3, from r_slbw = Ok (Some rc1) /\ from r_mlbw = Ok (Some rc2) /\ from r_rm = Ok (Some rc3) /\
  reconstruct 2 epsilon0 cwf rc1 4 = Ok (Some o1) /\ reconstruct 2 epsilon0 cwf rc2 4 = Ok (Some o2) /\ reconstruct 2 epsilon0 cwf rc3 4 = Ok (Some o3).
Proof.
  destruct legacy_pair as (s & m1 & m2 & Hs & H1 & H2). destruct matrix_pair as (gs & gs' & m & Hg & Hm).
  unfold from, r_slbw, r_mlbw, r_rm, fromENDF, reconstructorOf; cbn [er_radius er_LRU er_LRF er_parameters er_NAPS er_lower er_upper makeChannelRadiusTable bind Z.eqb Pos.eqb].
  rewrite Hs, Hg. cbn [bind omap]. do 6 eexists.
  split; [reflexivity|]. split; [reflexivity|]. split; [reflexivity|].
  rewrite !in_range by (cbn; lra); cbn [rc_system evaluateCompound]. rewrite H1, H2. 
  split; [reflexivity|]. split; [reflexivity|]. rewrite Hm. reflexivity.
Qed.
End Run.
End Case.

(** * A p-wave resonance *)
Lemma P_1 rho : 0 < rho -> P_spec 1 rho = rho * (rho * rho) / (1 + rho * rho).
Proof. intros H. pose proof (penetrability_code 1 rho H ltac:(lia)) as E. cbn in E. injection E as E. symmetry. exact E. Qed.
Lemma S_1 rho : 0 < rho -> S_spec 1 rho = - 1 / (1 + rho * rho).
Proof. intros H. pose proof (shift_code 1 rho H ltac:(lia)) as E. cbn in E. injection E as E. symmetry. exact E. Qed.
Let k := k_old (C_new 2 2) 1.
Let a (e : R) := oval (radius_at (r_P (radii1 (Fixed 1))) e).
Lemma moved_capture phi : newer_capture k 4 0 (fun _ => a) phi (rf_lstates (rm_pair 1)) - BW_capture k a 4 q_new 0 (f_lstates (bw_pair 1)) = barns k 4 * (10 / 18 - 40 / 117).
Proof.
  assert (HE : 0 < k 4 * a 4) by (unfold k, a; rewrite k4; cbn; lra).
  assert (Q5 : 0 < k 5 * a 5) by (unfold k, a; cbn; rewrite Rmult_1_r; apply k_old_pos; [rewrite C_one|..]; lra).
  assert (Q1 : 0 < k 1 * a 1) by (unfold k, a; rewrite k_1; cbn; lra).
  pose proof (sm_ls _ _ (same_pair 1 ltac:(lra))) as F. inversion F as [|? ? ? ? S0 F']; subst. inversion F' as [|? ? ? ? S1 _]; subst.
  unfold newer_capture, BW_capture. cbn [rf_lstates rm_pair f_lstates bw_pair map].
  rewrite <- (l_capture k a 4 0 (phi rm_0) bw_0 rm_0 1 (fixed_level k a 4 bw_0) S0 HE (fun _ _ => eq_refl)) by (cbn; intros x [<-|[]]; cbn; first [exact Q5 | left; lra]).
  rewrite <- (l_capture k a 4 0 (phi (rm_1 1)) (bw_1 1) (rm_1 1) 1 (fixed_level k a 4 (bw_1 1)) S1 HE (fun _ _ => eq_refl)) by (cbn; intros x [<-|[]]; cbn; first [exact Q1 | left; lra]).
  assert (E0 : capture_sum 4 (g_of 0) (fixed_level k a 4 bw_0) (ls_lines bw_0) = capture_sum 4 (g_of 0) (level_of k a 4 q_new bw_0) (ls_lines bw_0)).
  { unfold capture_sum. f_equal. apply map_ext. intros x. rewrite (unmoved_level k a 4 q_new bw_0 x eq_refl (or_introl eq_refl)). reflexivity. }
  assert (EP1 : P_at k a 1 4 = 1 / 2) by (unfold P_at, k, a; rewrite k4, P_1; cbn; lra).
  assert (EP2 : P_at k a 1 1 = 1 / 10) by (unfold P_at, k, a; rewrite k_1, P_1; cbn; lra).
  assert (ES1 : S_at k a 1 4 = - 1 / 2) by (unfold S_at, k, a; rewrite k4, S_1; cbn; lra).
  assert (ES2 : S_at k a 1 1 = - 4 / 5) by (unfold S_at, k, a; rewrite k_1, S_1; cbn; lra).
  assert (E1 : capture_sum 4 (g_of 0) (fixed_level k a 4 (bw_1 1)) (ls_lines (bw_1 1)) = 10 / 18).
  { unfold capture_sum. cbn [map bw_1 ls_lines]. rewrite Rsum_cons', Rsum_nil. unfold fixed_level, reaction. cbn [bw_1 ls_L ln_ER ln_GN ln_GG ln_GF w_n w_c].
    rewrite EP1, EP2, norm2_pole. cbn [w_E w_T]. unfold g_of, abs_J, g_neutron. cbn [ln_AJ Z.abs]. field; lra. }
  assert (E2 : capture_sum 4 (g_of 0) (level_of k a 4 q_new (bw_1 1)) (ls_lines (bw_1 1)) = 40 / 117).
  { unfold capture_sum. cbn [map bw_1 ls_lines]. rewrite Rsum_cons', Rsum_nil. unfold level_of, reaction. cbn [bw_1 ls_L ls_LRX ln_ER ln_GN ln_GG ln_GF w_n w_c].
    rewrite EP1, EP2, ES1, ES2, norm2_pole. cbn [w_E w_T]. unfold g_of, abs_J, g_neutron. cbn [ln_AJ Z.abs]. field; lra. }
  rewrite !Rsum_cons', !Rsum_nil, E0, E1, E2. ring.
Qed.
Section Differ.
Variables (epsilon0 : R) (cwf : nat -> R -> R -> outcome coulomb) (elementaryCharge : R)
  (products : Z -> outcome (string * string)) (multiRegion : endf_radius -> outcome (R -> outcome R)) (initial : forall g, cache (gsize g)).
Let from := fromENDF 2 epsilon0 cwf 2 elementaryCharge "n" "t" products multiRegion initial.
Lemma p_wave : exists rc1 rc3 el1 ca1 fi1 el3 ca3 fi3, from (r_slbw 1) = Ok (Some rc1) /\ from (r_rm 1) = Ok (Some rc3) /\ legacy_gives 2 epsilon0 cwf "n" "t" rc1 4 el1 ca1 fi1 /\ matrix_gives 2 epsilon0 cwf "n" "t" rc3 4 el3 ca3 fi3 /\ ca1 < ca3.
Proof.
  destruct (all_three 1 ltac:(lra) epsilon0 cwf elementaryCharge products multiRegion initial) as (rc1 & rc2 & rc3 & o1 & o2 & [rc3' o3] & F1 & F2 & F3 & O1 & O2 & O3).
  destruct (from_slbw 2 epsilon0 cwf 2 elementaryCharge "n" "t" products multiRegion initial (r_slbw 1) (bw_pair 1) None rc1 4 o1 1 (radii1 (Fixed 1)) 1 eq_refl eq_refl eq_refl eq_refl (bw_pair_input 1 ltac:(lra)) ltac:(lra) F1 ltac:(cbn; lra) O1) as (S1 & S2 & S3).
  set (phi l := proj1_sig (Epsilon.constructive_indefinite_description _ (polar l (k 4 * 1)))).
  assert (Hphi : forall l, is_phase l (k 4 * 1) (phi l)) by (intros l; exact (proj2_sig (Epsilon.constructive_indefinite_description _ (polar l (k 4 * 1))))).
  destruct (from_reich_moore 2 epsilon0 cwf 2 elementaryCharge "n" "t" products multiRegion initial ltac:(lra) ltac:(lra) (r_rm 1) (rm_pair 1) 2 None rc3 4 rc3' o3 1 (fun _ => radii1 (Fixed 1)) (radii1 (Fixed 1)) (fun ls => phi (rs_L ls)) phi
    eq_refl eq_refl eq_refl eq_refl (rm_pair_input 1 ltac:(lra)) ltac:(lra) F3 ltac:(cbn; lra) O3 (fun ls _ => Hphi (rs_L ls)) (fun l _ => Hphi l)) as (m & -> & N1 & N2 & N3 & _).
  do 8 eexists. split; [exact F1|]. split; [exact F3|]. split; [exact (Logic.conj S1 (Logic.conj S2 S3))|]. split.
  - exists rc3', m. split; [exact O3|]. split; [exact N1|]. split; [exact N3 | exact N2].
  - pose proof (moved_capture (fun ls => phi (rs_L ls))) as D. cbn [rf_SPI rm_pair f_SPI bw_pair].
    assert (B : 0 < barns k 4) by (unfold barns, k, pi_value; rewrite k4; lra).
    set (X := newer_capture _ _ _ _ _ _) in *. set (Y := BW_capture _ _ _ _ _ _) in *. 
    assert (0 < barns k 4 * (10 / 18 - 40 / 117)) by (apply Rmult_lt_0_compat; lra). lra.
Qed.
End Differ.
