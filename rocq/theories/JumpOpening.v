(** Where fission starts from zero the cross sections of the unresolved range jump. *)
From Coq Require Import String List ZArith Reals Lra Lia Bool Sorted.
From Coquelicot Require Import Coquelicot.
From Verif Require Import Outcome QuantumModel QuantumSpec SpinFactorModel HardSphereModel KinematicsModel CoulombModel RMatrixModel ChannelModel BreitWignerModel ListFacts LegacyModel LegacyProofs
  UnresolvedModel UnresolvedSpec UnresolvedProofs UnresolvedTheorems RuleErrorProofs FluctuationTheorems JumpSpec JumpProofs JumpSystem JumpLegacy JumpTheorems OpeningSpec OpeningProofs JumpUnresolvedSpec JumpUnresolved.
Import ListNotations.
Open Scope R_scope.

Lemma average_positive r f : positive_nodes r -> (forall x, 0 < x -> 0 < f x) -> (exists p, In p r /\ 0 < fst p) -> 0 < average r f.
Proof.
  intros N F (p & P & Q). induction r as [|q r IH]; [destruct P|]. rewrite average_cons. assert (N' : positive_nodes r) by (intros z Z; apply N; right; exact Z).
  destruct (N q (or_introl eq_refl)) as [Q1 Q2]. pose proof (F _ Q2) as Q3. assert (A : 0 <= average r f).
  { clear IH P. induction r as [|z r IH]; [apply Rle_refl|]. rewrite average_cons. destruct (N' z (or_introl eq_refl)) as [Z1 Z2]. pose proof (Rmult_le_pos _ _ Z1 (Rlt_le _ _ (F _ Z2))).
    assert (0 <= average r f); [|lra]. apply IH; [|intros y Y; apply N'; right; exact Y]. intros y [<-|Y]; [apply N; left; reflexivity | apply N'; right; exact Y]. }
  destruct P as [->|P]; [pose proof (Rmult_lt_0_compat _ _ Q Q3); lra|]. specialize (IH N' P). pose proof (Rmult_le_pos _ _ Q1 (Rlt_le _ _ Q3)). lra.
Qed.

(** Fission from 2 eV on, with 4 degrees of freedom *)
Definition opening_j : unresolved_jvalue := mkUJ 1 (INR 1) (INR 0) (INR 4) (INR 0) (EnergyDependent [1; 2; 4] [1; 1; 1] [1; 1; 1] [1; 1; 1] [0; 0; 1] [0; 0; 0]).
Definition opening_file : list unresolved_lvalue := [mkUL 0 1 [opening_j]].
Definition opening_table : unresolved_table := mkUTable [mkUnresolved 1 1 1 1 0 0; mkUnresolved 2 1 1 1 0 0; mkUnresolved 4 1 1 1 1 0] (mkData 1 0 4 0)%nat.
Lemma opening_made : makeLegacyUnresolvedTable [1; 4] opening_j = Ok opening_table.
Proof. unfold makeLegacyUnresolvedTable, opening_j. cbn [uj_parameters uj_AMUN uj_AMUG uj_AMUF uj_AMUX bind]. rewrite !to_unsigned_INR by lia. cbn [bind]. apply makeTable_degrees. cbn. repeat split; lia. Qed.
Definition fission_width (e : R) : R := if Rle_dec e 2 then 0 else (e - 2) / 2.
Lemma opening_at e : 1 < e < 4 -> unresolvedAt opening_table e = Ok (Some (mkUnresolved e 1 1 1 (fission_width e) 0)).
Proof.
  intros H. unfold unresolvedAt, opening_table, column_table. cbn [ut_resonances]. unfold fission_width. destruct (Rle_dec e 2).
  - rewrite !line_ok by (cbn; lra). cbn. do 3 f_equal; field.
  - rewrite (line_next ur_spacing), (line_next ur_elastic), (line_next ur_capture), (line_next ur_fission), (line_next ur_competition) by (cbn; lra). rewrite !line_ok by (cbn; lra). cbn. do 3 f_equal; field.
Qed.
Section Witness.
Variables (epsilon0 : R) (cwf : nat -> R -> R -> outcome coulomb).
Variable pr : particlePair.
Hypotheses (Mu : pp_reduced pr = Some (1 * (1 * 1) / (1 + 1 * 1))) (Ratio : pp_ratio pr = Some (1 * 1 / (1 + 1 * 1))).
Hypotheses (Charge : p_charge (pp_particle pr) = 0) (Spin : p_spin (pp_particle pr) = 1%Z) (Spin' : p_spin (pp_residual pr) = 0%Z).
Let c : channel := makeChannel Neutron pr pr (pp_id pr) 0 (mkQ 0 1 1 (natural_parity 0)) (radii1 (Fixed 1)) 0.
Let u : unresolved_group := mkUGroup c opening_table.
Let s : unresolved_system := mkUSystem [u] 0.
Let ckey := legacyKey c "capture".
Let w (e : R) : R := waveNumber 1 (1 * (1 * 1) / (1 + 1 * 1)) (1 * 1 / (1 + 1 * 1)) 0 e.
Let h (e : R) : R := 2 * pi_value * pi_value / (w e * w e) * spinFactor c / 1 * (sqrt e * 1).
Lemma w_ok e : channelWaveNumber 1 c e = Some (w e).
Proof. unfold channelWaveNumber. unfold c at 1 2. cbn [c_pair c_incident makeChannel]. rewrite Mu, Ratio. reflexivity. Qed.
Lemma w_pos e : 0 < e -> 0 < w e.
Proof. intros H. unfold w, waveNumber. apply Rdiv_lt_0_compat; [|lra]. apply sqrt_lt_R0. rewrite Rabs_pos_eq; lra. Qed.
Lemma neutral_c : neutral c.
Proof. split; [reflexivity|]. cbn. rewrite Charge. ring. Qed.
Lemma spin_one : spinFactor c = 1.
Proof. unfold spinFactor. cbn. rewrite Spin, Spin'. unfold statisticalSpinFactor, spin_value. cbn. field. Qed.
Lemma keys x y : legacy_key_eqb (legacyKey c x) (legacyKey c y) = String.eqb x y.
Proof. unfold legacy_key_eqb, legacyKey. rewrite !String.eqb_refl. reflexivity. Qed.
Lemma capture_at e m : 1 < e < 4 -> exists i m', calculateFluctuationIntegrals (mkData (sqrt e) 1 (fission_width e) 0) (mkData 1 0 4 0)%nat = Ok (Some i) /\
  unresolved_system_evaluate 1 epsilon0 cwf s e m = Ok (Some m') /\ mval m' ckey = mval m ckey + h e * d_capture i.
Proof.
  intros H. pose proof (w_pos e ltac:(lra)) as W. pose proof (sqrt_lt_R0 e ltac:(lra)) as S0.
  assert (F0 : 0 <= fission_width e) by (unfold fission_width; destruct (Rle_dec e 2); lra).
  destruct (code_value (mkData 1 0 4 0)%nat ltac:(cbn; lia) (sqrt e) 1 (fission_width e) 0 S0 ltac:(lra) F0 ltac:(lra) ltac:(cbn; lia) ltac:(cbn; lia)) as (_ & _ & _ & i & Hi & _).
  unfold unresolved_system_evaluate, s. cbn [uy_groups uy_lmax foldM]. unfold unresolved_evaluate, u. cbn [ug_channel ug_table].
  unfold channelPenetrability, channelPhaseShift, channelFunction. rewrite w_ok, (neutral_eta 1 epsilon0 c e neutral_c). change (c_type c) with Neutron. change (ql (c_numbers c)) with 0%nat. change (r_P (c_radii c)) with (Fixed 1). change (r_phi (c_radii c)) with (Fixed 1).
  cbn [radius_at bind calculatePenetrability calculatePhaseShift penetrability_neutron phase_neutron omap]. rewrite (opening_at e H). cbn [bind].
  rewrite (fdiv_ok (2 * pi_value * pi_value) (w e * w e)) by nra. unfold unresolvedWidths. rewrite fdiv_ok by lra. unfold fsqrt. destruct (Rlt_dec e 0); [lra|].
  cbn [ur_elastic ur_capture ur_fission ur_competition ur_spacing ut_degrees opening_table d_elastic].
  replace (1 * sqrt e * (INR 1 * (w e * 1) / (w e * 1))) with (sqrt e) by (cbn; field; lra). rewrite Hi. cbn [bind]. unfold unresolvedElastic, unresolvedReaction. rewrite !(fdiv_ok _ 1) by lra. cbn [d_elastic d_capture d_fission].
  cbn [potential phase_neutron bind]. rewrite fdiv_ok by nra. eexists. eexists. split; [reflexivity|]. split; [reflexivity|].
  assert (K : forall b (m1 m2 : legacy_map) key, mval (if b : bool then m1 else m2) key = if b then mval m1 key else mval m2 key) by (intros []; reflexivity).
  unfold ckey. rewrite mval_accumulate, K, !mval_accumulate, !keys. cbn [String.eqb Ascii.eqb Bool.eqb]. unfold h. destruct (nonzero (fission_width e)); ring.
Qed.
Lemma h_continuous : continuity_pt h 2.
Proof.
  assert (W : continuity_pt w 2).
  { destruct (channel_wave 1 c 2 (w 2) (w_ok 2)) as (w' & C & K & _). apply (continuity_pt_ext w'); [|apply C]. intros e. specialize (K e). rewrite w_ok in K. injection K as ->. reflexivity. }
  assert (S : continuity_pt sqrt 2) by (apply continuity_pt_sqrt; lra). pose proof (w_pos 2 ltac:(lra)). unfold h. apply c_mult; [|auto with cont]. apply c_div; [|auto with cont|lra]. apply c_mult; [|auto with cont]. apply c_div; [auto with cont | auto with cont | nra].
Qed.
Lemma h_positive : 0 < h 2.
Proof.
  unfold h. rewrite spin_one. pose proof (w_pos 2 ltac:(lra)) as W. pose proof (Rmult_lt_0_compat _ _ W W) as WW. pose proof (sqrt_lt_R0 2 ltac:(lra)) as S.
  apply Rmult_lt_0_compat; [|lra]. rewrite Rdiv_1, Rmult_1_r. apply Rdiv_lt_0_compat; [unfold pi_value; lra | exact WW].
Qed.
(** The capture integral above 2 eV as a function that is continuous there *)
Let r1 := chi2_rule 1. Let r4 := chi2_rule 4.
Let q (e : R) : R := average3 r1 r4 constant_rule (fun a b c => a / total_width (sqrt e) 1 ((e - 2) / 2) 0 a b c).
Let c0 : R := average r1 (fun a => a / (a * sqrt 2 + 1)).
Lemma nodes1 : positive_nodes r1. Proof. apply nodes_positive. lia. Qed.
Lemma nodes4 : positive_nodes r4. Proof. apply nodes_positive. lia. Qed.
Lemma nodes0 : positive_nodes constant_rule. Proof. intros p [<-|[]]. cbn. lra. Qed.
Lemma q_continuous : continuity_pt q 2.
Proof.
  pose proof (sqrt_lt_R0 2 ltac:(lra)). apply (quotient_continuous sqrt (fun _ => 1) (fun e => (e - 2) / 2) (fun _ => 0) 2 r1 r4 constant_rule) with (u := fun a b c => a); try lra; auto with cont; [apply continuity_pt_sqrt; lra | | apply nodes1 | apply nodes4 | apply nodes0].
  apply c_div; [auto with cont | auto with cont | lra].
Qed.
Lemma q_two : q 2 = rule_sum 4 * c0.
Proof.
  unfold q, c0, average3. rewrite <- (mass_sum 4 ltac:(lia)). fold r4. apply average_factor. intros a.
  assert (A : forall b, average constant_rule (fun c => a / total_width (sqrt 2) 1 ((2 - 2) / 2) 0 a b c) = a / (a * sqrt 2 + 1)).
  { intros b. unfold constant_rule, average. cbn. unfold total_width. replace (a * sqrt 2 + 1 + b * ((2 - 2) / 2) + 1 * 0) with (a * sqrt 2 + 1) by field. ring. }
  rewrite <- average_constant. unfold average at 1 3. f_equal. apply map_ext. intros p. rewrite A. reflexivity.
Qed.
Lemma c0_positive : 0 < c0.
Proof.
  apply average_positive; [apply nodes1 | | exists (1.1120413e-1, 3.0013465e-3); split; [left; reflexivity | cbn; lra]].
  intros x X. pose proof (sqrt_lt_R0 2 ltac:(lra)). apply Rdiv_lt_0_compat; [exact X | nra].
Qed.
Lemma capture_below i : calculateFluctuationIntegrals (mkData (sqrt 2) 1 (fission_width 2) 0) (mkData 1 0 4 0)%nat = Ok (Some i) -> d_capture i = c0.
Proof.
  intros Hi. pose proof (sqrt_lt_R0 2 ltac:(lra)) as S. assert (Z : fission_width 2 = 0) by (unfold fission_width; destruct (Rle_dec 2 2); lra). rewrite Z in Hi.
  destruct (code_value (mkData 1 0 4 0)%nat ltac:(cbn; lia) (sqrt 2) 1 0 0 S ltac:(lra) ltac:(lra) ltac:(lra) ltac:(cbn; lia) ltac:(cbn; lia)) as (_ & _ & _ & j & Hj & _ & J & _).
  rewrite Hi in Hj. injection Hj as <-. rewrite J. unfold width_rule. destruct (Req_EM_T 0 0); [|lra]. unfold I_capture, average3, c0. cbn [d_elastic]. fold r1. unfold average at 1 4. f_equal. apply map_ext. intros p. f_equal.
  unfold constant_rule, average, total_width. cbn. rewrite !Rmult_0_r, !Rplus_0_r. ring.
Qed.
Lemma capture_above e i : 2 < e < 4 -> calculateFluctuationIntegrals (mkData (sqrt e) 1 (fission_width e) 0) (mkData 1 0 4 0)%nat = Ok (Some i) -> d_capture i = q e.
Proof.
  intros H Hi. pose proof (sqrt_lt_R0 e ltac:(lra)) as S. assert (Z : fission_width e = (e - 2) / 2) by (unfold fission_width; destruct (Rle_dec e 2); lra). rewrite Z in Hi.
  destruct (code_value (mkData 1 0 4 0)%nat ltac:(cbn; lia) (sqrt e) 1 ((e - 2) / 2) 0 S ltac:(lra) ltac:(lra) ltac:(lra) ltac:(cbn; lia) ltac:(cbn; lia)) as (_ & _ & _ & j & Hj & _ & J & _).
  rewrite Hi in Hj. injection Hj as <-. rewrite J. unfold width_rule. destruct (Req_EM_T 0 0); [|lra]. destruct (Req_EM_T ((e - 2) / 2) 0); [lra|]. reflexivity.
Qed.
Theorem jumps m : ~ no_jump_map (fun e => unresolved_system_evaluate 1 epsilon0 cwf s e m) 2.
Proof.
  intros (m0 & M0 & J). destruct (capture_at 2 m ltac:(lra)) as (i & m0' & Hi & M0' & V0). rewrite M0 in M0'. injection M0' as <-. rewrite (capture_below i Hi) in V0.
  pose proof h_positive as HP. pose proof c0_positive as CP. set (gap := (rule_sum 4 - 1) * (h 2 * c0)). assert (G : 0 < gap) by (unfold gap; apply Rmult_lt_0_compat; [cbn; lra | apply Rmult_lt_0_compat; assumption]).
  destruct (J ckey (gap / 2) ltac:(lra)) as (d1 & D1 & A1). assert (C : continuity_pt (fun e => h e * q e) 2) by (apply c_mult; [apply h_continuous | apply q_continuous]).
  destruct (near_value _ 2 (gap / 2) C ltac:(lra)) as [d2 A2]. pose proof (cond_pos d2) as D2. set (e := 2 + Rmin (Rmin d1 d2) 1 / 2).
  pose proof (Rmin_l (Rmin d1 d2) 1). pose proof (Rmin_r (Rmin d1 d2) 1). pose proof (Rmin_l d1 d2). pose proof (Rmin_r d1 d2). pose proof (Rmin_glb_lt _ _ _ (Rmin_glb_lt _ _ _ D1 D2) Rlt_0_1) as D0.
  assert (B : 2 < e < 4) by (unfold e; lra). assert (B1 : Rabs (e - 2) < d1) by (rewrite Rabs_pos_eq; unfold e; lra). assert (B2 : Rabs (e - 2) < d2) by (rewrite Rabs_pos_eq; unfold e; lra).
  destruct (A1 e B1) as (m1 & M1 & K1). pose proof (A2 e B2) as K2. destruct (capture_at e m ltac:(lra)) as (j & m1' & Hj & M1' & V1). rewrite M1 in M1'. injection M1' as <-. rewrite (capture_above e j B Hj) in V1.
  rewrite V0, V1 in K1. cbv beta in K2. rewrite q_two in K2. apply Rabs_def2 in K1, K2. unfold gap in *. lra.
Qed.
End Witness.
Theorem fission_opening epsilon0 cwf m : exists s m', makeLegacyUnresolvedSystem 1 "n" "t" 0 1 None 1 None 1 4 opening_file = Ok s /\
  unresolved_system_evaluate 1 epsilon0 cwf s 2 m = Ok (Some m') /\ ~ no_jump_map (fun e => unresolved_system_evaluate 1 epsilon0 cwf s e m) 2.
Proof.
  unfold makeLegacyUnresolvedSystem, opening_file. cbn [ul_AWRI]. destruct (legacyPair_ok 1 ltac:(lra) "n" "t" 1 0 ltac:(lra)) as (pr & -> & Mu & Ra & Ch & _ & S1 & S2 & _). cbn [bind makeChannelRadii mapM].
  unfold makeLegacyUnresolvedGroups. cbn [ul_jvalues mapM ul_L]. cbv zeta. rewrite opening_made. cbn [bind concat app]. change (uj_AJ opening_j) with 1%Z.
  destruct (capture_at epsilon0 cwf pr Mu Ra Ch 2 m ltac:(lra)) as (i & m' & _ & M & _). eexists. exists m'. split; [unfold makeUnresolvedSystem, unresolvedVerify; cbn; reflexivity|].
  split; [exact M | exact (jumps epsilon0 cwf pr Mu Ra Ch S1 S2 m)].
Qed.
