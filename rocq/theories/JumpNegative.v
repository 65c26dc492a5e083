(** A level with a negative capture width makes the older Reich-Moore interface jump. *)
From Coq Require Import String List ZArith Reals Lra Lia Bool Permutation Psatz.
From Coquelicot Require Import Coquelicot.
From Verif Require Import Outcome SpinFactorModel HardSphereModel KinematicsModel ChannelModel BreitWignerModel ListFacts BreitWignerProofs BreitWignerSystemProofs Cplx KMatrixModel KMatrixProofs ReichMooreModel JumpSpec JumpProofs JumpSystem JumpTheorems ContinuityProofs JumpMatrix JumpReichMoore.
Import ListNotations.
Open Scope R_scope.

Definition negative_file : rm_file := mkRMFile 0 (3 / 10000) [mkRMState 0 1 0 [mkRMLine 4 1 (1 + 1 / 10000) (-1) 0 0]].
Definition rho (e : R) : R := 1 * (1 / (1 + 1)) * sqrt (Rabs e) * (3 / 10000).
Definition p (e : R) : R := (if Rlt_dec 0 (rho e) then 1 else 0) * rho e * 1 / 1.
Definition level : rm_resonance := makeRM 4 (1 + 1 / 10000) (-1) 0 0 (3 / 10000) 1.
Definition negative_system : rm_system := mkRMSystem [mkRMValue None [level] 0] (1 / (1 + 1)) Both (fun _ => Ok (3 / 10000)) (fun _ => Ok (3 / 10000)).

Lemma root_4 : sqrt (Rabs 4) = 2.
Proof. rewrite Rabs_pos_eq by lra. replace 4 with (2 * 2) by lra. apply sqrt_square. lra. Qed.
Lemma rho_4 : rho 4 = 3 / 10000.
Proof. unfold rho. rewrite root_4. field. Qed.
Lemma p_4 : p 4 = 3 / 10000.
Proof. unfold p. rewrite rho_4. destruct (Rlt_dec 0 (3 / 10000)); lra. Qed.
Lemma negative_made sort : sorts rm_flagged sort -> rm_apply 1 sort negative_file false 1 None = Ok negative_system.
Proof.
  intros H. assert (S1 : forall r, sort [r] = [r]) by (intros r; exact (Permutation_length_1_inv (proj1 (H [r])))).
  assert (B : rm_build_resonance 0 0 (fun e => Ok (3 / 10000 * neutronWaveNumber 1 1 e)) (mkRMLine 4 1 (1 + 1 / 10000) (-1) 0 0) = Ok level).
  { unfold rm_build_resonance. cbn [rl_ER rl_AJ rl_GN rl_GG rl_GFA rl_GFB bind].
    assert (K : 3 / 10000 * neutronWaveNumber 1 1 (Rabs 4) = 3 / 10000). { unfold neutronWaveNumber. rewrite Rabs_Rabsolu, root_4. field. }
    rewrite K. unfold penetrationShift. cbn [Z.of_nat Z.eqb bind fst snd].
    replace ((if Rlt_dec 0 (3 / 10000) then 1 else 0) * (3 / 10000) * 1 / 1) with (3 / 10000) by (destruct (Rlt_dec 0 (3 / 10000)); lra).
    replace (copysign (g_old 0 (Z.abs 1)) 1) with 1; [reflexivity|].
    unfold copysign, g_old, spin_value. cbn [Z.ltb Z.compare Z.abs]. rewrite Rabs_pos_eq; lra. }
  unfold rm_apply, rm_build. cbn [negative_file rf_lstates rs_AWRI mapM rf_SPI rf_AP Z.eqb Pos.eqb].
  unfold rm_build_lvalue. cbn [rs_L rs_APL rs_lines Nat.ltb Nat.leb]. destruct (Req_EM_T 0 0) as [_|N]; [|lra]. cbn [andb mapM omap bind].
  rewrite B. cbn [bind mapM]. unfold rm_order. cbn [map rv_ap rv_resonances rv_l]. rewrite S1. reflexivity.
Qed.

Definition group (e : R) : option (R * R * R * R) := rm_Jgroup e (sqrt (p e)) (rho e) level [level].
Lemma negative_value e a b g : group e = Some (a, b, 0, g) -> g = 1 -> 0 < e ->
  exists f, 0 < f /\ rm_evaluate 1 negative_system e = Ok (Some (b * f, (a - b) * f, 0)).
Proof.
  intros H -> He. unfold rm_evaluate. cbn [negative_system rt_channel rt_scattering rt_lvalues rt_ratio rt_tag bind mapM inspect rv_ap].
  unfold rm_lvalue_call. cbn [rv_l rv_resonances Z.of_nat]. unfold waveNumberOld. fold (rho e).
  unfold penetrationShift, phaseShift. cbn [Z.eqb bind fst snd]. fold (p e). cbn [group_by group_from rev map fst snd]. fold (group e). rewrite H.
  cbn [all_finite fold_left qadd bind]. set (k := 1 * (1 / (1 + 1)) * sqrt (Rabs e)).
  assert (K : 0 < k). { unfold k. rewrite Rabs_pos_eq by lra. pose proof (sqrt_lt_R0 e He). lra. }
  assert (K2 : 0 < k * k) by nra. rewrite (fdiv_ok _ _ (Rgt_not_eq _ _ K2)). exists (pi_value / (k * k)).
  split; [unfold pi_value; apply Rdiv_lt_0_compat; lra|]. cbn [taccumulate fold_left tadd tmul]. do 2 f_equal. cbn [INR]. f_equal; [f_equal|]; ring.
Qed.

(** Its only entry of the K matrix *)
Definition n1 (e : R) : R := (1 + 1 / 10000) * (rho e * (10000 / 3)) * (-1 * / (4 * ((4 - e) * (4 - e)) + 1)).
Definition n2 (e : R) : R := (1 + 1 / 10000) * (rho e * (10000 / 3)) * (-2 * (4 - e) * / (4 * ((4 - e) * (4 - e)) + 1)).
Lemma rho_pos e : 0 < e -> 0 < rho e.
Proof. intros H. unfold rho. rewrite Rabs_pos_eq by lra. pose proof (sqrt_lt_R0 e H). lra. Qed.
Lemma level_width e : 0 < e -> width3 (sqrt (p e)) level 0 * width3 (sqrt (p e)) level 0 = (1 + 1 / 10000) * (rho e * (10000 / 3)).
Proof.
  intros H. pose proof (rho_pos e H) as Hr. assert (P0 : p e = rho e) by (unfold p; destruct (Rlt_dec 0 (rho e)); [field | contradiction]). rewrite P0.
  assert (S : 0 < sqrt (3 / 10000)) by (apply sqrt_lt_R0; lra).
  unfold width3, level, makeRM, fsqrt, frecip. cbn [rm_rootNeutron rm_inverseRoot].
  destruct (Rlt_dec (1 + 1 / 10000) 0); [lra|]. destruct (Rlt_dec (3 / 10000) 0); [lra|]. cbn [ssrbool.is_left]. destruct (Req_EM_T (sqrt (3 / 10000)) 0); [lra|]. cbn [oget ssrfun.Option.default ssrbool.is_left].
  change (sqrt (1 + 1 / 10000) * / sqrt (3 / 10000) * sqrt (rho e) * (sqrt (1 + 1 / 10000) * / sqrt (3 / 10000) * sqrt (rho e)) = (1 + 1 / 10000) * (rho e * (10000 / 3))).
  transitivity (sqrt (1 + 1 / 10000) * sqrt (1 + 1 / 10000) * (sqrt (rho e) * sqrt (rho e)) * / (sqrt (3 / 10000) * sqrt (3 / 10000))); [field; lra|].
  rewrite (sqrt_sqrt (1 + 1 / 10000)), (sqrt_sqrt (rho e)), (sqrt_sqrt (3 / 10000)) by lra. field.
Qed.
Lemma level_finite e : finite3 e level.
Proof.
  assert (S : 0 < sqrt (3 / 10000)) by (apply sqrt_lt_R0; lra).
  unfold finite3, level, makeRM, fsqrt, frecip, den3. cbn [rm_rootNeutron rm_inverseRoot rm_energy rm_capture].
  destruct (Rlt_dec (1 + 1 / 10000) 0); [lra|]. destruct (Rlt_dec (3 / 10000) 0); [lra|]. cbn [ssrbool.is_left]. destruct (Req_EM_T (sqrt (3 / 10000)) 0); [lra|]. cbn [ssrbool.is_left].
  split; [discriminate|]. split; [discriminate|]. pose proof (Rle_0_sqr (4 - e)). unfold Rsqr in *. lra.
Qed.
Lemma level_group e : 0 < e -> exists L, re (L 0%nat 0%nat) = n1 e /\ im (L 0%nat 0%nat) = n2 e /\ group e = solveRfunction L (cos (2 * rho e)) (sin (2 * rho e)) 1 (rho e).
Proof.
  intros H. destruct (@rm_sum_finite [level] e (sqrt (p e)) ltac:(intros r [<-|[]]; apply level_finite) zero3 false) as (L & b & S).
  destruct (@single_sum level e (sqrt (p e)) L b S) as (-> & A & B).
  { intros [N|N]; apply N; unfold level, makeRM; cbn [rm_rootA rm_rootB]; unfold signed_root; rewrite Rabs_R0, sqrt_0; ring. }
  assert (D : den3 e level = 4 * ((4 - e) * (4 - e)) + 1). { unfold den3, level, makeRM. cbn [rm_energy rm_capture]. ring. }
  rewrite (level_width e H), D in A, B. exists L. split; [exact A|]. split; [exact B|].
  unfold group, rm_Jgroup. rewrite S. unfold level at 1, makeRM. cbn [rm_flagged]. rewrite Rabs_R1. reflexivity.
Qed.
Lemma n_4 : n1 4 = - (1 + 1 / 10000) /\ n2 4 = 0.
Proof. unfold n1, n2. rewrite rho_4. split; field. Qed.

(** At 4 the expansion is used and gives a negative total *)
Lemma before : exists a b, group 4 = Some (a, b, 0, 1) /\ a < 0.
Proof.
  destruct (level_group 4 ltac:(lra)) as (L & A & B & G). destruct n_4 as [N1 N2]. rewrite N1 in A. rewrite N2 in B.
  destruct (@single_expands L (cos (2 * rho 4)) (sin (2 * rho 4)) 1 (rho 4)) as (b & S).
  - rewrite single_test, A, rho_4. rewrite Rabs_left by lra. destruct (Rlt_dec _ _); [lra|]. rewrite Rabs_pos_eq by lra. destruct (Rlt_dec _ _); [lra | reflexivity].
  - rewrite A, B. lra.
  - rewrite G, S. eexists. eexists. split; [reflexivity|]. rewrite A, B, rho_4.
    replace (/ ((1 + - (1 + 1 / 10000)) * (1 + - (1 + 1 / 10000)) + 0 * 0)) with 100000000 by field. lra.
Qed.
(** Above 4 it is not used, and the total is positive *)
Definition total (e : R) : R := 1 - (cos (2 * rho e) * (2 * ((1 + n1 e) * / ((1 + n1 e) * (1 + n1 e) + n2 e * n2 e)) - 1) - 2 * (n2 e * / ((1 + n1 e) * (1 + n1 e) + n2 e * n2 e)) * sin (2 * rho e)).
Lemma rho_continuous e : continuity_pt rho e.
Proof. unfold rho. apply c_mult; [apply c_mult; [apply c_const | apply (c_sqrt (fun e => e)), c_id] | apply c_const]. Qed.
Lemma c_inverse f x : continuity_pt f x -> f x <> 0 -> continuity_pt (fun e => / f e) x.
Proof. intros H N. exact (continuity_pt_inv f x H N). Qed.
Lemma n_continuous e : continuity_pt n1 e /\ continuity_pt n2 e.
Proof.
  pose proof (rho_continuous e) as C. assert (D : continuity_pt (fun e => / (4 * ((4 - e) * (4 - e)) + 1)) e).
  { apply c_inverse; [auto 20 with cont|]. pose proof (Rle_0_sqr (4 - e)). unfold Rsqr in *. lra. }
  split; unfold n1, n2; auto 20 with cont.
Qed.
Lemma after : locally 4 (fun e => 4 < e -> exists a b, group e = Some (a, b, 0, 1) /\ 0 < a).
Proof.
  pose proof (rho_continuous 4) as CR. destruct (n_continuous 4) as [C1 C2]. destruct n_4 as [N1 N2].
  set (q := fun e => (1 + n1 e) * (1 + n1 e) + n2 e * n2 e). assert (Cq : continuity_pt q 4) by (unfold q; auto 20 with cont).
  assert (Q4 : q 4 <> 0) by (unfold q; rewrite N1, N2; lra).
  assert (CT : continuity_pt total 4). { unfold total. pose proof (c_inverse q 4 Cq Q4) as CI. unfold q in CI. auto 20 with cont. }
  assert (T4 : 0 < total 4).
  { unfold total. rewrite N1, N2, rho_4. replace (/ ((1 + - (1 + 1 / 10000)) * (1 + - (1 + 1 / 10000)) + 0 * 0)) with 100000000 by field.
    assert (0 < cos (2 * (3 / 10000))) by (pose proof PI2_3_2; apply cos_gt_0; unfold PI2 in *; lra). lra. }
  assert (LT : locally 4 (fun e => 0 < total e)).
  { apply continuity_pt_filterlim in CT. pose proof (proj1 (filterlim_locally total (total 4)) CT (mkposreal _ T4)) as LL. revert LL. apply filter_imp. intros e B.
    change (Rabs (total e - total 4) < total 4) in B. apply Rabs_def2 in B. lra. }
  pose proof (filter_and _ _ LT (near_not_zero q 4 Cq Q4)) as LL. revert LL. apply filter_imp. intros e [H Q] He.
  destruct (level_group e ltac:(lra)) as (L & A & B & G).
  assert (R0 : 3 / 10000 < rho e).
  { rewrite <- rho_4. unfold rho. rewrite !Rabs_pos_eq by lra. pose proof (sqrt_lt_1 4 e ltac:(lra) ltac:(lra) He). lra. }
  destruct (@single_plain L (cos (2 * rho e)) (sin (2 * rho e)) 1 (rho e)) as (b & S).
  - rewrite single_test. destruct (Rlt_dec _ _); [reflexivity|]. rewrite (Rabs_pos_eq (rho e)) by lra. destruct (Rlt_dec _ _); [reflexivity | lra].
  - rewrite A, B. exact Q.
  - rewrite G, S. eexists. eexists. split; [reflexivity|]. rewrite A, B. fold (total e). lra.
Qed.

Theorem negative_jumps sort : sorts rm_flagged sort -> exists s t, rm_apply 1 sort negative_file false 1 None = Ok s /\ rm_evaluate 1 s 4 = Ok (Some t) /\ ~ no_jump (rm_evaluate 1 s) 4.
Proof.
  intros H. destruct before as (a & b & G & A). destruct (negative_value 4 a b 1 G eq_refl ltac:(lra)) as (f & F & V).
  exists negative_system. eexists. split; [exact (negative_made sort H)|]. split; [exact V|]. intros (x & y & z & X & J). rewrite V in X. injection X as X1 X2 X3.
  assert (S : 0 < - (a * f) / 3). { assert (0 < - a * f) by (apply Rmult_lt_0_compat; lra). lra. }
  destruct (J _ S) as (d & D & K). destruct after as [d' D']. set (m := Rmin d d').
  assert (M : 0 < m) by (apply Rmin_glb_lt; [exact D | apply cond_pos]). assert (M1 : m <= d) by apply Rmin_l. assert (M2 : m <= d') by apply Rmin_r.
  assert (Q : Rabs (4 + m / 2 - 4) = m / 2) by (rewrite Rabs_pos_eq; lra).
  destruct (K (4 + m / 2) ltac:(rewrite Q; lra)) as (x' & y' & z' & X' & E1 & E2 & E3).
  destruct (D' (4 + m / 2)) as (a' & b' & G' & A'). { change (Rabs (4 + m / 2 - 4) < d'). rewrite Q. lra. } { lra. }
  destruct (negative_value _ a' b' 1 G' eq_refl ltac:(lra)) as (f' & F' & V'). rewrite V' in X'. injection X' as Y1 Y2 Y3.
  assert (0 < a' * f') by (apply Rmult_lt_0_compat; assumption). apply Rabs_def2 in E1, E2, E3.
  assert (x + y + z = a * f) by (rewrite <- X1, <- X2, <- X3; ring). assert (x' + y' + z' = a' * f') by (rewrite <- Y1, <- Y2, <- Y3; ring). lra.
Qed.
