(** Concrete files for the older Reich-Moore interface. *)
From Coq Require Import String List ZArith Reals Lra Lia Permutation Bool Psatz.
From Verif Require Import Outcome QuantumModel QuantumSpec SpinFactorModel SpinFactorProofs HardSphereModel
  HardSphereSpec HardSphereProofs KinematicsModel Cplx RMatrixModel RMatrixSpec ChannelModel BreitWignerModel
  BreitWignerSpec ListFacts BreitWignerProofs BreitWignerSystemProofs BreitWignerCases KMatrixModel KMatrixSpec KMatrixProofs
  KMatrixMore ReichMooreModel ReichMooreSpec ReichMooreProofs ReichMooreFile ReichMooreWeights ReichMooreTheory.
Import ListNotations.
Open Scope R_scope.

Definition a_file (I : Z) (l : nat) (lines : list rm_line) : rm_file := mkRMFile I 1 [mkRMState l 1 0 lines].
Definition a_radius : rm_lstate -> R -> outcome R := fun ls _ => Ok (or_ap (a_file 0 0 []) ls).

Lemma a_input I l lines : (0 <= I)%Z -> (forall x, In x lines -> 0 <= rl_GG x) ->
  rm_input 1 (a_file I l lines) 1 false 1 None a_radius a_radius.
Proof.
  intros HI HG. constructor; try lra.
  - eexists; eexists; split; reflexivity.
  - exact HI.
  - exact (NRO0_NAPS1 (a_file I l lines) 1 None).
  - intros ls [<-|[]] e r H. injection H as <-. unfold or_ap; cbn. destruct (Req_EM_T 0 0); cbn; lra.
  - intros ls [<-|[]] e r H. injection H as <-. unfold or_ap; cbn. destruct (Req_EM_T 0 0); cbn; lra.
  - intros ls x [<-|[]] Hx. apply HG; exact Hx.
Qed.

Lemma a_evaluable I l lines E : (l <= 4)%nat -> E <> 0 ->
  (forall x, In x lines -> 0 <= rl_GN x /\ rl_ER x <> 0 /\ (rl_ER x <> E \/ rl_GG x <> 0)) ->
  evaluable (a_file I l lines) a_radius a_radius E.
Proof.
  intros Hl HE Hx. split; [exact HE|]. intros ls [<-|[]]. split; [exact Hl|]. intros x Hin.
  destruct (Hx x Hin) as (H1 & H2 & H3). repeat split; auto. eexists; reflexivity.
Qed.

(** Three lines for l = 1 on a spin 1/2 target: J = 1 with both channel spins, and J = 2 *)
Definition fissile : list rm_line :=
  [mkRMLine (-2) (-2) 1 1 1 (-1); mkRMLine 3 2 1 1 0 0; mkRMLine 5 4 2 1 1 0].
Lemma fissile_admissible : admissible 1 1 (signed_J fissile).
Proof.
  unfold signed_J, fissile; cbn. split; [|split].
  - repeat (apply NoDup_cons; [cbn; lia|]); apply NoDup_nil.
  - intros j [<-|[<-|[<-|[]]]]; right; unfold above; apply triangleb_spec; reflexivity.
  - intros j [<-|[<-|[<-|[]]]] H _; cbn in H; try lia;
      (split; [split; [lia|]|]; try unfold above; apply triangleb_spec; reflexivity).
Qed.
Lemma fissile_GG x : In x fissile -> 0 <= rl_GG x.
Proof. intros [<-|[<-|[<-|[]]]]; cbn; lra. Qed.
Lemma fissile_fine x : In x fissile -> 0 <= rl_GN x /\ rl_ER x <> 0 /\ (rl_ER x <> 1 \/ rl_GG x <> 0).
Proof. intros [<-|[<-|[<-|[]]]]; cbn; repeat split; try lra; left; lra. Qed.

(** J = 1/2 with both signs on a spin 0 target, which has one channel spin only *)
Definition doubled_lines : list rm_line :=
  [mkRMLine 16 1 (48 * (sin 1 / cos 1)) 0 0 0; mkRMLine 16 (-1) (48 * (sin 1 / cos 1)) 0 0 0].
Lemma one_angle : 0 < sin 1 /\ 0 < cos 1.
Proof.
  pose proof PI_RGT_0 as HP. pose proof PI2_3_2 as H3. split.
  - apply sin_gt_0; [lra|]. unfold PI2 in *; lra.
  - apply cos_gt_0; unfold PI2 in *; lra.
Qed.
Lemma doubled_GG x : In x doubled_lines -> 0 <= rl_GG x.
Proof. intros [<-|[<-|[]]]; cbn; lra. Qed.
Lemma doubled_fine x : In x doubled_lines -> 0 <= rl_GN x /\ rl_ER x <> 0 /\ (rl_ER x <> 4 \/ rl_GG x <> 0).
Proof.
  destruct one_angle as [Hs Hc]. assert (0 < sin 1 / cos 1) by (apply Rdiv_lt_0_compat; assumption).
  intros [<-|[<-|[]]]; cbn [rl_GN rl_ER rl_GG]; repeat split; try lra; left; lra.
Qed.

Lemma k_4 : k_old 1 1 4 = 1.
Proof.
  unfold k_old. rewrite Rabs_pos_eq by lra. replace 4 with (2 * 2) by lra. rewrite sqrt_square by lra. field.
Qed.
Lemma k_16 : k_old 1 1 16 = 2.
Proof.
  unfold k_old. rewrite Rabs_pos_eq by lra. replace 16 with (4 * 4) by lra. rewrite sqrt_square by lra. field.
Qed.

Lemma doubled_negative sort : sorts rm_flagged sort ->
  exists s e c fi, rm_apply 1 sort (a_file 0 0 doubled_lines) false 1 None = Ok s /\
    rm_evaluate 1 s 4 = Ok (Some (e, c, fi)) /\ e < 0.
Proof.
  intros Hsort. destruct one_angle as [Hsn Hcs].
  pose proof (a_input 0 0 doubled_lines ltac:(lia) doubled_GG) as Hin.
  pose proof (a_evaluable 0 0 doubled_lines 4 ltac:(lia) ltac:(lra) doubled_fine) as Hev.
  destruct (rm_apply_ok 1 sort _ 1 false 1 None _ _ 4 Hin Hsort Hev Logic.I) as (s & [[e c] fi] & Hs & He).
  exists s, e, c, fi. split; [exact Hs|]. split; [exact He|].
  destruct (apply_values _ _ _ _ _ _ _ _ _ _ _ _ _ _ Hin Hsort Hs He) as (_ & _ & Hv).
  assert (Hrad : forall ls e0, In ls (rf_lstates (a_file 0 0 doubled_lines)) -> values_of a_radius ls e0 = 1).
  { intros ls e0 [<-|[]]. unfold values_of, a_radius, or_ap; cbn. destruct (Req_EM_T 0 0); [reflexivity | lra]. }
  destruct (Hv (fun _ => 1)) as (-> & _ & _).
  { intros ls Hls. rewrite (Hrad ls 4 Hls). destruct Hls as [<-|[]]. cbn [rs_L]. rewrite k_4, Rmult_1_r. apply is_phase_l0. }
  unfold RM_elastic. cbn [rf_lstates a_file map]. rewrite Rsum_cons, Rsum_nil.
  set (ls := mkRMState 0 1 0 doubled_lines).
  assert (Hls : In ls (rf_lstates (a_file 0 0 doubled_lines))) by (left; reflexivity).
  assert (HP4 : P_rm (k_old 1 1) (values_of a_radius) ls 4 = 1).
  { unfold P_rm. cbn [ls rs_L]. rewrite P_spec_l0, (Hrad ls 4 Hls), k_4. ring. }
  assert (HP16 : P_rm (k_old 1 1) (values_of a_radius) ls (Rabs 16) = 2).
  { rewrite Rabs_pos_eq by lra. unfold P_rm. cbn [ls rs_L]. rewrite P_spec_l0, (Hrad ls 16 Hls), k_16. ring. }
  rewrite HP4.
  assert (Ht : 0 < sin 1 / cos 1) by (apply Rdiv_lt_0_compat; assumption).
  assert (Hred : forall j, reduced_of (k_old 1 1) (values_of a_radius) ls (mkRMLine 16 j (48 * (sin 1 / cos 1)) 0 0 0)
     = Resonance 16 [sqrt (12 * (sin 1 / cos 1)); 0; 0] 0).
  { intros j. unfold reduced_of. cbn [rl_ER rl_GN rl_GFA rl_GFB rl_GG]. rewrite HP16.
    replace (48 * (sin 1 / cos 1) / (2 * 2)) with (12 * (sin 1 / cos 1)) by (field; lra).
    replace (0 / 2) with 0 by field. unfold signed_sqrt. destruct (Rlt_dec 0 0); [lra|]. rewrite sqrt_0. reflexivity. }
  assert (Hz : J_elastic 4 1 1 [Resonance 16 [sqrt (12 * (sin 1 / cos 1)); 0; 0] 0] = 0).
  { apply transparent; try lra. rewrite sqrt_sqrt by lra. field. lra. }
  assert (Hov : over_J (k_old 1 1) (rf_SPI (a_file 0 0 doubled_lines)) (values_of a_radius) ls (J_elastic 4 1 1) = 0).
  { unfold over_J. change (rs_lines ls) with doubled_lines. change (signed_J doubled_lines) with [1%Z; (-1)%Z].
    cbn [map]. change (lines_of 1 doubled_lines) with [mkRMLine 16 1 (48 * (sin 1 / cos 1)) 0 0 0].
    change (lines_of (-1) doubled_lines) with [mkRMLine 16 (-1) (48 * (sin 1 / cos 1)) 0 0 0].
    cbn [map]. rewrite Rsum_cons, Rsum_cons, Rsum_nil, !Hred, Hz. ring. }
  rewrite Hov. unfold rest. cbn [ls rs_L].
  assert (Hacc : accounted (rf_SPI (a_file 0 0 doubled_lines)) ls = 2).
  { unfold accounted. change (rs_lines ls) with doubled_lines. change (signed_J doubled_lines) with [1%Z; (-1)%Z].
    cbn [map Z.abs a_file rf_SPI].
    rewrite Rsum_cons, Rsum_cons, Rsum_nil. unfold g_neutron. lra. }
  fold ls. rewrite Hacc, scattered_hard. cbn [INR].
  assert (Hb : 0 < barns (k_old 1 1) 4) by (unfold barns; rewrite k_4; unfold pi_value; lra).
  assert (0 < sin 1 * sin 1) by nra. nra.
Qed.
