(** A file with a d wave resonance, at the energy at which the phase shift of the d wave jumps. *)
From Coq Require Import String List ZArith Reals Lra Lia Bool.
From Verif Require Import Outcome QuantumModel QuantumSpec SpinFactorModel HardSphereModel KinematicsModel CoulombModel Cplx RMatrixModel ChannelModel
  BreitWignerModel BreitWignerSpec ListFacts BreitWignerProofs BreitWignerSystemProofs LegacyModel LegacyProofs LegacySystemProofs BreitWignerTheory BreitWignerTheorems BreitWignerCases
  NewerFrom LegacyTotalSpec LegacyTotal FormatsCases LowEnergySpec LowEnergyTheorems JumpSpec JumpTheorems.
Import ListNotations.
Open Scope R_scope.

Definition jump_file : bw_file := mkFile 0 1 [mkLState 0 1 false 0 [mkLine 5 1 1 1 0 0]; mkLState 1 1 false 0 [mkLine 7 3 1 1 0 0]; mkLState 2 1 false 0 [mkLine 1 3 1 1 0 0]].
Lemma jump_ratio : k_old (C_new 2 2) 1 12 * 1 = sqrt 3.
Proof. rewrite C_one. unfold k_old. rewrite Rabs_right by lra. replace 12 with (2 * 2 * 3) by ring. rewrite sqrt_mult, sqrt_square by lra. field. Qed.
Lemma jump_proper q : proper q jump_file.
Proof. intros ls x [<-|[<-|[<-|[]]]] Hx; cbn in Hx; destruct Hx as [<-|[]]; unfold proper_line; cbn; repeat split; try lra; discriminate. Qed.
Lemma jump_l ls : In ls (f_lstates jump_file) -> (ls_L ls <= 4)%nat.
Proof. intros [<-|[<-|[<-|[]]]]; cbn; lia. Qed.

Lemma jump_input : input_new 2 2 jump_file 1 None 1 (radii1 (Fixed 1)) 2.
Proof. constructor; cbn; try lra; try reflexivity; try (unfold is_spin; lia); try (intros e r H; injection H as <-; lra); intros l [<-|[<-|[<-|[]]]]; first [reflexivity | discriminate]. Qed.
Lemma jump_usable : lines_usable jump_file (radii1 (Fixed 1)).
Proof. intros ls x [<-|[<-|[<-|[]]]] Hx; cbn in Hx; destruct Hx as [<-|[]]; cbn; (split; [lra|]); (split; [eexists; reflexivity | discriminate]). Qed.
Lemma jump_made epsilon0 cwf : exists s, makeLegacyBreitWigner 2 epsilon0 cwf 2 "n" "t" jump_file None 1 = Ok (Some s).
Proof.
  refine (proj1 (legacy_made 2 epsilon0 cwf 2 "n" "t" jump_file 1 None 1 (radii1 (Fixed 1)) 2 jump_input ltac:(lia) jump_usable _) _).
  - exists [mkQ 0 1 1 1; mkQ 1 1 3 (-1); mkQ 2 1 3 1]. split; [repeat constructor; cbn; intros H; repeat destruct H as [H|H]; try discriminate; contradiction|]. split; [intros q [<-|[<-|[<-|[]]]]; number | cbn; repeat constructor].
  - intros (ls & x & y & [<-|[<-|[<-|[]]]] & Hx & Hy & _ & N); cbn in Hx, Hy; destruct Hx as [<-|[]], Hy as [<-|[]]; apply N; reflexivity.
Qed.
Lemma jump_new epsilon0 cwf s m : makeLegacyBreitWigner 2 epsilon0 cwf 2 "n" "t" jump_file None 1 = Ok (Some s) ->
  (exists m', legacy_evaluate 2 (legacySLBW 2 epsilon0 cwf) s 12 m = Ok (Some m')) /\ (exists m', legacy_evaluate 2 (legacyMLBW 2 epsilon0 cwf) s 12 m = Ok (Some m')).
Proof.
  intros H. assert (R1 : exists r, radius_at (r_P (radii1 (Fixed 1))) 12 = Ok r) by (eexists; reflexivity). assert (R2 : exists r, radius_at (r_phi (radii1 (Fixed 1))) 12 = Ok r) by (eexists; reflexivity).
  destruct (legacy_evaluates 2 epsilon0 cwf 2 "n" "t" jump_file 1 None 1 (radii1 (Fixed 1)) 2 jump_input ltac:(lia) jump_usable 12 ltac:(lra) R1 R2) with (s := s) (m := m) as [[H1 _] [H2 _]].
  - intros ls [<-|[<-|[<-|[]]]]; cbn; intros K; exfalso; apply K; reflexivity.
  - exact H.
  - assert (O : off_axis 2 2 jump_file 1 (radii1 (Fixed 1)) 12).
    { intros ls x Hls Hx. assert (HC : 0 < C_new 2 2) by (rewrite C_one; lra).
      pose proof (width_nonzero (C_new 2 2) 1 1 q_new jump_file HC ltac:(lra) ltac:(lra) (jump_proper q_new) 12 ls x ltac:(lra) Hls Hx) as W. unfold norm2, pole. cbn [re im].
      intros Z. apply W. set (T := w_T _) in *. set (D0 := _ - _) in Z. fold T in Z. assert (T * T = 0); nra. }
    split; [apply H1 | apply H2]; exact O.
Qed.
Lemma jump_evaluable : evaluable 1 jump_file (mkLState 0 1 false 0 [mkLine 5 1 1 1 0 0]) 1 12.
Proof.
  intros ls H. split; [split; [apply jump_l, H|]|split].
  - intros x Hx. destruct (jump_proper q_old ls x H Hx) as (H0 & _ & _ & _ & _ & HX). split; [exact H0|]. intros E. apply HX, E.
  - intros E. exfalso. destruct H as [<-|[<-|[<-|[]]]]; discriminate.
  - intros x Hx. cbn [ls_AWRI]. apply (width_nonzero 1 1 1 q_old jump_file ltac:(lra) ltac:(lra) ltac:(lra) (jump_proper q_old)); [lra | exact H | exact Hx].
Qed.
Lemma jump_old sort : sorts b_g sort -> (exists s t, bw_build 1 sort false jump_file (fun _ => Ok 1) (fun _ => Ok 1) = Ok s /\ slbw_evaluate 1 s 12 = Ok (Some t)) /\
  (exists s t, bw_build 1 sort true jump_file (fun _ => Ok 1) (fun _ => Ok 1) = Ok s /\ mlbw_evaluate 1 s 12 = Ok (Some t)).
Proof.
  intros Hs. assert (U : forall ls, In ls (f_lstates jump_file) -> usable ls) by (intros ls H; apply (jump_evaluable ls H)). pose proof Rlt_0_1 as P1.
  assert (HB : forall o, exists s, bw_build 1 sort o jump_file (fun _ => Ok 1) (fun _ => Ok 1) = Ok s).
  { intros o. exact (build_total 1 sort jump_file (mkLState 0 1 false 0 [mkLine 5 1 1 1 0 0]) _ 1 1 P1 eq_refl P1 P1 o U). }
  split; [destruct (HB false) as (s & B) | destruct (HB true) as (s & B)]; exists s.
  - destruct (slbw_total 1 sort jump_file (mkLState 0 1 false 0 [mkLine 5 1 1 1 0 0]) _ 1 1 P1 eq_refl P1 P1 P1 12 ltac:(lra) s jump_evaluable B) as (t & T). exists t. split; assumption.
  - assert (HI : is_spin (f_SPI jump_file)) by (unfold is_spin; cbn; lia).
    destruct (mlbw_total 1 sort jump_file (mkLState 0 1 false 0 [mkLine 5 1 1 1 0 0]) _ 1 1 P1 eq_refl P1 HI P1 P1 12 ltac:(lra) s Hs jump_evaluable B) as (t & T). exists t. split; assumption.
Qed.
