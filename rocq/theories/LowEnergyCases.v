(** A file for the low energy limits: two s wave resonances, one of them bound, with a
    competitive width, and a p wave resonance. *)
From Coq Require Import String List ZArith Reals Lra Lia Permutation Bool Psatz.
From Verif Require Import Outcome QuantumModel QuantumSpec SpinFactorModel HardSphereModel KinematicsModel CoulombModel Cplx RMatrixModel ChannelModel
  BreitWignerModel BreitWignerSpec ListFacts BreitWignerProofs BreitWignerSystemProofs LegacyModel LegacyProofs LegacySystemProofs BreitWignerTheory BreitWignerTheorems BreitWignerCases
  NewerFrom LegacyTotalSpec LegacyTotal FormatsCases LowEnergySpec LowEnergyProofs LowEnergyTheorems.
Import ListNotations.
Open Scope R_scope.

Definition low_file : bw_file := mkFile 0 1
  [mkLState 0 1 true (-16) [mkLine 40 1 1 1 2 1; mkLine (-3) 1 2 1 0 1]; mkLState 1 1 false 0 [mkLine 7 3 1 1 0 0]].

Lemma low_proper q : (forall ls, In ls (f_lstates low_file) -> ls_LRX ls = true -> q ls = 16 \/ q ls = -8) -> proper q low_file.
Proof.
  intros Hq ls x Hls Hx. pose proof (Hq ls Hls) as Q. destruct Hls as [<-|[<-|[]]]; cbn in Hx; cbn in Q.
  - specialize (Q eq_refl). destruct Hx as [<-|[<-|[]]]; unfold proper_line; cbn; repeat split; try lra; destruct Q; lra.
  - destruct Hx as [<-|[]]; unfold proper_line; cbn; repeat split; try lra; discriminate.
Qed.
Lemma low_new : proper q_new low_file.
Proof. apply low_proper. intros ls [<-|[<-|[]]]; cbn; intros H; [left; unfold q_new; cbn; lra | discriminate]. Qed.
Lemma low_old : proper q_old low_file.
Proof. apply low_proper. intros ls [<-|[<-|[]]]; cbn; intros H; [right; unfold q_old; cbn; field | discriminate]. Qed.

Lemma low_input : input_new 2 2 low_file 1 None 1 (radii1 (Fixed 1)) 1.
Proof. constructor; cbn; try lra; try reflexivity; try (unfold is_spin; lia); try (intros e r H; injection H as <-; lra); intros l [<-|[<-|[]]]; first [reflexivity | discriminate]. Qed.
Lemma low_made epsilon0 cwf : exists s, makeLegacyBreitWigner 2 epsilon0 cwf 2 "n" "t" low_file None 1 = Ok (Some s).
Proof.
  refine (proj1 (legacy_made 2 epsilon0 cwf 2 "n" "t" low_file 1 None 1 (radii1 (Fixed 1)) 1 low_input ltac:(lia) _ _) _).
  - eapply new_usable; [exact low_new | reflexivity | reflexivity].
  - exists [mkQ 0 1 1 1; mkQ 1 1 3 (-1)]. split; [|split].
    + repeat constructor; cbn; intros H; repeat destruct H as [H|H]; try discriminate; contradiction.
    + intros q [<-|[<-|[]]]; number.
    + cbn. repeat constructor.
  - intros (ls & x & y & [<-|[<-|[]]] & Hx & Hy & _ & N); cbn in Hx, Hy; repeat destruct Hx as [<-|Hx]; repeat destruct Hy as [<-|Hy]; try contradiction; apply N; reflexivity.
Qed.

Lemma low_old_input : input_old 2 low_file 1 (fun _ => Ok 1) (fun _ => Ok 1).
Proof.
  constructor; try lra; try (intros e r H; injection H as <-; lra); try (unfold is_spin; cbn; lia).
  - eexists _, _. split; reflexivity.
  - intros ls _. apply even_fixed.
Qed.
Lemma low_l ls : In ls (f_lstates low_file) -> (ls_L ls <= 4)%nat.
Proof. intros [<-|[<-|[]]]; cbn; lia. Qed.
Lemma low_built sort ordered : exists s, bw_build 2 sort ordered low_file (fun _ => Ok 1) (fun _ => Ok 1) = Ok s.
Proof.
  apply (build_total 2 sort low_file (mkLState 0 1 true (-16) [mkLine 40 1 1 1 2 1; mkLine (-3) 1 2 1 0 1]) [mkLState 1 1 false 0 [mkLine 7 3 1 1 0 0]] 1 1); try reflexivity; cbn [ls_AWRI]; try lra.
  intros ls H. exact (old_usable low_file low_old low_l ls H).
Qed.
(** the limits are not zero *)
Lemma low_capture q kappa : 0 < kappa -> 0 < one_over_v q kappa 0 ln_GG (f_lstates low_file) /\ 0 < one_over_v q kappa 0 ln_GF (f_lstates low_file).
Proof.
  intros Hk. unfold one_over_v, s_waves, low_file. cbn [f_lstates filter ls_L Nat.eqb map ls_lines Rsum fold_right ln_AJ ln_GG ln_GF].
  assert (P : 0 < pi_value / (kappa * kappa)) by (apply Rdiv_lt_0_compat; [unfold pi_value; lra | nra]).
  assert (G : 0 < g_neutron 0 (Z.abs 1)) by (unfold g_neutron; cbn; lra).
  assert (N : forall ls x, ln_ER x <> 0 -> 0 < norm2 (pole_at_zero q ls x)).
  { intros ls x Hx. unfold norm2, pole_at_zero; cbn [re im]. assert (0 < ln_ER x * ln_ER x) by (destruct (Rtotal_order (ln_ER x) 0) as [?|[?|?]]; [nra | contradiction | nra]). nra. }
  assert (R : forall x, ln_ER x <> 0 -> 0 < ln_GN x -> 0 < reduced_width x).
  { intros x Hx Hg. apply Rdiv_lt_0_compat; [exact Hg | apply sqrt_lt_R0, Rabs_pos_lt, Hx]. }
  assert (T : forall ls x w, ln_ER x <> 0 -> 0 < ln_GN x -> 0 <= w -> 0 <= g_neutron 0 (Z.abs 1) * (reduced_width x * w / norm2 (pole_at_zero q ls x)) /\ (0 < w -> 0 < g_neutron 0 (Z.abs 1) * (reduced_width x * w / norm2 (pole_at_zero q ls x)))).
  { intros ls x w Hx Hg Hw. pose proof (R x Hx Hg). pose proof (Rinv_0_lt_compat _ (N ls x Hx)). split; [|intros Hw']; [apply Rmult_le_pos; [lra|]; apply Rmult_le_pos; [apply Rmult_le_pos; lra | lra] | apply Rmult_lt_0_compat; [lra|]; apply Rmult_lt_0_compat; [apply Rmult_lt_0_compat; lra | lra]]. }
  set (ls := mkLState 0 1 true (-16) _).
  pose proof (T ls (mkLine 40 1 1 1 2 1) 1 ltac:(cbn; lra) ltac:(cbn; lra) ltac:(lra)) as [_ T1]. pose proof (T ls (mkLine (-3) 1 2 1 0 1) 1 ltac:(cbn; lra) ltac:(cbn; lra) ltac:(lra)) as [_ T2].
  pose proof (T ls (mkLine 40 1 1 1 2 1) 2 ltac:(cbn; lra) ltac:(cbn; lra) ltac:(lra)) as [_ T3]. pose proof (T ls (mkLine (-3) 1 2 1 0 1) 0 ltac:(cbn; lra) ltac:(cbn; lra) ltac:(lra)) as [T4 _].
  specialize (T1 ltac:(lra)). specialize (T2 ltac:(lra)). specialize (T3 ltac:(lra)). split; apply Rmult_lt_0_compat; lra.
Qed.
