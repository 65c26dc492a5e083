(** The Breit-Wigner cross sections of the R-matrix interface are continuous functions of the energy. *)
From Coq Require Import String List ZArith Reals Lra Lia Bool.
From Coquelicot Require Import Coquelicot.
From Verif Require Import Outcome QuantumModel SpinFactorModel HardSphereModel KinematicsModel CoulombModel RMatrixModel ChannelModel BreitWignerModel ListFacts LegacyModel LegacyProofs JumpSpec JumpProofs JumpSystem.
Import ListNotations.
Open Scope R_scope.

(** The hard sphere functions of this interface *)
Lemma quotient_angle n d : d <> 0 /\ atan_quotient n d = atan (n / d) \/ d = 0 /\ (atan_quotient n d = PI / 2 \/ atan_quotient n d = - (PI / 2)).
Proof. unfold atan_quotient. destruct (Req_EM_T d 0); [right; split; [assumption|]; destruct (Rlt_dec n 0); tauto | left; auto]. Qed.

Definition square (rho : R -> R) (e : R) : R := rho e * rho e.
Lemma square_pos rho e : 0 <= square rho e.
Proof. apply Rle_0_sqr. Qed.
Lemma d2 q : 0 <= q -> (1 * q + 3) * q + 9 <> 0.
Proof. nra. Qed.
Lemma d3 q : 0 <= q -> ((1 * q + 6) * q + 45) * q + 225 <> 0.
Proof. intros H. assert (0 <= (1 * q + 6) * q) by nra. assert (0 <= ((1 * q + 6) * q + 45) * q) by nra. lra. Qed.
Lemma d4 q : 0 <= q -> (((1 * q + 10) * q + 135) * q + 1575) * q + 11025 <> 0.
Proof. intros H. assert (0 <= (1 * q + 10) * q) by nra. assert (0 <= ((1 * q + 10) * q + 135) * q) by nra. assert (0 <= (((1 * q + 10) * q + 135) * q + 1575) * q) by nra. lra. Qed.

Lemma penetrability_continuous l rho E : continuity_pt rho E -> (exists v, penetrability_neutron l (rho E) = Ok v) -> exists P, continuity_pt P E /\ forall e, penetrability_neutron l (rho e) = Ok (P e).
Proof.
  intros C [v V]. assert (Q : continuity_pt (square rho) E) by (unfold square; auto with cont). pose proof (square_pos rho) as S.
  destruct l as [|[|[|[|[|l]]]]]; [exists rho | exists (fun e => rho e * square rho e / (1 + square rho e)) | exists (fun e => rho e * square rho e * square rho e / ((1 * square rho e + 3) * square rho e + 9)) |
    exists (fun e => rho e * square rho e * square rho e * square rho e / (((1 * square rho e + 6) * square rho e + 45) * square rho e + 225)) |
    exists (fun e => rho e * square rho e * square rho e * square rho e * square rho e / ((((1 * square rho e + 10) * square rho e + 135) * square rho e + 1575) * square rho e + 11025)) | discriminate]; (split; [|reflexivity]).
  - exact C.
  - apply c_div; auto with cont. specialize (S E). lra.
  - apply c_div; auto 20 with cont. apply d2, S.
  - apply c_div; auto 20 with cont. apply d3, S.
  - apply c_div; auto 20 with cont. apply d4, S.
Qed.
Lemma shift_continuous l rho E : continuity_pt rho E -> (exists v, shift_neutron l (rho E) = Ok v) -> exists P, continuity_pt P E /\ forall e, shift_neutron l (rho e) = Ok (P e).
Proof.
  intros C [v V]. assert (Q : continuity_pt (square rho) E) by (unfold square; auto with cont). pose proof (square_pos rho) as S.
  destruct l as [|[|[|[|[|l]]]]]; [exists (fun _ => 0) | exists (fun e => - 1 / (1 + square rho e)) | exists (fun e => - (3 * square rho e + 18) / ((1 * square rho e + 3) * square rho e + 9)) |
    exists (fun e => - ((6 * square rho e + 90) * square rho e + 675) / (((1 * square rho e + 6) * square rho e + 45) * square rho e + 225)) |
    exists (fun e => - (((10 * square rho e + 270) * square rho e + 4725) * square rho e + 44100) / ((((1 * square rho e + 10) * square rho e + 135) * square rho e + 1575) * square rho e + 11025)) | discriminate]; (split; [|reflexivity]).
  - auto with cont.
  - apply c_div; auto with cont. specialize (S E). lra.
  - apply c_div; auto 20 with cont. apply d2, S.
  - apply c_div; auto 20 with cont. apply d3, S.
  - apply c_div; auto 20 with cont. apply d4, S.
Qed.
Lemma neutron_phase_continuous l rho E : continuity_pt rho E -> (exists v, phase_neutron l (rho E) = Ok v) ->
  exists A B, continuity_pt A E /\ continuity_pt B E /\ forall e, exists phi, phase_neutron l (rho e) = Ok phi /\ sin phi * sin phi = A e /\ sin (2 * phi) = B e.
Proof.
  intros C [v V].
  assert (H : forall n d (t : R -> R), (forall e, n e * n e + d e * d e <> 0) -> continuity_pt n E -> continuity_pt d E ->
    (forall e, d e <> 0 /\ t e = atan (n e / d e) \/ d e = 0 /\ (t e = PI / 2 \/ t e = - (PI / 2))) ->
    exists A B, continuity_pt A E /\ continuity_pt B E /\ forall e, exists phi, Ok (rho e - t e) = Ok phi /\ sin phi * sin phi = A e /\ sin (2 * phi) = B e).
  { intros n d t N Cn Cd T.
    exists (fun e => (d e * sin (rho e) - n e * cos (rho e)) * (d e * sin (rho e) - n e * cos (rho e)) / (n e * n e + d e * d e)),
      (fun e => 2 * (d e * sin (rho e) - n e * cos (rho e)) * (d e * cos (rho e) + n e * sin (rho e)) / (n e * n e + d e * d e)).
    split; [apply c_div; auto 20 with cont|]. split; [apply c_div; auto 20 with cont|]. intros e. exists (rho e - t e). split; [reflexivity|]. apply angle_sin; [apply N | apply T]. }
  assert (K : forall n d, (forall e, n e * n e + d e * d e <> 0) -> continuity_pt n E -> continuity_pt d E ->
    exists A B, continuity_pt A E /\ continuity_pt B E /\ forall e, exists phi, Ok (rho e - atan_quotient (n e) (d e)) = Ok phi /\ sin phi * sin phi = A e /\ sin (2 * phi) = B e).
  { intros n d N Cn Cd. apply (H n d (fun e => atan_quotient (n e) (d e))); auto with cont. intros e. apply quotient_angle. }
  destruct l as [|[|[|[|[|l]]]]]; [| | | | | discriminate].
  - exists (fun e => sin (rho e) * sin (rho e)), (fun e => sin (2 * rho e)). split; [auto with cont|]. split; [auto with cont|]. intros e. exists (rho e). repeat split; reflexivity.
  - apply (H rho (fun _ => 1) (fun e => atan (rho e))); auto with cont; intros e; [nra|]. left. split; [lra|]. f_equal. field.
  - apply (K (fun e => 3 * rho e) (fun e => 3 - rho e * rho e)); auto with cont. intros e. assert (0 <= rho e * rho e) by apply Rle_0_sqr. nra.
  - apply (K (fun e => rho e * (15 - rho e * rho e)) (fun e => 15 - 6 * (rho e * rho e))); auto 20 with cont. intros e Z. set (q := rho e * rho e) in *. assert (0 <= q) by apply Rle_0_sqr.
    replace (rho e * (15 - q) * (rho e * (15 - q))) with (q * ((15 - q) * (15 - q))) in Z by (unfold q; ring). pose proof (Rle_0_sqr (15 - q)). pose proof (Rle_0_sqr (15 - 6 * q)). unfold Rsqr in *.
    assert ((15 - 6 * q) * (15 - 6 * q) = 0) by nra. assert (15 - 6 * q = 0) by nra. nra.
  - apply (K (fun e => rho e * (105 - 10 * (rho e * rho e))) (fun e => (1 * (rho e * rho e) + -45) * (rho e * rho e) + 105)); auto 20 with cont. intros e Z. set (q := rho e * rho e) in *. assert (0 <= q) by apply Rle_0_sqr.
    replace (rho e * (105 - 10 * q) * (rho e * (105 - 10 * q))) with (q * ((105 - 10 * q) * (105 - 10 * q))) in Z by (unfold q; ring).
    pose proof (Rle_0_sqr (105 - 10 * q)). pose proof (Rle_0_sqr ((1 * q + -45) * q + 105)). unfold Rsqr in *. assert (0 <= q * ((105 - 10 * q) * (105 - 10 * q))) by (apply Rmult_le_pos; assumption).
    assert (A : ((1 * q + -45) * q + 105) * ((1 * q + -45) * q + 105) = 0) by lra. assert (B : q * ((105 - 10 * q) * (105 - 10 * q)) = 0) by lra.
    apply Rmult_integral in B. destruct B as [B|B]; [rewrite B in A; nra|]. assert (105 - 10 * q = 0) by nra. assert (R0 : q = 105 / 10) by lra. clearbody q. subst q. lra.
Qed.

(** Neutron channels *)
Section Evaluate.
Variables (hbar epsilon0 : R) (cwf : nat -> R -> R -> outcome coulomb).

Lemma channel_wave c E k : channelWaveNumber hbar c E = Some k -> exists w, continuity w /\ (forall e, channelWaveNumber hbar c e = Some (w e)) /\ w E = k.
Proof.
  unfold channelWaveNumber. destruct (pp_reduced (c_pair c)) as [mu|]; [|discriminate]. destruct (pp_ratio (c_incident c)) as [ratio|]; [|discriminate]. intros H.
  exists (fun e => waveNumber hbar mu ratio (c_q c) e). split; [|split; [reflexivity | injection H as H; exact H]]. intros x. unfold waveNumber, Rdiv. apply c_mult; [|apply c_const].
  destruct (Rle_dec 0 (2 * mu)).
  - apply (continuity_pt_comp (fun e => 2 * mu * Rabs (e * ratio + c_q c)) sqrt); [auto 20 with cont|]. apply continuity_pt_sqrt. apply Rmult_le_pos; [assumption | apply Rabs_pos].
  - apply (continuity_pt_ext (fun _ => 0)); [|apply c_const]. intros e. symmetry. apply sqrt_neg_0. pose proof (Rabs_pos (e * ratio + c_q c)). nra.
Qed.
Definition neutral (c : channel) : Prop := c_type c = Neutron /\ p_charge (pp_particle (c_pair c)) * p_charge (pp_residual (c_pair c)) = 0.
Lemma neutral_eta c e : neutral c -> channelEta hbar epsilon0 c e = Some 0.
Proof. intros [_ Z]. unfold channelEta. destruct (Req_EM_T _ 0); [reflexivity | contradiction]. Qed.

(** A channel function is a function of the wave number times the radius *)
Lemma channel_ratio f c rad E v : neutral c -> settled (radius_at rad) E -> channelFunction hbar epsilon0 f c rad E = Ok (Some v) ->
  exists rho, continuity_pt rho E /\ f Neutron (ql (c_numbers c)) (rho E) 0 = Ok v /\ locally E (fun e => channelFunction hbar epsilon0 f c rad e = omap Some (f Neutron (ql (c_numbers c)) (rho e) 0)).
Proof.
  intros N S H. destruct (settled_smooth _ _ S) as (a & Ca & La). pose proof (near_at _ _ La) as A0. cbv beta in A0. unfold channelFunction in H. rewrite A0 in H. cbn [bind] in H. rewrite (proj1 N) in H.
  destruct (channelWaveNumber hbar c E) as [k|] eqn:K; [|discriminate]. rewrite (neutral_eta c E N) in H. destruct (channel_wave c E k K) as (w & Cw & Hw & <-).
  exists (fun e => w e * a e). split; [apply c_mult; [apply Cw | exact Ca]|]. split.
  - unfold omap in H. apply bind_Ok in H as (y & -> & H). injection H as ->. reflexivity.
  - revert La. apply filter_imp. intros e A. unfold channelFunction. rewrite A. cbn [bind]. rewrite (proj1 N), Hw, (neutral_eta c e N). reflexivity.
Qed.
Lemma channel_P c E v : neutral c -> settled (radius_at (r_P (c_radii c))) E -> channelPenetrability hbar epsilon0 cwf c E = Ok (Some v) ->
  exists P, continuity_pt P E /\ locally E (fun e => channelPenetrability hbar epsilon0 cwf c e = Ok (Some (P e))).
Proof.
  intros N S H. destruct (channel_ratio _ c _ E v N S H) as (rho & C & V & L). destruct (penetrability_continuous _ rho E C (ex_intro _ v V)) as (P & CP & HP).
  exists P. split; [exact CP|]. revert L. apply filter_imp. intros e K. unfold channelPenetrability. rewrite K. cbn. rewrite HP. reflexivity.
Qed.
Lemma channel_S c E v : neutral c -> settled (radius_at (r_S (c_radii c))) E -> channelShiftFactor hbar epsilon0 cwf c E = Ok (Some v) ->
  exists P, continuity_pt P E /\ locally E (fun e => channelShiftFactor hbar epsilon0 cwf c e = Ok (Some (P e))).
Proof.
  intros N S H. destruct (channel_ratio _ c _ E v N S H) as (rho & C & V & L). destruct (shift_continuous _ rho E C (ex_intro _ v V)) as (P & CP & HP).
  exists P. split; [exact CP|]. revert L. apply filter_imp. intros e K. unfold channelShiftFactor. rewrite K. cbn. rewrite HP. reflexivity.
Qed.
Lemma channel_phase c E v : neutral c -> settled (radius_at (r_phi (c_radii c))) E -> channelPhaseShift hbar epsilon0 cwf c E = Ok (Some v) ->
  exists A B, continuity_pt A E /\ continuity_pt B E /\ locally E (fun e => exists phi, channelPhaseShift hbar epsilon0 cwf c e = Ok (Some phi) /\ sin phi * sin phi = A e /\ sin (2 * phi) = B e).
Proof.
  intros N S H. destruct (channel_ratio _ c _ E v N S H) as (rho & C & V & L). destruct (neutron_phase_continuous _ rho E C (ex_intro _ v V)) as (A & B & CA & CB & HP).
  exists A, B. split; [exact CA|]. split; [exact CB|]. revert L. apply filter_imp. intros e K. destruct (HP e) as (phi & P & Q). exists phi. split; [|exact Q]. unfold channelPhaseShift. rewrite K. cbn. rewrite P. reflexivity.
Qed.
Lemma channel_factor c E v : channelFactor hbar c E = Some v -> exists f, continuity_pt f E /\ locally E (fun e => channelFactor hbar c e = Some (f e)).
Proof.
  unfold channelFactor. intros H. destruct (channelWaveNumber hbar c E) as [k|] eqn:K; [|discriminate]. destruct (channel_wave c E k K) as (w & Cw & Hw & <-).
  destruct (fdiv pi_value (w E * w E)) as [x|] eqn:D; [|discriminate]. pose proof (fdiv_some _ _ _ D) as N. assert (C2 : continuity_pt (fun e => w e * w e) E) by (apply c_mult; apply Cw).
  exists (fun e => pi_value / (w e * w e) * spinFactor c). split; [apply c_mult; [apply c_div; auto with cont | apply c_const]|].
  apply (filter_imp (fun e => w e * w e <> 0)); [|apply (near_not_zero (fun e => w e * w e)); assumption]. intros e Ne. rewrite Hw, (fdiv_ok _ _ Ne). reflexivity.
Qed.

(** The stored arrays as functions of the energy *)
Definition smooth_entry (h : R -> precomputed) (E : R) : Prop :=
  continuity_pt (fun e => pre_elastic (h e)) E /\ continuity_pt (fun e => pre_capture (h e)) E /\ continuity_pt (fun e => pre_fission (h e)) E /\
  continuity_pt (fun e => pre_total (h e)) E /\ continuity_pt (fun e => pre_delta (h e)) E /\ continuity_pt (fun e => pre_denominator (h e)) E.
Definition radii_at (g : legacy_group) (E : R) : Prop :=
  let rad := c_radii (lg_channel g) in settled (radius_at (r_P rad)) E /\ settled (radius_at (r_S rad)) E /\ settled (radius_at (r_phi rad)) E /\
  (lg_qx g <> 0 -> settled (radius_at (r_P rad)) (E - lg_qx g)).

Lemma entry_smooth P Q S r E v : continuity_pt P E -> continuity_pt Q E -> continuity_pt S E -> precompute1 E (P E) (Q E) (S E) r = Some v ->
  exists h, smooth_entry h E /\ forall e, precompute1 e (P e) (Q e) (S e) r = Some (h e).
Proof.
  intros CP CQ CS. unfold precompute1, legacyTotalAt, legacyElasticAt, legacyCompetitionAt, energyPrime. destruct (q_toP r) as [p|]; [|discriminate]. destruct (q_toQ r) as [q|]; [|discriminate]. intros _.
  eexists (fun e => _). split; [|reflexivity]. unfold smooth_entry. cbn [pre_elastic pre_capture pre_fission pre_total pre_delta pre_denominator].
  assert (T : continuity_pt (fun e => P e * p + q_capture r + q_fission r + Q e * q) E) by auto 20 with cont.
  assert (D : continuity_pt (fun e => e - (q_energy r + (q_shift r - S e) / 2 * p)) E) by (unfold Rdiv; auto 20 with cont).
  repeat split; auto 20 with cont.
Qed.
Lemma precompute_smooth g E v : neutral (lg_channel g) -> radii_at g E -> precompute hbar epsilon0 cwf g E = Ok (Some v) ->
  exists hs, (forall h, In h hs -> smooth_entry h E) /\ locally E (fun e => precompute hbar epsilon0 cwf g e = Ok (Some (map (fun h => h e) hs))).
Proof.
  intros N (RP & RS & _ & RQ) H. unfold precompute in H. apply bind_Ok in H as (o & O & H). unfold legacyPQS in O. apply bind_Ok in O as (op & OP & O). apply bind_Ok in O as (oq & OQ & O). apply bind_Ok in O as (os & OS & O).
  injection O as <-. destruct op as [p|]; [|discriminate]. destruct oq as [q|]; [|discriminate]. destruct os as [s|]; [|discriminate].
  destruct (channel_P _ E p N RP OP) as (P & CP & LP). destruct (channel_S _ E s N RS OS) as (S & CS & LS).
  assert (X : exists Q, continuity_pt Q E /\ locally E (fun e => forall o, channelPenetrability hbar epsilon0 cwf (lg_channel g) e = Ok o -> o = Some (P e) -> (if Req_EM_T (lg_qx g) 0 then Ok o else channelPenetrability hbar epsilon0 cwf (lg_channel g) (e - lg_qx g)) = Ok (Some (Q e)))).
  { destruct (Req_EM_T (lg_qx g) 0) as [Z|Z].
    - exists P. split; [exact CP|]. apply everywhere. intros e o' _ ->. reflexivity.
    - replace (E - lg_qx g) with (E + - lg_qx g) in * by ring. specialize (RQ Z). replace (E - lg_qx g) with (E + - lg_qx g) in RQ by ring. destruct (channel_P _ _ q N RQ OQ) as (Q & CQ & LQ).
      exists (fun e => Q (e + - lg_qx g)). split; [apply (c_shifted Q), CQ|]. pose proof (shifted _ E (- lg_qx g) LQ) as L. cbv beta in L. revert L. apply filter_imp. intros e K o' _ _. exact K. }
  destruct X as (Q & CQ & LQ).
  assert (V : forall r, In r (lg_resonances g) -> exists h, smooth_entry h E /\ forall e, precompute1 e (P e) (Q e) (S e) r = Some (h e)).
  { pose proof (near_at _ _ LP) as P0. pose proof (near_at _ _ LS) as S0. pose proof (near_at _ _ LQ (Some (P E)) P0 eq_refl) as Q0. cbv beta in *. rewrite OP in P0. injection P0 as ->. rewrite OS in S0. injection S0 as ->. rewrite OQ in Q0. injection Q0 as ->.
    injection H as H. intros r Hr. destruct (all_finite_each _ _ _ H r Hr) as (y & Y). exact (entry_smooth P Q S r E y CP CQ CS Y). }
  assert (W : exists hs, (forall h, In h hs -> smooth_entry h E) /\ forall e, all_finite (map (precompute1 e (P e) (Q e) (S e)) (lg_resonances g)) = Some (map (fun h => h e) hs)).
  { clear - V. induction (lg_resonances g) as [|r rs IH]; [exists []; split; [intros h [] | reflexivity]|]. destruct (V r (or_introl eq_refl)) as (h & Sh & Hh). destruct (IH (fun r K => V r (or_intror K))) as (hs & Ss & Hs).
    exists (h :: hs). split; [intros k [<-|K]; auto|]. intros e. cbn [map all_finite]. rewrite Hh, Hs. reflexivity. }
  destruct W as (hs & Ss & Hs). exists hs. split; [exact Ss|].
  pose proof (filter_and _ _ LP (filter_and _ _ LS LQ)) as L. revert L. apply filter_imp. intros e (K1 & K2 & K3). unfold precompute, legacyPQS. rewrite K1. cbn [bind]. rewrite (K3 _ K1 eq_refl). cbn [bind]. rewrite K2. cbn [bind]. rewrite Hs. reflexivity.
Qed.

(** What a spin group adds to each cross section *)
Definition adds (F : R -> legacy_map -> outcome (option legacy_map)) (E : R) : Prop :=
  exists delta : legacy_key -> R -> R, (forall key, continuity_pt (delta key) E) /\
    locally E (fun e => forall m, exists m', F e m = Ok (Some m') /\ forall key, mval m' key = mval m key + delta key e).
Lemma mval_accumulate m k x key : mval (accumulateAt m k x) key = mval m key + (if legacy_key_eqb key k then x else 0).
Proof.
  unfold mval, accumulateAt. destruct (legacy_key_eqb key k) eqn:K; [|lra]. assert (key = k) as ->; [|reflexivity].
  destruct key as [[p r] t], k as [[p' r'] t']. unfold legacy_key_eqb in K. apply andb_prop in K as [K T]. apply andb_prop in K as [K1 K2]. apply String.eqb_eq in K1, K2, T. congruence.
Qed.

Lemma component_smooth h A B E v : smooth_entry h E -> continuity_pt A E -> continuity_pt B E -> slbw_components (A E) (B E) (h E) = Some v ->
  pre_denominator (h E) <> 0 /\ smooth3 (fun e => slbw_components (A e) (B e) (h e)) E.
Proof.
  intros (C1 & C2 & C3 & C4 & C5 & C6) CA CB H. unfold slbw_components in H. destruct (fdiv _ (pre_denominator (h E))) eqn:D in H; [|discriminate]. pose proof (fdiv_some _ _ _ D) as N. split; [exact N|].
  exists (fun e => pre_elastic (h e) * (pre_elastic (h e) - 2 * pre_total (h e) * A e + 2 * pre_delta (h e) * B e) / pre_denominator (h e)),
    (fun e => pre_capture (h e) * pre_elastic (h e) / pre_denominator (h e)), (fun e => pre_fission (h e) * pre_elastic (h e) / pre_denominator (h e)).
  split; [apply c_div; auto 20 with cont|]. split; [apply c_div; auto 20 with cont|]. split; [apply c_div; auto 20 with cont|].
  apply (filter_imp (fun e => pre_denominator (h e) <> 0)); [|apply (near_not_zero (fun e => pre_denominator (h e))); assumption].
  intros e K. unfold slbw_components. rewrite !(fdiv_ok _ _ K). reflexivity.
Qed.

Lemma slbw_parts g E m m' : neutral (lg_channel g) -> radii_at g E -> legacySLBW hbar epsilon0 cwf g E m = Ok (Some m') ->
  exists hs f, (forall h, In h hs -> smooth_entry h E /\ pre_denominator (h E) <> 0) /\ continuity_pt f E /\
    locally E (fun e => precompute hbar epsilon0 cwf g e = Ok (Some (map (fun h => h e) hs)) /\ channelFactor hbar (lg_channel g) e = Some (f e)) /\ adds (legacySLBW hbar epsilon0 cwf g) E.
Proof.
  intros N RR H. unfold legacySLBW in H. apply bind_Ok in H as (ophi & HP & H). apply bind_Ok in H as (oxs & HX & H). injection H as H.
  destruct ophi as [phi|]; [|discriminate]. destruct (channelFactor hbar (lg_channel g) E) as [f0|] eqn:HF; [|discriminate]. destruct oxs as [xs|]; [|discriminate].
  destruct (channel_phase _ E phi N (proj1 (proj2 (proj2 RR))) HP) as (A & B & CA & CB & LA). destruct (channel_factor _ E f0 HF) as (f & Cf & Lf). destruct (precompute_smooth g E xs N RR HX) as (hs & Ss & Ls).
  pose proof (near_at _ _ Ls) as X0. cbv beta in X0. rewrite HX in X0. injection X0 as ->. destruct (near_at _ _ LA) as (phi' & P0 & A0 & B0). rewrite HP in P0. injection P0 as <-. rewrite A0, B0 in H.
  rewrite map_map in H. destruct (all_finite _) as [ys|] eqn:AF in H; [|discriminate].
  assert (Each : forall h, In h hs -> pre_denominator (h E) <> 0 /\ smooth3 (fun e => slbw_components (A e) (B e) (h e)) E).
  { intros h Hh. destruct (all_finite_each _ _ _ AF h Hh) as (y & Y). exact (component_smooth h A B E y (Ss h Hh) CA CB Y). }
  exists hs, f. split; [intros h Hh; split; [apply Ss, Hh | apply Each, Hh]|]. split; [exact Cf|]. split; [apply filter_and; assumption|].
  destruct (sum_smooth (fun h e => slbw_components (A e) (B e) (h e)) hs (fun _ => 0) (fun _ => 0) (fun _ => 0) E (fun h Hh => proj2 (Each h Hh))) as (u & v & w & Cu & Cv & Cw & L); auto with cont.
  exists (fun key e => (if legacy_key_eqb key (legacyKey (lg_channel g) "elastic") then f e * u e else 0) + (if legacy_key_eqb key (legacyKey (lg_channel g) "capture") then f e * v e else 0) +
    (if legacy_key_eqb key (legacyKey (lg_channel g) "fission") then f e * w e else 0)). split.
  - intros key. repeat apply c_plus; match goal with |- continuity_pt (fun e => if ?b then _ else _) _ => destruct b end; auto with cont.
  - pose proof (filter_and _ _ LA (filter_and _ _ Lf (filter_and _ _ Ls L))) as All. revert All. apply filter_imp. intros e ((phi1 & K1 & K2 & K3) & K4 & K5 & K6) m1.
    unfold legacySLBW. rewrite K1. cbn [bind]. rewrite K5. cbn [bind]. rewrite K4, K2, K3, map_map. cbv beta in K6. change (map _ hs) with (map (fun x : R -> precomputed => slbw_components (A e) (B e) (x e)) hs).
    destruct (all_finite (map (fun x : R -> precomputed => slbw_components (A e) (B e) (x e)) hs)) as [zs|]; [|discriminate K6].
    injection K6 as ->. eexists. split; [reflexivity|]. intros key. destruct (Req_EM_T (w e) 0) as [Z|_]; rewrite !mval_accumulate; [rewrite Z|]; destruct (legacy_key_eqb key _), (legacy_key_eqb key _), (legacy_key_eqb key _); ring.
Qed.
Lemma slbw_adds g E m m' : neutral (lg_channel g) -> radii_at g E -> legacySLBW hbar epsilon0 cwf g E m = Ok (Some m') -> adds (legacySLBW hbar epsilon0 cwf g) E.
Proof. intros N RR H. destruct (slbw_parts g E m m' N RR H) as (hs & f & _ & _ & _ & A). exact A. Qed.

(** The interference of the multi-level format *)
Lemma cross_smooth h k E : smooth_entry h E -> smooth_entry k E -> pre_denominator (h E) <> 0 -> pre_denominator (k E) <> 0 -> smooth1 (fun e => cross_term (h e) (k e)) E.
Proof.
  intros (C1 & _ & _ & C4 & C5 & C6) (D1 & _ & _ & D4 & D5 & D6) Nh Nk.
  exists (fun e => 2 * pre_elastic (h e) * pre_elastic (k e) * (pre_delta (h e) * pre_delta (k e) + 0.25 * pre_total (h e) * pre_total (k e)) / pre_denominator (h e) / pre_denominator (k e)). split.
  - apply c_div; [|exact D6 | exact Nk]. apply c_div; auto 30 with cont.
  - apply (filter_imp (fun e => pre_denominator (h e) <> 0 /\ pre_denominator (k e) <> 0)); [|apply filter_and; [apply (near_not_zero (fun e => pre_denominator (h e))); assumption | apply (near_not_zero (fun e => pre_denominator (k e))); assumption]].
    intros e [K1 K2]. unfold cross_term. rewrite (fdiv_ok _ _ K1), (fdiv_ok _ _ K2). reflexivity.
Qed.
Definition good (E : R) (h : R -> precomputed) : Prop := smooth_entry h E /\ pre_denominator (h E) <> 0.
Lemma inner_smooth h ks E t : good E h -> (forall k, In k ks -> good E k) -> continuity_pt t E -> smooth1 (fun e => inner_loop (h e) (map (fun k => k e) ks) (t e)) E.
Proof.
  intros H. revert t. induction ks as [|k ks IH]; intros t K T; [exists t; split; [exact T | apply everywhere; reflexivity]|].
  destruct (K k (or_introl eq_refl)) as [K1 K2]. destruct (cross_smooth h k E (proj1 H) K1 (proj2 H) K2) as (x & Cx & Lx). destruct (IH (fun e => t e + x e) (fun j J => K j (or_intror J))) as (y & Cy & Ly); [auto with cont|].
  exists y. split; [exact Cy|]. pose proof (filter_and _ _ Lx Ly) as L. revert L. apply filter_imp. intros e [X Y]. cbn [map inner_loop]. rewrite X. exact Y.
Qed.
Lemma outer_smooth ks hs E t : (forall k, In k ks -> good E k) -> (forall h, In h hs -> good E h) -> continuity_pt t E -> smooth1 (fun e => outer_loop (map (fun k => k e) ks) (map (fun h => h e) hs) (t e)) E.
Proof.
  revert ks t. induction hs as [|h hs IH]; intros ks t K H T; [exists t; split; [exact T | apply everywhere; reflexivity]|].
  destruct (inner_smooth h ks E t (H h (or_introl eq_refl)) K T) as (x & Cx & Lx). destruct (IH (ks ++ [h]) x) as (y & Cy & Ly); [intros k J; apply in_app_or in J as [J|[<-|[]]]; [apply K, J | apply H; left; reflexivity] | intros j J; apply H; right; exact J | exact Cx|].
  exists y. split; [exact Cy|]. pose proof (filter_and _ _ Lx Ly) as L. revert L. apply filter_imp. intros e [X Y]. cbn [map outer_loop]. rewrite X. rewrite map_app in Y. exact Y.
Qed.
Lemma mlbw_adds g E m m' : neutral (lg_channel g) -> radii_at g E -> legacyMLBW hbar epsilon0 cwf g E m = Ok (Some m') -> adds (legacyMLBW hbar epsilon0 cwf g) E.
Proof.
  intros N RR H. unfold legacyMLBW in H. apply bind_Ok in H as (om & HM & H). destruct om as [m0|]; [|apply bind_Ok in H as (? & _ & H); discriminate].
  destruct (slbw_parts g E m m0 N RR HM) as (hs & f & Gs & Cf & L & (delta & Cd & Ld)). destruct (outer_smooth [] hs E (fun _ => 0)) as (t & Ct & Lt); [intros k [] | exact Gs | apply c_const|].
  exists (fun key e => delta key e + (if legacy_key_eqb key (legacyKey (lg_channel g) "elastic") then f e * t e else 0)). split.
  - intros key. apply c_plus; [apply Cd|]. destruct (legacy_key_eqb key _); auto with cont.
  - pose proof (filter_and _ _ L (filter_and _ _ Ld Lt)) as All. revert All. apply filter_imp. intros e ([K1 K2] & K3 & K4) m1. destruct (K3 m1) as (m2 & M2 & D2).
    unfold legacyMLBW. rewrite M2. cbn [bind]. rewrite K1. cbn [bind]. rewrite K2. cbn [map] in K4. change (map _ hs) with (map (fun h : R -> precomputed => h e) hs). rewrite K4. eexists. split; [reflexivity|]. intros key. rewrite mval_accumulate, D2. ring.
Qed.

(** Potential scattering *)
Lemma potential_smooth rho n l t E v : continuity_pt rho E -> continuity_pt t E -> potential (rho E) n l (t E) = Ok v -> exists y, continuity_pt y E /\ forall e, potential (rho e) n l (t e) = Ok (y e).
Proof.
  revert l t. induction n as [|n IH]; intros l t C T H; [exists t; split; [exact T | reflexivity]|]. cbn [potential] in H. apply bind_Ok in H as (phi & HP & H).
  destruct (neutron_phase_continuous l rho E C (ex_intro _ phi HP)) as (A & B & CA & CB & HA). destruct (HA E) as (phi' & P0 & A0 & _). rewrite HP in P0. injection P0 as <-. rewrite A0 in H.
  destruct (IH (S l) (fun e => t e + (2 * INR l + 1) * A e) C) as (y & Cy & Hy); [auto 20 with cont | exact H|]. exists y. split; [exact Cy|]. intros e. cbn [potential]. destruct (HA e) as (phi1 & -> & A1 & _). cbn [bind]. rewrite A1. apply Hy.
Qed.

(** The system *)
Lemma fold_adds (one : legacy_group -> R -> legacy_map -> outcome (option legacy_map)) gs E : (forall g m m', In g gs -> one g E m = Ok (Some m') -> adds (one g) E) -> forall m m',
  foldM (fun om g => match om with None => Ok None | Some m => one g E m end) gs (Some m) = Ok (Some m') ->
  adds (fun e m => foldM (fun om g => match om with None => Ok None | Some m => one g e m end) gs (Some m)) E.
Proof.
  intros H. induction gs as [|g gs IH]; intros m m' F.
  - exists (fun _ _ => 0). split; [intros key; apply c_const|]. apply everywhere. intros e m1. exists m1. split; [reflexivity | intros key; ring].
  - cbn [foldM] in F. apply bind_Ok in F as (o & O & F). destruct o as [m1|].
    + destruct (H g m m1 (or_introl eq_refl) O) as (d1 & C1 & L1). destruct (IH (fun g m m' G => H g m m' (or_intror G)) m1 m' F) as (d2 & C2 & L2).
      exists (fun key e => d1 key e + d2 key e). split; [intros key; apply c_plus; auto|]. pose proof (filter_and _ _ L1 L2) as L. revert L. apply filter_imp. intros e [K1 K2] m2.
      destruct (K1 m2) as (m3 & M3 & D3). destruct (K2 m3) as (m4 & M4 & D4). exists m4. split; [cbn [foldM]; rewrite M3; exact M4 | intros key; rewrite D4, D3; ring].
    + exfalso. clear - F. induction gs as [|x gs IH]; [discriminate | exact (IH F)].
Qed.
Lemma system_adds one s E m m' : (forall g m m', In g (ly_groups s) -> one g E m = Ok (Some m') -> adds (one g) E) -> (forall g, In g (ly_groups s) -> radii_at g E) ->
  legacy_evaluate hbar one s E m = Ok (Some m') -> adds (legacy_evaluate hbar one s) E.
Proof.
  intros H RR V. unfold legacy_evaluate in V. apply bind_Ok in V as (om & F & V). destruct (ly_groups s) as [|g gs] eqn:G; [discriminate|].
  destruct (channelWaveNumber hbar (lg_channel g) E) as [k|] eqn:K; [|discriminate]. apply bind_Ok in V as (a0 & A0 & V). apply bind_Ok in V as (v & P & V). injection V as V. destruct om as [m0|]; [|discriminate].
  destruct (fdiv _ _) as [x|] eqn:D in V; [|discriminate]. pose proof (fdiv_some _ _ _ D) as N. destruct (channel_wave _ E k K) as (w & Cw & Hw & <-).
  destruct (settled_smooth _ _ (proj1 (proj2 (proj2 (RR g (or_introl eq_refl)))))) as (a & Ca & La). pose proof (near_at _ _ La) as A1. cbv beta in A1. rewrite A0 in A1. injection A1 as ->.
  assert (Cr : continuity_pt (fun e => w e * a e) E) by (apply c_mult; [apply Cw | exact Ca]).
  destruct (potential_smooth (fun e => w e * a e) (S (ly_lmax s)) 0 (fun _ => 0) E v Cr (c_const 0 E) P) as (y & Cy & Hy).
  destruct (fold_adds one (g :: gs) E H m m0 F) as (d & Cd & Ld). assert (C2 : continuity_pt (fun e => w e * w e) E) by (apply c_mult; apply Cw).
  exists (fun key e => d key e + (if legacy_key_eqb key (legacyKey (lg_channel g) "elastic") then 4 * pi_value / (w e * w e) * y e else 0)). split.
  - intros key. apply c_plus; [apply Cd|]. destruct (legacy_key_eqb key _); [|apply c_const]. apply c_mult; [apply c_div; auto with cont | exact Cy].
  - pose proof (filter_and _ _ La (filter_and _ _ Ld (near_not_zero (fun e => w e * w e) E C2 N))) as L. revert L. apply filter_imp. intros e (K1 & K2 & K3) m1. destruct (K2 m1) as (m2 & M2 & D2).
    unfold legacy_evaluate. rewrite G. rewrite M2. cbn [bind]. rewrite Hw, K1. cbn [bind]. cbv beta in Hy. rewrite Hy. cbn [bind]. rewrite (fdiv_ok _ _ K3). eexists. split; [reflexivity|]. intros key. rewrite mval_accumulate, D2. ring.
Qed.

Lemma adds_no_jump F E m : adds F E -> no_jump_map (fun e => F e m) E.
Proof.
  intros (d & C & L). destruct (near_at _ _ L m) as (m0 & M0 & D0). exists m0. split; [exact M0|]. intros key eps He. pose proof (C key) as G. apply continuity_pt_filterlim in G.
  pose proof (proj1 (filterlim_locally _ _) G (mkposreal eps He)) as G'. pose proof (filter_and _ _ L G') as [r R0]. exists r. split; [apply cond_pos|]. intros e B. destruct (R0 e B) as [X Y].
  destruct (X m) as (m1 & M1 & D1). exists m1. split; [exact M1|]. rewrite D1, D0. replace (mval m key + d key e - (mval m key + d key E)) with (d key e - d key E) by ring. exact Y.
Qed.
Definition system_settled (s : legacy_system) (E : R) : Prop := forall g, In g (ly_groups s) -> neutral (lg_channel g) /\ radii_at g E.
Theorem legacy_slbw_no_jump s E m m' : system_settled s E -> legacy_evaluate hbar (legacySLBW hbar epsilon0 cwf) s E m = Ok (Some m') ->
  no_jump_map (fun e => legacy_evaluate hbar (legacySLBW hbar epsilon0 cwf) s e m) E.
Proof.
  intros H V. apply (adds_no_jump (legacy_evaluate hbar (legacySLBW hbar epsilon0 cwf) s)). apply (system_adds _ s E m m'); [|intros g G; apply H, G | exact V].
  intros g m1 m2 G K. exact (slbw_adds g E m1 m2 (proj1 (H g G)) (proj2 (H g G)) K).
Qed.
Theorem legacy_mlbw_no_jump s E m m' : system_settled s E -> legacy_evaluate hbar (legacyMLBW hbar epsilon0 cwf) s E m = Ok (Some m') ->
  no_jump_map (fun e => legacy_evaluate hbar (legacyMLBW hbar epsilon0 cwf) s e m) E.
Proof.
  intros H V. apply (adds_no_jump (legacy_evaluate hbar (legacyMLBW hbar epsilon0 cwf) s)). apply (system_adds _ s E m m'); [|intros g G; apply H, G | exact V].
  intros g m1 m2 G K. exact (mlbw_adds g E m1 m2 (proj1 (H g G)) (proj2 (H g G)) K).
Qed.
End Evaluate.
