(** From the file to cross sections without jumps; the phase shift itself jumps. *)
From Coq Require Import String List ZArith Reals Lra Lia Bool.
From Coquelicot Require Import Coquelicot.
From Verif Require Import Outcome QuantumModel SpinFactorModel HardSphereModel KinematicsModel CoulombModel RMatrixModel ChannelModel BreitWignerModel ListFacts LegacyModel LegacyProofs
  JumpSpec JumpProofs JumpSystem JumpLegacy.
Import ListNotations.
Open Scope R_scope.

Lemma fixed_settled a E : settled (fun _ => Ok a) E.
Proof. exists a. split; [reflexivity|]. intros eps He. exists 1. split; [lra|]. intros e _. exists a. split; [reflexivity|]. rewrite Rminus_eq_0, Rabs_R0. exact He. Qed.

(** The older interface *)
Lemma build_radii C sort ordered f ch sc s : bw_build C sort ordered f ch sc = Ok s -> s_channel s = ch /\ s_scattering s = sc.
Proof. unfold bw_build. destruct (f_lstates f); [discriminate|]. intros H. apply bind_Ok in H as (lvs & _ & H). injection H as <-. split; reflexivity. Qed.
Theorem slbw_file C sort ordered f ch sc s E t : (forall e, settled ch e) -> settled sc E -> bw_build C sort ordered f ch sc = Ok s -> slbw_evaluate C s E = Ok (Some t) -> no_jump (slbw_evaluate C s) E.
Proof. intros Hc Hs B V. destruct (build_radii _ _ _ _ _ _ _ B) as [R1 R2]. apply slbw_no_jump; [|exists t; exact V]. unfold radii_settled. rewrite R1, R2. repeat split; auto. Qed.
Theorem mlbw_file C sort ordered f ch sc s E t : (forall e, settled ch e) -> settled sc E -> bw_build C sort ordered f ch sc = Ok s -> mlbw_evaluate C s E = Ok (Some t) -> no_jump (mlbw_evaluate C s) E.
Proof. intros Hc Hs B V. destruct (build_radii _ _ _ _ _ _ _ B) as [R1 R2]. apply mlbw_no_jump; [|exists t; exact V]. unfold radii_settled. rewrite R1, R2. repeat split; auto. Qed.

(** The R-matrix interface: what the groups of a file are *)
Section Groups.
Variables (hbar epsilon0 : R) (cwf : nat -> R -> R -> outcome coulomb) (mn : R) (incident target : string).
Definition steady_group (g : legacy_group) : Prop := neutral (lg_channel g) /\ forall E, radii_at g E.

Lemma radii_steady ap nro naps awri rad : steady_radii nro -> makeChannelRadii ap nro naps awri mn = Ok rad ->
  (forall e, settled (radius_at (r_P rad)) e) /\ (forall e, settled (radius_at (r_S rad)) e) /\ (forall e, settled (radius_at (r_phi rad)) e).
Proof.
  intros H. unfold makeChannelRadii. destruct nro as [t|]; [specialize (H t eq_refl)|]; destruct naps as [|[|[|n]]]; intros K; try discriminate; injection K as <-; cbn [radii1 radii2 r_P r_S r_phi]; repeat split; intros e; first [exact (H e) | exact (fixed_settled _ e)].
Qed.
Lemma pair_neutral awri spin pr : legacyPair mn incident target awri spin = Ok pr -> p_charge (pp_particle pr) * p_charge (pp_residual pr) = 0.
Proof.
  unfold legacyPair. intros H. apply bind_Ok in H as (n & N & H). apply bind_Ok in H as (t & T & H). injection H as <-. unfold makeParticle in N.
  apply bind_Ok in N as (u & _ & N). apply bind_Ok in N as (v & _ & N). injection N as <-. cbn. ring.
Qed.
Lemma js_steady ls pr rad js : p_charge (pp_particle pr) * p_charge (pp_residual pr) = 0 -> (forall e, settled (radius_at (r_P rad)) e) -> (forall e, settled (radius_at (r_S rad)) e) -> (forall e, settled (radius_at (r_phi rad)) e) ->
  forall av gs av', legacyJs hbar epsilon0 cwf ls pr rad js av = Ok (Some gs, av') -> forall g, In g gs -> steady_group g.
Proof.
  intros Z R1 R2 R3. induction js as [|j js IH]; intros av gs av' H g G; cbn [legacyJs] in H; [injection H as <- _; destruct G|].
  apply bind_Ok in H as ([og rem] & J & H). apply bind_Ok in H as ([ogs rem'] & K & H). injection H as H _. destruct og as [g0|]; [|discriminate]. destruct ogs as [gs0|]; [|discriminate]. injection H as <-.
  destruct G as [<-|G]; [|exact (IH _ _ _ K g G)]. unfold legacyJ in J. apply bind_Ok in J as ([q rem1] & _ & J). apply bind_Ok in J as (rs & _ & J). injection J as J _. destruct (all_finite rs); [|discriminate]. injection J as <-.
  split; [split; [reflexivity | exact Z]|]. intros E. split; [apply R1|]. split; [apply R2|]. split; [apply R3|]. intros _. apply R1.
Qed.
Lemma all_steady spin ap nro naps lss : steady_radii nro -> forall av gs, legacyAllGroups hbar epsilon0 cwf mn incident target spin ap nro naps lss av = Ok (Some gs) -> forall g, In g gs -> steady_group g.
Proof.
  intros S. induction lss as [|ls lss IH]; intros av gs H g G; cbn [legacyAllGroups] in H; [injection H as <-; destruct G|].
  apply bind_Ok in H as ([ogs rem] & L & H). apply bind_Ok in H as (ohs & K & H). injection H as H. destruct ogs as [g1|]; [|discriminate]. destruct ohs as [h1|]; [|discriminate]. injection H as <-.
  apply in_app_or in G as [G|G]; [|exact (IH _ _ K g G)]. unfold legacyGroups in L. apply bind_Ok in L as (pr & P & L). apply bind_Ok in L as (rad & R0 & L). destruct (radii_steady _ _ _ _ _ S R0) as (R1 & R2 & R3).
  exact (js_steady _ _ _ _ (pair_neutral _ _ _ P) R1 R2 R3 _ _ _ L g G).
Qed.
Lemma file_settled f nro naps s E : steady_radii nro -> makeLegacyBreitWigner hbar epsilon0 cwf mn incident target f nro naps = Ok (Some s) -> system_settled s E.
Proof.
  intros S H. unfold makeLegacyBreitWigner in H. destruct (f_lstates f); [discriminate|]. apply bind_Ok in H as (pr & _ & H). apply bind_Ok in H as (av & _ & H). apply bind_Ok in H as (ogs & K & H). destruct ogs as [gs|]; [|discriminate].
  unfold omap in H. apply bind_Ok in H as (s0 & M & H). injection H as <-. unfold makeLegacySystem in M. apply bind_Ok in M as (u & _ & M). injection M as <-. intros g G. destruct (all_steady _ _ _ _ _ S _ _ K g G) as [A B]. split; [exact A | apply B].
Qed.
Theorem legacy_slbw_file f nro naps s E m m' : steady_radii nro -> makeLegacyBreitWigner hbar epsilon0 cwf mn incident target f nro naps = Ok (Some s) ->
  legacy_evaluate hbar (legacySLBW hbar epsilon0 cwf) s E m = Ok (Some m') -> no_jump_map (fun e => legacy_evaluate hbar (legacySLBW hbar epsilon0 cwf) s e m) E.
Proof. intros S B V. exact (legacy_slbw_no_jump hbar epsilon0 cwf s E m m' (file_settled f nro naps s E S B) V). Qed.
Theorem legacy_mlbw_file f nro naps s E m m' : steady_radii nro -> makeLegacyBreitWigner hbar epsilon0 cwf mn incident target f nro naps = Ok (Some s) ->
  legacy_evaluate hbar (legacyMLBW hbar epsilon0 cwf) s E m = Ok (Some m') -> no_jump_map (fun e => legacy_evaluate hbar (legacyMLBW hbar epsilon0 cwf) s e m) E.
Proof. intros S B V. exact (legacy_mlbw_no_jump hbar epsilon0 cwf s E m m' (file_settled f nro naps s E S B) V). Qed.
End Groups.

Lemma negative_quotient x y : 0 < x -> y < 0 -> x / y < 0.
Proof. intros X Y. unfold Rdiv. pose proof (Rinv_lt_0_compat y Y). nra. Qed.
(** The phase shift of the d wave jumps at sqrt 3, from below pi / 2 *)
Theorem phase_jumps : ~ settled (phaseShift 2) (sqrt 3) /\ ~ settled (phase_neutron 2) (sqrt 3).
Proof.
  assert (S3 : sqrt 3 * sqrt 3 = 3) by (apply sqrt_sqrt; lra). assert (S0 : 0 < sqrt 3) by (apply sqrt_lt_R0; lra). pose proof PI_RGT_0 as P0. pose proof PI2_1 as P1.
  assert (X : forall d, 0 < d -> exists e, Rabs (e - sqrt 3) < d /\ sqrt 3 < e).
  { intros d D. exists (sqrt 3 + d / 2). split; [|lra]. replace (sqrt 3 + d / 2 - sqrt 3) with (d / 2) by ring. rewrite Rabs_right; lra. }
  split; intros (a & A & H); destruct (H 1 Rlt_0_1) as (d & D & K); destruct (X d D) as (e & E1 & E2); destruct (K e E1) as (b & B & N); clear H K X.
  - unfold phaseShift, atan_scaled in A, B. cbn in A, B. rewrite S3 in A. destruct (Req_EM_T (3 - 3) 0) as [_|C]; [|lra]. destruct (Rlt_dec 3 0); [lra|]. injection A as <-.
    assert (Q : 3 < e * e) by nra. destruct (Req_EM_T (3 - e * e) 0); [lra|]. injection B as <-. assert (T : atan (e * (3 / (3 - e * e))) < 0).
    { rewrite <- atan_0. apply atan_increasing. assert (3 / (3 - e * e) < 0) by (apply negative_quotient; lra). nra. }
    apply Rabs_def2 in N. lra.
  - unfold phase_neutron, atan_quotient in A, B. rewrite S3 in A. destruct (Req_EM_T (3 - 3) 0) as [_|C]; [|lra]. destruct (Rlt_dec (3 * sqrt 3) 0); [lra|]. injection A as <-.
    assert (Q : 3 < e * e) by nra. destruct (Req_EM_T (3 - e * e) 0); [lra|]. injection B as <-. assert (T : atan (3 * e / (3 - e * e)) < 0).
    { rewrite <- atan_0. apply atan_increasing. apply negative_quotient; lra. }
    apply Rabs_def2 in N. lra.
Qed.
