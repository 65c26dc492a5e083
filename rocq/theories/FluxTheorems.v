(** Conservation of flux in both interfaces. *)
From Coq Require Import String List ZArith Reals Lra Lia Permutation Bool Psatz.
From Coquelicot Require Rcomplements.
From Verif Require Import Outcome QuantumModel QuantumSpec QuantumProofs SpinFactorModel SpinFactorProofs HardSphereModel HardSphereSpec HardSphereProofs KinematicsModel CoulombModel Cplx RMatrixModel ChannelModel
  BreitWignerModel BreitWignerSpec ListFacts BreitWignerProofs BreitWignerSystemProofs LegacyModel LegacyProofs LegacySystemProofs BreitWignerTheory BreitWignerTheorems FluxSpec FluxProofs.
Import ListNotations.
Open Scope R_scope.

Lemma unit_cis U : norm2 U = 1 -> exists phi, U = cis (- (2 * phi)).
Proof.
  destruct U as [x y]. unfold norm2; cbn [re im]. intros H. pose proof (Rle_0_sqr y) as Qy. unfold Rsqr in Qy.
  assert (B : -1 <= x <= 1) by nra.
  assert (S : sqrt (1 - x²) = Rabs y) by (replace (1 - x²) with (y²) by (unfold Rsqr; lra); apply sqrt_Rsqr_abs).
  destruct (Rle_dec 0 y) as [Hy|Hy].
  - exists (- (acos x / 2)). replace (- (2 * - (acos x / 2))) with (acos x) by field. unfold cis. rewrite cos_acos, sin_acos, S, Rabs_right by lra. reflexivity.
  - exists (acos x / 2). replace (- (2 * (acos x / 2))) with (- acos x) by field. unfold cis. rewrite cos_neg, sin_neg, cos_acos, sin_acos, S, Rabs_left by lra.
    rewrite Ropp_involutive. reflexivity.
Qed.
Lemma wide_pole E v : w_T v <> 0 -> norm2 (pole E v) <> 0.
Proof.
  intros H. unfold norm2, pole; cbn [re im]. pose proof (Rle_0_sqr (w_E v - E)) as Q. unfold Rsqr in Q. assert (0 < w_T v * w_T v) by nra. lra.
Qed.

Section Any.
Variables (k a : R -> R) (E : R) (q : bw_lstate -> R) (ahat : R) (f : bw_file).
Let I := f_SPI f.
Let lss := f_lstates f.
Hypothesis Hpole : forall ls x, In ls lss -> In x (ls_lines ls) -> norm2 (pole E (level_of k a E q ls x)) <> 0.

Lemma multi_single : MLBW_elastic k a E q ahat I lss = SLBW_elastic k a E q ahat I lss + interference_sum k a E q I lss.
Proof. apply ML_minus_SL; [|exact Hpole]. intros ls _. apply unit_cis, U0_unit. Qed.
Lemma single_flux : SLBW_elastic k a E q ahat I lss + BW_capture k a E q I lss + BW_fission k a E q I lss + BW_competitive k a E q I lss = optical k a E q ahat I lss.
Proof. rewrite <- (SL_flux k a E q ahat I lss Hpole). ring. Qed.
Lemma multi_flux : MLBW_elastic k a E q ahat I lss + BW_capture k a E q I lss + BW_fission k a E q I lss + BW_competitive k a E q I lss
  = optical k a E q ahat I lss + interference_sum k a E q I lss.
Proof. rewrite multi_single, <- single_flux. ring. Qed.

Hypotheses (HI : is_spin I) (Hk : forall e, 0 <= k e * a e) (Hw : open_widths f) (Hi : isolated f) (Hc : forall ls, In ls lss -> coupled I ls).
Lemma limits : BW_capture k a E q I lss + BW_fission k a E q I lss <= unit_limit k E lss /\
  SLBW_elastic k a E q ahat I lss <= 4 * unit_limit k E lss /\
  SLBW_elastic k a E q ahat I lss + BW_capture k a E q I lss + BW_fission k a E q I lss <= 4 * unit_limit k E lss /\
  MLBW_elastic k a E q ahat I lss = SLBW_elastic k a E q ahat I lss.
Proof.
  pose proof (competitive_sum_nonneg k a E q I lss HI Hk Hw) as X.
  pose proof (reactions_limit k a E q I lss Hpole HI Hk Hw Hi Hc) as R1.
  pose proof (ML_limit k a E q ahat I lss Hpole HI Hk Hw Hi Hc) as R2.
  pose proof (total_limit k a E q ahat I lss Hpole HI Hk Hw Hi Hc) as R3.
  pose proof single_flux as F. pose proof multi_single as M. rewrite (isolated_no_interference k a E q I lss Hi), Rplus_0_r in M.
  rewrite M in R2. repeat split; lra || exact M.
Qed.
End Any.

(** ** The older interface *)
Section Old.
Variables (C : R) (sort : list bw_resonance -> list bw_resonance) (f : bw_file) (A : R) (ch sc : R -> outcome R).
Hypothesis Hin : input_old C f A ch sc.
Let k := k_old C A.
Let a e := oval (ch e).
Let ahat E := oval (sc E).
Let I := f_SPI f.
Let lss := f_lstates f.
Let Hk e : 0 <= k e * a e := old_rho C A ch e (io_C _ _ _ _ _ Hin) (io_A _ _ _ _ _ Hin) (io_channel _ _ _ _ _ Hin).

Lemma old_slbw_flux s E e c fi : bw_build C sort false f ch sc = Ok s -> slbw_evaluate C s E = Ok (Some (e, c, fi)) ->
  e + c + fi + BW_competitive k a E q_old I lss = optical k a E q_old (ahat E) I lss /\
  (open_widths f -> isolated f -> (forall ls, In ls lss -> coupled I ls) ->
    c + fi <= unit_limit k E lss /\ e <= 4 * unit_limit k E lss /\ e + c + fi <= 4 * unit_limit k E lss).
Proof.
  intros Hb He. destruct (old_slbw C sort f A ch sc Hin s E e c fi Hb He) as (_ & -> & -> & -> & HT).
  assert (Hp : forall ls x, In ls lss -> In x (ls_lines ls) -> norm2 (pole E (level_of k a E q_old ls x)) <> 0) by (intros; apply wide_pole, HT; assumption).
  split; [apply (single_flux k a E q_old (ahat E) f Hp)|]. intros Hw Hi Hc.
  destruct (limits k a E q_old (ahat E) f Hp (io_spin _ _ _ _ _ Hin) Hk Hw Hi Hc) as (H1 & H2 & H3 & _). auto.
Qed.
Lemma old_mlbw_flux s E e c fi : sorts b_g sort -> bw_build C sort true f ch sc = Ok s -> mlbw_evaluate C s E = Ok (Some (e, c, fi)) ->
  let tiny := barns k E * literal_rounding * Rsum (map (fun ls => scattered (U0_of k E (ahat E) ls)) lss) in
  Rabs (e + c + fi + BW_competitive k a E q_old I lss - (optical k a E q_old (ahat E) I lss + interference_sum k a E q_old I lss)) <= tiny /\
  (open_widths f -> isolated f -> (forall ls, In ls lss -> coupled I ls) ->
    c + fi <= unit_limit k E lss /\ e <= 4 * unit_limit k E lss + tiny /\ e + c + fi <= 4 * unit_limit k E lss + tiny).
Proof.
  intros Hs Hb He tiny. destruct (old_mlbw C sort f A ch sc Hin s E e c fi Hs Hb He) as (Hd & -> & -> & HT).
  assert (Hp : forall ls x, In ls lss -> In x (ls_lines ls) -> norm2 (pole E (level_of k a E q_old ls x)) <> 0) by (intros; apply wide_pole, HT; assumption).
  fold k a lss I in Hd. fold (ahat E) in Hd. fold tiny in Hd. split.
  - pose proof (multi_flux k a E q_old (ahat E) f Hp) as F. fold I lss in F. rewrite <- F. eapply Rle_trans; [|exact Hd]. apply Req_le. f_equal. fold k a lss I. ring.
  - intros Hw Hi Hc. destruct (limits k a E q_old (ahat E) f Hp (io_spin _ _ _ _ _ Hin) Hk Hw Hi Hc) as (H1 & H2 & H3 & H4).
    apply Rcomplements.Rabs_le_between in Hd. fold k a lss I in H1, H2, H3, H4 |- *. rewrite H4 in Hd. split; [exact H1|]. split; lra.
Qed.
End Old.

(** ** The R-matrix interface *)
Section New.
Variables (hbar epsilon0 : R) (cwf : nat -> R -> R -> outcome coulomb) (mn : R) (incident target : string)
  (f : bw_file) (A : R) (nro : option (R -> outcome R)) (naps : nat) (rad : radii) (n : nat).
Hypothesis Hin : input_new hbar mn f A nro naps rad n.
Let k := k_old (C_new hbar mn) A.
Let a e := oval (radius_at (r_P rad) e).
Let ahat E := oval (radius_at (r_phi rad) E).
Let I := f_SPI f.
Let lss := f_lstates f.
Let el := elastic_key incident target.
Let ca := capture_key incident target.
Let fi := fission_key incident target.

Lemma legacy_flux s E m m1 m2 : E <> 0 ->
  makeLegacyBreitWigner hbar epsilon0 cwf mn incident target f nro naps = Ok (Some s) ->
  legacy_evaluate hbar (legacySLBW hbar epsilon0 cwf) s E m = Ok (Some m1) ->
  legacy_evaluate hbar (legacyMLBW hbar epsilon0 cwf) s E m = Ok (Some m2) ->
  let added m' key := mval m' key - mval m key in
  added m1 el + added m1 ca + added m1 fi + BW_competitive k a E q_new I lss = optical k a E q_new (ahat E) I lss /\
  added m2 el + added m2 ca + added m2 fi + BW_competitive k a E q_new I lss = optical k a E q_new (ahat E) I lss + interference_sum k a E q_new I lss /\
  (open_widths f -> isolated f -> forall m', m' = m1 \/ m' = m2 ->
    added m' ca + added m' fi <= unit_limit k E lss /\ added m' el <= 4 * unit_limit k E lss /\ added m' el + added m' ca + added m' fi <= 4 * unit_limit k E lss).
Proof.
  intros HE Hb H1 H2 added.
  pose proof (new_poles hbar epsilon0 cwf mn incident target f A nro naps rad n Hin _ s E m m1 HE Hb (fun g a1 a2 H => ex_intro _ a2 H) H1) as Hp.
  pose proof (new_coupled hbar epsilon0 cwf mn incident target f A nro naps rad n Hin _ Hb) as Hc.
  destruct (new_slbw hbar epsilon0 cwf mn incident target f A nro naps rad n Hin s E m m1 HE Hb H1) as (S1 & S2 & S3).
  destruct (new_mlbw hbar epsilon0 cwf mn incident target f A nro naps rad n Hin s E m m2 HE Hb H2) as (M1 & M2 & M3).
  fold el ca fi k a I lss in S1, S2, S3, M1, M2, M3. fold (ahat E) in S1, M1.
  assert (A1 : added m1 el = SLBW_elastic k a E q_new (ahat E) I lss) by (unfold added; rewrite S1; ring).
  assert (A2 : added m1 ca = BW_capture k a E q_new I lss) by (unfold added; rewrite S2; ring).
  assert (A3 : added m1 fi = BW_fission k a E q_new I lss) by (unfold added; rewrite S3; ring).
  assert (B1 : added m2 el = MLBW_elastic k a E q_new (ahat E) I lss) by (unfold added; rewrite M1; ring).
  assert (B2 : added m2 ca = BW_capture k a E q_new I lss) by (unfold added; rewrite M2; ring).
  assert (B3 : added m2 fi = BW_fission k a E q_new I lss) by (unfold added; rewrite M3; ring).
  rewrite A1, A2, A3, B1, B2, B3. split; [exact (single_flux k a E q_new (ahat E) f Hp)|]. split; [exact (multi_flux k a E q_new (ahat E) f Hp)|].
  intros Hw Hi.
  assert (Hk : forall e, 0 <= k e * a e) by (intros e; exact (new_rho hbar mn f A nro naps rad n Hin e)).
  destruct (limits k a E q_new (ahat E) f Hp (in_spin _ _ _ _ _ _ _ _ Hin) Hk Hw Hi Hc) as (L1 & L2 & L3 & L4).
  fold I lss in L1, L2, L3, L4. intros m' [->| ->]; rewrite ?A1, ?A2, ?A3, ?B1, ?B2, ?B3; rewrite ?L4; auto.
Qed.
End New.
