(** Low energies: from the textbook formulas to both interfaces. *)
From Coq Require Import String List ZArith Reals Lra Lia Permutation Bool Psatz.
From Coquelicot Require Rcomplements.
From Verif Require Import Outcome QuantumModel QuantumSpec QuantumProofs SpinFactorModel SpinFactorProofs HardSphereModel HardSphereSpec HardSphereProofs KinematicsModel CoulombModel Cplx RMatrixModel ChannelModel
  BreitWignerModel BreitWignerSpec ListFacts BreitWignerProofs BreitWignerSystemProofs LegacyModel LegacyProofs LegacySystemProofs BreitWignerTheory BreitWignerTheorems
  LegacyTotalSpec LegacyTotal LowEnergySpec LowEnergyProofs LowEnergyFile.
Import ListNotations.
Open Scope R_scope.

Lemma lim_both f g v w : lim f v -> lim g w -> forall eps, 0 < eps -> exists d, 0 < d /\ forall e, 0 < e < d -> Rabs (f e - v) < eps /\ Rabs (g e - w) < eps.
Proof.
  intros Hf Hg eps He. destruct (proj1 (lim_eps f v) Hf eps He) as (d1 & H1 & K1). destruct (proj1 (lim_eps g w) Hg eps He) as (d2 & H2 & K2).
  exists (Rmin d1 d2). split; [apply Rmin_pos; assumption|]. intros e [P1 P2]. pose proof (Rmin_l d1 d2). pose proof (Rmin_r d1 d2). split; [apply K1 | apply K2]; lra.
Qed.
Lemma near_zero_and (P Q : R -> Prop) : (exists d, 0 < d /\ forall e, 0 < e < d -> P e) -> (exists d, 0 < d /\ forall e, 0 < e < d -> Q e) ->
  exists d, 0 < d /\ forall e, 0 < e < d -> P e /\ Q e.
Proof.
  intros (d1 & H1 & K1) (d2 & H2 & K2). exists (Rmin d1 d2). split; [apply Rmin_pos; assumption|]. intros e [P1 P2].
  pose proof (Rmin_l d1 d2). pose proof (Rmin_r d1 d2). split; [apply K1 | apply K2]; lra.
Qed.
(** small energies avoid finitely many thresholds *)
Lemma avoid {T} (t : T -> R) l : exists d, 0 < d /\ forall e, 0 < e < d -> forall x, In x l -> e + t x <> 0.
Proof.
  induction l as [|x l (d & Hd & K)]; [exists 1; split; [lra|]; intros e _ x []|].
  destruct (Rlt_dec (t x) 0) as [H|H].
  - exists (Rmin d (- t x)). split; [apply Rmin_pos; lra|]. intros e [H1 H2] y [<-|Hy]; pose proof (Rmin_l d (- t x)); pose proof (Rmin_r d (- t x)); [lra|].
    apply K; [lra | exact Hy].
  - exists d. split; [exact Hd|]. intros e He y [<-|Hy]; [lra | apply K; assumption].
Qed.

Section Any.
Variables (C A a ahat : R) (q : bw_lstate -> R) (f : bw_file).
Hypotheses (HC : 0 < C) (HA : 0 < A) (Ha : 0 < a) (Hs : 0 < ahat) (Hp : proper q f).
Let kappa := C * (A / (A + 1)).
Let k := k_old C A.
Let radius (_ : R) := a.
Let I := f_SPI f.
Let lss := f_lstates f.
Lemma kappa_pos : 0 < kappa.
Proof. unfold kappa. apply Rmult_lt_0_compat; [exact HC | apply Rdiv_lt_0_compat; lra]. Qed.

Lemma capture_low : lim (fun e => sqrt e * BW_capture k radius e q I lss) (one_over_v q kappa I ln_GG lss).
Proof.
  pose proof (reactions_lim kappa a q I kappa_pos Ha lss Hp ln_GG) as L. revert L. apply lim_ext. intros e He. reflexivity.
Qed.
Lemma fission_low : lim (fun e => sqrt e * BW_fission k radius e q I lss) (one_over_v q kappa I ln_GF lss).
Proof.
  pose proof (reactions_lim kappa a q I kappa_pos Ha lss Hp ln_GF) as L. revert L. apply lim_ext. intros e He. reflexivity.
Qed.
Lemma single_low : lim (fun e => SLBW_elastic k radius e q ahat I lss) (SL_low q kappa ahat I lss).
Proof. exact (SL_lim kappa a ahat q I kappa_pos Ha Hs lss Hp). Qed.
Lemma multi_low : lim (fun e => MLBW_elastic k radius e q ahat I lss) (ML_low q kappa ahat I lss).
Proof. exact (ML_lim kappa a ahat q I kappa_pos Ha Hs lss Hp). Qed.
(** the potential scattering *)
Lemma potential_sum_low : lim (fun e => barns k e * Rsum (map (fun ls => scattered (U0_of k e ahat ls)) lss)) (4 * pi_value * (ahat * ahat) * INR (length (s_waves lss))).
Proof.
  eapply lim_eq.
  - apply (elastic_lim kappa kappa_pos lss (fun ls e => scattered (U0_of k e ahat ls)) (fun ls => norm2 (length_of q kappa ahat ls []))).
    intros ls _. exact (potential_scattered_lim kappa a ahat q kappa_pos Ha Hs ls).
  - rewrite (Rsum_ext _ (fun _ => 4 * (kappa * ahat * (kappa * ahat)))).
    + pose proof kappa_pos as Pk. generalize (s_waves lss). intros l.
      assert (E : Rsum (map (fun _ : bw_lstate => 4 * (kappa * ahat * (kappa * ahat))) l) = INR (length l) * (4 * (kappa * ahat * (kappa * ahat)))).
      { induction l as [|y l IH]; cbn [map Rsum fold_right length]; [cbn; ring|]. unfold Rsum in IH. rewrite IH, S_INR. ring. }
      rewrite E. field. lra.
    + intros ls _. unfold length_of; cbn [map csum fold_right]. unfold norm2, cx_add, cx_opp, cx_zero, rcx; cbn [re im]. ring.
Qed.
Lemma width_nonzero e ls x : 0 < e -> In ls lss -> In x (ls_lines ls) -> w_T (level_of k radius e q ls x) <> 0.
Proof.
  intros He H1 H2. pose proof (width_bounds kappa a q kappa_pos Ha ls x (Hp ls x H1 H2) e He) as [_ B]. destruct (Hp ls x H1 H2) as (_ & _ & _ & _ & HT & _).
  change (ln_GG x + ln_GF x <= w_T (level_of k radius e q ls x)) in B. lra.
Qed.
Lemma pole_off e ls x : 0 < e -> In ls lss -> In x (ls_lines ls) -> norm2 (pole e (level_of k radius e q ls x)) <> 0.
Proof. intros He H1 H2. exact (pole_nonzero kappa a q kappa_pos Ha ls x (Hp ls x H1 H2) e He). Qed.
End Any.

(** ** The older interface *)
Section Old.
Variables (C : R) (sort : list bw_resonance -> list bw_resonance) (f : bw_file) (A a ahat : R).
Hypotheses (Hin : input_old C f A (fun _ => Ok a) (fun _ => Ok ahat)) (Hp : proper q_old f) (Hl : forall ls, In ls (f_lstates f) -> (ls_L ls <= 4)%nat).
Let kappa := C * (A / (A + 1)).
Let I := f_SPI f.
Let lss := f_lstates f.
Let Ha : 0 < a := io_channel _ _ _ _ _ Hin 0 a eq_refl.
Let Hs : 0 < ahat := io_scattering _ _ _ _ _ Hin 0 ahat eq_refl.
Let HC := io_C _ _ _ _ _ Hin.
Let HA := io_A _ _ _ _ _ Hin.

Lemma old_usable ls : In ls lss -> usable ls.
Proof. intros H. split; [apply Hl, H|]. intros x Hx. destruct (Hp ls x H Hx) as (H0 & _ & _ & _ & _ & HX). split; [exact H0|]. intros E. apply HX, E. Qed.
Lemma old_evaluable : exists d, 0 < d /\ forall E, 0 < E < d -> forall first rest, f_lstates f = first :: rest -> ls_AWRI first = A -> evaluable C f first a E.
Proof.
  destruct (avoid q_old lss) as (d & Hd & K). exists d. split; [exact Hd|]. intros E HE first rest Hf HA1 ls H. split; [apply old_usable, H|]. split; [intros _; apply K; assumption|].
  intros x Hx. rewrite HA1. apply (width_nonzero C A a q_old f HC HA Ha Hp); [lra | exact H | exact Hx].
Qed.

Lemma old_slbw_low s : bw_build C sort false f (fun _ => Ok a) (fun _ => Ok ahat) = Ok s ->
  forall eps, 0 < eps -> exists d, 0 < d /\ forall E, 0 < E < d -> exists e c fi, slbw_evaluate C s E = Ok (Some (e, c, fi)) /\
    Rabs (e - SL_low q_old kappa ahat I lss) < eps /\
    Rabs (sqrt E * c - one_over_v q_old kappa I ln_GG lss) < eps /\ Rabs (sqrt E * fi - one_over_v q_old kappa I ln_GF lss) < eps.
Proof.
  intros Hb eps He.
  pose proof (lim_both _ _ _ _ (capture_low C A a q_old f HC HA Ha Hp) (fission_low C A a q_old f HC HA Ha Hp) eps He) as K1.
  pose proof (proj1 (lim_eps _ _) (single_low C A a ahat q_old f HC HA Ha Hs Hp) eps He) as K2.
  destruct (near_zero_and _ _ (near_zero_and _ _ K1 K2) old_evaluable) as (d & Hd & K). exists d. split; [exact Hd|]. intros E HE.
  destruct (K E HE) as [[[R1 R2] R3] R4]. destruct (io_first _ _ _ _ _ Hin) as (first & rest & Hf & HA1).
  pose proof HA as HA0. rewrite <- HA1 in HA0.
  destruct (slbw_total C sort f first rest a ahat HC Hf HA0 Ha Hs E ltac:(lra) s (R4 first rest Hf HA1) Hb) as ([[e c] fi] & Et).
  exists e, c, fi. split; [exact Et|].
  destruct (old_slbw C sort f A _ _ Hin s E e c fi Hb Et) as (_ & -> & -> & -> & _). split; [exact R3|]. split; [exact R1 | exact R2].
Qed.

Lemma old_mlbw_low s : sorts b_g sort -> bw_build C sort true f (fun _ => Ok a) (fun _ => Ok ahat) = Ok s ->
  forall eps, 0 < eps -> exists d, 0 < d /\ forall E, 0 < E < d -> exists e c fi, mlbw_evaluate C s E = Ok (Some (e, c, fi)) /\
    Rabs (e - ML_low q_old kappa ahat I lss) < eps + literal_rounding * (4 * pi_value * (ahat * ahat)) * INR (length (s_waves lss)) /\
    Rabs (sqrt E * c - one_over_v q_old kappa I ln_GG lss) < eps /\ Rabs (sqrt E * fi - one_over_v q_old kappa I ln_GF lss) < eps.
Proof.
  intros Hsort Hb eps He.
  pose proof (lim_both _ _ _ _ (capture_low C A a q_old f HC HA Ha Hp) (fission_low C A a q_old f HC HA Ha Hp) eps He) as K1.
  pose proof (lim_both _ _ _ _ (multi_low C A a ahat q_old f HC HA Ha Hs Hp) (potential_sum_low C A a ahat q_old f HC HA Ha Hs) (eps / 2) ltac:(lra)) as K2.
  destruct (near_zero_and _ _ (near_zero_and _ _ K1 K2) old_evaluable) as (d & Hd & K). exists d. split; [exact Hd|]. intros E HE.
  destruct (K E HE) as [[[R1 R2] [R3 R3']] R4]. destruct (io_first _ _ _ _ _ Hin) as (first & rest & Hf & HA1).
  pose proof HA as HA0. rewrite <- HA1 in HA0.
  destruct (mlbw_total C sort f first rest a ahat HC Hf HA0 (io_spin _ _ _ _ _ Hin) Ha Hs E ltac:(lra) s Hsort (R4 first rest Hf HA1) Hb) as ([[e c] fi] & Et).
  exists e, c, fi. split; [exact Et|].
  destruct (old_mlbw C sort f A _ _ Hin s E e c fi Hsort Hb Et) as (B & -> & -> & _). split; [|split; [exact R1 | exact R2]].
  cbn [oval] in B. fold I lss in B.
  assert (Hlit : 0 <= literal_rounding <= 1) by (unfold literal_rounding; lra).
  set (sig := barns (k_old C A) E * Rsum (map (fun ls => scattered (U0_of (k_old C A) E ahat ls)) (f_lstates f))) in *.
  assert (B' : Rabs (e - MLBW_elastic (k_old C A) (fun _ => a) E q_old ahat I lss) <= literal_rounding * sig).
  { eapply Rle_trans; [exact B|]. unfold sig. right. unfold lss. ring. }
  clear B. revert R3 R3' B'. fold kappa I lss. generalize (MLBW_elastic (k_old C A) (fun _ => a) E q_old ahat I lss). intros y R3 R3' B'.
  apply Rabs_def2 in R3, R3'. set (W := 4 * pi_value * (ahat * ahat) * INR (length (s_waves lss))) in *.
  replace (literal_rounding * (4 * pi_value * (ahat * ahat)) * INR (length (s_waves lss))) with (literal_rounding * W) by (unfold W; ring).
  assert (B2 : literal_rounding * sig <= literal_rounding * W + eps / 2).
  { apply Rle_trans with (literal_rounding * (W + eps / 2)); [apply Rmult_le_compat_l; lra|]. rewrite Rmult_plus_distr_l. assert (literal_rounding * (eps / 2) <= 1 * (eps / 2)) by (apply Rmult_le_compat_r; lra). lra. }
  assert (B3 : Rabs (e - y) <= literal_rounding * W + eps / 2) by lra. apply Rcomplements.Rabs_le_between in B3. apply Rabs_def1; lra.
Qed.
End Old.

(** ** The R-matrix interface *)
Section New.
Variables (hbar epsilon0 : R) (cwf : nat -> R -> R -> outcome coulomb) (mn : R) (incident target : string).
Variables (f : bw_file) (A a ahat : R) (nro : option (R -> outcome R)) (naps : nat) (rad : radii) (n : nat).
Hypotheses (Hin : input_new hbar mn f A nro naps rad n) (Hn : (n <= 4)%nat) (Hp : proper q_new f).
Hypotheses (Ea : r_P rad = Fixed a) (Es : r_phi rad = Fixed ahat).
Let kappa := C_new hbar mn * (A / (A + 1)).
Let I := f_SPI f.
Let lss := f_lstates f.
Let HC : 0 < C_new hbar mn := C_new_pos hbar mn (in_hbar _ _ _ _ _ _ _ _ Hin) (in_mn _ _ _ _ _ _ _ _ Hin).
Let HA := in_A _ _ _ _ _ _ _ _ Hin.

Lemma new_radius e : radius_at (r_P rad) e = Ok a /\ radius_at (r_phi rad) e = Ok ahat.
Proof. rewrite Ea, Es. split; reflexivity. Qed.
Let Ha : 0 < a := in_channel _ _ _ _ _ _ _ _ Hin 0 a (proj1 (new_radius 0)).
Let Hs : 0 < ahat := in_scattering _ _ _ _ _ _ _ _ Hin 0 ahat (proj2 (new_radius 0)).
Lemma new_a : (fun e => oval (radius_at (r_P rad) e)) = (fun _ => a).
Proof. rewrite Ea. reflexivity. Qed.
Lemma new_ahat e : oval (radius_at (r_phi rad) e) = ahat.
Proof. rewrite Es. reflexivity. Qed.

Lemma new_usable : lines_usable f rad.
Proof.
  intros ls x H Hx. destruct (Hp ls x H Hx) as (H0 & _ & _ & _ & _ & HX). split; [exact H0|]. split; [exists a; apply new_radius|].
  intros E. split; [|exists a; apply new_radius]. destruct (HX E) as [_ G]. unfold q_new in G. lra.
Qed.
Lemma new_evaluates s : makeLegacyBreitWigner hbar epsilon0 cwf mn incident target f nro naps = Ok (Some s) ->
  exists d, 0 < d /\ forall E, 0 < E < d -> forall m,
   (exists m', legacy_evaluate hbar (legacySLBW hbar epsilon0 cwf) s E m = Ok (Some m')) /\
   (exists m', legacy_evaluate hbar (legacyMLBW hbar epsilon0 cwf) s E m = Ok (Some m')).
Proof.
  intros Hb. destruct (avoid q_new lss) as (d & Hd & K). exists d. split; [exact Hd|]. intros E HE m.
  destruct (legacy_evaluates hbar epsilon0 cwf mn incident target f A nro naps rad n Hin Hn new_usable E ltac:(lra) (ex_intro _ a (proj1 (new_radius E))) (ex_intro _ ahat (proj2 (new_radius E)))) with (s := s) (m := m) as [[H1 _] [H2 _]].
  - intros ls H _. split; [|exists a; apply new_radius]. pose proof (K E HE ls H) as Q. unfold q_new in Q. lra.
  - exact Hb.
  - assert (Q : forall ls x, In ls lss -> In x (ls_lines ls) -> norm2 (pole E (level_of (k_old (C_new hbar mn) A) (fun e => oval (radius_at (r_P rad) e)) E q_new ls x)) <> 0).
    { rewrite new_a. intros ls x Hls Hx. exact (pole_off (C_new hbar mn) A a q_new f HC HA Ha Hp E ls x ltac:(lra) Hls Hx). }
    split; [exact (H1 Q) | exact (H2 Q)].
Qed.

Lemma new_low s : makeLegacyBreitWigner hbar epsilon0 cwf mn incident target f nro naps = Ok (Some s) ->
  forall eps, 0 < eps -> exists d, 0 < d /\ forall E, 0 < E < d -> forall m, exists m1 m2,
    legacy_evaluate hbar (legacySLBW hbar epsilon0 cwf) s E m = Ok (Some m1) /\ legacy_evaluate hbar (legacyMLBW hbar epsilon0 cwf) s E m = Ok (Some m2) /\
    let added m' key := mval m' (key incident target) - mval m (key incident target) in
    Rabs (added m1 elastic_key - SL_low q_new kappa ahat I lss) < eps /\ Rabs (added m2 elastic_key - ML_low q_new kappa ahat I lss) < eps /\
    forall m', m' = m1 \/ m' = m2 ->
      Rabs (sqrt E * added m' capture_key - one_over_v q_new kappa I ln_GG lss) < eps /\ Rabs (sqrt E * added m' fission_key - one_over_v q_new kappa I ln_GF lss) < eps.
Proof.
  intros Hb eps He.
  pose proof (lim_both _ _ _ _ (capture_low (C_new hbar mn) A a q_new f HC HA Ha Hp) (fission_low (C_new hbar mn) A a q_new f HC HA Ha Hp) eps He) as K1.
  pose proof (lim_both _ _ _ _ (single_low (C_new hbar mn) A a ahat q_new f HC HA Ha Hs Hp) (multi_low (C_new hbar mn) A a ahat q_new f HC HA Ha Hs Hp) eps He) as K2.
  destruct (near_zero_and _ _ (near_zero_and _ _ K1 K2) (new_evaluates s Hb)) as (d & Hd & K). exists d. split; [exact Hd|]. intros E HE m.
  destruct (K E HE) as [[[R1 R2] [R3 R3']] R4]. destruct (R4 m) as [(m1 & E1) (m2 & E2)]. exists m1, m2. split; [exact E1|]. split; [exact E2|].
  pose proof (new_slbw hbar epsilon0 cwf mn incident target f A nro naps rad n Hin s E m m1 ltac:(lra) Hb E1) as N1.
  pose proof (new_mlbw hbar epsilon0 cwf mn incident target f A nro naps rad n Hin s E m m2 ltac:(lra) Hb E2) as N2.
  rewrite new_a, new_ahat in N1, N2. destruct N1 as (N1 & N1c & N1f). destruct N2 as (N2 & N2c & N2f).
  cbn beta zeta. rewrite N1, N2.
  assert (Cancel : forall x y, x + y - x = y) by (intros; ring). rewrite !Cancel. split; [exact R3|]. split; [exact R3'|].
  intros m' [-> | ->]; [rewrite N1c, N1f | rewrite N2c, N2f]; rewrite !Cancel; split; assumption.
Qed.
End New.
