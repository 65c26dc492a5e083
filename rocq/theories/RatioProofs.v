(** Cross sections of the unresolved range depend on the ratios of widths and spacings. *)
From Coq Require Import List ZArith Reals Lra Lia Bool.
From Verif Require Import Outcome QuantumModel HardSphereModel CoulombModel KinematicsModel ChannelModel LegacyModel UnresolvedModel RatioSpec.
Import ListNotations.
Open Scope R_scope.

Definition dscale (k : R) (x : data R) : data R := mkData (k * d_elastic x) (k * d_capture x) (k * d_fission x) (k * d_competition x).
Definition oscale (k : R) (x : option (data R)) : option (data R) := match x with Some x => Some (dscale k x) | None => None end.
Definition rscale (k : R) (x : outcome (option (data R))) : outcome (option (data R)) := match x with Ok x => Ok (oscale k x) | Throw e => Throw e | UB e => UB e | Diverge => Diverge end.

Section Scale.
Variable k : R.
Hypothesis K : k <> 0.
Lemma fdiv_denominator a b : fdiv a (k * b) = match fdiv a b with Some x => Some (/ k * x) | None => None end.
Proof.
  unfold fdiv. destruct (Req_EM_T b 0) as [Z|Z], (Req_EM_T (k * b) 0) as [Y|Y]; [reflexivity | | | f_equal; field; split; assumption].
  - exfalso. apply Y. rewrite Z. ring.
  - exfalso. destruct (Rmult_integral _ _ Y); contradiction.
Qed.
Lemma term_scaled factor den qi qj qk : fluctuation_term factor (k * den) qi qj qk = oscale (/ k) (fluctuation_term factor den qi qj qk).
Proof.
  unfold fluctuation_term. destruct qj, qk; rewrite ?fdiv_denominator; unfold fdiv; destruct (Req_EM_T den 0); cbn; unfold dscale; cbn; rewrite ?Rmult_0_r; reflexivity.
Qed.
Lemma add_scaled a t : add_term (oscale (/ k) a) (oscale (/ k) t) = oscale (/ k) (add_term a t).
Proof. destruct a as [a|], t as [t|]; try reflexivity. cbn. unfold dscale, data_add; cbn. do 2 f_equal; ring. Qed.
Lemma nonzero_scaled x : nonzero (k * x) = nonzero x.
Proof.
  unfold nonzero. destruct (Req_EM_T x 0) as [Z|Z], (Req_EM_T (k * x) 0) as [Y|Y]; try reflexivity; exfalso.
  - apply Y. rewrite Z. ring.
  - destruct (Rmult_integral _ _ Y); contradiction.
Qed.
Lemma fold_scaled (f g : option (data R) -> nat -> outcome (option (data R))) : (forall a i, g (oscale (/ k) a) i = rscale (/ k) (f a i)) ->
  forall l a, foldM g l (oscale (/ k) a) = rscale (/ k) (foldM f l a).
Proof.
  intros H l. induction l as [|i l IH]; intros a; [reflexivity|]. cbn. rewrite H. destruct (f a i); cbn; [apply IH | reflexivity ..].
Qed.
Ltac entries := repeat (match goal with |- context[bind (entry ?t ?i ?c) _] => destruct (entry t i c); cbn [bind]; [|reflexivity ..] end).
Theorem integrals_scaled w d : calculateFluctuationIntegrals (dscale k w) d = rscale (/ k) (calculateFluctuationIntegrals w d).
Proof.
  unfold calculateFluctuationIntegrals. cbn [dscale d_elastic d_capture d_fission d_competition]. rewrite !nonzero_scaled.
  assert (Z : Some (mkData 0 0 0 0) = oscale (/ k) (Some (mkData 0 0 0 0))) by (cbn; unfold dscale; cbn; rewrite Rmult_0_r; reflexivity).
  destruct (nonzero (d_fission w)), (nonzero (d_competition w)); rewrite Z at 1;
    repeat (apply fold_scaled; intros); entries; cbn [rscale]; rewrite <- add_scaled, <- term_scaled; do 3 f_equal; ring.
Qed.

Lemma linlin_scaled f t x : (forall r, f (scaled_resonance k r) = k * f r) -> forall d d', 
  linlin (column_table f (mkUTable (map (scaled_resonance k) t) d)) x = match linlin (column_table f (mkUTable t d')) x with Ok (Some y) => Ok (Some (k * y)) | o => o end.
Proof.
  intros H d d'. unfold column_table. cbn [ut_resonances]. induction t as [|r [|s t] IH]; [reflexivity | reflexivity |].
  cbn [map linlin] in *. cbn [scaled_resonance ur_energy]. destruct (Rlt_dec x (ur_energy r)); [reflexivity|]. destruct (Rle_dec x (ur_energy s)); [|exact IH].
  rewrite !H. unfold fdiv. destruct (Req_EM_T (ur_energy s - ur_energy r) 0); cbn; [reflexivity|]. do 2 f_equal. field. assumption.
Qed.
Lemma at_scaled t d energy : unresolvedAt (mkUTable (map (scaled_resonance k) t) d) energy =
  match unresolvedAt (mkUTable t d) energy with Ok (Some p) => Ok (Some (scaled_resonance k p)) | o => o end.
Proof.
  unfold unresolvedAt. rewrite !(linlin_scaled _ t energy) with (d' := d) by reflexivity.
  repeat (match goal with |- context[bind (linlin ?a ?b) _] => destruct (linlin a b) as [[?|]| | |]; cbn [bind] end; try reflexivity).
Qed.

Variables (hbar epsilon0 : R) (cwf : nat -> R -> R -> outcome coulomb).
Lemma evaluate_scaled g energy m : unresolved_evaluate hbar epsilon0 cwf (scaled_group k g) energy m = unresolved_evaluate hbar epsilon0 cwf g energy m.
Proof.
  destruct g as [c [rs d]]. unfold unresolved_evaluate, scaled_group. cbn [ug_channel ug_table ut_degrees ut_resonances]. rewrite at_scaled.
  destruct (channelPenetrability hbar epsilon0 cwf c energy) as [op| | |]; cbn [bind]; [|reflexivity ..].
  destruct (channelPhaseShift hbar epsilon0 cwf c energy) as [ophi| | |]; cbn [bind]; [|reflexivity ..].
  destruct (radius_at (r_P (c_radii c)) energy) as [a| | |]; cbn [bind]; [|reflexivity ..].
  destruct (unresolvedAt (mkUTable rs d) energy) as [[p|]| | |]; cbn [bind]; [|reflexivity ..].
  destruct (channelWaveNumber hbar c energy) as [q|]; [|reflexivity]. destruct op as [P|]; [|reflexivity]. destruct ophi as [phi|]; [|reflexivity].
  destruct (fdiv (2 * pi_value * pi_value) (q * q)) as [factor|]; [|reflexivity]. unfold unresolvedWidths.
  destruct (fdiv (INR (d_elastic d) * P) (q * a)) as [vl|]; [|reflexivity]. destruct (fsqrt energy) as [root|]; [|reflexivity].
  cbn [scaled_resonance ur_elastic ur_capture ur_fission ur_competition ur_spacing].
  set (w := mkData (ur_elastic p * root * vl) (ur_capture p) (ur_fission p) (ur_competition p)).
  replace (mkData (k * ur_elastic p * root * vl) (k * ur_capture p) (k * ur_fission p) (k * ur_competition p)) with (dscale k w) by (unfold w, dscale; cbn; f_equal; ring).
  rewrite integrals_scaled. destruct (calculateFluctuationIntegrals w d) as [[i|]| | |]; cbn [rscale oscale bind]; [|reflexivity ..].
  unfold unresolvedElastic, unresolvedReaction. rewrite !fdiv_denominator. unfold fdiv. destruct (Req_EM_T (ur_spacing p) 0) as [Z|Z]; [reflexivity|].
  cbn [dscale d_elastic d_capture d_fission d_competition]. rewrite nonzero_scaled.
  assert (A : forall A (f g : A), f = g -> Ok f = Ok g) by (intros; subst; reflexivity). apply A.
  set (G := d_elastic w). replace (factor * (/ k * (spinFactor c / ur_spacing p) * (k * G * (k * G * (/ k * d_elastic i) - 2 * (sin phi * sin phi))))) with (factor * (spinFactor c / ur_spacing p * (G * (G * d_elastic i - 2 * (sin phi * sin phi))))) by (field; split; assumption).
  replace (/ k * (factor * spinFactor c / ur_spacing p) * (k * G * (k * d_capture w) * (/ k * d_capture i))) with (factor * spinFactor c / ur_spacing p * (G * d_capture w * d_capture i)) by (field; split; assumption).
  replace (/ k * (factor * spinFactor c / ur_spacing p) * (k * G * (k * d_fission w) * (/ k * d_fission i))) with (factor * spinFactor c / ur_spacing p * (G * d_fission w * d_fission i)) by (field; split; assumption).
  reflexivity.
Qed.
Theorem system_scaled s energy m : unresolved_system_evaluate hbar epsilon0 cwf (scaled_system k s) energy m = unresolved_system_evaluate hbar epsilon0 cwf s energy m.
Proof.
  destruct s as [gs lmax]. unfold unresolved_system_evaluate, scaled_system. cbn [uy_groups uy_lmax].
  set (f := fun om g => match om with None => Ok None | Some m => unresolved_evaluate hbar epsilon0 cwf g energy m end).
  assert (F : forall l a, foldM f (map (scaled_group k) l) a = foldM f l a).
  { induction l as [|g l IH]; intros a; [reflexivity|]. cbn [map foldM]. replace (f a (scaled_group k g)) with (f a g) by (unfold f; destruct a; [rewrite evaluate_scaled|]; reflexivity). destruct (f a g); cbn; [apply IH | reflexivity ..]. }
  rewrite F. destruct gs as [|g gs]; reflexivity.
Qed.
Theorem make_scaled gs : makeUnresolvedSystem (map (scaled_group k) gs) = match makeUnresolvedSystem gs with Ok s => Ok (scaled_system k s) | Throw e => Throw e | UB e => UB e | Diverge => Diverge end.
Proof.
  unfold makeUnresolvedSystem. assert (V : unresolvedVerify (map (scaled_group k) gs) = unresolvedVerify gs).
  { unfold unresolvedVerify. rewrite map_length. destruct (check (negb (Nat.eqb (length gs) 0))); cbn [bind]; [|reflexivity ..].
    assert (C : forall p l, count (fun h => same_lJ (c_numbers (ug_channel h)) p) (map (scaled_group k) l) = count (fun h => same_lJ (c_numbers (ug_channel h)) p) l).
    { intros p l. induction l as [|h l IH]; [reflexivity|]. cbn [map count]. rewrite IH. reflexivity. }
    match goal with |- foldM ?f _ _ = foldM ?g _ _ => enough (F : forall l u, foldM f (map (scaled_group k) l) u = foldM g l u) by apply F end.
    induction l as [|g l IH]; intros u; [reflexivity|]. cbn [map foldM]. rewrite C. cbn [scaled_group ug_channel]. destruct (check _); cbn [bind]; [apply IH | reflexivity ..]. }
  rewrite V. destruct (unresolvedVerify gs); cbn [bind]; [|reflexivity ..]. f_equal. unfold scaled_system. cbn [uy_groups uy_lmax]. f_equal.
  clear V. unfold unresolvedLMax. generalize 0%nat. induction gs as [|g l IH]; intros n; [reflexivity|]. cbn [map fold_left]. apply IH.
Qed.
End Scale.
Theorem integrals_quotient k Gn Gg Gf Gx d : k <> 0 ->
  calculateFluctuationIntegrals (mkData (k * Gn) (k * Gg) (k * Gf) (k * Gx)) d =
  match calculateFluctuationIntegrals (mkData Gn Gg Gf Gx) d with
  | Ok (Some i) => Ok (Some (mkData (d_elastic i / k) (d_capture i / k) (d_fission i / k) (d_competition i / k)))
  | o => o
  end.
Proof.
  intros K. pose proof (integrals_scaled k K (mkData Gn Gg Gf Gx) d) as H. unfold dscale in H at 1. cbn [d_elastic d_capture d_fission d_competition] in H. rewrite H.
  destruct (calculateFluctuationIntegrals (mkData Gn Gg Gf Gx) d) as [[i|]| | |]; cbn; try reflexivity. unfold dscale. do 3 f_equal; field; assumption.
Qed.
Lemma made_again mn incident target spin ap nro naps grid lower upper uls s : makeLegacyUnresolvedSystem mn incident target spin ap nro naps grid lower upper uls = Ok s -> makeUnresolvedSystem (uy_groups s) = Ok s.
Proof.
  unfold makeLegacyUnresolvedSystem. destruct uls as [|u uls]; [discriminate|]. destruct (legacyPair _ _ _ _ _); cbn [bind]; [|discriminate ..]. destruct (makeChannelRadii _ _ _ _ _); cbn [bind]; [|discriminate ..].
  destruct (mapM _ _) as [gs| | |]; cbn [bind]; [|discriminate ..]. generalize (concat gs). intros l H. replace (uy_groups s) with l; [exact H|].
  unfold makeUnresolvedSystem in H. destruct (unresolvedVerify l); cbn [bind] in H; [|discriminate ..]. injection H as <-. reflexivity.
Qed.
