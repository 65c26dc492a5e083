(** Cross sections of the unresolved range in other units. *)
From Coq Require Import String List ZArith Reals Lra Lia Bool.
From Verif Require Import Outcome QuantumModel SpinFactorModel HardSphereModel KinematicsModel CoulombModel RMatrixModel ChannelModel BreitWignerModel LegacyModel UnresolvedModel RatioProofs UnitsSpec UnitsProofs UnitsUnresolvedSpec.
Import ListNotations.
Open Scope R_scope.

Section Units.
Variable t : R.
Hypothesis T : 0 < t.
Variables (hbar epsilon0 : R) (cwf : nat -> R -> R -> outcome coulomb).
Notation up x := (t * t * x).
Lemma linlin_units f v l x : (forall r, f (units_average t r) = v * f r) -> forall d d',
  linlin (column_table f (mkUTable (map (units_average t) l) d)) (up x) = match linlin (column_table f (mkUTable l d')) x with Ok (Some y) => Ok (Some (v * y)) | o => o end.
Proof.
  intros H d d'. assert (P : 0 < t * t) by nra. unfold column_table. cbn [ut_resonances]. induction l as [|r [|s l] IH]; [reflexivity | reflexivity |].
  cbn [map linlin] in *. cbn [units_average ur_energy] in *. destruct (Rlt_dec x (ur_energy r)), (Rlt_dec (up x) (up (ur_energy r))); try reflexivity; try (exfalso; nra).
  destruct (Rle_dec x (ur_energy s)), (Rle_dec (up x) (up (ur_energy s))); try (exfalso; nra); [|exact IH].
  rewrite !H. replace (up (ur_energy s) - up (ur_energy r)) with (up (ur_energy s - ur_energy r)) by ring. rewrite fdiv_less by lra. replace (v * f s - v * f r) with (v * (f s - f r)) by ring. rewrite fdiv_more.
  destruct (fdiv (f s - f r) (ur_energy s - ur_energy r)); [|reflexivity]. do 2 f_equal. field. lra.
Qed.
Lemma at_units l d x : unresolvedAt (mkUTable (map (units_average t) l) d) (up x) = match unresolvedAt (mkUTable l d) x with Ok (Some p) => Ok (Some (units_average t p)) | o => o end.
Proof.
  unfold unresolvedAt. rewrite (linlin_units ur_spacing (t * t) l x) with (d' := d) by reflexivity. rewrite (linlin_units ur_elastic t l x) with (d' := d) by reflexivity.
  rewrite (linlin_units ur_capture (t * t) l x) with (d' := d) by reflexivity. rewrite (linlin_units ur_fission (t * t) l x) with (d' := d) by reflexivity. rewrite (linlin_units ur_competition (t * t) l x) with (d' := d) by reflexivity.
  repeat (match goal with |- context[bind (linlin ?a ?b) _] => destruct (linlin a b) as [[?|]| | |]; cbn [bind] end; try reflexivity).
Qed.
Lemma root_units_f x : fsqrt (up x) = match fsqrt x with Some y => Some (t * y) | None => None end.
Proof. assert (0 < t * t) by nra. unfold fsqrt. destruct (Rlt_dec x 0), (Rlt_dec (up x) 0); [reflexivity | exfalso; nra | exfalso; nra|]. rewrite sqrt_mult_alt by lra. rewrite sqrt_square by lra. reflexivity. Qed.
Lemma group_average_units g e m : uncharged (ug_channel g) ->
  unresolved_evaluate hbar epsilon0 cwf (units_ugroup t g) (up e) (units_map t m) = units_result t (unresolved_evaluate hbar epsilon0 cwf g e m).
Proof.
  assert (P0 : 0 < t * t) by nra. intros U. destruct g as [c [rs d]]. cbn [ug_channel] in U. unfold unresolved_evaluate, units_ugroup. cbn [ug_channel ug_table ut_degrees ut_resonances]. unfold channelPenetrability, channelPhaseShift.
  change (r_P (c_radii (units_channel t c))) with (units_radius t (r_P (c_radii c))). change (r_phi (c_radii (units_channel t c))) with (units_radius t (r_phi (c_radii c))). rewrite !(function_units t T _ _ _ _ _ _ U), (radius_units t T), (wave_units t T), at_units.
  set (X := channelFunction _ _ _ c _ e). destruct X as [op| | |]; cbn [bind]; [|reflexivity ..]. set (Y := channelFunction _ _ _ c _ e). destruct Y as [ophi| | |]; cbn [bind]; [|reflexivity ..].
  destruct (radius_at (r_P (c_radii c)) e) as [a| | |]; cbn [bind]; [|reflexivity ..]. set (UB0 := bind (entry weights 0 _) _). assert (E0 : UB0 = units_result t UB0) by (unfold UB0; destruct (entry weights 0 _); reflexivity).
  destruct (unresolvedAt (mkUTable rs d) e) as [[p|]| | |]; cbn [bind]; [| destruct (channelWaveNumber hbar c e) as [q|]; [|exact E0]; destruct op; [|exact E0]; destruct ophi; [|exact E0]; destruct (fdiv _ (q * q)), (fdiv _ (t * q * (t * q))); exact E0 | reflexivity ..].
  destruct (channelWaveNumber hbar c e) as [q|]; [|exact E0]. destruct op as [P|]; [|exact E0]. destruct ophi as [phi|]; [|exact E0]. replace (t * q * (t * q)) with (up (q * q)) by ring. rewrite fdiv_less by lra.
  destruct (fdiv (2 * pi_value * pi_value) (q * q)) as [factor|]; [|exact E0]. unfold unresolvedWidths. replace (t * q * (a / t)) with (q * a) by (field; lra).
  destruct (fdiv (INR (d_elastic d) * P) (q * a)) as [vl|]; [|exact E0]. rewrite root_units_f. destruct (fsqrt e) as [root|]; [|exact E0].
  cbn [units_average ur_elastic ur_capture ur_fission ur_competition ur_spacing].
  set (w := mkData (ur_elastic p * root * vl) (ur_capture p) (ur_fission p) (ur_competition p)).
  replace (mkData (t * ur_elastic p * (t * root) * vl) (up (ur_capture p)) (up (ur_fission p)) (up (ur_competition p))) with (dscale (t * t) w) by (unfold w, dscale; cbn; f_equal; ring).
  assert (K : t * t <> 0) by lra. rewrite (integrals_scaled (t * t) K). destruct (calculateFluctuationIntegrals w d) as [[i|]| | |]; cbn [rscale oscale bind]; [|reflexivity ..].
  unfold unresolvedElastic, unresolvedReaction. rewrite !(fdiv_denominator (t * t) K). unfold fdiv. destruct (Req_EM_T (ur_spacing p) 0) as [Z|Z]; [reflexivity|].
  cbn [dscale d_elastic d_capture d_fission d_competition units_result]. rewrite (nonzero_scaled (t * t) K). change (spinFactor (units_channel t c)) with (spinFactor c). rewrite !(key_units t).
  set (G := d_elastic w). set (g0 := spinFactor c).
  replace (factor / (t * t) * (/ (t * t) * (g0 / ur_spacing p) * (up G * (up G * (/ (t * t) * d_elastic i) - 2 * (sin phi * sin phi))))) with (factor * (g0 / ur_spacing p * (G * (G * d_elastic i - 2 * (sin phi * sin phi)))) / (t * t)) by (field; split; lra).
  replace (/ (t * t) * (factor / (t * t) * g0 / ur_spacing p) * (up G * up (d_capture w) * (/ (t * t) * d_capture i))) with (factor * g0 / ur_spacing p * (G * d_capture w * d_capture i) / (t * t)) by (field; split; lra).
  replace (/ (t * t) * (factor / (t * t) * g0 / ur_spacing p) * (up G * up (d_fission w) * (/ (t * t) * d_fission i))) with (factor * g0 / ur_spacing p * (G * d_fission w * d_fission i) / (t * t)) by (field; split; lra).
  rewrite !(accumulate_units t T). destruct (nonzero (d_fission w)); reflexivity.
Qed.
Theorem usystem_units s e m : (forall g, In g (uy_groups s) -> uncharged (ug_channel g)) ->
  unresolved_system_evaluate hbar epsilon0 cwf (units_usystem t s) (up e) (units_map t m) = units_result t (unresolved_system_evaluate hbar epsilon0 cwf s e m).
Proof.
  intros U. assert (H : forall g m, In g (uy_groups s) -> unresolved_evaluate hbar epsilon0 cwf (units_ugroup t g) (up e) (units_map t m) = units_result t (unresolved_evaluate hbar epsilon0 cwf g e m)) by (intros g m0 G; apply group_average_units, U, G). clear U.
  unfold unresolved_system_evaluate. cbn [units_usystem uy_groups uy_lmax].
  set (F1 := fun om g => match om with None => Ok None | Some m => unresolved_evaluate hbar epsilon0 cwf g (up e) m end). set (F0 := fun om g => match om with None => Ok None | Some m => unresolved_evaluate hbar epsilon0 cwf g e m end).
  assert (F : forall l om, (forall g, In g l -> In g (uy_groups s)) -> foldM F1 (map (units_ugroup t) l) (match om with Some m => Some (units_map t m) | None => None end) = units_result t (foldM F0 l om)).
  { induction l as [|g l IH]; intros om S; [destruct om; reflexivity|]. cbn [map foldM]. destruct om as [m0|].
    - unfold F1 at 1, F0 at 1. rewrite H by (apply S; left; reflexivity). destruct (unresolved_evaluate hbar epsilon0 cwf g e m0) as [[m1|]| | |]; cbn [units_result bind]; [exact (IH (Some m1) (fun x X => S x (or_intror X))) | exact (IH None (fun x X => S x (or_intror X))) | reflexivity ..].
    - cbn. apply (IH None). intros x X. apply S. right. exact X. }
  specialize (F (uy_groups s) (Some m) (fun g G => G)). cbv beta iota in F. rewrite F. destruct (foldM F0 (uy_groups s) (Some m)) as [om| | |]; [|reflexivity ..].
  destruct (uy_groups s) as [|g gs]; [destruct om; reflexivity|]. cbn [map units_ugroup ug_channel]. rewrite (wave_units t T). change (r_phi (c_radii (units_channel t (ug_channel g)))) with (units_radius t (r_phi (c_radii (ug_channel g)))). rewrite (radius_units t T).
  destruct (channelWaveNumber hbar (ug_channel g) e) as [k|]; [|destruct om; reflexivity]. destruct (radius_at (r_phi (c_radii (ug_channel g))) e) as [a| | |]; cbn [bind]; [|destruct om; reflexivity ..].
  replace (t * k * (a / t)) with (k * a) by (field; lra). replace (t * k * (t * k)) with (up (k * k)) by ring. rewrite fdiv_less by nra.
  destruct om as [m0|]; cbn [units_result bind]; destruct (potential (k * a) (S (uy_lmax s)) 0 0) as [v| | |]; cbn [bind]; try reflexivity. destruct (fdiv (4 * pi_value) (k * k)) as [f|]; [|reflexivity]. rewrite (key_units t).
  replace (f / (t * t) * v) with (f * v / (t * t)) by (field; lra). rewrite (accumulate_units t T). reflexivity.
Qed.
Theorem umake_units gs : makeUnresolvedSystem (map (units_ugroup t) gs) = match makeUnresolvedSystem gs with Ok s => Ok (units_usystem t s) | Throw e => Throw e | UB e => UB e | Diverge => Diverge end.
Proof.
  unfold makeUnresolvedSystem. assert (V : unresolvedVerify (map (units_ugroup t) gs) = unresolvedVerify gs).
  { unfold unresolvedVerify. rewrite map_length. destruct (check (negb (Nat.eqb (length gs) 0))); cbn [bind]; [|reflexivity ..].
    assert (C : forall p l, count (fun h => same_lJ (c_numbers (ug_channel h)) p) (map (units_ugroup t) l) = count (fun h => same_lJ (c_numbers (ug_channel h)) p) l).
    { intros p l. induction l as [|h l IH]; [reflexivity|]. cbn [map count]. rewrite IH. reflexivity. }
    match goal with |- foldM ?f _ _ = foldM ?g _ _ => enough (F : forall l u, foldM f (map (units_ugroup t) l) u = foldM g l u) by apply F end.
    induction l as [|g l IH]; intros u; [reflexivity|]. cbn [map foldM]. rewrite C. cbn [units_ugroup ug_channel]. destruct (check _); cbn [bind]; [apply IH | reflexivity ..]. }
  rewrite V. destruct (unresolvedVerify gs); cbn [bind]; [|reflexivity ..]. f_equal. unfold units_usystem. cbn [uy_groups uy_lmax]. f_equal.
  clear V. unfold unresolvedLMax. generalize 0%nat. induction gs as [|g l IH]; intros n; [reflexivity|]. cbn [map fold_left]. apply IH.
Qed.
Lemma ufile_uncharged mn incident target spin ap nro naps grid lower upper uls s : makeLegacyUnresolvedSystem mn incident target spin ap nro naps grid lower upper uls = Ok s ->
  forall g, In g (uy_groups s) -> uncharged (ug_channel g).
Proof.
  unfold makeLegacyUnresolvedSystem. destruct uls as [|u0 uls0]; [discriminate|]. set (uls := u0 :: uls0). destruct (legacyPair _ _ _ _ _) as [pr| | |] eqn:Q; cbn [bind]; [|discriminate ..]. pose proof (pair_uncharged _ _ _ _ _ _ Q) as Z.
  destruct (makeChannelRadii _ _ _ _ _) as [rad| | |]; cbn [bind]; [|discriminate ..]. set (es := match grid with Some es => es | None => [lower; upper] end).
  assert (A : forall l gs, mapM (makeLegacyUnresolvedGroups pr rad es) l = Ok gs -> forall g, In g (concat gs) -> uncharged (ug_channel g)).
  { induction l as [|u l IH]; intros gs H g G; cbn [mapM] in H; [injection H as <-; destruct G|]. apply bind_is in H as (x & X & H). apply bind_is in H as (xs & XS & H). injection H as <-. cbn [concat] in G. apply in_app_or in G as [G|G]; [|exact (IH _ XS g G)].
    unfold makeLegacyUnresolvedGroups in X. revert x X G. induction (ul_jvalues u) as [|j js IJ]; intros x X G; cbn [mapM] in X; [injection X as <-; destruct G|]. apply bind_is in X as (y & Y & X). apply bind_is in X as (ys & YS & X). injection X as <-.
    destruct G as [<-|G]; [|exact (IJ _ YS G)]. apply bind_is in Y as (tb & _ & Y). injection Y as <-. exact Z. }
  destruct (mapM _ uls) as [gs| | |] eqn:M; cbn [bind]; [|discriminate ..]. unfold makeUnresolvedSystem. destruct (unresolvedVerify _); cbn [bind]; [|discriminate ..]. intros H. injection H as <-. exact (A _ _ M).
Qed.
End Units.
