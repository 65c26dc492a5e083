(** Breit-Wigner cross sections in other units. *)
From Coq Require Import String List ZArith Reals Lra Lia Bool FunctionalExtensionality.
From Verif Require Import Outcome QuantumModel SpinFactorModel HardSphereModel KinematicsModel CoulombModel RMatrixModel ChannelModel BreitWignerModel LegacyModel UnitsSpec.
Import ListNotations.
Open Scope R_scope.

Section Units.
Variable t : R.
Hypothesis T : 0 < t.
Variables (hbar epsilon0 : R) (cwf : nat -> R -> R -> outcome coulomb).
Notation up x := (t * t * x).
Lemma tt_pos : 0 < t * t. Proof. nra. Qed.

Lemma wave_units c e : channelWaveNumber hbar (units_channel t c) (up e) = match channelWaveNumber hbar c e with Some k => Some (t * k) | None => None end.
Proof.
  unfold channelWaveNumber. cbn [units_channel c_pair c_incident c_q]. destruct (pp_reduced (c_pair c)) as [mu|]; [|reflexivity]. destruct (pp_ratio (c_incident c)) as [r|]; [|reflexivity]. f_equal. unfold waveNumber.
  replace (up e * r + up (c_q c)) with (up (e * r + c_q c)) by ring. rewrite Rabs_mult, (Rabs_pos_eq (t * t)) by nra. replace (2 * mu * (up (Rabs (e * r + c_q c)))) with (up (2 * mu * Rabs (e * r + c_q c))) by ring.
  rewrite sqrt_mult_alt by nra. rewrite sqrt_square by lra. unfold Rdiv. ring.
Qed.
Lemma radius_units r e : radius_at (units_radius t r) (up e) = match radius_at r e with Ok a => Ok (a / t) | o => o end.
Proof. destruct r as [a|f]; cbn; [reflexivity|]. replace (up e / (t * t)) with e by (field; lra). reflexivity. Qed.
Lemma eta_units c e : uncharged c -> channelEta hbar epsilon0 (units_channel t c) (up e) = channelEta hbar epsilon0 c e.
Proof. intros U. unfold channelEta. cbn [units_channel c_pair]. unfold uncharged in U. destruct (Req_EM_T _ 0); [reflexivity | contradiction]. Qed.
Lemma function_units f c r e : uncharged c -> channelFunction hbar epsilon0 f (units_channel t c) (units_radius t r) (up e) = channelFunction hbar epsilon0 f c r e.
Proof.
  intros U. unfold channelFunction. rewrite radius_units, wave_units, (eta_units c e U). cbn [units_channel c_type c_numbers]. destruct (radius_at r e) as [a| | |]; cbn [bind]; [|reflexivity ..].
  destruct (c_type c); try reflexivity; destruct (channelWaveNumber hbar c e) as [k|]; try reflexivity; replace (t * k * (a / t)) with (k * a) by (field; lra); reflexivity.
Qed.
Lemma fdiv_same a b k : k <> 0 -> fdiv (k * a) (k * b) = fdiv a b.
Proof.
  intros K. unfold fdiv. destruct (Req_EM_T b 0) as [Z|Z], (Req_EM_T (k * b) 0) as [Y|Y]; [reflexivity | | | f_equal; field; split; assumption].
  - exfalso. apply Y. rewrite Z. ring.
  - exfalso. destruct (Rmult_integral _ _ Y); contradiction.
Qed.
Lemma fdiv_less a b k : k <> 0 -> fdiv a (k * b) = match fdiv a b with Some x => Some (x / k) | None => None end.
Proof.
  intros K. unfold fdiv. destruct (Req_EM_T b 0) as [Z|Z], (Req_EM_T (k * b) 0) as [Y|Y]; [reflexivity | | | f_equal; field; split; assumption].
  - exfalso. apply Y. rewrite Z. ring.
  - exfalso. destruct (Rmult_integral _ _ Y); contradiction.
Qed.
Lemma fdiv_more a b k : fdiv (k * a) b = match fdiv a b with Some x => Some (k * x) | None => None end.
Proof. unfold fdiv. destruct (Req_EM_T b 0); [reflexivity|]. f_equal. field. assumption. Qed.
Lemma resonance_units E n g f x P Q S : makeLegacyResonance (up E) (up n) (up g) (up f) (up x) P Q S = units_resonance t (makeLegacyResonance E n g f x P Q S).
Proof. unfold makeLegacyResonance, units_resonance. cbn. rewrite !fdiv_more. reflexivity. Qed.

Definition units_pre (x : precomputed) : precomputed :=
  mkPre (up (pre_elastic x)) (up (pre_capture x)) (up (pre_fission x)) (up (pre_total x)) (up (pre_delta x)) (up (up (pre_denominator x))).
Lemma pre1_units e p q s r : precompute1 (up e) p q s (units_resonance t r) = match precompute1 e p q s r with Some x => Some (units_pre x) | None => None end.
Proof.
  unfold precompute1, legacyElasticAt, legacyTotalAt, legacyElasticAt, legacyCompetitionAt, energyPrime. cbn [units_resonance q_toP q_toQ q_capture q_fission q_energy q_shift].
  destruct (q_toP r) as [w|]; [|reflexivity]. destruct (q_toQ r) as [v|]; [|reflexivity]. cbn. unfold units_pre. cbn. f_equal. f_equal; field.
Qed.
Lemma all_units {X Y} (f : X -> Y) (l : list (option X)) : all_finite (map (fun o => match o with Some x => Some (f x) | None => None end) l) = match all_finite l with Some xs => Some (map f xs) | None => None end.
Proof. induction l as [|[x|] l IH]; [reflexivity | | reflexivity]. cbn. rewrite IH. destruct (all_finite l); reflexivity. Qed.
Lemma qx_units x : (if Req_EM_T (up x) 0 then true else false) = (if Req_EM_T x 0 then true else false).
Proof. pose proof tt_pos. destruct (Req_EM_T x 0) as [Z|Z], (Req_EM_T (up x) 0) as [Y|Y]; try reflexivity; exfalso; [apply Y; rewrite Z; ring | destruct (Rmult_integral _ _ Y); lra]. Qed.
Lemma pre_units g e : uncharged (lg_channel g) -> precompute hbar epsilon0 cwf (units_group t g) (up e) = match precompute hbar epsilon0 cwf g e with Ok (Some xs) => Ok (Some (map units_pre xs)) | o => o end.
Proof.
  intros U. unfold precompute. assert (H : legacyPQS hbar epsilon0 cwf (units_group t g) (up e) = legacyPQS hbar epsilon0 cwf g e).
  { unfold legacyPQS, channelPenetrability, channelShiftFactor. cbn [units_group lg_channel lg_qx]. change (r_P (c_radii (units_channel t (lg_channel g)))) with (units_radius t (r_P (c_radii (lg_channel g)))). change (r_S (c_radii (units_channel t (lg_channel g)))) with (units_radius t (r_S (c_radii (lg_channel g)))).
    replace (up e - up (lg_qx g)) with (up (e - lg_qx g)) by ring. rewrite !(function_units _ _ _ _ U). pose proof (qx_units (lg_qx g)) as Q.
    destruct (Req_EM_T (up (lg_qx g)) 0), (Req_EM_T (lg_qx g) 0); try discriminate; reflexivity. }
  rewrite H. destruct (legacyPQS hbar epsilon0 cwf g e) as [[[[p q] s]|]| | |]; cbn [bind]; try reflexivity. cbn [units_group lg_resonances]. rewrite map_map.
  rewrite (map_ext _ (fun r => match precompute1 e p q s r with Some x => Some (units_pre x) | None => None end)) by (intros r; apply pre1_units).
  rewrite <- (map_map (precompute1 e p q s) (fun o => match o with Some x => Some (units_pre x) | None => None end)), all_units. destruct (all_finite _); reflexivity.
Qed.
Lemma component_units A B x : slbw_components A B (units_pre x) = slbw_components A B x.
Proof.
  pose proof tt_pos. assert (K : t * t * (t * t) <> 0) by nra. unfold slbw_components, units_pre. cbn [pre_elastic pre_capture pre_fission pre_total pre_delta pre_denominator].
  replace (up (up (pre_denominator x))) with (t * t * (t * t) * pre_denominator x) by ring.
  replace (up (pre_elastic x) * (up (pre_elastic x) - 2 * up (pre_total x) * A + 2 * up (pre_delta x) * B)) with (t * t * (t * t) * (pre_elastic x * (pre_elastic x - 2 * pre_total x * A + 2 * pre_delta x * B))) by ring.
  replace (up (pre_capture x) * up (pre_elastic x)) with (t * t * (t * t) * (pre_capture x * pre_elastic x)) by ring. replace (up (pre_fission x) * up (pre_elastic x)) with (t * t * (t * t) * (pre_fission x * pre_elastic x)) by ring.
  rewrite !(fdiv_same _ _ _ K). reflexivity.
Qed.
Lemma factor_units c e : channelFactor hbar (units_channel t c) (up e) = match channelFactor hbar c e with Some x => Some (x / (t * t)) | None => None end.
Proof.
  unfold channelFactor. rewrite wave_units. change (spinFactor (units_channel t c)) with (spinFactor c). destruct (channelWaveNumber hbar c e) as [k|]; [|reflexivity]. replace (t * k * (t * k)) with (up (k * k)) by ring. rewrite fdiv_less by nra.
  destruct (fdiv pi_value (k * k)); [|reflexivity]. cbn [option_map]. f_equal. field. lra.
Qed.
Lemma accumulate_units m key x : accumulateAt (units_map t m) key (x / (t * t)) = units_map t (accumulateAt m key x).
Proof.
  apply functional_extensionality. intros k. unfold accumulateAt, units_map. destruct (legacy_key_eqb k key); [|reflexivity]. f_equal. destruct (m key); field; lra.
Qed.
Lemma key_units c s : legacyKey (units_channel t c) s = legacyKey c s.
Proof. reflexivity. Qed.
Lemma slbw_units g e m : uncharged (lg_channel g) -> legacySLBW hbar epsilon0 cwf (units_group t g) (up e) (units_map t m) = units_result t (legacySLBW hbar epsilon0 cwf g e m).
Proof.
  intros U. unfold legacySLBW. rewrite (pre_units g e U). unfold channelPhaseShift. cbn [units_group lg_channel]. change (r_phi (c_radii (units_channel t (lg_channel g)))) with (units_radius t (r_phi (c_radii (lg_channel g)))).
  rewrite (function_units _ _ _ _ U), factor_units. destruct (channelFunction hbar epsilon0 _ (lg_channel g) _ e) as [ophi| | |]; cbn [bind]; [|reflexivity ..].
  destruct (precompute hbar epsilon0 cwf g e) as [[xs|]| | |]; cbn [bind]; destruct ophi as [phi|]; try reflexivity; destruct (channelFactor hbar (lg_channel g) e) as [f|]; try reflexivity.
  rewrite map_map. rewrite (map_ext _ (slbw_components (sin phi * sin phi) (sin (2 * phi)))) by (intros x; apply component_units). destruct (all_finite _) as [ys|]; [|reflexivity]. destruct (taccumulate ys (0, 0, 0)) as [[a b] d]. rewrite !key_units.
  replace (f / (t * t) * a) with (f * a / (t * t)) by (field; lra). replace (f / (t * t) * b) with (f * b / (t * t)) by (field; lra). replace (f / (t * t) * d) with (f * d / (t * t)) by (field; lra).
  rewrite !accumulate_units. destruct (Req_EM_T d 0); reflexivity.
Qed.
Lemma cross_units x y : cross_term (units_pre x) (units_pre y) = cross_term x y.
Proof.
  pose proof tt_pos. assert (K : t * t * (t * t) <> 0) by nra. unfold cross_term, units_pre. cbn [pre_elastic pre_total pre_delta pre_denominator].
  replace (up (up (pre_denominator x))) with (t * t * (t * t) * pre_denominator x) by ring. replace (up (up (pre_denominator y))) with (t * t * (t * t) * pre_denominator y) by ring.
  match goal with |- context[fdiv ?n (t * t * (t * t) * pre_denominator x)] => replace n with (t * t * (t * t) * (t * t * (t * t) * (2 * pre_elastic x * pre_elastic y * (pre_delta x * pre_delta y + 0.25 * pre_total x * pre_total y)))) by ring end.
  rewrite (fdiv_same _ _ _ K), fdiv_more. destruct (fdiv _ (pre_denominator x)); [|reflexivity]. apply fdiv_same. exact K.
Qed.
Lemma inner_units x ys : forall a, inner_loop (units_pre x) (map units_pre ys) a = inner_loop x ys a.
Proof. induction ys as [|y ys IH]; intros a; [reflexivity|]. cbn [map inner_loop]. rewrite cross_units. destruct (cross_term x y); [apply IH | reflexivity]. Qed.
Lemma outer_units xs : forall ys a, outer_loop (map units_pre ys) (map units_pre xs) a = outer_loop ys xs a.
Proof.
  induction xs as [|x xs IH]; intros ys a; [reflexivity|]. cbn [map outer_loop]. rewrite inner_units. destruct (inner_loop x ys a); [|reflexivity]. change [units_pre x] with (map units_pre [x]). rewrite <- map_app. apply IH.
Qed.
Lemma mlbw_units g e m : uncharged (lg_channel g) -> legacyMLBW hbar epsilon0 cwf (units_group t g) (up e) (units_map t m) = units_result t (legacyMLBW hbar epsilon0 cwf g e m).
Proof.
  intros U. unfold legacyMLBW. rewrite (pre_units g e U), (slbw_units g e m U). cbn [units_group lg_channel]. rewrite factor_units.
  destruct (legacySLBW hbar epsilon0 cwf g e m) as [[m1|]| | |]; cbn [units_result bind]; try reflexivity; destruct (precompute hbar epsilon0 cwf g e) as [[xs|]| | |]; cbn [bind]; try reflexivity; destruct (channelFactor hbar (lg_channel g) e) as [f|]; try reflexivity.
  change [] with (map units_pre []) at 1. rewrite outer_units. destruct (outer_loop [] xs 0) as [z|]; [|reflexivity]. rewrite key_units. replace (f / (t * t) * z) with (f * z / (t * t)) by (field; lra). rewrite accumulate_units. reflexivity.
Qed.
Theorem system_units one s e m : (forall g m, In g (ly_groups s) -> one (units_group t g) (up e) (units_map t m) = units_result t (one g e m)) ->
  legacy_evaluate hbar one (units_system t s) (up e) (units_map t m) = units_result t (legacy_evaluate hbar one s e m).
Proof.
  intros H. unfold legacy_evaluate. cbn [units_system ly_groups ly_lmax].
  set (F1 := fun om g => match om with None => Ok None | Some m => one g (up e) m end). set (F0 := fun om g => match om with None => Ok None | Some m => one g e m end).
  assert (F : forall l om, (forall g, In g l -> In g (ly_groups s)) -> foldM F1 (map (units_group t) l) (match om with Some m => Some (units_map t m) | None => None end) = units_result t (foldM F0 l om)).
  { induction l as [|g l IH]; intros om S; [destruct om; reflexivity|]. cbn [map foldM]. destruct om as [m0|].
    - unfold F1 at 1, F0 at 1. rewrite H by (apply S; left; reflexivity). destruct (one g e m0) as [[m1|]| | |]; cbn [units_result bind]; [exact (IH (Some m1) (fun x X => S x (or_intror X))) | exact (IH None (fun x X => S x (or_intror X))) | reflexivity ..].
    - cbn. apply (IH None). intros x X. apply S. right. exact X. }
  specialize (F (ly_groups s) (Some m) (fun g G => G)). cbv beta iota in F. rewrite F. destruct (foldM F0 (ly_groups s) (Some m)) as [om| | |]; [|reflexivity ..].
  destruct (ly_groups s) as [|g gs]; [destruct om; reflexivity|]. cbn [map units_group lg_channel]. rewrite wave_units. change (r_phi (c_radii (units_channel t (lg_channel g)))) with (units_radius t (r_phi (c_radii (lg_channel g)))). rewrite radius_units.
  destruct (channelWaveNumber hbar (lg_channel g) e) as [k|]; [|destruct om; reflexivity]. destruct (radius_at (r_phi (c_radii (lg_channel g))) e) as [a| | |]; cbn [bind]; [|destruct om; reflexivity ..].
  replace (t * k * (a / t)) with (k * a) by (field; lra). replace (t * k * (t * k)) with (up (k * k)) by ring. rewrite fdiv_less by (pose proof tt_pos; lra).
  destruct om as [m0|]; cbn [units_result bind]; destruct (potential (k * a) (S (ly_lmax s)) 0 0) as [v| | |]; cbn [bind]; try reflexivity. destruct (fdiv (4 * pi_value) (k * k)) as [f|]; [|reflexivity]. rewrite key_units.
  replace (f / (t * t) * v) with (f * v / (t * t)) by (field; lra). rewrite accumulate_units. reflexivity.
Qed.
Theorem slbw_system_units s e m : (forall g, In g (ly_groups s) -> uncharged (lg_channel g)) ->
  legacy_evaluate hbar (legacySLBW hbar epsilon0 cwf) (units_system t s) (up e) (units_map t m) = units_result t (legacy_evaluate hbar (legacySLBW hbar epsilon0 cwf) s e m).
Proof. intros U. apply system_units. intros g m0 G. apply slbw_units, U, G. Qed.
Theorem mlbw_system_units s e m : (forall g, In g (ly_groups s) -> uncharged (lg_channel g)) ->
  legacy_evaluate hbar (legacyMLBW hbar epsilon0 cwf) (units_system t s) (up e) (units_map t m) = units_result t (legacy_evaluate hbar (legacyMLBW hbar epsilon0 cwf) s e m).
Proof. intros U. apply system_units. intros g m0 G. apply mlbw_units, U, G. Qed.
End Units.

Section File.
Variable t : R.
Hypothesis T : 0 < t.
Variables (hbar epsilon0 : R) (cwf : nat -> R -> R -> outcome coulomb) (mn : R) (incident target : string).
Notation up x := (t * t * x).
Definition units_radii (r : radii) : radii := mkRadii (units_radius t (r_P r)) (units_radius t (r_S r)) (units_radius t (r_phi r)).
Lemma radii_units ap nro naps awri : naps <> 0%nat -> makeChannelRadii (ap / t) (units_table t nro) naps awri mn = match makeChannelRadii ap nro naps awri mn with Ok r => Ok (units_radii r) | o => o end.
Proof. intros N. destruct nro as [f|]; destruct naps as [|[|[|n]]]; try reflexivity; contradiction. Qed.
Lemma pair_uncharged awri spin pr : legacyPair mn incident target awri spin = Ok pr -> p_charge (pp_particle pr) * p_charge (pp_residual pr) = 0.
Proof.
  unfold legacyPair, makeParticle. destruct (verifyNotNegative mn "Mass"); [|discriminate ..]. cbn [bind]. destruct (verifyNotNegative 0 "Charge"); [|discriminate ..]. cbn [bind].
  destruct (verifyNotNegative (awri * mn) "Mass"); [|discriminate ..]. cbn [bind]. intros H. injection H as <-. cbn. ring.
Qed.
Lemma line_units c lrx qx r : uncharged c -> legacyLine hbar epsilon0 cwf (units_channel t c) lrx (up qx) (units_line t r) =
  match legacyLine hbar epsilon0 cwf c lrx qx r with Ok (Some x) => Ok (Some (units_resonance t x)) | o => o end.
Proof.
  intros U. unfold legacyLine, channelPenetrability, channelShiftFactor. cbn [units_line ln_ER ln_GN ln_GG ln_GF ln_GX]. replace (up (ln_ER r) - up qx) with (up (ln_ER r - qx)) by ring.
  change (r_P (c_radii (units_channel t c))) with (units_radius t (r_P (c_radii c))). change (r_S (c_radii (units_channel t c))) with (units_radius t (r_S (c_radii c))). rewrite !(function_units t T _ _ _ _ _ _ U).
  set (X := channelFunction _ _ _ c _ _). destruct X as [op| | |]; cbn [bind]; [|reflexivity ..].
  assert (H : forall oq os, (let? p := op in let? q := oq in let? s := os in Some (makeLegacyResonance (up (ln_ER r)) (up (ln_GN r)) (up (ln_GG r)) (up (ln_GF r)) (if lrx then up (ln_GX r) else 0) p q s)) =
    match (let? p := op in let? q := oq in let? s := os in Some (makeLegacyResonance (ln_ER r) (ln_GN r) (ln_GG r) (ln_GF r) (if lrx then ln_GX r else 0) p q s)) with Some x => Some (units_resonance t x) | None => None end).
  { intros oq os. destruct op as [p|]; [|reflexivity]. destruct oq as [q|]; [|reflexivity]. destruct os as [s|]; [|reflexivity]. f_equal. rewrite <- resonance_units. destruct lrx; [reflexivity|]. rewrite Rmult_0_r. reflexivity. }
  destruct lrx.
  - set (Y := channelFunction _ _ _ c _ (ln_ER r - qx)). destruct Y as [oq| | |]; cbn [bind]; [|reflexivity ..]. set (Z := channelFunction _ _ _ c _ (ln_ER r)). destruct Z as [os| | |]; cbn [bind]; [|reflexivity ..]. rewrite H. destruct (let? p := op in _); reflexivity.
  - cbn [bind]. set (Z := channelFunction _ _ _ c _ (ln_ER r)). destruct Z as [os| | |]; cbn [bind]; [|reflexivity ..]. rewrite H. destruct (let? p := op in _); reflexivity.
Qed.
Lemma lines_units c lrx qx l : uncharged c -> mapM (legacyLine hbar epsilon0 cwf (units_channel t c) lrx (up qx)) (map (units_line t) l) =
  match mapM (legacyLine hbar epsilon0 cwf c lrx qx) l with Ok xs => Ok (map (fun o => match o with Some x => Some (units_resonance t x) | None => None end) xs) | Throw x => Throw x | UB x => UB x | Diverge => Diverge end.
Proof.
  intros U. induction l as [|r l IH]; [reflexivity|]. cbn [map mapM]. rewrite (line_units c lrx qx r U). destruct (legacyLine hbar epsilon0 cwf c lrx qx r) as [[x|]| | |]; cbn [bind]; try reflexivity; rewrite IH; destruct (mapM _ l); reflexivity.
Qed.
Lemma filter_units j l : filter (fun r => (ln_AJ r =? j)%Z) (map (units_line t) l) = map (units_line t) (filter (fun r => (ln_AJ r =? j)%Z) l).
Proof. induction l as [|r l IH]; [reflexivity|]. cbn [map filter units_line ln_AJ]. destruct (ln_AJ r =? j)%Z; cbn [map]; rewrite IH; reflexivity. Qed.
Definition both {X A B} (f : A -> B) (o : outcome (option A * X)) : outcome (option B * X) :=
  match o with Ok (Some a, x) => Ok (Some (f a), x) | Ok (None, x) => Ok (None, x) | Throw x => Throw x | UB x => UB x | Diverge => Diverge end.
Lemma J_units ls pr rad j av : p_charge (pp_particle pr) * p_charge (pp_residual pr) = 0 ->
  legacyJ hbar epsilon0 cwf (units_lstate t ls) pr (units_radii rad) j av = both (units_group t) (legacyJ hbar epsilon0 cwf ls pr rad j av).
Proof.
  intros U. unfold legacyJ. cbn [units_lstate ls_lines ls_L ls_LRX ls_QX]. rewrite filter_units. destruct (retrieveQuantumNumber (ls_L ls) j av) as [[n rem]| | |]; cbn [bind]; [|reflexivity ..].
  set (c := makeChannel Neutron pr pr (pp_id pr) 0 n rad 0). assert (C : makeChannel Neutron pr pr (pp_id pr) 0 n (units_radii rad) 0 = units_channel t c).
  { unfold c, makeChannel, units_channel, units_radii. cbn. rewrite Rmult_0_r. reflexivity. }
  rewrite C, (lines_units c _ _ _ U). destruct (mapM _ _) as [xs| | |]; cbn [bind]; [|reflexivity ..]. rewrite all_units. destruct (all_finite xs); reflexivity.
Qed.
Lemma Js_units ls pr rad js : p_charge (pp_particle pr) * p_charge (pp_residual pr) = 0 -> forall av,
  legacyJs hbar epsilon0 cwf (units_lstate t ls) pr (units_radii rad) js av = both (map (units_group t)) (legacyJs hbar epsilon0 cwf ls pr rad js av).
Proof.
  intros U. induction js as [|j js IH]; intros av; [reflexivity|]. cbn [legacyJs]. rewrite (J_units _ _ _ _ _ U). destruct (legacyJ hbar epsilon0 cwf ls pr rad j av) as [[[g|] rem]| | |]; cbn [both bind]; try reflexivity;
  rewrite IH; destruct (legacyJs hbar epsilon0 cwf ls pr rad js rem) as [[[gs|] rem']| | |]; reflexivity.
Qed.
Lemma groups_units spin ap nro naps ls av : naps <> 0%nat -> legacyGroups hbar epsilon0 cwf mn incident target spin (ap / t) (units_table t nro) naps (units_lstate t ls) av =
  both (map (units_group t)) (legacyGroups hbar epsilon0 cwf mn incident target spin ap nro naps ls av).
Proof.
  intros N. unfold legacyGroups. cbn [units_lstate ls_AWRI ls_lines]. destruct (legacyPair mn incident target (ls_AWRI ls) spin) as [pr| | |] eqn:P; cbn [bind]; [|reflexivity ..].
  rewrite (radii_units _ _ _ _ N). destruct (makeChannelRadii ap nro naps (ls_AWRI ls) mn) as [rad| | |]; cbn [bind]; [|reflexivity ..]. rewrite map_map. exact (Js_units _ _ _ _ (pair_uncharged _ _ _ P) _).
Qed.
Lemma all_groups_units spin ap nro naps lss : naps <> 0%nat -> forall av, legacyAllGroups hbar epsilon0 cwf mn incident target spin (ap / t) (units_table t nro) naps (map (units_lstate t) lss) av =
  match legacyAllGroups hbar epsilon0 cwf mn incident target spin ap nro naps lss av with Ok (Some gs) => Ok (Some (map (units_group t) gs)) | o => o end.
Proof.
  intros N. induction lss as [|ls lss IH]; intros av; [reflexivity|]. cbn [map legacyAllGroups]. rewrite (groups_units _ _ _ _ _ _ N). destruct (legacyGroups hbar epsilon0 cwf mn incident target spin ap nro naps ls av) as [[[gs|] rem]| | |]; cbn [both bind]; try reflexivity;
  rewrite IH; destruct (legacyAllGroups hbar epsilon0 cwf mn incident target spin ap nro naps lss rem) as [[hs|]| | |]; cbn [bind]; try reflexivity. rewrite map_app. reflexivity.
Qed.
Lemma lmax_units gs : forall m, fold_left (fun m g => Nat.max m (ql (c_numbers (lg_channel g)))) (map (units_group t) gs) m = fold_left (fun m g => Nat.max m (ql (c_numbers (lg_channel g)))) gs m.
Proof. induction gs as [|g gs IH]; intros m; [reflexivity|]. cbn [map fold_left]. rewrite IH. reflexivity. Qed.
Lemma count_units q gs : count (fun h => same_lJ (c_numbers (lg_channel h)) q) (map (units_group t) gs) = count (fun h => same_lJ (c_numbers (lg_channel h)) q) gs.
Proof. unfold count. induction gs as [|g gs IH]; [reflexivity|]. cbn [map filter]. change (c_numbers (lg_channel (units_group t g))) with (c_numbers (lg_channel g)). destruct (same_lJ (c_numbers (lg_channel g)) q); cbn [length]; rewrite IH; reflexivity. Qed.
Lemma verify_units gs : legacyVerify (map (units_group t) gs) = legacyVerify gs.
Proof.
  unfold legacyVerify. rewrite map_length. destruct (check _); [|reflexivity ..]. cbn [bind]. assert (H : forall l u, foldM (fun _ g => check (negb (Nat.ltb 1 (count (fun h => same_lJ (c_numbers (lg_channel h)) (c_numbers (lg_channel g))) (map (units_group t) gs))))) (map (units_group t) l) u =
    foldM (fun _ g => check (negb (Nat.ltb 1 (count (fun h => same_lJ (c_numbers (lg_channel h)) (c_numbers (lg_channel g))) gs)))) l u).
  { induction l as [|g l IH]; intros v; [reflexivity|]. cbn [map foldM]. change (c_numbers (lg_channel (units_group t g))) with (c_numbers (lg_channel g)). rewrite count_units. destruct (check _); [|reflexivity ..]. cbn [bind]. apply IH. }
  apply H.
Qed.
Theorem file_units f nro naps : naps <> 0%nat -> makeLegacyBreitWigner hbar epsilon0 cwf mn incident target (units_file t f) (units_table t nro) naps =
  match makeLegacyBreitWigner hbar epsilon0 cwf mn incident target f nro naps with Ok (Some s) => Ok (Some (units_system t s)) | o => o end.
Proof.
  intros N. unfold makeLegacyBreitWigner. cbn [units_file f_lstates f_SPI f_AP]. rewrite map_length. destruct (f_lstates f) as [|first lss]; [reflexivity|]. cbn [map]. change (units_lstate t first :: map (units_lstate t) lss) with (map (units_lstate t) (first :: lss)). cbn [units_lstate ls_AWRI].
  destruct (legacyPair mn incident target (ls_AWRI first) (f_SPI f)); cbn [bind]; [|reflexivity ..]. destruct (makeQuantumNumbers 1 (f_SPI f) (length (first :: lss))) as [av| | |]; cbn [bind]; [|reflexivity ..].
  rewrite (all_groups_units _ _ _ _ _ N). destruct (legacyAllGroups _ _ _ _ _ _ _ _ _ _ (first :: lss) av) as [[gs|]| | |]; cbn [bind]; try reflexivity.
  unfold omap, makeLegacySystem. rewrite verify_units. destruct (legacyVerify gs); cbn [bind]; [|reflexivity ..]. unfold units_system, getLMax. cbn [ly_groups ly_lmax]. rewrite lmax_units. reflexivity.
Qed.
Lemma bind_is {A B} (o : outcome A) (f : A -> outcome B) b : bind o f = Ok b -> exists a, o = Ok a /\ f a = Ok b.
Proof. destruct o as [a| | |]; cbn; intros H; try discriminate. exists a. split; [reflexivity | exact H]. Qed.
Lemma Js_uncharged ls pr rad js : p_charge (pp_particle pr) * p_charge (pp_residual pr) = 0 ->
  forall av gs av', legacyJs hbar epsilon0 cwf ls pr rad js av = Ok (Some gs, av') -> forall g, In g gs -> uncharged (lg_channel g).
Proof.
  intros Z. induction js as [|j js IH]; intros av gs av' H g G; cbn [legacyJs] in H; [injection H as <- _; destruct G|].
  apply bind_is in H as ([og rem] & J & H). apply bind_is in H as ([ogs rem'] & K & H). injection H as H _. destruct og as [g0|]; [|discriminate]. destruct ogs as [gs0|]; [|discriminate]. injection H as <-.
  destruct G as [<-|G]; [|exact (IH _ _ _ K g G)]. unfold legacyJ in J. apply bind_is in J as ([q rem1] & _ & J). apply bind_is in J as (rs & _ & J). injection J as J _. destruct (all_finite rs); [|discriminate]. injection J as <-. exact Z.
Qed.
Lemma all_uncharged spin ap nro naps lss : forall av gs, legacyAllGroups hbar epsilon0 cwf mn incident target spin ap nro naps lss av = Ok (Some gs) -> forall g, In g gs -> uncharged (lg_channel g).
Proof.
  induction lss as [|ls lss IH]; intros av gs H g G; cbn [legacyAllGroups] in H; [injection H as <-; destruct G|].
  apply bind_is in H as ([ogs rem] & L & H). apply bind_is in H as (ohs & K & H). injection H as H. destruct ogs as [g1|]; [|discriminate]. destruct ohs as [h1|]; [|discriminate]. injection H as <-.
  apply in_app_or in G as [G|G]; [|exact (IH _ _ K g G)]. unfold legacyGroups in L. apply bind_is in L as (pr & P & L). apply bind_is in L as (rad & R0 & L). exact (Js_uncharged _ _ _ _ (pair_uncharged _ _ _ P) _ _ _ L g G).
Qed.
Lemma file_uncharged f nro naps s : makeLegacyBreitWigner hbar epsilon0 cwf mn incident target f nro naps = Ok (Some s) -> forall g, In g (ly_groups s) -> uncharged (lg_channel g).
Proof.
  intros H. unfold makeLegacyBreitWigner in H. destruct (f_lstates f); [discriminate|]. apply bind_is in H as (pr & _ & H). apply bind_is in H as (av & _ & H). apply bind_is in H as (ogs & K & H). destruct ogs as [gs|]; [|discriminate].
  unfold omap in H. apply bind_is in H as (s0 & M & H). injection H as <-. unfold makeLegacySystem in M. apply bind_is in M as (u & _ & M). injection M as <-. exact (all_uncharged _ _ _ _ _ _ _ K).
Qed.
Theorem file_values f nro naps s e m : naps <> 0%nat -> makeLegacyBreitWigner hbar epsilon0 cwf mn incident target f nro naps = Ok (Some s) ->
  exists s', makeLegacyBreitWigner hbar epsilon0 cwf mn incident target (units_file t f) (units_table t nro) naps = Ok (Some s') /\
    legacy_evaluate hbar (legacySLBW hbar epsilon0 cwf) s' (up e) (units_map t m) = units_result t (legacy_evaluate hbar (legacySLBW hbar epsilon0 cwf) s e m) /\
    legacy_evaluate hbar (legacyMLBW hbar epsilon0 cwf) s' (up e) (units_map t m) = units_result t (legacy_evaluate hbar (legacyMLBW hbar epsilon0 cwf) s e m).
Proof.
  intros N H. exists (units_system t s). split; [rewrite (file_units f nro naps N), H; reflexivity|]. pose proof (file_uncharged _ _ _ _ H) as U. split; [exact (slbw_system_units t T hbar epsilon0 cwf s e m U) | exact (mlbw_system_units t T hbar epsilon0 cwf s e m U)].
Qed.
End File.
