(** Files for which the Breit-Wigner formalisms can be built and evaluated, and two
    counterexamples. *)
From Coq Require Import String List ZArith Reals Lra Lia Permutation Bool Psatz.
From Verif Require Import Outcome QuantumModel QuantumSpec QuantumProofs SpinFactorModel SpinFactorProofs HardSphereModel
  HardSphereSpec HardSphereProofs KinematicsModel CoulombModel Cplx RMatrixModel ChannelModel BreitWignerModel
  BreitWignerSpec ListFacts BreitWignerProofs BreitWignerSystemProofs LegacyModel LegacyProofs LegacySystemProofs
  BreitWignerTheory BreitWignerTheorems.
Import ListNotations.
Open Scope R_scope.

(** A target of spin 0, s waves only, J = 1/2 *)
Definition one_l (ap A : R) (lrx : bool) (qx : R) (lines : list bw_line) : bw_file :=
  mkFile 0 ap [mkLState 0 A lrx qx lines].

Lemma P_spec_l0 rho : P_spec 0 rho = rho.
Proof.
  unfold P_spec, amplitude2, waveF, waveG; cbn. pose proof (sin2_cos2 rho) as H. unfold Rsqr in H.
  replace (sin rho * (sin rho * 1) + cos rho * (cos rho * 1)) with 1 by lra. field.
Qed.
Lemma S_spec_l0 rho : S_spec 0 rho = 0.
Proof.
  unfold S_spec, dF, dG, waveF, waveG, waveF', waveG'; cbn. unfold Rdiv. rewrite !Rmult_0_l.
  replace (sin rho * (cos rho - 0) + cos rho * (- sin rho - 0)) with 0 by ring. ring.
Qed.
Lemma is_phase_l0 rho : is_phase 0 rho rho.
Proof.
  exists 1. split; [left; reflexivity|]. unfold amplitude2, waveF, waveG; cbn.
  pose proof (sin2_cos2 rho) as H. unfold Rsqr in H.
  replace (sin rho * (sin rho * 1) + cos rho * (cos rho * 1)) with 1 by lra. rewrite sqrt_1. split; ring.
Qed.

Section Legacy.
Variables (hbar epsilon0 : R) (cwf : nat -> R -> R -> outcome coulomb) (mn : R) (incident target : string).
Variables (ap A : R) (lrx : bool) (qx : R) (lines : list bw_line).
Hypotheses (Hh : 0 < hbar) (Hmn : 0 < mn) (Hap : 0 < ap) (HA : 0 < A) (Hne : lines <> []).
Hypothesis Hlines : forall x, In x lines -> ln_AJ x = 1%Z /\ ln_ER x <> 0 /\ (lrx = true -> ln_ER x - qx <> 0) /\
  0 <= ln_GN x /\ 0 < ln_GG x /\ 0 <= ln_GF x /\ 0 <= ln_GX x.
Let f := one_l ap A lrx qx lines.
Let rad := radii1 (Fixed ap).
Let C := C_new hbar mn.
Let k := k_old C A.
Let ls := mkLState 0 A lrx qx lines.

Lemma one_input : input_new hbar mn f A None 1 rad 0.
Proof.
  constructor; cbn; try assumption; try reflexivity.
  - unfold is_spin; lia.
  - intros e r H. injection H as <-. exact Hap.
  - intros e r H. injection H as <-. exact Hap.
  - intros l [<-|[]]. reflexivity.
  - intros l [<-|[]]. exact Hne.
Qed.

Let lchannel c := legacy_channel mn incident target A 0 c rad /\ ql (c_numbers c) = 0%nat.

Lemma k_pos e : e <> 0 -> 0 < k e * ap.
Proof. intros. apply Rmult_lt_0_compat; [|exact Hap]. apply k_old_pos; [apply C_new_pos|..]; assumption. Qed.

Lemma chan_P c e : lchannel c -> e <> 0 ->
  channelPenetrability hbar epsilon0 cwf c e = Ok (Some (k e * ap)).
Proof.
  intros [Hc Hl] He. unfold channelPenetrability, channelFunction.
  rewrite (channel_k hbar mn Hmn incident target A 0 HA c rad e Hc), (channel_eta hbar epsilon0 mn Hmn incident target A 0 HA c rad e Hc), Hl.
  assert (Er : c_radii c = rad) by (destruct Hc as (? & ? & _ & ->); reflexivity).
  assert (Et : c_type c = Neutron) by (destruct Hc as (? & ? & _ & ->); reflexivity).
  rewrite Er, Et. cbn [rad radii1 r_P radius_at bind calculatePenetrability]. fold C. fold k.
  rewrite penetrability_code, P_spec_l0; [reflexivity | apply k_pos; exact He | lia].
Qed.
Lemma chan_S c e : lchannel c -> e <> 0 ->
  channelShiftFactor hbar epsilon0 cwf c e = Ok (Some 0).
Proof.
  intros [Hc Hl] He. unfold channelShiftFactor, channelFunction.
  rewrite (channel_k hbar mn Hmn incident target A 0 HA c rad e Hc), (channel_eta hbar epsilon0 mn Hmn incident target A 0 HA c rad e Hc), Hl.
  assert (Er : c_radii c = rad) by (destruct Hc as (? & ? & _ & ->); reflexivity).
  assert (Et : c_type c = Neutron) by (destruct Hc as (? & ? & _ & ->); reflexivity).
  rewrite Er, Et. cbn [rad radii1 r_S radius_at bind calculateShiftFactor]. fold C. fold k.
  rewrite shift_code, S_spec_l0; [reflexivity | apply k_pos; exact He | lia].
Qed.
Lemma chan_phi c e : lchannel c -> e <> 0 -> exists phi, channelPhaseShift hbar epsilon0 cwf c e = Ok (Some phi).
Proof.
  intros [Hc Hl] He. unfold channelPhaseShift, channelFunction.
  rewrite (channel_k hbar mn Hmn incident target A 0 HA c rad e Hc), (channel_eta hbar epsilon0 mn Hmn incident target A 0 HA c rad e Hc), Hl.
  assert (Er : c_radii c = rad) by (destruct Hc as (? & ? & _ & ->); reflexivity).
  assert (Et : c_type c = Neutron) by (destruct Hc as (? & ? & _ & ->); reflexivity).
  rewrite Er, Et. cbn [rad radii1 r_phi radius_at bind calculatePhaseShift]. fold C. fold k.
  destruct (phase_code 0 (k e * ap)) as (phi & -> & _); [apply k_pos; exact He | lia|]. eexists; reflexivity.
Qed.

Definition one_line (x : bw_line) : legacy_resonance :=
  makeLegacyResonance (ln_ER x) (ln_GN x) (ln_GG x) (ln_GF x) (if lrx then ln_GX x else 0)
    (k (ln_ER x) * ap) (if lrx then k (ln_ER x - qx) * ap else k (ln_ER x) * ap) 0.

Lemma one_line_ok c x : lchannel c -> In x lines -> legacyLine hbar epsilon0 cwf c lrx qx x = Ok (Some (one_line x)).
Proof.
  intros Hc Hx. destruct (Hlines x Hx) as (_ & H1 & H2 & _). unfold legacyLine, one_line.
  rewrite chan_P, chan_S by assumption. cbn [bind]. destruct lrx.
  - rewrite chan_P by auto. reflexivity.
  - reflexivity.
Qed.

Lemma filter_all {X} (p : X -> bool) l : (forall x, In x l -> p x = true) -> filter p l = l.
Proof.
  induction l as [|x l IH]; cbn; intros H; [reflexivity|]. rewrite (H x (or_introl eq_refl)), IH; [reflexivity|].
  intros y Hy. apply H; right; exact Hy.
Qed.
Lemma all_some {X Y} (g : X -> option Y) (h : X -> Y) l : (forall x, In x l -> g x = Some (h x)) ->
  all_finite (map g l) = Some (map h l).
Proof.
  induction l as [|x l IH]; cbn; intros H; [reflexivity|]. rewrite (H x (or_introl eq_refl)), IH; [reflexivity|].
  intros y Hy. apply H; right; exact Hy.
Qed.
Lemma mapM_ok {X Y} (g : X -> outcome Y) (h : X -> Y) l : (forall x, In x l -> g x = Ok (h x)) -> mapM g l = Ok (map h l).
Proof.
  induction l as [|x l IH]; cbn; intros H; [reflexivity|]. rewrite (H x (or_introl eq_refl)), IH; [reflexivity|].
  intros y Hy. apply H; right; exact Hy.
Qed.
Lemma same_sorted j l : l <> [] -> (forall x, In x l -> x = j) -> sort_unique l = [j].
Proof.
  intros Hn H. destruct l as [|x l]; [contradiction|]. clear Hn. revert x H. induction l as [|y l IH]; intros x H.
  - cbn. rewrite (H x (or_introl eq_refl)). reflexivity.
  - change (sort_unique (x :: y :: l)) with (insert_unique x (sort_unique (y :: l))).
    rewrite IH by (intros z Hz; apply H; right; exact Hz). rewrite (H x (or_introl eq_refl)). cbn.
    rewrite Z.ltb_irrefl, Z.eqb_refl. reflexivity.
Qed.

Definition one_channel (pr : particlePair) : channel :=
  makeChannel Neutron pr pr (pp_id pr) 0 (mkQ 0 1 1 1) rad 0.

Lemma one_build : exists pr, legacyPair mn incident target A 0 = Ok pr /\
  makeLegacyBreitWigner hbar epsilon0 cwf mn incident target f None 1 =
  Ok (Some (mkLegacySystem [mkLegacyGroup (one_channel pr) (map one_line lines) qx] 0)).
Proof.
  destruct (legacyPair_ok mn Hmn incident target A 0 HA) as (pr & Hpr & _). exists pr. split; [exact Hpr|].
  unfold makeLegacyBreitWigner, f, one_l; cbn [f_lstates f_SPI f_AP ls_AWRI length]. rewrite Hpr. cbn [bind].
  change (makeQuantumNumbers 1 0 1) with (Ok [mkQ 0 1 1 1]). cbn [bind legacyAllGroups].
  unfold legacyGroups; cbn [ls_AWRI ls_lines]. rewrite Hpr. cbn [bind makeChannelRadii].
  rewrite (same_sorted 1 (map ln_AJ lines)).
  2:{ intros H. apply Hne. destruct lines; [reflexivity | discriminate]. }
  2:{ intros z Hz. apply in_map_iff in Hz as (x & <- & Hx). apply (Hlines x Hx). }
  cbn [legacyJs]. unfold legacyJ; cbn [ls_lines ls_L ls_LRX ls_QX].
  change (retrieveQuantumNumber 0 1 [mkQ 0 1 1 1]) with (Ok (mkQ 0 1 1 1, @nil qnum)). cbn [bind].
  rewrite filter_all by (intros x Hx; destruct (Hlines x Hx) as (-> & _); reflexivity).
  assert (Hl : lchannel (one_channel pr)) by (split; [exists pr, (mkQ 0 1 1 1); auto | reflexivity]).
  fold rad. fold (one_channel pr).
  rewrite (mapM_ok _ (fun x => Some (one_line x))) by (intros x Hx; apply one_line_ok; assumption).
  cbn [bind]. rewrite (all_some _ one_line) by reflexivity. cbn [bind app].
  unfold makeLegacySystem, legacyVerify, omap. cbn. reflexivity.
Qed.

Section At.
Variable E : R.
Hypotheses (HE : E <> 0) (HQ : qx <> 0 -> E - qx <> 0).

Definition Q_at : R := if Req_EM_T qx 0 then k E * ap else k (E - qx) * ap.

Lemma Q_pos : 0 < Q_at.
Proof. unfold Q_at. destruct (Req_EM_T qx 0); apply k_pos; auto. Qed.

Lemma pre_line x : In x lines -> exists pre, precompute1 E (k E * ap) Q_at 0 (one_line x) = Some pre /\ pre_denominator pre <> 0.
Proof.
  intros Hx. destruct (Hlines x Hx) as (_ & H1 & H2 & H3 & H4 & H5 & H6). pose proof Q_pos as HQp.
  pose proof (k_pos E HE) as HkE. pose proof (k_pos _ H1) as Hk1.
  assert (Hq : 0 < (if lrx then k (ln_ER x - qx) * ap else k (ln_ER x) * ap)).
  { destruct lrx; [apply k_pos; auto | exact Hk1]. }
  unfold precompute1, legacyTotalAt, legacyElasticAt, legacyCompetitionAt, energyPrime, one_line, makeLegacyResonance;
    cbn [q_toP q_toQ q_capture q_fission q_energy q_shift].
  assert (Hd : forall u w, 0 < w -> fdiv u w = Some (u / w)).
  { intros u w Hw. unfold fdiv. destruct (Req_EM_T w 0); [lra | reflexivity]. }
  rewrite !Hd by assumption. eexists; split; [reflexivity|]. cbn [pre_denominator].
  set (n := k E * ap * (ln_GN x / (k (ln_ER x) * ap))).
  set (d := Q_at * ((if lrx then ln_GX x else 0) / (if lrx then k (ln_ER x - qx) * ap else k (ln_ER x) * ap))).
  assert (0 <= n). { unfold n. apply Rmult_le_pos; [lra|]. apply Rdiv_nonneg; lra. }
  assert (0 <= d). { unfold d. apply Rmult_le_pos; [lra|]. apply Rdiv_nonneg; [destruct lrx; lra | lra]. }
  set (delta := E - _). assert (0 <= delta * delta) by nra.
  assert (0 < n + ln_GG x + ln_GF x + d) by lra. set (T := n + _ + _ + _) in *. nra.
Qed.

Lemma list_choice {X Y} (P : X -> Y -> Prop) l : (forall x, In x l -> exists y, P x y) -> exists ys, Forall2 P l ys.
Proof.
  induction l as [|x l IH]; intros H; [exists []; constructor|].
  destruct (H x (or_introl eq_refl)) as (y & Hy). destruct IH as (ys & Hys); [intros z Hz; apply H; right; exact Hz|].
  exists (y :: ys). constructor; assumption.
Qed.
Lemma all_finite_of {X Y} (g : X -> option Y) l ys : Forall2 (fun x y => g x = Some y) l ys -> all_finite (map g l) = Some ys.
Proof. induction 1 as [|x y l ys H F IH]; cbn; [reflexivity|]. rewrite H, IH. reflexivity. Qed.

Lemma inner_some x before : forall t, pre_denominator x <> 0 -> (forall y, In y before -> pre_denominator y <> 0) ->
  exists t', inner_loop x before t = Some t'.
Proof.
  induction before as [|y r IH]; intros t Hx H; [eexists; reflexivity|]. cbn [inner_loop].
  assert (Hc : exists c, cross_term x y = Some c).
  { unfold cross_term, fdiv. destruct (Req_EM_T (pre_denominator x) 0); [contradiction|].
    destruct (Req_EM_T (pre_denominator y) 0) as [e0|]; [destruct (H y (or_introl eq_refl) e0)|]. eexists; reflexivity. }
  destruct Hc as (c & ->). apply IH; [exact Hx | intros z Hz; apply H; right; exact Hz].
Qed.
Lemma outer_some rest : forall before t, (forall y, In y before -> pre_denominator y <> 0) ->
  (forall y, In y rest -> pre_denominator y <> 0) -> exists t', outer_loop before rest t = Some t'.
Proof.
  induction rest as [|x r IH]; intros before t Hb Hr; [eexists; reflexivity|]. cbn [outer_loop].
  destruct (inner_some x before t (Hr x (or_introl eq_refl)) Hb) as (t' & ->). apply IH.
  - intros y Hy. apply in_app_iff in Hy as [Hy|[->|[]]]; [apply Hb; exact Hy | apply Hr; left; reflexivity].
  - intros y Hy. apply Hr; right; exact Hy.
Qed.

Lemma one_group pr m : legacyPair mn incident target A 0 = Ok pr ->
  let g := mkLegacyGroup (one_channel pr) (map one_line lines) qx in
  (exists m1, legacySLBW hbar epsilon0 cwf g E m = Ok (Some m1)) /\
  (exists m2, legacyMLBW hbar epsilon0 cwf g E m = Ok (Some m2)).
Proof.
  intros Hpr g. assert (Hl : lchannel (one_channel pr)) by (split; [exists pr, (mkQ 0 1 1 1); auto | reflexivity]).
  destruct (list_choice _ lines pre_line) as (pres & Hpres).
  assert (Hpre : precompute hbar epsilon0 cwf g E = Ok (Some pres)).
  { unfold precompute, legacyPQS, g; cbn [lg_channel lg_qx lg_resonances]. rewrite chan_P, chan_S by assumption. cbn [bind].
    assert (HQE : (if Req_EM_T qx 0 then Ok (Some (k E * ap)) else channelPenetrability hbar epsilon0 cwf (one_channel pr) (E - qx))
       = Ok (Some Q_at)).
    { unfold Q_at. destruct (Req_EM_T qx 0); [reflexivity|]. rewrite chan_P by auto. reflexivity. }
    rewrite HQE. cbn [bind]. rewrite map_map. erewrite (all_finite_of _ lines pres); [reflexivity|].
    clear -Hpres. induction Hpres as [|x y l ys [H _] F IH]; constructor; assumption. }
  assert (Hden : forall y, In y pres -> pre_denominator y <> 0).
  { clear -Hpres. induction Hpres as [|x y l ys [_ H] F IH]; intros z []; [subst; exact H | apply IH; assumption]. }
  destruct (chan_phi (one_channel pr) E Hl HE) as (phi & Hphi).
  assert (Hfac : exists factor, channelFactor hbar (one_channel pr) E = Some factor).
  { unfold channelFactor. destruct Hl as [Hl _]. rewrite (channel_k hbar mn Hmn incident target A 0 HA _ rad E Hl).
    assert (0 < k_old (C_new hbar mn) A E) by (apply k_old_pos; [apply C_new_pos|..]; assumption).
    unfold fdiv. destruct (Req_EM_T _ 0) as [e0|]; [nra|]. eexists; reflexivity. }
  destruct Hfac as (factor & Hfac).
  assert (H1 : forall m, exists m1, legacySLBW hbar epsilon0 cwf g E m = Ok (Some m1)).
  { intros m0. unfold legacySLBW. cbn [lg_channel g]. rewrite Hphi, Hfac. cbn [bind]. fold g. rewrite Hpre. cbn [bind].
    destruct (list_choice (fun x y => slbw_components (sin phi * sin phi) (sin (2 * phi)) x = Some y) pres) as (ys & Hys).
    { intros x Hx. unfold slbw_components, fdiv. destruct (Req_EM_T (pre_denominator x) 0) as [e0|]; [destruct (Hden x Hx e0)|].
      eexists; reflexivity. }
    rewrite (all_finite_of _ _ _ Hys). destruct (taccumulate ys (0, 0, 0)) as [[e c] fi]. eexists; reflexivity. }
  split; [apply H1|]. unfold legacyMLBW. destruct (H1 m) as (m1 & Hm1). rewrite Hm1, Hpre. cbn [bind g lg_channel]. rewrite Hfac.
  destruct (outer_some pres [] 0) as (t & ->); [intros y [] | exact Hden |]. eexists; reflexivity.
Qed.

Lemma one_total m : exists s,
  makeLegacyBreitWigner hbar epsilon0 cwf mn incident target f None 1 = Ok (Some s) /\
  (exists m1, legacy_evaluate hbar (legacySLBW hbar epsilon0 cwf) s E m = Ok (Some m1)) /\
  (exists m2, legacy_evaluate hbar (legacyMLBW hbar epsilon0 cwf) s E m = Ok (Some m2)).
Proof.
  destruct one_build as (pr & Hpr & Hb). eexists; split; [exact Hb|].
  destruct (one_group pr m Hpr) as ((m1 & H1) & (m2 & H2)).
  assert (Hl : lchannel (one_channel pr)) by (split; [exists pr, (mkQ 0 1 1 1); auto | reflexivity]).
  destruct Hl as [Hl _].
  assert (Hk : 0 < k_old (C_new hbar mn) A E) by (apply k_old_pos; [apply C_new_pos|..]; assumption).
  assert (G : forall one m1, one (mkLegacyGroup (one_channel pr) (map one_line lines) qx) E m = Ok (Some m1) ->
    exists m3, legacy_evaluate hbar one (mkLegacySystem [mkLegacyGroup (one_channel pr) (map one_line lines) qx] 0) E m = Ok (Some m3)).
  { intros one m3 H. unfold legacy_evaluate; cbn [ly_groups foldM ly_lmax lg_channel]. rewrite H. cbn [bind].
    rewrite (channel_k hbar mn Hmn incident target A 0 HA _ rad E Hl). cbn [one_channel makeChannel c_radii rad radii1 r_phi radius_at bind potential].
    destruct (phase_code 0 (k_old (C_new hbar mn) A E * ap)) as (phi & -> & _);
      [apply Rmult_lt_0_compat; assumption | lia|]. cbn [bind].
    unfold fdiv. destruct (Req_EM_T _ 0) as [e0|]; [nra|]. eexists; reflexivity. }
  split; [apply (G _ m1 H1) | apply (G _ m2 H2)].
Qed.
End At.

(** The older interface *)
Section OldAt.
Variables (sort : list bw_resonance -> list bw_resonance) (E : R).
Hypotheses (HE : E <> 0) (HQ : lrx = true -> E + q_old ls <> 0)
  (HQr : forall x, In x lines -> lrx = true -> ln_ER x + q_old ls <> 0).
Let ch (_ : R) : outcome R := Ok ap.

Lemma one_old_input : input_old C f A ch ch.
Proof.
  constructor; cbn; try assumption; try (intros e r H; injection H as <-; exact Hap).
  - apply C_new_pos; assumption.
  - exists ls, []. split; reflexivity.
  - unfold is_spin; lia.
  - intros l _. apply even_fixed.
Qed.

Lemma one_T x : In x lines -> w_T (level_of k (fun _ => ap) E q_old ls x) <> 0.
Proof.
  intros Hx. destruct (Hlines x Hx) as (_ & H1 & H2 & H3 & H4 & H5 & H6). unfold level_of; cbn [w_T ls_L ls_LRX ls].
  unfold P_at. rewrite !P_spec_l0. pose proof (k_pos E HE). pose proof (k_pos _ H1).
  assert (0 <= ln_GN x * (k E * ap) / (k (ln_ER x) * ap)) by (apply Rdiv_nonneg; [apply Rmult_le_pos|]; lra).
  assert (0 <= (if lrx then ln_GX x * (k (E + q_old ls) * ap) / (k (ln_ER x + q_old ls) * ap) else 0)).
  { destruct lrx eqn:El; [|lra]. apply Rdiv_nonneg; [apply Rmult_le_pos; [exact H6|] |]; apply Rlt_le, k_pos; auto. }
  fold ls. lra.
Qed.

Lemma one_evaluable : evaluable C f ls ap E.
Proof.
  intros l [<-|[]]. cbn [f_lstates]. split; [|split].
  - split; [cbn; lia|]. intros x Hx. destruct (Hlines x Hx) as (_ & H1 & _). split; [exact H1 | apply HQr; exact Hx].
  - exact HQ.
  - exact one_T.
Qed.
Lemma one_old_total : sorts b_g sort ->
  (exists s t, bw_build C sort false f ch ch = Ok s /\ slbw_evaluate C s E = Ok (Some t)) /\
  (exists s t, bw_build C sort true f ch ch = Ok s /\ mlbw_evaluate C s E = Ok (Some t)).
Proof.
  intros Hsort. assert (HC : 0 < C) by (apply C_new_pos; assumption).
  assert (HI : is_spin (f_SPI f)) by (unfold is_spin; cbn; lia).
  assert (Hu : forall l, In l (f_lstates f) -> usable l) by (intros l Hl; apply (one_evaluable l Hl)).
  split.
  - destruct (build_total C sort f ls [] ap ap HC eq_refl HA Hap false Hu) as (s & Hs).
    destruct (slbw_total C sort f ls [] ap ap HC eq_refl HA Hap Hap E HE s one_evaluable Hs) as (t & Ht).
    exists s, t. split; assumption.
  - destruct (build_total C sort f ls [] ap ap HC eq_refl HA Hap true Hu) as (s & Hs).
    destruct (mlbw_total C sort f ls [] ap ap HC eq_refl HA HI Hap Hap E HE s Hsort one_evaluable Hs) as (t & Ht).
    exists s, t. split; assumption.
Qed.
End OldAt.
End Legacy.
