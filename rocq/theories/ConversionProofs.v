(** A spin group of the R-Matrix Limited format that holds a wave of a Reich-Moore file: its
    channels and their data. *)
From Coq Require Import String List ZArith Reals Bool Lra Lia Permutation.
From Verif Require Import Outcome QuantumModel QuantumSpec HardSphereModel HardSphereSpec HardSphereProofs KinematicsModel CoulombModel
  Cplx RMatrixModel ChannelModel SpinGroupModel BreitWignerModel BreitWignerSpec BreitWignerSystemProofs ReichMooreModel LegacyModel LegacyProofs ListFacts AssemblyModel
  AssemblySpec AssemblyTheorems EndfModel EndfSpec EndfProofs EndfFlagProofs EndfReichMooreProofs ReichMooreSpec ReichMooreProofs KMatrixSpec KMatrixMore
  NewerItems NewerFacts NewerRMSpec NewerFile NewerWhole ConversionSpec.
Import ListNotations.
Open Scope R_scope.

(** ** The elastic channel *)
Section Twin.
Variables (hbar epsilon0 : R) (cwf : nat -> R -> R -> outcome coulomb).
(** Channels that differ in what the functions of a neutron channel do not look at *)
Record twins (c d : channel) : Prop := mkTwins
  { tw_type : c_type c = Neutron /\ c_type d = Neutron;
    tw_numbers : c_numbers c = c_numbers d;
    tw_radii : c_radii c = c_radii d;
    tw_q : c_q c = c_q d;
    tw_boundary : c_boundary c = c_boundary d;
    tw_reduced : pp_reduced (c_pair c) = pp_reduced (c_pair d);
    tw_ratio : pp_ratio (c_incident c) = pp_ratio (c_incident d);
    tw_charge : p_charge (pp_particle (c_pair c)) = 0 /\ p_charge (pp_particle (c_pair d)) = 0;
    tw_spins : p_spin (pp_particle (c_pair c)) = p_spin (pp_particle (c_pair d)) /\
               p_spin (pp_residual (c_pair c)) = p_spin (pp_residual (c_pair d)) }.
Lemma twin_wave c d e : twins c d -> channelWaveNumber hbar c e = channelWaveNumber hbar d e.
Proof. intros T. unfold channelWaveNumber. rewrite (tw_reduced _ _ T), (tw_ratio _ _ T), (tw_q _ _ T). reflexivity. Qed.
Lemma no_eta c e : p_charge (pp_particle (c_pair c)) = 0 -> channelEta hbar epsilon0 c e = Some 0.
Proof. intros H. unfold channelEta. rewrite H, Rmult_0_l. destruct (Req_EM_T 0 0); [reflexivity | congruence]. Qed.
Lemma twin_function f c d r e : twins c d -> channelFunction hbar epsilon0 f c r e = channelFunction hbar epsilon0 f d r e.
Proof.
  intros T. unfold channelFunction. destruct (tw_type _ _ T) as [-> ->]. destruct (tw_charge _ _ T) as [C1 C2].
  rewrite (twin_wave c d e T), (no_eta c e C1), (no_eta d e C2), (tw_numbers _ _ T). reflexivity.
Qed.
Lemma twin_P c d e : twins c d -> channelPenetrability hbar epsilon0 cwf c e = channelPenetrability hbar epsilon0 cwf d e.
Proof. intros T. unfold channelPenetrability. rewrite (tw_radii _ _ T). apply twin_function. exact T. Qed.
Lemma twin_values b c d e : twins c d -> channelValues hbar epsilon0 cwf b c e = channelValues hbar epsilon0 cwf b d e.
Proof.
  intros T. unfold channelValues, channelShiftFactor, channelPhaseShift, channelCoulombShift, channelBelowThreshold. rewrite (twin_P c d e T), (tw_radii _ _ T).
  destruct (tw_type _ _ T) as [-> ->]. rewrite !(twin_function _ c d _ e T), (tw_boundary _ _ T), (tw_ratio _ _ T), (tw_q _ _ T), (tw_numbers _ _ T). reflexivity.
Qed.
Lemma twin_factor c d e : twins c d -> channelFactor hbar c e = channelFactor hbar d e.
Proof.
  intros T. unfold channelFactor, spinFactor. rewrite (twin_wave c d e T), (tw_numbers _ _ T). destruct (tw_spins _ _ T) as [-> ->]. reflexivity.
Qed.
End Twin.

Lemma forall2_cons {T U} (P : T -> U -> Prop) x l m : Forall2 P (x :: l) m -> exists y m', m = y :: m' /\ P x y /\ Forall2 P l m'.
Proof. intros F. inversion F as [|? y ? m' H F']; subst. exists y, m'. auto. Qed.
Lemma forall2_nil {T U} (P : T -> U -> Prop) m : Forall2 P [] m -> m = [].
Proof. intros F. inversion F. reflexivity. Qed.

(** ** A column of widths *)
Lemma column_data pen h b i c (lines : list rm_line) (W : rm_line -> R) (row : rm_line -> list R) ds :
  eg_NRS h = length lines -> lines <> [] -> eg_ER h = map rl_ER lines -> eg_GAM h = map row lines ->
  (forall x, In x lines -> nth_error (row x) i = Some (W x)) -> (forall x, In x lines -> W x <> 0) ->
  channel_result pen h false b i c ds ->
  exists d, ds = [d] /\ cd_channel d = c /\ cd_eliminated d = b /\ consistent d /\ cd_energies d = map rl_ER lines /\
    Forall2 (fun x g => exists p, pen c (rl_ER x) = Some p /\ 0 < p /\ reduced p (W x) g) lines (cd_widths d).
Proof.
  intros Hn Hl He Hg Hr Hw [(Z & _)|(_ & l & (ws & Fw & ->) & R)].
  - exfalso. rewrite Hn in Z. destruct lines; [congruence | discriminate].
  - assert (Ew : ws = map W lines).
    { rewrite Hg in Fw. clear -Fw Hr. revert ws Fw. induction lines as [|x l IH]; intros ws F; inversion F as [|? w ? m H F']; subst; [reflexivity|]. cbn [map].
      rewrite (Hr x (or_introl eq_refl)) in H. injection H as <-. f_equal. apply IH; [intros y Hy; apply Hr; right; exact Hy | exact F']. }
    assert (En : nonzero_entries (combine (eg_ER h) ws) = map (fun x => (rl_ER x, W x)) lines).
    { rewrite He, Ew. clear -Hw. unfold nonzero_entries. induction lines as [|x l IH]; [reflexivity|]. cbn [map combine filter snd].
      destruct (Req_EM_T (W x) 0) as [Q|_]; [exfalso; exact (Hw x (or_introl eq_refl) Q)|]. f_equal. apply IH. intros y Hy. apply Hw. right. exact Hy. }
    rewrite En in R. destruct R as [(N & _)|(_ & d & Ed & Ec & Eb & Cd & F)].
    + exfalso. destruct lines; [congruence | discriminate].
    + exists d. split; [exact Ed|]. split; [exact Ec|]. split; [exact Eb|]. split; [exact Cd|].
      unfold consistent, entries in *. clear -F Cd. revert F Cd. generalize (cd_energies d), (cd_widths d). induction lines as [|x l IH]; intros es ws F Ln.
      * inversion F as [Q|]. destruct es, ws; try discriminate. split; [reflexivity | constructor].
      * destruct es as [|e es]; [cbn in F; inversion F|]. destruct ws as [|w ws]; [discriminate|]. cbn [map combine] in F. inversion F as [|? ? ? ? (E1 & _ & E2) F']; subst. cbn [fst snd] in *.
        destruct (IH es ws F' ltac:(cbn in Ln; lia)) as [G1 G2]. split; [cbn [map]; congruence|]. constructor; [exact (E2 eq_refl) | exact G2].
Qed.

(** ** The groups *)
Section Groups.
Variables (hbar epsilon0 : R) (cwf : nat -> R -> R -> outcome coulomb) (mn elementaryCharge : R) (incident target : string)
  (products : Z -> outcome (string * string)).
Hypotheses (Hh : 0 < hbar) (Hmn : 0 < mn).
Let X : string := (incident ++ "," ++ target)%string.
Let kE : reactionID := Elastic incident target.
Let kF : reactionID := Transfer X "fission".
Variables (A : R) (I : Z).
Hypotheses (HA : 0 < A) (HI : is_spin I).
Hypothesis Hcap : forall a b, products 102%Z = Ok (a, b) -> (a ++ "," ++ b)%string <> X.
Let k := k_old (C_new hbar mn) A.
Variables (el cap : endf_pair) (rest : list endf_pair) (pairs : list particlePair).
Let es := el :: cap :: rest.
Hypotheses (Hpairs : makeParticlePairs mn elementaryCharge incident target products es = Ok pairs)
  (Hel : ep_MT el = 2%Z /\ ep_MA el = 1 /\ ep_MB el = A /\ ep_ZA el = 0 /\ Z.abs (ep_IA el) = 1%Z /\ Z.abs (ep_IB el) = I /\ ep_Q el = 0)
  (Hca : ep_MT cap = 102%Z).
Lemma pairs_are : exists inc p2 ps, pairs = inc :: p2 :: ps /\
  pp_id inc = X /\ p_id (pp_particle inc) = incident /\ p_id (pp_residual inc) = target /\
  p_charge (pp_particle inc) = 0 /\ p_spin (pp_particle inc) = 1%Z /\ p_spin (pp_residual inc) = I /\
  pp_reduced inc = Some (mn * (A * mn) / (mn + A * mn)) /\ pp_ratio inc = Some (A * mn / (mn + A * mn)) /\
  pp_id p2 <> X /\
  Forall2 (fun e p => makeEndfPair mn elementaryCharge incident target products e = Ok p) rest ps.
Proof.
  unfold makeParticlePairs in Hpairs. apply mapM_Ok in Hpairs. unfold es in Hpairs. clear -Hpairs Hel Hca Hcap HA Hmn. apply forall2_cons in Hpairs as (inc & l & -> & E1 & F1). apply forall2_cons in F1 as (p2 & ps & -> & E2 & F2).
  exists inc, p2, ps. split; [reflexivity|]. destruct Hel as (M & MA & MB & ZA & IA & IB & _).
  unfold makeEndfPair, makeParticleIDs in E1, E2. rewrite M in E1. rewrite Hca in E2. cbn [Z.eqb Pos.eqb bind] in E1, E2.
  apply bind_Ok in E1 as (a & Ea & E1). apply bind_Ok in E1 as (b & Eb & E1). injection E1 as <-.
  unfold makeEndfParticle, makeParticle in Ea, Eb. apply bind_Ok in Ea as (? & _ & Ea). apply bind_Ok in Ea as (? & _ & Ea). apply bind_Ok in Eb as (? & _ & Eb). apply bind_Ok in Eb as (? & _ & Eb).
  injection Ea as <-. injection Eb as <-. cbn [makeParticlePair pp_id pp_particle pp_residual p_id p_charge p_spin pp_reduced pp_ratio p_mass].
  rewrite MA, MB, ZA, IA, IB, Rmult_1_l, Rmult_0_l. unfold fdiv.
  assert (0 < A * mn) by (apply Rmult_lt_0_compat; assumption). destruct (Req_EM_T (mn + A * mn) 0) as [|_]; [lra|].
  repeat (split; [reflexivity|]). split; [|exact F2].
  apply bind_Ok in E2 as ([[oa ob] oid] & Eo & E2). apply bind_Ok in Eo as ([xa xb] & Ex & Eo). injection Eo as <- <- <-. apply bind_Ok in E2 as (? & _ & E2). apply bind_Ok in E2 as (? & _ & E2). injection E2 as <-.
  cbn [makeParticlePair pp_id]. exact (Hcap xa xb Ex).
Qed.

Definition numbers_of (h : endf_group) (c : endf_channel) : qnum := mkQ (ec_L c) (ec_SCH c) (Z.abs (eg_AJ h)) (endfParity (eg_AJ h) (eg_PJ h)).
Definition radii_of (c : endf_channel) : radii := radii2 (Fixed (ec_APT c)) (Fixed (ec_APE c)).
Definition elastic_of (inc : particlePair) (h : endf_group) (c : endf_channel) : channel :=
  makeChannel Neutron inc inc X 0 (numbers_of h c) (radii_of c) 0.

Section Group.
Variables (inc p2 : particlePair) (ps : list particlePair).
Hypotheses (Ep : pairs = inc :: p2 :: ps) (I1 : pp_id inc = X) (I2 : p_id (pp_particle inc) = incident) (I3 : p_id (pp_residual inc) = target)
  (I4 : p_charge (pp_particle inc) = 0) (I5 : p_spin (pp_particle inc) = 1%Z) (I6 : p_spin (pp_residual inc) = I)
  (I7 : pp_reduced inc = Some (mn * (A * mn) / (mn + A * mn))) (I8 : pp_ratio inc = Some (A * mn / (mn + A * mn)))
  (N2 : pp_id p2 <> X) (Fr : Forall2 (fun e p => makeEndfPair mn elementaryCharge incident target products e = Ok p) rest ps).
(** a twin of the channel of the older interface *)
Lemma elastic_twin h c : exists d, twins (elastic_of inc h c) d /\ legacy_channel mn incident target A I d (radii_of c).
Proof.
  destruct (legacyPair_ok mn Hmn incident target A I HA) as (pr & E & L1 & L2 & L3 & L4 & L5 & L6 & L7 & L8).
  exists (makeChannel Neutron pr pr (pp_id pr) 0 (numbers_of h c) (radii_of c) 0). split; [|exists pr, (numbers_of h c); auto].
  constructor; cbn [elastic_of makeChannel c_type c_numbers c_radii c_q c_boundary c_pair c_incident]; auto; try congruence; split; congruence.
Qed.
Lemma elastic_react h c : c_reaction (elastic_of inc h c) = kE /\ isIncidentChannel (elastic_of inc h c) = true /\ pp_id (c_incident (elastic_of inc h c)) = X.
Proof.
  split; [|split; [apply String.eqb_refl | exact I1]]. cbn [elastic_of makeChannel c_reaction]. unfold makeReactionID. destruct (string_dec (pp_id inc) (pp_id inc)) as [_|N]; [|congruence].
  unfold kE. rewrite I2, I3. reflexivity.
Qed.
Definition pen (c : channel) (e : R) : option R := match channelPenetrability hbar epsilon0 cwf c e with Ok (Some p) => Some p | _ => None end.
Lemma capture_index : eliminatedIndex es = 1%nat.
Proof. unfold eliminatedIndex, findParticlePairForReaction, es. cbn [map find_index]. destruct Hel as (-> & _). rewrite Hca. reflexivity. Qed.

(** the channels *)
Lemma first_channel h c : ec_PPI c = 1%nat -> ec_BND c = 0 -> makeEndfChannel inc pairs es h (c, ep_MT el) = Ok (elastic_of inc h c).
Proof.
  intros H1 H2. unfold makeEndfChannel. rewrite H1, Ep. cbn [pair_at at_or_ub nth_error bind map es].
  destruct Hel as (M & _ & _ & _ & _ & _ & Q). rewrite M, Q, H2. unfold channelType. cbn [Z.eqb Pos.eqb existsb orb]. rewrite I4. destruct (Rlt_dec 0 0); [lra|]. rewrite I1. reflexivity.
Qed.
Definition capture_of (h : endf_group) (d : endf_channel) : channel :=
  makeChannel Photon inc p2 (pp_id p2) (ep_Q cap) (numbers_of h d) (radii_of d) (ec_BND d).
Lemma second_channel h d : ec_PPI d = 2%nat -> makeEndfChannel inc pairs es h (d, ep_MT cap) = Ok (capture_of h d).
Proof. intros H1. unfold makeEndfChannel. rewrite H1, Ep, Hca. reflexivity. Qed.
Definition fission_of (p3 : particlePair) (q : R) (h : endf_group) (d : endf_channel) : channel :=
  makeChannel Fission inc p3 (pp_id p3) q (numbers_of h d) (radii_of d) (ec_BND d).
Lemma third_channel h d fis : nth_error es 2 = Some fis -> ep_MT fis = 18%Z -> ec_PPI d = 3%nat ->
  exists p3 ps' rest', ps = p3 :: ps' /\ rest = fis :: rest' /\ pp_id p3 = "fission"%string /\ makeEndfChannel inc pairs es h (d, ep_MT fis) = Ok (fission_of p3 (ep_Q fis) h d).
Proof.
  intros Hf M H1. unfold es in Hf. cbn [nth_error] in Hf. destruct rest as [|f0 rest'] eqn:Er; [discriminate|]. injection Hf as ->.
  inversion Fr as [|? p3 ? ps' E3 F3]; subst. exists p3, ps', rest'. split; [reflexivity|]. split; [reflexivity|].
  split. { unfold makeEndfPair, makeParticleIDs in E3. rewrite M in E3. cbn [Z.eqb Pos.eqb bind] in E3. apply bind_Ok in E3 as (? & _ & E3). apply bind_Ok in E3 as (? & _ & E3). injection E3 as <-. reflexivity. }
  unfold makeEndfChannel. rewrite H1, M. unfold es. cbn [pair_at at_or_ub nth_error bind map]. unfold channelType. cbn [Z.eqb Pos.eqb existsb orb]. reflexivity.
Qed.
Lemma capture_other h d : isIncidentChannel (capture_of h d) = false.
Proof. apply String.eqb_neq. cbn [capture_of makeChannel c_pair c_incident]. rewrite I1. exact N2. Qed.
Lemma fission_react p3 q h d : pp_id p3 = "fission"%string ->
  c_reaction (fission_of p3 q h d) = kF /\ isIncidentChannel (fission_of p3 q h d) = false /\ pp_id (c_incident (fission_of p3 q h d)) = X.
Proof.
  intros H. assert (NX : X <> "fission"%string) by (apply (X_not incident target); reflexivity).
  cbn [fission_of makeChannel c_reaction]. unfold makeReactionID, isIncidentChannel. cbn [fission_of makeChannel c_pair c_incident]. rewrite I1, H.
  destruct (string_dec X "fission") as [Q|_]; [contradiction|]. split; [reflexivity|]. split; [|reflexivity]. apply String.eqb_neq. congruence.
Qed.
Lemma fission_value E p3 q h d v : 0 < E -> 0 <= q -> ec_BND d = 0 -> channelValues hbar epsilon0 cwf ShiftFactor (fission_of p3 q h d) E = Ok (Some v) -> v = fission_values.
Proof.
  intros HE Hq Hb H. unfold channelValues in H. apply bind_Ok in H as (op & Eop & H). apply bind_Ok in H as (os & Es & H). injection Es as <-. apply bind_Ok in H as (of & Ef & H).
  unfold channelPenetrability, channelFunction in Eop. apply bind_Ok in Eop as (r & _ & Eop). cbn in Eop. injection Eop as <-.
  unfold channelPhaseShift, channelFunction in Ef. apply bind_Ok in Ef as (r' & _ & Ef). cbn in Ef. injection Ef as <-.
  assert (Ec : channelBelowThreshold (fission_of p3 q h d) E = false).
  { unfold channelBelowThreshold. cbn [fission_of makeChannel c_incident c_q]. rewrite I8. unfold belowThreshold. destruct (Rlt_dec _ _) as [B|_]; [|reflexivity]. exfalso.
    assert (0 < A * mn) by (apply Rmult_lt_0_compat; assumption). assert (0 < E * (A * mn / (mn + A * mn))) by (apply Rmult_lt_0_compat; [exact HE | apply Rdiv_lt_0_compat; lra]). lra. }
  rewrite Ec in H. cbn in H. rewrite Hb in H. injection H as <-. reflexivity.
Qed.
Lemma fission_values_exist E p3 q h d : exists v, channelValues hbar epsilon0 cwf ShiftFactor (fission_of p3 q h d) E = Ok (Some v).
Proof. unfold channelValues, channelPenetrability, channelPhaseShift, channelCoulombShift, channelFunction, fission_of, makeChannel, radii_of. cbn. eexists. reflexivity. Qed.

(** a group without resonances *)
Lemma empty_data h c d data : eg_NRS h = 0%nat -> eg_channels h = [c; d] -> ec_PPI c = 1%nat -> ec_BND c = 0 -> ec_PPI d = 2%nat ->
  makeParticleChannelData hbar epsilon0 cwf inc pairs es false h = Ok (Some data) -> data = [mkChannelData (elastic_of inc h c) [] [] false].
Proof.
  intros Hn Hc H1 H2 H3 H. destruct (data_of_group _ _ _ _ _ _ _ _ _ H) as (cs & pr & dss & Ec & _ & -> & F).
  unfold makeParticleChannels in Ec. rewrite Hc in Ec. rewrite Ep in Ec at 2. unfold es in Ec at 2. cbn [length firstn map combine] in Ec.
  assert (En : firstn (length ps) ([] : list endf_channel) = []) by (destruct (length ps); reflexivity). rewrite En in Ec. cbn [combine mapM] in Ec.
  rewrite (first_channel h c H1 H2), (second_channel h d H3) in Ec. cbn [bind] in Ec. injection Ec as <-. cbn [length seq combine] in F.
  apply forall2_cons in F as (ds1 & l1 & -> & (b1 & _ & R1) & F1). apply forall2_cons in F1 as (ds2 & l2 & -> & (b2 & _ & R2) & F2). apply forall2_nil in F2 as ->. cbn [fst snd] in *.
  destruct R1 as [(_ & ->)|(Q & _)]; [|congruence]. destruct R2 as [(_ & ->)|(Q & _)]; [|congruence].
  rewrite capture_other. destruct (elastic_react h c) as (_ & -> & _). reflexivity.
Qed.

(** widths of the elastic channel *)
Variable (rad_of : rm_lstate -> radii).
Let a (ls : rm_lstate) (e : R) : R := oval (radius_at (r_P (rad_of ls)) e).
Lemma elastic_widths h c ls lines ws : radii_of c = rad_of ls -> ec_L c = rs_L ls -> positive (radius_at (r_P (rad_of ls))) ->
  Forall2 (fun x g => exists p, pen (elastic_of inc h c) (rl_ER x) = Some p /\ 0 < p /\ reduced p (rl_GN x) g) lines ws ->
  ws = map (fun x => nth 0 (rs_widths (newer_of k a ls x)) 0) lines.
Proof.
  intros Hr Hl Hpos F. destruct (elastic_twin h c) as (d & T & L). induction F as [|x g l m (p & Epn & Hp & Hred) _ IH]; [reflexivity|]. cbn [map]. rewrite <- IH. f_equal. clear IH.
  unfold pen in Epn. destruct (channelPenetrability hbar epsilon0 cwf (elastic_of inc h c) (rl_ER x)) as [o| | |] eqn:Eo; try discriminate. destruct o as [p'|]; [|discriminate]. injection Epn as ->.
  rewrite (twin_P hbar epsilon0 cwf _ _ _ T) in Eo. rewrite Hr in L.
  destruct (channel_P hbar epsilon0 cwf mn Hh Hmn incident target A I HA _ _ _ _ L Hpos Eo) as (r & p' & Er & Q & _ & Hk & E'). injection Q as <-.
  rewrite <- (tw_numbers _ _ T) in E'. cbn [elastic_of makeChannel c_numbers numbers_of ql] in E'. rewrite Hl in E'.
  cbn [nth newer_of rs_widths]. unfold P_rm, a. rewrite Er. cbn [oval]. unfold k. rewrite <- E'. apply reduced_sqrt; [lra | exact Hred].
Qed.
Lemma one_widths c (W : rm_line -> R) lines ws : c_type c = Photon \/ c_type c = Fission ->
  Forall2 (fun x g => exists p, pen c (rl_ER x) = Some p /\ 0 < p /\ reduced p (W x) g) lines ws -> ws = map (fun x => signed_sqrt (W x / 2)) lines.
Proof.
  intros Ht F. induction F as [|x g l m (p & Epn & Hp & Hred) _ IH]; [reflexivity|]. cbn [map]. rewrite <- IH. f_equal. clear IH.
  assert (E1 : p = 1).
  { unfold pen, channelPenetrability, channelFunction in Epn. destruct (radius_at (r_P (c_radii c)) (rl_ER x)); try discriminate. destruct Ht as [-> | ->] in Epn; cbn in Epn; congruence. }
  subst p. rewrite (reduced_sqrt 1 _ _ ltac:(lra) Hred), Rmult_1_r. reflexivity.
Qed.

(** a group with the resonances of a wave *)
Definition wave_which (three : bool) : list nat := if three then [0%nat; 1%nat] else [0%nat].
Definition wave_item (h : endf_group) (w : wave) (c : endf_channel) (data : list channel_data) : item :=
  mkItem (elastic_of inc h c) data (map (newer_of k a (fst w)) (wave_lines w)) (wave_which (match eg_channels h with [_; _; _] => true | _ => false end)).
Lemma fis_zero : signed_sqrt (0 / 2) = 0.
Proof. unfold signed_sqrt, Rdiv. rewrite Rmult_0_l. destruct (Rlt_dec 0 0); [lra | apply sqrt_0]. Qed.
Lemma wave_data h w data : wave_group es (rad_of (fst w)) w h -> wave_lines w <> [] -> positive (radius_at (r_P (rad_of (fst w)))) ->
  makeParticleChannelData hbar epsilon0 cwf inc pairs es false h = Ok (Some data) ->
  exists c, elastic_entry (rad_of (fst w)) (rs_L (fst w)) c /\ hd_error (eg_channels h) = Some c /\ item_ok (wave_item h w c data) /\
    (forall j d, nth_error (it_D (wave_item h w c data)) (S j) = Some d -> exists p3 q d3, pp_id p3 = "fission"%string /\ 0 <= q /\ ec_BND d3 = 0 /\ cd_channel d = fission_of p3 q h d3).
Proof.
  intros G Ne Hpos H. destruct (wg_channels _ _ _ _ G) as (c & d & [e1 e2 e3 e4] & PD & Hch). exists c. split; [constructor; assumption|].
  destruct (data_of_group _ _ _ _ _ _ _ _ _ H) as (cs & pr & dss & Ec & Epr & -> & F). rewrite capture_index, Ep in Epr. cbn [nth_error] in Epr. injection Epr as <-.
  pose proof (wg_nonzero _ _ _ _ G) as NZ. unfold makeParticleChannels in Ec. rewrite Ep in Ec at 2. unfold es in Ec at 2. cbn [map] in Ec.
  assert (Jp : forall q, Jpi_of (numbers_of h q) = Jpi_of (numbers_of h c)) by reflexivity.
  destruct Hch as [(Hc & Hg & Z)|(d3 & Hc & Hg & NF & P3 & B3 & fis & Hf & Mf & Qf)].
  - split; [rewrite Hc; reflexivity|]. rewrite Hc in Ec. cbn [length firstn combine] in Ec.
    assert (En : firstn (length ps) ([] : list endf_channel) = []) by (destruct (length ps); reflexivity). rewrite En in Ec. cbn [combine mapM] in Ec.
    rewrite (first_channel h c e1 e3), (second_channel h d PD) in Ec. cbn [bind] in Ec. injection Ec as <-. cbn [length seq combine] in F.
    apply forall2_cons in F as (ds1 & l1 & -> & (b1 & B1 & R1) & F1). apply forall2_cons in F1 as (ds2 & l2 & -> & (b2 & B2 & R2) & F2). apply forall2_nil in F2 as ->. cbn [fst snd] in *.
    assert (b1 = false). { destruct b1; [|reflexivity]. exfalso. apply N2. destruct (proj1 B1 eq_refl) as [Q _]. cbn in Q. rewrite <- Q. exact I1. }
    assert (b2 = true). { apply B2. split; [reflexivity|]. intros [|kk] c' Hk Hc'; [|lia]. injection Hc' as <-. cbn. rewrite I1. congruence. }
    subst b1 b2.
    destruct (column_data _ h _ 0 _ (wave_lines w) rl_GN _ ds1 (wg_number _ _ _ _ G) Ne (wg_energies _ _ _ _ G) Hg ltac:(reflexivity) (fun x Hx => proj1 (NZ x Hx)) R1) as (dE & -> & C1 & L1 & K1 & E1 & W1).
    destruct (column_data _ h _ 1 _ (wave_lines w) rl_GG _ ds2 (wg_number _ _ _ _ G) Ne (wg_energies _ _ _ _ G) Hg ltac:(reflexivity) (fun x Hx => proj1 (proj2 (NZ x Hx))) R2) as (dC & -> & C2 & L2 & K2 & E2 & W2).
    fold pen in W1, W2. apply (elastic_widths h c (fst w)) in W1; [|symmetry; exact e4|exact e2|exact Hpos]. apply one_widths in W2; [|left; reflexivity].
    cbn [concat app]. assert (ED : it_D (wave_item h w c [dE; dC]) = [dE]) by (unfold it_D; cbn [wave_item it_ds filter]; rewrite L1, L2; reflexivity).
    split; [constructor|].
    + intros x [<-|[<-|[]]]; assumption.
    + intros x [<-|[<-|[]]]; unfold Jpi_data, it_Jpi; cbn [wave_item it_el]; rewrite ?C1, ?C2; reflexivity.
    + exists dE, []. split; [exact ED | exact C1].
    + rewrite ED. cbn [wave_item it_which]. rewrite Hc. cbn. split; [eexists; reflexivity|]. split; [reflexivity|]. split; [intros u [<-|[]]; lia | repeat constructor; intros []].
    + intros i x Hx. rewrite ED in Hx. destruct i as [|[|i]]; try discriminate. injection Hx as <-. unfold it_energies. cbn [wave_item it_which it_rows]. rewrite Hc, !map_map. cbn [wave_which nth]. split; [exact E1 | exact W1].
    + intros x u Hx Hu Nu. cbn [wave_item it_rows it_which] in *. rewrite Hc in Nu. apply in_map_iff in Hx as (y & <- & Hy). cbn [wave_which In] in Nu.
      destruct u as [|[|[|u]]]; try lia; cbn [newer_of rs_widths nth]; [rewrite (Z y Hy) | rewrite (proj2 (proj2 (NZ y Hy)))]; exact fis_zero.
    + cbn [wave_item it_ds it_rows filter]. rewrite L1, L2. cbn [map concat]. rewrite app_nil_r, map_map. unfold entries. rewrite E2, W2. cbn [newer_of rs_energy rs_eliminated]. clear.
      induction (wave_lines w) as [|y l IH]; [reflexivity|]. cbn [map combine]. rewrite IH. reflexivity.
    + intros j x Hx. rewrite ED in Hx. destruct j; discriminate.
  - split; [rewrite Hc; reflexivity|]. destruct (third_channel h d3 fis Hf Mf P3) as (p3 & ps' & rest' & Eps & Erest & Id3 & E3).
    rewrite Hc in Ec. assert (Ern : combine (firstn (length (inc :: p2 :: ps)) [c; d; d3]) (ep_MT el :: ep_MT cap :: map ep_MT rest) = [(c, ep_MT el); (d, ep_MT cap); (d3, ep_MT fis)]).
    { rewrite Eps, Erest. cbn [length firstn map combine]. destruct (length ps'); reflexivity. }
    rewrite Ern in Ec. cbn [mapM] in Ec.
    rewrite (first_channel h c e1 e3), (second_channel h d PD), E3 in Ec. cbn [bind] in Ec. injection Ec as <-. cbn [length seq combine] in F.
    apply forall2_cons in F as (ds1 & l1 & -> & (b1 & B1 & R1) & F1). apply forall2_cons in F1 as (ds2 & l2 & -> & (b2 & B2 & R2) & F2). apply forall2_cons in F2 as (ds3 & l3 & -> & (b3 & B3' & R3) & F3). apply forall2_nil in F3 as ->. cbn [fst snd] in *.
    assert (b1 = false). { destruct b1; [|reflexivity]. exfalso. apply N2. destruct (proj1 B1 eq_refl) as [Q _]. cbn in Q. rewrite <- Q. exact I1. }
    assert (b2 = true). { apply B2. split; [reflexivity|]. intros [|kk] c' Hk Hc'; [|lia]. injection Hc' as <-. cbn. rewrite I1. congruence. }
    assert (b3 = false). { destruct b3; [|reflexivity]. exfalso. destruct (proj1 B3' eq_refl) as [_ Q]. apply (Q 1%nat (capture_of h d) ltac:(lia) eq_refl). reflexivity. }
    subst b1 b2 b3.
    destruct (column_data _ h _ 0 _ (wave_lines w) rl_GN _ ds1 (wg_number _ _ _ _ G) Ne (wg_energies _ _ _ _ G) Hg ltac:(reflexivity) (fun x Hx => proj1 (NZ x Hx)) R1) as (dE & -> & C1 & L1 & K1 & E1 & W1).
    destruct (column_data _ h _ 1 _ (wave_lines w) rl_GG _ ds2 (wg_number _ _ _ _ G) Ne (wg_energies _ _ _ _ G) Hg ltac:(reflexivity) (fun x Hx => proj1 (proj2 (NZ x Hx))) R2) as (dC & -> & C2 & L2 & K2 & E2 & W2).
    destruct (column_data _ h _ 2 _ (wave_lines w) rl_GFA _ ds3 (wg_number _ _ _ _ G) Ne (wg_energies _ _ _ _ G) Hg ltac:(reflexivity) NF R3) as (dF & -> & C3 & L3 & K3 & EF & W3).
    fold pen in W1, W2, W3. apply (elastic_widths h c (fst w)) in W1; [|symmetry; exact e4|exact e2|exact Hpos]. apply one_widths in W2; [|left; reflexivity]. apply one_widths in W3; [|right; reflexivity].
    cbn [concat app]. assert (ED : it_D (wave_item h w c [dE; dC; dF]) = [dE; dF]) by (unfold it_D; cbn [wave_item it_ds filter]; rewrite L1, L2, L3; reflexivity).
    split; [constructor|].
    + intros x [<-|[<-|[<-|[]]]]; assumption.
    + intros x [<-|[<-|[<-|[]]]]; unfold Jpi_data, it_Jpi; cbn [wave_item it_el]; rewrite ?C1, ?C2, ?C3; reflexivity.
    + exists dE, [dF]. split; [exact ED | exact C1].
    + rewrite ED. cbn [wave_item it_which]. rewrite Hc. cbn. split; [eexists; reflexivity|]. split; [reflexivity|]. split; [intros u [<-|[<-|[]]]; lia | repeat constructor; cbn; lia].
    + intros i x Hx. rewrite ED in Hx. destruct i as [|[|[|i]]]; try discriminate; injection Hx as <-; unfold it_energies; cbn [wave_item it_which it_rows]; rewrite Hc, !map_map; cbn [wave_which nth]; split; assumption.
    + intros x u Hx Hu Nu. cbn [wave_item it_rows it_which] in *. rewrite Hc in Nu. apply in_map_iff in Hx as (y & <- & Hy). cbn [wave_which In] in Nu.
      destruct u as [|[|[|u]]]; try lia; cbn [newer_of rs_widths nth]. rewrite (proj2 (proj2 (NZ y Hy))); exact fis_zero.
    + cbn [wave_item it_ds it_rows filter]. rewrite L1, L2, L3. cbn [map concat]. rewrite app_nil_r, map_map. unfold entries. rewrite E2, W2. cbn [newer_of rs_energy rs_eliminated]. clear.
      induction (wave_lines w) as [|y l IH]; [reflexivity|]. cbn [map combine]. rewrite IH. reflexivity.
    + intros j x Hx. rewrite ED in Hx. destruct j as [|j]; [|destruct j; discriminate]. injection Hx as <-. exists p3, (ep_Q fis), d3. auto.
Qed.
End Group.
End Groups.
