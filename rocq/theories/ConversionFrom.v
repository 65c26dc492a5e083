(** From a Reich-Moore file and its conversion to the R-Matrix Limited format to the same cross
    sections. *)
From Coq Require Import String List ZArith Reals Bool Lra Lia Permutation Epsilon.
From Verif Require Import Outcome QuantumModel QuantumSpec QuantumProofs HardSphereModel HardSphereSpec KinematicsModel CoulombModel Cplx RMatrixModel ChannelModel SpinGroupModel
  BreitWignerModel BreitWignerSpec BreitWignerSystemProofs ReichMooreModel ReichMooreSpec LegacyModel LegacyProofs ListFacts GridModel AssemblyModel EndfModel EndfSpec EndfReichMooreProofs
  ReconstructionTheorems NewerFacts NewerRMSpec NewerTheorems NewerFrom FormatsProofs FormatsFrom LimitedSpec LimitedFileSpec LimitedCrossSpec LimitedFrom ConversionSpec ConversionTheorems ListFacts.
Import ListNotations.
Open Scope R_scope.

Lemma reaction_dec (x y : reactionID) : {x = y} + {x <> y}.
Proof. decide equality; apply string_dec. Defined.
Section From.
Variables (hbar epsilon0 : R) (cwf : nat -> R -> R -> outcome coulomb) (mn elementaryCharge : R) (incident target : string)
  (products : Z -> outcome (string * string)) (multiRegion : endf_radius -> outcome (R -> outcome R)) (initial : forall g, cache (gsize g)).
Let from := fromENDF hbar epsilon0 cwf mn elementaryCharge incident target products multiRegion initial.
Hypotheses (Hh : 0 < hbar) (Hmn : 0 < mn).

Lemma waves_below f nlsc A nro naps rad rad0 gs : newer_input mn f A nro naps rad rad0 ->
  makeReichMooreCompoundSystem hbar epsilon0 cwf mn incident target f nlsc nro naps = Ok (Some gs) ->
  forall w, In w (waves f) -> (rs_L (fst w) < nlsc)%nat.
Proof.
  intros Hin H w Hw. apply wave_in in Hw as [H1 H2].
  destruct (opened hbar epsilon0 cwf mn incident target Hmn f A nro naps rad rad0 Hin nlsc gs H) as (inc & required & remaining & bss & ds & out & Eq & Ei & Fb & Ed & Rt & K & Em).
  destruct (makeQuantumNumbers_spec 1 (rf_SPI f) nlsc) as (qs & Eq' & _ & Iq); [unfold is_spin; lia | exact (ni_spin _ _ _ _ _ _ _ Hin)|]. rewrite Eq in Eq'. injection Eq' as <-.
  destruct (retrieveAll_spec _ _ _ _ Rt) as [Perm F].
  assert (Hb : exists b, In b (concat bss) /\ b_ls b = fst w).
  { clear -Fb H1 H2. induction Fb as [|ls bs lss bss (E1 & E2) _ IH]; [destruct H1|]. destruct H1 as [->|H1].
    - unfold signed_J in H2. apply nodup_In in H2. apply in_map_iff in H2 as (x & Ex & Hx).
      assert (Hj : In (snd w) (map b_j bs)) by (rewrite E1; apply js_rm_In; eauto). apply in_map_iff in Hj as (b & _ & Hb).
      rewrite Forall_forall in E2. exists b. split; [cbn; apply in_or_app; left; exact Hb | apply (E2 b Hb)].
    - destruct (IH H1) as (b & Hb & E). exists b. split; [cbn; apply in_or_app; right; exact Hb | exact E]. }
  destruct Hb as (b & Hb & Eb).
  assert (Hl : ql (b_n b) = rs_L (fst w)).
  { rewrite <- Eb. clear -F Hb. induction (concat bss) as [|x l IH]; [destruct Hb|]. cbn [map] in F. inversion F as [|? ? ? ? (Q1 & _) F']; subst. destruct Hb as [->|Hb]; [exact Q1 | exact (IH F' Hb)]. }
  assert (Hq : In (b_n b) required) by (apply (Permutation_in _ (Permutation_sym Perm)), in_or_app; left; apply in_map; exact Hb).
  apply Iq in Hq. pose proof (proj1 Hq). lia.
Qed.

Theorem conversion r3 r7 f nlsc A rad rad0 g rc3 rc7 e rc3' o3 :
  range_at multiRegion None (er_NAPS r3) e 3 (ParametersReichMoore f nlsc) r3 ->
  er_LRU r7 = 1%Z -> er_LRF r7 = 7%Z -> er_parameters r7 = ParametersLimited g -> er_lower r7 <= e <= er_upper r7 -> 0 < e ->
  newer_input mn f A None (er_NAPS r3) rad rad0 -> converted f nlsc A rad rad0 g ->
  (forall a b, products 102%Z = Ok (a, b) -> (a ++ "," ++ b)%string <> (incident ++ "," ++ target)%string) ->
  from r3 = Ok (Some rc3) -> from r7 = Ok (Some rc7) -> reconstruct hbar epsilon0 cwf rc3 e = Ok (Some (rc3', o3)) ->
  exists rc7' m3 m7, o3 = Matrix m3 /\ reconstruct hbar epsilon0 cwf rc7 e = Ok (Some (rc7', Matrix m7)) /\ forall x, value_of (m7 x) = value_of (m3 x).
Proof.
  intros (A1 & A2 & A3 & A4 & _ & A6) B1 B2 B3 B4 He Hin Hcv Hcap F3 F7 O3.
  set (k := k_old (C_new hbar mn) A).
  set (ph l rho := proj1_sig (constructive_indefinite_description _ (polar l rho))).
  assert (Hph : forall l rho, is_phase l rho (ph l rho)) by (intros l rho; exact (proj2_sig (constructive_indefinite_description _ (polar l rho)))).
  set (phi ls := ph (rs_L ls) (k e * oval (radius_at (r_phi (rad ls)) e))). set (phi0 l := ph l (k e * oval (radius_at (r_phi rad0) e))).
  destruct (from_reich_moore hbar epsilon0 cwf mn elementaryCharge incident target products multiRegion initial Hh Hmn r3 f nlsc None rc3 e rc3' o3 A rad rad0 phi phi0
    A1 A2 A3 A4 Hin He F3 A6 O3 (fun ls _ => Hph _ _) (fun l _ => Hph _ _)) as (m3 & -> & N1 & N2 & N3 & N4).
  destruct (from_limited_system hbar epsilon0 cwf mn elementaryCharge incident target products multiRegion initial r7 g rc7 B1 B2 B3 F7) as (x & b & gs & Ex & Eb & _ & Es & ->).
  assert (b = ShiftFactor).
  { destruct (cv_pairs _ _ _ _ _ _ Hcv) as (el & cap & rest & Ep & _ & _ & _ & _ & _ & _ & _ & SH & _). rewrite Ep in Ex. injection Ex as <-. exact (proj1 Eb SH). }
  subst b.
  assert (Small : (nlsc <= 5)%nat /\ forall w, In w (waves f) -> (rs_L (fst w) < nlsc)%nat).
  { pose proof F3 as Q. unfold from, fromENDF in Q. rewrite A4, A1, A2, A3 in Q. cbn [bind Z.eqb Pos.eqb] in Q. unfold reconstructorOf, omap in Q.
    apply bind_Ok in Q as (os & Hs & Q). destruct os as [gs3|]; [|discriminate]. injection Q as <-. split; [|exact (waves_below _ _ _ _ _ _ _ _ Hin Hs)].
    rewrite in_range in O3 by exact A6. cbn [rc_system evaluateCompound] in O3.
    destruct (evaluateSystem hbar epsilon0 cwf ShiftFactor (fresh initial gs3) e (fun _ => None)) as [[[gs' m']|]| | |] eqn:Ev; try discriminate.
    apply (newer_evaluates hbar epsilon0 cwf mn incident target Hh Hmn f A None (er_NAPS r3) rad rad0 Hin e He nlsc gs3 (fresh initial gs3) (fun _ => None) Hs (fresh_objects initial gs3)); [discriminate|].
    exists gs', m'. exact Ev. }
  destruct Small as [L1 L2].
  destruct (limited_evaluates hbar epsilon0 cwf mn elementaryCharge incident target products Hh Hmn Hcap f nlsc A None (er_NAPS r3) rad rad0 g Hin Hcv gs (fresh initial gs) (fun _ => None) e He Es (fresh_objects initial gs) L1) as (gs' & m7 & Ev).
  { intros w Hw. specialize (L2 w Hw). lia. }
  destruct (limited_file hbar epsilon0 cwf mn elementaryCharge incident target products Hh Hmn Hcap f nlsc A None (er_NAPS r3) rad rad0 g Hin Hcv gs (fresh initial gs) (fun _ => None) gs' m7 phi phi0 e He Es (fresh_objects initial gs) Ev (fun ls _ => Hph _ _) (fun l _ => Hph _ _)) as (M1 & M2 & M3 & M4).
  cbn [value_of] in M1, M2, M3. rewrite Rplus_0_l in M1, M2, M3.
  eexists. exists m3, m7. split; [reflexivity|]. rewrite in_range by exact B4. split; [cbn [rc_system evaluateCompound]; rewrite Ev; reflexivity|].
  intros y. destruct (reaction_dec y (Elastic incident target)) as [->|D1]; [rewrite M1, N1; reflexivity|].
  destruct (reaction_dec y (Transfer (incident ++ "," ++ target) "fission")) as [->|D2]; [rewrite M2, N2; reflexivity|].
  destruct (reaction_dec y (Transfer (incident ++ "," ++ target) "capture")) as [->|D3]; [rewrite M3, N3; reflexivity|].
  rewrite M4, N4 by assumption. reflexivity.
Qed.
End From.
