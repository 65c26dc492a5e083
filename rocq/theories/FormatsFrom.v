(** From files in the three formats to the same cross sections. *)
From Coq Require Import String List ZArith Reals Bool Lra Lia Epsilon.
From Verif Require Import Outcome QuantumModel QuantumSpec HardSphereModel HardSphereSpec KinematicsModel CoulombModel Cplx RMatrixModel ChannelModel SpinGroupModel
  BreitWignerModel BreitWignerSpec BreitWignerProofs BreitWignerSystemProofs BreitWignerTheorems ReichMooreModel ReichMooreSpec LegacyModel LegacyProofs LegacySystemProofs GridModel AssemblyModel EndfModel EndfSpec
  ReconstructionTheorems NewerFacts NewerRMSpec NewerTheorems NewerFrom FormatsSpec FormatsProofs.
Import ListNotations.
Open Scope R_scope.

Section From.
Variables (hbar epsilon0 : R) (cwf : nat -> R -> R -> outcome coulomb) (mn elementaryCharge : R) (incident target : string)
  (products : Z -> outcome (string * string)) (multiRegion : endf_radius -> outcome (R -> outcome R)) (initial : forall g, cache (gsize g)).
Let from := fromENDF hbar epsilon0 cwf mn elementaryCharge incident target products multiRegion initial.
(** A resolved range that covers [e], with these radii *)
Definition range_at (nro : option (R -> outcome R)) (naps : nat) (e : R) (lrf : Z) (p : endf_parameters) (r : endf_range) : Prop :=
  er_LRU r = 1%Z /\ er_LRF r = lrf /\ er_parameters r = p /\ makeChannelRadiusTable multiRegion (er_radius r) = Ok nro /\ er_NAPS r = naps /\ er_lower r <= e <= er_upper r.
(** What a reconstructor of the legacy formats, and one of the others, returns *)
Definition legacy_gives (rc : reconstructor) (e el ca fi : R) : Prop :=
  returned (reconstruct hbar epsilon0 cwf rc e) (incident, target, "elastic"%string) el /\
  returned (reconstruct hbar epsilon0 cwf rc e) (incident, target, "capture"%string) ca /\
  returned (reconstruct hbar epsilon0 cwf rc e) (incident, target, "fission"%string) fi.
Definition matrix_gives (rc : reconstructor) (e el ca fi : R) : Prop := exists rc' m, reconstruct hbar epsilon0 cwf rc e = Ok (Some (rc', Matrix m)) /\
  value_of (m (Elastic incident target)) = el /\ value_of (m (Transfer (incident ++ "," ++ target) "capture")) = ca /\
  value_of (m (Transfer (incident ++ "," ++ target) "fission")) = fi.

Theorem formats b f nlsc nro naps A rad n e r1 r2 r3 rc1 rc2 rc3 o1 o2 o3 :
  range_at nro naps e 1 (ParametersSLBW b) r1 -> range_at nro naps e 2 (ParametersMLBW b) r2 -> range_at nro naps e 3 (ParametersReichMoore f nlsc) r3 ->
  input_new hbar mn b A nro naps rad n -> newer_input mn f A nro naps (fun _ => rad) rad -> nlsc = S n -> same_file b f -> 0 < e ->
  (forall t x, nro = Some t -> x = e \/ (exists ls y, In ls (f_lstates b) /\ In y (ls_lines ls) /\ x = ln_ER y) -> exists z, t x = Ok z) ->
  (forall ls y, In ls (f_lstates b) -> In y (ls_lines ls) -> ln_ER y <> 0 /\ (ln_ER y <> e \/ ln_GG y <> 0)) ->
  unmoved (k_old (C_new hbar mn) A) (fun x => oval (radius_at (r_P rad) x)) e b ->
  from r1 = Ok (Some rc1) -> from r2 = Ok (Some rc2) -> from r3 = Ok (Some rc3) ->
  reconstruct hbar epsilon0 cwf rc1 e = Ok (Some o1) -> reconstruct hbar epsilon0 cwf rc2 e = Ok (Some o2) -> reconstruct hbar epsilon0 cwf rc3 e = Ok (Some o3) ->
  exists el ca fi, legacy_gives rc1 e el ca fi /\ legacy_gives rc2 e el ca fi /\ matrix_gives rc3 e el ca fi.
Proof.
  intros (A1 & A2 & A3 & A4 & A5 & A6) (B1 & B2 & B3 & B4 & B5 & B6) (C1 & C2 & C3 & C4 & C5 & C6) Hin Hnew Hn HS He Ht Her Hun F1 F2 F3 O1 O2 O3.
  assert (Hin1 : input_new hbar mn b A nro (er_NAPS r1) rad n) by (rewrite A5; exact Hin).
  assert (Hin2 : input_new hbar mn b A nro (er_NAPS r2) rad n) by (rewrite B5; exact Hin). 
  assert (Hnew3 : newer_input mn f A nro (er_NAPS r3) (fun _ => rad) rad) by (rewrite C5; exact Hnew).
  pose proof (in_hbar _ _ _ _ _ _ _ _ Hin) as Hh. pose proof (in_mn _ _ _ _ _ _ _ _ Hin) as Hmn. pose proof (in_A _ _ _ _ _ _ _ _ Hin) as HA.
  set (k := k_old (C_new hbar mn) A). set (a x := oval (radius_at (r_P rad) x)). set (ahat := oval (radius_at (r_phi rad) e)).
  assert (Ok : forall x, x = e \/ (exists ls y, In ls (f_lstates b) /\ In y (ls_lines ls) /\ x = ln_ER y) -> 0 < a x).
  { intros x Hx. unfold a. pose proof (in_channel _ _ _ _ _ _ _ _ Hin x) as P.
    destruct (r_P rad) as [c|t] eqn:Er; cbn [radius_at oval] in *; [apply P; reflexivity|].
    destruct (Ht t x) as [z Hz]; [|exact Hx|rewrite Hz in *; apply P; reflexivity].
    pose proof (in_radii _ _ _ _ _ _ _ _ Hin) as M. unfold makeChannelRadii in M.
    destruct nro as [t'|]; [|destruct naps; injection M as <-; discriminate Er].
    destruct naps as [|[|[|]]]; try discriminate; injection M as <-; cbn in Er; congruence. }
  assert (Hk : forall x, x <> 0 -> 0 < k x) by (intros x Hx; apply k_old_pos; [apply C_new_pos|..]; assumption).
  assert (HE : 0 < k e * a e) by (apply Rmult_lt_0_compat; [apply Hk; lra | apply Ok; left; reflexivity]).
  assert (Her' : forall ls x, In ls (f_lstates b) -> In x (ls_lines ls) -> 0 < k (ln_ER x) * a (ln_ER x) /\ (ln_ER x <> e \/ ln_GG x <> 0)).
  { intros ls x H1 H2. destruct (Her ls x H1 H2) as [N1 N2]. split; [|exact N2]. apply Rmult_lt_0_compat; [apply Hk; exact N1 | apply Ok; right; exists ls, x; auto]. }
  assert (Hl : map ls_L (f_lstates b) = seq 0 nlsc) by (rewrite Hn; exact (in_l _ _ _ _ _ _ _ _ Hin)).
  destruct (from_slbw hbar epsilon0 cwf mn elementaryCharge incident target products multiRegion initial r1 b nro rc1 e o1 A rad n A1 A2 A3 A4 Hin1 ltac:(lra) F1 A6 O1) as (S1 & S2 & S3).
  destruct (from_mlbw hbar epsilon0 cwf mn elementaryCharge incident target products multiRegion initial r2 b nro rc2 e o2 A rad n B1 B2 B3 B4 Hin2 ltac:(lra) F2 B6 O2) as (M1 & M2 & M3).
  set (phi0 l := proj1_sig (Epsilon.constructive_indefinite_description _ (polar l (k e * ahat)))).
  assert (Hphi0 : forall l, is_phase l (k e * ahat) (phi0 l)) by (intros l; exact (proj2_sig (Epsilon.constructive_indefinite_description _ (polar l (k e * ahat))))).
  destruct o3 as [rc3' o3].
  destruct (from_reich_moore hbar epsilon0 cwf mn elementaryCharge incident target products multiRegion initial Hh Hmn r3 f nlsc nro rc3 e rc3' o3 A (fun _ => rad) rad (fun ls => phi0 (rs_L ls)) phi0
    C1 C2 C3 C4 Hnew3 He F3 C6 O3 (fun ls _ => Hphi0 (rs_L ls)) (fun l _ => Hphi0 l)) as (m & -> & N1 & N2 & N3 & _).
  pose proof (file_elastic k a e ahat b f q_new nlsc (fun ls => phi0 (rs_L ls)) phi0 HS HE Hun Hl Her' (fun ls _ => Hphi0 (rs_L ls)) (fun l _ => Hphi0 l)) as Q1.
  pose proof (file_capture k a e b f q_new (fun ls => phi0 (rs_L ls)) HS HE Hun Her') as Q2.
  pose proof (file_fission k a e b f q_new (fun ls => phi0 (rs_L ls)) HS HE Hun Her') as Q3.
  pose proof (file_multi k a e ahat b f q_new HS) as Q4.
  rewrite (sm_SPI _ _ HS) in N1, N2, N3.
  exists (SLBW_elastic k a e q_new ahat (f_SPI b) (f_lstates b)), (BW_capture k a e q_new (f_SPI b) (f_lstates b)), (BW_fission k a e q_new (f_SPI b) (f_lstates b)).
  split; [exact (Logic.conj S1 (Logic.conj S2 S3))|]. split; [rewrite <- Q4; exact (Logic.conj M1 (Logic.conj M2 M3))|].
  exists rc3', m. split; [exact O3|]. rewrite Q1, Q2, Q3. split; [exact N1|]. split; [exact N3 | exact N2].
Qed.
End From.
