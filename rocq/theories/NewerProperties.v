(** C62: the Reich-Moore cross sections the newer interface gives for a file, when it gives
    them, and how they compare with those of the older interface. *)
From Coq Require Import String List ZArith Reals Bool Lra Lia Permutation.
From Verif Require Import Outcome QuantumModel QuantumSpec HardSphereModel HardSphereSpec HardSphereProofs KinematicsModel CoulombModel
  Cplx RMatrixModel ChannelModel SpinGroupModel BreitWignerModel BreitWignerSpec BreitWignerProofs BreitWignerSystemProofs BreitWignerCases ReichMooreModel LegacyModel LegacyProofs ListFacts GridModel AssemblyModel
  EndfModel EndfSpec EndfFlagProofs EndfReichMooreProofs EndfTheorems ReichMooreSpec ReichMooreProofs ReichMooreTheory ReichMooreCases KMatrixModel KMatrixSpec KMatrixMore ReconstructionTheorems
  NewerFacts NewerRMSpec NewerWhole NewerTheorems NewerAgreement NewerFrom NewerCases.
Import ListNotations.
Open Scope R_scope.

Section C62.
Variables (hbar epsilon0 : R) (cwf : nat -> R -> R -> outcome coulomb) (mn : R) (incident target : string).
Hypotheses (Hh : 0 < hbar) (Hmn : 0 < mn).
Let C := C_new hbar mn.
Let make := makeReichMooreCompoundSystem hbar epsilon0 cwf mn incident target.
Let evaluate := evaluateSystem hbar epsilon0 cwf ShiftFactor.
Let kE : reactionID := Elastic incident target.
Let kF : reactionID := Transfer (incident ++ "," ++ target) "fission".
Let kC : reactionID := Transfer (incident ++ "," ++ target) "capture".

(** What is added to the results is what the formulae give for the parameters in the file. *)
Theorem C62_file f A nro naps rad rad0 E nlsc gs objects m gs' m' phi phi0 :
  newer_input mn f A nro naps rad rad0 -> 0 < E -> make f nlsc nro naps = Ok (Some gs) -> map (@projT1 _ _) objects = gs ->
  evaluate objects E m = Ok (Some (gs', m')) ->
  let k := k_old C A in let I := rf_SPI f in let a ls x := oval (radius_at (r_P (rad ls)) x) in
  (forall ls, In ls (rf_lstates f) -> is_phase (rs_L ls) (k E * oval (radius_at (r_phi (rad ls)) E)) (phi ls)) ->
  (forall l, (l < nlsc)%nat -> is_phase l (k E * oval (radius_at (r_phi rad0) E)) (phi0 l)) ->
  value_of (m' kE) = value_of (m kE) + newer_elastic k E I a phi phi0 nlsc (rf_lstates f) /\
  value_of (m' kF) = value_of (m kF) + newer_fission k E I a phi (rf_lstates f) /\
  value_of (m' kC) = value_of (m kC) + newer_capture k E I a phi (rf_lstates f) /\
  (forall r, r <> kE -> r <> kF -> r <> kC -> m' r = m r).
Proof. intros Hin HE. exact (newer_file hbar epsilon0 cwf mn incident target Hh Hmn f A nro naps rad rad0 Hin E HE nlsc gs objects m gs' m' phi phi0). Qed.

(** A system that was made gives finite cross sections at an energy exactly if l stays below five
    and no resonance at that energy lacks a capture width. *)
Theorem C62_evaluates f A nro naps rad rad0 E nlsc gs objects m :
  newer_input mn f A nro naps rad rad0 -> 0 < E -> make f nlsc nro naps = Ok (Some gs) -> map (@projT1 _ _) objects = gs ->
  (forall t, nro = Some t -> exists r, t E = Ok r) ->
  ((nlsc <= 5)%nat /\ (forall ls x, In ls (rf_lstates f) -> In x (rs_lines ls) -> rl_ER x <> E \/ rl_GG x <> 0)) <->
  exists gs' m', evaluate objects E m = Ok (Some (gs', m')).
Proof. intros Hin HE. exact (newer_evaluates hbar epsilon0 cwf mn incident target Hh Hmn f A nro naps rad rad0 Hin E HE nlsc gs objects m). Qed.

(** From the file to the cross sections *)
Theorem C62_reconstruct elementaryCharge products multiRegion initial r f nlsc nro rc e rc' o A rad rad0 phi phi0 :
  er_LRU r = 1%Z -> er_LRF r = 3%Z -> er_parameters r = ParametersReichMoore f nlsc ->
  makeChannelRadiusTable multiRegion (er_radius r) = Ok nro -> newer_input mn f A nro (er_NAPS r) rad rad0 -> 0 < e ->
  fromENDF hbar epsilon0 cwf mn elementaryCharge incident target products multiRegion initial r = Ok (Some rc) ->
  er_lower r <= e <= er_upper r -> reconstruct hbar epsilon0 cwf rc e = Ok (Some (rc', o)) ->
  let k := k_old C A in let a ls x := oval (radius_at (r_P (rad ls)) x) in
  (forall ls, In ls (rf_lstates f) -> is_phase (rs_L ls) (k e * oval (radius_at (r_phi (rad ls)) e)) (phi ls)) ->
  (forall l, (l < nlsc)%nat -> is_phase l (k e * oval (radius_at (r_phi rad0) e)) (phi0 l)) ->
  exists m, o = Matrix m /\
  value_of (m kE) = newer_elastic k e (rf_SPI f) a phi phi0 nlsc (rf_lstates f) /\
  value_of (m kF) = newer_fission k e (rf_SPI f) a phi (rf_lstates f) /\
  value_of (m kC) = newer_capture k e (rf_SPI f) a phi (rf_lstates f) /\
  (forall x, x <> kE -> x <> kF -> x <> kC -> m x = None).
Proof. exact (from_reich_moore hbar epsilon0 cwf mn elementaryCharge incident target products multiRegion initial Hh Hmn r f nlsc nro rc e rc' o A rad rad0 phi phi0). Qed.

(** Both interfaces on one file.  The older uses the constant C of the newer, and a neutron mass
    ratio fixed in its channel radius. *)
Section Both.
Variables (sort : list rm_resonance -> list rm_resonance) (f : rm_file) (A : R) (NRO : bool) (NAPS : Z)
  (table : option (R -> outcome R)) (a ahat : rm_lstate -> R -> outcome R) (rad : rm_lstate -> radii) (rad0 : radii) (E : R).
Let nro := if NRO then table else None.
Hypotheses (Hold : rm_input C f A NRO NAPS table a ahat) (Hnew : newer_input mn f A nro (Z.to_nat NAPS) rad rad0).
Hypotheses (Hsort : sorts rm_flagged sort) (Hm : NAPS = 0%Z -> mn = 1.00866491582) (HE : 0 < E).
Hypothesis Hneg : NRO = false \/ forall ls x, In ls (rf_lstates f) -> In x (rs_lines ls) -> 0 <= rl_ER x.
Variables (s : rm_system) (e c fi : R).
Hypotheses (Hs : rm_apply C sort f NRO NAPS table = Ok s) (He : rm_evaluate C s E = Ok (Some (e, c, fi))).
Variables (nlsc : nat) (gs : list group) (objects gs' : list object) (m m' : reaction_map).
Hypotheses (Hmake : make f nlsc nro (Z.to_nat NAPS) = Ok (Some gs)) (Hobj : map (@projT1 _ _) objects = gs)
  (Hev : evaluate objects E m = Ok (Some (gs', m'))).
Let k := k_old C A.
Variables (phi : rm_lstate -> R) (phi0 : nat -> R) (extra : list nat).
Hypotheses (Hphi : forall ls, In ls (rf_lstates f) -> is_phase (rs_L ls) (k E * values_of ahat ls E) (phi ls))
  (Hphi0 : forall l, (l < nlsc)%nat -> is_phase l (k E * oval (radius_at (r_phi rad0) E)) (phi0 l))
  (Hextra : Permutation (map rs_L (rf_lstates f) ++ extra) (seq 0 nlsc)).
(** Capture and fission are the same.  The elastic cross sections differ by the potential
    scattering of the channels the file does not have. *)
Theorem C62_difference : value_of (m' kC) = value_of (m kC) + c /\ value_of (m' kF) = value_of (m kF) + fi /\
  value_of (m' kE) = value_of (m kE) + e + barns k E *
    (Rsum (map (fun ls => (2 * INR (rs_L ls) + 1 - accounted (rf_SPI f) ls)
                          * (scattered (cis (- (2 * phi0 (rs_L ls)))) - scattered (cis (- (2 * phi ls))))) (rf_lstates f))
     + Rsum (map (fun l => (2 * INR l + 1) * scattered (cis (- (2 * phi0 l)))) extra)).
Proof.
  exact (difference hbar epsilon0 cwf mn incident target Hh Hmn sort f A NRO NAPS table a ahat rad rad0 E Hold Hnew Hsort Hm HE Hneg
    s e c fi Hs He nlsc gs objects gs' m m' Hmake Hobj Hev phi phi0 extra Hphi Hphi0 Hextra).
Qed.
(** If the file has every l below NLSC, and one radius for an l of which a J is missing, they are
    the same. *)
Theorem C62_agreement : extra = [] ->
  (forall ls, In ls (rf_lstates f) -> accounted (rf_SPI f) ls = 2 * INR (rs_L ls) + 1 \/ NRO = true \/ or_ap f ls = rf_AP f) ->
  value_of (m' kE) = value_of (m kE) + e /\ value_of (m' kC) = value_of (m kC) + c /\ value_of (m' kF) = value_of (m kF) + fi.
Proof.
  intros Hx H.
  exact (agreement hbar epsilon0 cwf mn incident target Hh Hmn sort f A NRO NAPS table a ahat rad rad0 E Hold Hnew Hsort Hm HE Hneg
    s e c fi Hs He nlsc gs objects gs' m m' Hmake Hobj Hev phi phi0 extra Hphi Hphi0 Hextra H Hx).
Qed.
End Both.
End C62.
Print Assumptions C62_file.
Print Assumptions C62_evaluates.
Print Assumptions C62_reconstruct.
Print Assumptions C62_difference.
Print Assumptions C62_agreement.

(** The interfaces differ if the file has no resonances for an l below NLSC ... *)
Theorem C62_more_l_refuted epsilon0 cwf initial : exists f s e c fi gs gs' m',
  rm_apply (C_new 2 2) (insertion_sort rm_flagged) f false 1 None = Ok s /\ rm_evaluate (C_new 2 2) s 4 = Ok (Some (e, c, fi)) /\
  makeReichMooreCompoundSystem 2 epsilon0 cwf 2 "n" "t" f 2 None 1 = Ok (Some gs) /\
  evaluateSystem 2 epsilon0 cwf ShiftFactor (fresh initial gs) 4 (fun _ => None) = Ok (Some (gs', m')) /\
  e < value_of (m' (Elastic "n" "t")).
Proof. exact (ex_intro _ (s_file 1 0) (more_l epsilon0 cwf initial)). Qed.
(** ... or if it gives a radius of its own for an l of which a J has no resonance. *)
Theorem C62_radius_refuted epsilon0 cwf initial : exists f s e c fi gs gs' m',
  rm_apply (C_new 2 2) (insertion_sort rm_flagged) f false 1 None = Ok s /\ rm_evaluate (C_new 2 2) s 4 = Ok (Some (e, c, fi)) /\
  makeReichMooreCompoundSystem 2 epsilon0 cwf 2 "n" "t" f 1 None 1 = Ok (Some gs) /\
  evaluateSystem 2 epsilon0 cwf ShiftFactor (fresh initial gs) 4 (fun _ => None) = Ok (Some (gs', m')) /\
  e < value_of (m' (Elastic "n" "t")).
Proof. exact (ex_intro _ (s_file (PI / 2) PI) (other_radius epsilon0 cwf initial)). Qed.
Print Assumptions C62_more_l_refuted.
Print Assumptions C62_radius_refuted.

(** A file with s and p waves, fission and negative AJ that meets all hypotheses, at 4 eV *)
Example C62_case epsilon0 cwf initial m :
  newer_input 2 pd_file 1 None 1 (ap_radii pd_file) (radii1 (Fixed 1)) /\
  rm_input (C_new 2 2) pd_file 1 false 1 None (fun ls _ => Ok (or_ap pd_file ls)) (fun ls _ => Ok (or_ap pd_file ls)) /\
  (exists s e c fi, rm_apply (C_new 2 2) (insertion_sort rm_flagged) pd_file false 1 None = Ok s /\ rm_evaluate (C_new 2 2) s 4 = Ok (Some (e, c, fi))) /\
  (exists gs gs' m', makeReichMooreCompoundSystem 2 epsilon0 cwf 2 "n" "t" pd_file 2 None 1 = Ok (Some gs) /\
     evaluateSystem 2 epsilon0 cwf ShiftFactor (fresh initial gs) 4 m = Ok (Some (gs', m'))) /\
  (exists phi phi0, (forall ls, In ls (rf_lstates pd_file) -> is_phase (rs_L ls) (k_old (C_new 2 2) 1 4 * or_ap pd_file ls) (phi ls)) /\
     (forall l, (l < 2)%nat -> is_phase l (k_old (C_new 2 2) 1 4 * 1) (phi0 l))) /\
  Permutation (map rs_L (rf_lstates pd_file) ++ []) (seq 0 2) /\
  (forall ls, In ls (rf_lstates pd_file) -> or_ap pd_file ls = rf_AP pd_file).
Proof.
  assert (Ap : forall ls, In ls (rf_lstates pd_file) -> or_ap pd_file ls = 1) by (intros ls [<-|[<-|[]]]; unfold or_ap; cbn; destruct (Req_EM_T 0 0); congruence).
  split; [exact pd_input|]. split; [exact pd_old|]. split; [exact pd_old_values|]. split; [exact (pd_new_values epsilon0 cwf initial m)|].
  split; [|split; [apply Permutation_refl | exact Ap]].
  assert (Q : exists phi, forall l, (l < 2)%nat -> is_phase l (k_old (C_new 2 2) 1 4 * 1) (phi l)).
  { rewrite C_one, k_4, Rmult_1_r. destruct (phase_code 0 1 ltac:(lra) ltac:(lia)) as (p & _ & Hp). destruct (phase_code 1 1 ltac:(lra) ltac:(lia)) as (q & _ & Hq).
    exists (fun l => match l with O => p | _ => q end). intros [|[|l]] H; [exact Hp | exact Hq | lia]. }
  destruct Q as (phi0 & H0). exists (fun ls => phi0 (rs_L ls)), phi0. split; [|exact H0].
  intros ls Hls. rewrite (Ap ls Hls). apply H0. destruct Hls as [<-|[<-|[]]]; cbn; lia.
Qed.
