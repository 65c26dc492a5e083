(** From a file in the R-Matrix Limited format to the cross sections. *)
From Coq Require Import String List ZArith Reals Bool Lra Lia.
From Verif Require Import Outcome QuantumModel QuantumSpec HardSphereModel KinematicsModel CoulombModel
  Cplx RMatrixModel RMatrixSpec ChannelModel SpinGroupModel SpinGroupSpec LegacyProofs ListFacts GridModel AssemblyModel
  EndfModel EndfSpec ReconstructionTheorems LimitedSpec LimitedProofs LimitedTheorems LimitedFileSpec LimitedCrossSpec LimitedCrossProofs.
Import ListNotations.
Open Scope R_scope.

Section From.
Variables (hbar epsilon0 : R) (cwf : nat -> R -> R -> outcome coulomb) (mn elementaryCharge : R) (incident target : string)
  (products : Z -> outcome (string * string)) (multiRegion : endf_radius -> outcome (R -> outcome R)) (initial : forall g, cache (gsize g)).
Let from := fromENDF hbar epsilon0 cwf mn elementaryCharge incident target products multiRegion initial.
Lemma from_limited_system r f rc : er_LRU r = 1%Z -> er_LRF r = 7%Z -> er_parameters r = ParametersLimited f -> from r = Ok (Some rc) ->
  exists x b gs, hd_error (el_pairs f) = Some x /\ flagged b x /\ el_KRM f = 3%Z /\
    makeCompoundSystem hbar epsilon0 cwf mn elementaryCharge incident target products f = Ok (Some gs) /\
    rc = mkReconstructor (er_lower r) (er_upper r)
           (match b with ShiftFactor => ReichMooreShift (fresh initial gs) | Constant => ReichMooreConstant (fresh initial gs) end).
Proof.
  intros H1 H2 H3 Hf. unfold from, fromENDF in Hf. apply bind_Ok in Hf as (nro & _ & Hf). rewrite H1, H2, H3 in Hf. cbn [Z.eqb Pos.eqb] in Hf.
  apply bind_Ok in Hf as (flag & Ef & Hf). destruct (el_pairs f) as [|x rest] eqn:Ep; [discriminate|]. cbn in Ef. injection Ef as <-.
  destruct (Z.eqb_spec (el_KRM f) 3) as [K|K]; [|destruct (el_KRM f =? 4)%Z; discriminate].
  exists x. destruct (Z.eqb_spec (ep_SHF x) 0) as [Q|Q]; [exists ShiftFactor | exists Constant]; unfold reconstructorOf, omap in Hf;
    apply bind_Ok in Hf as (os & Hs & Hf); (destruct os as [gs|]; [|discriminate]); injection Hf as <-; exists gs; unfold flagged; repeat (split; auto); intros; congruence.
Qed.
Lemma fresh_objects gs : map (@projT1 _ _) (fresh initial gs) = gs.
Proof. unfold fresh. rewrite map_map. cbn [projT1]. apply map_id. Qed.
Lemma evaluate_compound b gs e : evaluateCompound hbar epsilon0 cwf (match b with ShiftFactor => ReichMooreShift gs | Constant => ReichMooreConstant gs end) e =
  omap (option_map (fun p => (match b with ShiftFactor => ReichMooreShift (fst p) | Constant => ReichMooreConstant (fst p) end, Matrix (snd p))))
    (evaluateSystem hbar epsilon0 cwf b gs e (fun _ => None)).
Proof. destruct b; reflexivity. Qed.
Theorem from_limited r f rc e rc' o : er_LRU r = 1%Z -> er_LRF r = 7%Z -> er_parameters r = ParametersLimited f -> from r = Ok (Some rc) ->
  er_lower r <= e <= er_upper r -> reconstruct hbar epsilon0 cwf rc e = Ok (Some (rc', o)) ->
  (forall g, In g (el_groups f) -> alone (el_groups f) g) -> (forall g, In g (el_groups f) -> NoDup (eg_ER g)) ->
  exists x b pairs inc m xs, hd_error (el_pairs f) = Some x /\ flagged b x /\
    makeParticlePairs mn elementaryCharge incident target products (el_pairs f) = Ok pairs /\
    (exists n, first_at 2%Z (map ep_MT (el_pairs f)) n /\ nth_error pairs n = Some inc) /\
    o = Matrix m /\ Forall2 (group_gives hbar epsilon0 cwf b e f pairs inc) (el_groups f) xs /\
    (forall k, match m k with Some y => y | None => 0 end = Rsum (map (fun x => x k) xs)) /\
    (forall k, ~ some_reaction f pairs inc k -> m k = None).
Proof.
  intros H1 H2 H3 Hf Hr Ho Al Nd. destruct (from_limited_system r f rc H1 H2 H3 Hf) as (x & b & gs & E1 & E2 & E3 & E4 & ->).
  destruct (proj1 (steps _ _ _ _ _ _ _ _ _ _) E4) as (pairs & inc & ds & out & A). pose proof A as (Rd & _).
  rewrite in_range in Ho by exact Hr. cbn [rc_system rc_lower rc_upper] in Ho. rewrite evaluate_compound in Ho.
  destruct (evaluateSystem hbar epsilon0 cwf b (fresh initial gs) e (fun _ => None)) as [[[gs' m']|]| | |] eqn:Ev; try discriminate.
  cbn in Ho. injection Ho as _ <-. destruct (limited_cross A Al Nd (fresh_objects gs) Ev) as (xs & X & S & U).
  exists x, b, pairs, inc, m', xs. split; [exact E1|]. split; [exact E2|]. split; [exact (proj1 Rd)|].
  split; [exact (incident_first _ _ _ _ _ _ _ _ _ _ _ _ Rd)|]. split; [reflexivity|]. split; [exact X|]. split; [|exact U].
  intros k. specialize (S k). cbn in S. rewrite Rplus_0_l in S. destruct (m' k); exact S.
Qed.
Theorem from_limited_evaluates r f rc e : er_LRU r = 1%Z -> er_LRF r = 7%Z -> er_parameters r = ParametersLimited f -> from r = Ok (Some rc) ->
  er_lower r <= e <= er_upper r -> 0 < hbar ->
  (forall g, In g (el_groups f) -> alone (el_groups f) g) -> (forall g, In g (el_groups f) -> NoDup (eg_ER g)) ->
  (forall pairs inc, makeParticlePairs mn elementaryCharge incident target products (el_pairs f) = Ok pairs ->
     (exists n, first_at 2%Z (map ep_MT (el_pairs f)) n /\ nth_error pairs n = Some inc) -> evaluable hbar e f pairs inc) ->
  exists rc' m, reconstruct hbar epsilon0 cwf rc e = Ok (Some (rc', Matrix m)).
Proof.
  intros H1 H2 H3 Hf Hr Hh Al Nd Ev. destruct (from_limited_system r f rc H1 H2 H3 Hf) as (x & b & gs & E1 & E2 & E3 & E4 & ->).
  destruct (proj1 (steps _ _ _ _ _ _ _ _ _ _) E4) as (pairs & inc & ds & out & A). pose proof A as (Rd & _).
  specialize (Ev pairs inc (proj1 Rd) (incident_first _ _ _ _ _ _ _ _ _ _ _ _ Rd)).
  destruct (limited_evaluates b A Al Nd (fun _ => None) (fresh_objects gs) Hh Ev) as (objects & m & E).
  rewrite in_range by exact Hr. cbn [rc_system rc_lower rc_upper]. rewrite evaluate_compound, E. cbn. eauto.
Qed.
(** Which files are read at all *)
Theorem from_limited_accepts r f gs x regions : er_LRU r = 1%Z -> er_LRF r = 7%Z -> er_parameters r = ParametersLimited f -> el_KRM f = 3%Z ->
  makeChannelRadiusTable multiRegion (er_radius r) = Ok regions -> hd_error (el_pairs f) = Some x ->
  makeCompoundSystem hbar epsilon0 cwf mn elementaryCharge incident target products f = Ok (Some gs) -> exists rc, from r = Ok (Some rc).
Proof.
  intros H1 H2 H3 H4 H5 H6 H7. unfold from, fromENDF. rewrite H5, H1, H2, H3. cbn [bind Z.eqb Pos.eqb]. destruct (el_pairs f) as [|y rest]; [discriminate|]. cbn [map at_or_ub nth_error bind].
  rewrite H4. cbn [Z.eqb Pos.eqb]. unfold reconstructorOf. rewrite H7. cbn [omap bind option_map]. destruct (ep_SHF y =? 0)%Z; eauto.
Qed.
End From.
