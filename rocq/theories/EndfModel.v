(** From the ENDF parameters to compound systems and the reconstructor.
    Paths are relative to /repo/src/resonanceReconstruction/rmatrix/src. *)
From Coq Require Import String List ZArith Reals Bool.
From Verif Require Import Outcome QuantumModel HardSphereModel KinematicsModel CoulombModel Cplx RMatrixModel ChannelModel
  SpinGroupModel BreitWignerModel ReichMooreModel LegacyModel UnresolvedModel GridModel AssemblyModel.
Import ListNotations.
Open Scope R_scope.

(** One column of the table of particle pairs (a component of ENDFtk, not in /repo): masses in
    neutron masses, charges in elementary charges, signed spins (doubled), Q value, shift
    factor flag, MT number and parities.  ENDFtk reads all columns from one list, so the
    ranges of the code all have the same length. *)
Record endf_pair : Type := mkEPair
  { ep_MA : R; ep_MB : R; ep_ZA : R; ep_ZB : R; ep_IA : Z; ep_IB : Z; ep_Q : R; ep_SHF : Z;
    ep_MT : Z; ep_PA : Z; ep_PB : Z }.
(** One channel of a spin group: pair number, l, s, boundary condition, effective and true radius *)
Record endf_channel : Type := mkEChannel
  { ec_PPI : nat; ec_L : nat; ec_SCH : Z; ec_BND : R; ec_APE : R; ec_APT : R }.
(** A spin group: signed spin, parity, channels, number of resonances, energies and widths *)
Record endf_group : Type := mkEGroup
  { eg_AJ : Z; eg_PJ : Z; eg_channels : list endf_channel; eg_NRS : nat; eg_ER : list R;
    eg_GAM : list (list R) }.
(** The R-Matrix Limited parameters *)
Record endf_limited : Type := mkELimited
  { el_KRM : Z; el_IFG : Z; el_pairs : list endf_pair; el_groups : list endf_group }.

(** makeParticlePairs.hpp:1-26 *)
Definition findParticlePairForReaction (mts : list Z) (mt : Z) : nat := find_index (fun x => (mt =? x)%Z) mts.
Definition incidentIndex (ps : list endf_pair) : nat := findParticlePairForReaction (map ep_MT ps) 2.
Definition eliminatedIndex (ps : list endf_pair) : nat := findParticlePairForReaction (map ep_MT ps) 102.

(** The parity of makeParticlePairs.hpp:67-68 and makeParticleChannels.hpp:12-13 *)
Definition endfParity (spin parity : Z) : Z :=
  if (spin =? 0)%Z then (if (0 <=? parity)%Z then 1 else -1)%Z
  else (if (0 <? spin)%Z then 1 else -1)%Z.

Section Endf.
Variables (hbar epsilon0 : R) (cwf : nat -> R -> R -> outcome coulomb).
Variables (neutronMass elementaryCharge : R) (incident target : string).
(** The outgoing particle and the residual of a reaction other than elastic and fission come
    from the elementary library: ReactionType::particles().front() and resolve *)
Variable products : Z -> outcome (string * string).

(** makeParticlePairs.hpp:36-59; ParticlePairID( a, b ) has the symbol "a,b" *)
Definition makeParticleIDs (mt : Z) : outcome (string * string * string) :=
  if (mt =? 2)%Z then Ok (incident, target, incident ++ "," ++ target)%string
  else if (mt =? 18)%Z then Ok (incident, target, "fission"%string)
  else do (outgoing, residual) <- products mt ;
       Ok (outgoing, residual, outgoing ++ "," ++ residual)%string.
(** makeParticlePairs.hpp:62-69 *)
Definition makeEndfParticle (id : string) (mass charge : R) (spin parity : Z) : outcome particle :=
  makeParticle id (mass * neutronMass) (charge * elementaryCharge) (Z.abs spin) (endfParity spin parity).
(** makeParticlePairs.hpp:28-101 *)
Definition makeEndfPair (e : endf_pair) : outcome particlePair :=
  do ids <- makeParticleIDs (ep_MT e) ;
  let '(a, b, id) := ids in
  do particle <- makeEndfParticle a (ep_MA e) (ep_ZA e) (ep_IA e) (ep_PA e) ;
  do residual <- makeEndfParticle b (ep_MB e) (ep_ZB e) (ep_IB e) (ep_PB e) ;
  Ok (makeParticlePair particle residual id).
Definition makeParticlePairs (es : list endf_pair) : outcome (list particlePair) := mapM makeEndfPair es.

(** The switch of makeParticleChannels.hpp:33-60 *)
Definition channelType (mt : Z) (pr : particlePair) : channel_type :=
  if (mt =? 102)%Z then Photon
  else if existsb (Z.eqb mt) [18; 19; 20; 21; 38]%Z then Fission
  else if Rlt_dec 0 (p_charge (pp_particle pr)) then ChargedParticle else Neutron.
(** pairs[ i - 1 ] for an unsigned i *)
Definition pair_at {A} (l : list A) (i : nat) : outcome A :=
  match i with
  | O => UB "operator[] past the end"
  | S k => at_or_ub l k "operator[] past the end"
  end.
(** One element of the zip of makeParticleChannels.hpp:80-88 *)
Definition makeEndfChannel (inc : particlePair) (pairs : list particlePair) (es : list endf_pair) (g : endf_group)
    (p : endf_channel * Z) : outcome channel :=
  let (c, mt) := p in
  do pr <- pair_at pairs (ec_PPI c) ;
  do q <- pair_at (map ep_Q es) (ec_PPI c) ;
  let numbers := mkQ (ec_L c) (ec_SCH c) (Z.abs (eg_AJ g)) (endfParity (eg_AJ g) (eg_PJ g)) in
  Ok (makeChannel (channelType mt pr) inc pr (pp_id pr) q numbers
                  (radii2 (Fixed (ec_APT c)) (Fixed (ec_APE c))) (ec_BND c)).
(** makeParticleChannels.hpp:1-89; the zip is as long as the shortest of the channels and the
    particle pairs, and takes the MT numbers in the order of the pairs *)
Definition makeParticleChannels (inc : particlePair) (pairs : list particlePair) (es : list endf_pair) (g : endf_group)
    : outcome (list channel) :=
  mapM (makeEndfChannel inc pairs es g)
       (combine (firstn (length pairs) (eg_channels g)) (map ep_MT es)).

(** makeParticleChannelData.hpp:236-245 *)
Definition calculateReducedWidth (c : channel) (energy width : R) : outcome (option R) :=
  do op <- channelPenetrability hbar epsilon0 cwf c energy ;
  Ok (let? p := op in
      let? x := fdiv (Rabs width / 2) p in
      let? y := fsqrt x in
      Some ((if Rlt_dec width 0 then -1 else 1) * y)).
(** makeParticleChannelData.hpp:246-260 *)
Definition toReducedWidths (flag : bool) (c : channel) (energies widths : list R) : outcome (option (list R)) :=
  if flag then Ok (Some widths)
  else do ws <- mapM (fun p => calculateReducedWidth c (fst p) (snd p)) (combine energies widths) ;
       Ok (all_finite ws).

(** One channel of makeParticleChannelData.hpp:286-334 *)
Definition makeDataOfChannel (g : endf_group) (flag : bool) (eliminated : nat) (p : channel * nat)
    : outcome (option (list channel_data)) :=
  let (c, i) := p in
  let empty := if isIncidentChannel c
               then do d <- makeChannelData c [] [] false ; Ok (Some [d])
               else Ok (Some []) in
  if Nat.eqb (eg_NRS g) 0 then empty
  else
    do widths <- mapM (fun ws => at_or_ub ws i "operator[] past the end") (eg_GAM g) ;
    let nonzero := filter (fun ew => if Req_EM_T (snd ew) 0 then false else true) (combine (eg_ER g) widths) in
    match nonzero with
    | [] => empty
    | _ :: _ =>
        do ors <- toReducedWidths flag c (map fst nonzero) (map snd nonzero) ;
        match ors with
        | None => Ok None
        | Some rs => do d <- makeChannelData c (map fst nonzero) rs (Nat.eqb i eliminated) ; Ok (Some [d])
        end
    end.
(** makeParticleChannelData.hpp:198-338, the version for Reich-Moore (the general one is not
    instantiated) *)
Definition makeParticleChannelData (inc : particlePair) (pairs : list particlePair) (es : list endf_pair) (flag : bool)
    (g : endf_group) : outcome (option (list channel_data)) :=
  do channels <- makeParticleChannels inc pairs es g ;
  do eliminatedPair <- at_or_ub pairs (eliminatedIndex es) "operator[] past the end" ;
  let eliminated := find_index (fun c => String.eqb (pp_id eliminatedPair) (pp_id (c_pair c))) channels in
  do ds <- mapM (makeDataOfChannel g flag eliminated) (combine channels (seq 0 (length channels))) ;
  Ok (option_map (@concat _) (all_finite ds)).

(** makeCompoundSystem.hpp:1-30 *)
Definition makeCompoundSystem (f : endf_limited) : outcome (option (list group)) :=
  do pairs <- makeParticlePairs (el_pairs f) ;
  do inc <- at_or_ub pairs (incidentIndex (el_pairs f)) "operator[] past the end" ;
  do ods <- mapM (makeParticleChannelData inc pairs (el_pairs f) (negb (el_IFG f =? 0)%Z)) (el_groups f) ;
  match all_finite ods with
  | None => Ok None
  | Some ds => do out <- consolidateChannelData (concat ds) ; omap Some (makeSystemFromData out)
  end.

(** * Reich-Moore parameters *)
(** makeReichMooreChannelData.hpp:31-40 *)
Definition toElasticWidth (value p : R) : option R :=
  let? x := fdiv (Rabs value / 2) p in
  let? y := fsqrt x in
  Some ((if Rle_dec 0 value then 1 else -1) * y).
Definition toOtherWidth (value : R) : R := (if Rle_dec 0 value then 1 else -1) * sqrt (Rabs value / 2).
(** makeReichMooreChannelData.hpp:41-50 *)
Definition isAllZero (l : list R) : bool :=
  fold_left (fun b x => b && (if Req_EM_T x 0 then true else false)) l true.

(** makeReichMooreChannelData.hpp:74-153, one J value *)
Definition reichMooreJ (ls : rm_lstate) (inc : particlePair) (rad : radii) (j : Z) (available : list qnum)
    : outcome (option (list channel_data) * list qnum) :=
  let l := rs_L ls in
  let current := filter (fun r => (rl_AJ r =? j)%Z) (rs_lines ls) in
  do (nElastic, remaining) <- retrieveQuantumNumber l j available ;
  let nOther := mkQ l 0 (Z.abs j) (natural_parity l) in
  let pFission := makeParticlePair (pp_particle inc) (pp_residual inc) "fission" in
  let pCapture := makeParticlePair (pp_particle inc) (pp_residual inc) "capture" in
  let cElastic := makeChannel Neutron inc inc (pp_id inc) 0 nElastic rad 0 in
  let cCapture := makeChannel Photon inc pCapture (pp_id pCapture) 0 nOther rad 0 in
  let cFission1 := makeChannel Fission inc pFission "fission1" 0 nOther rad 0 in
  let cFission2 := makeChannel Fission inc pFission "fission2" 0 nOther rad 0 in
  let energies := map rl_ER current in
  do ops <- mapM (channelPenetrability hbar epsilon0 cwf cElastic) energies ;
  let orw := let? ps := all_finite ops in
             all_finite (map (fun q => toElasticWidth (fst q) (snd q)) (combine (map rl_GN current) ps)) in
  let bFission1 := negb (isAllZero (map rl_GFA current)) in
  let bFission2 := negb (isAllZero (map rl_GFB current)) in
  match orw with
  | None => Ok (None, remaining)
  | Some rwElastic =>
      do elastic <- makeChannelData cElastic energies rwElastic false ;
      do capture <- makeChannelData cCapture energies (map toOtherWidth (map rl_GG current)) true ;
      do first <- (if bFission1 then
                     do d <- makeChannelData cFission1 energies (map toOtherWidth (map rl_GFA current)) false ; Ok [d]
                   else Ok []) ;
      do second <- (if bFission2 then
                      do d <- makeChannelData (if bFission1 then cFission2 else cFission1) energies
                                              (map toOtherWidth (map rl_GFB current)) false ; Ok [d]
                    else Ok []) ;
      Ok (Some ([elastic; capture] ++ first ++ second), remaining)
  end.
Fixpoint reichMooreJs (ls : rm_lstate) (inc : particlePair) (rad : radii) (js : list Z) (available : list qnum)
    : outcome (option (list channel_data) * list qnum) :=
  match js with
  | [] => Ok (Some [], available)
  | j :: r =>
      do (d, remaining) <- reichMooreJ ls inc rad j available ;
      do (ds, remaining') <- reichMooreJs ls inc rad r remaining ;
      Ok (let? d := d in let? ds := ds in Some (d ++ ds), remaining')
  end.
(** makeReichMooreChannelData.hpp:1-156.  The pair is the one of legacyPair: same particles. *)
Definition makeReichMooreChannelData (spin : Z) (ap : R) (nro : option (R -> outcome R)) (naps : nat)
    (ls : rm_lstate) (available : list qnum) : outcome (option (list channel_data) * list qnum) :=
  do inc <- legacyPair neutronMass incident target (rs_AWRI ls) spin ;
  do rad <- makeChannelRadii (if Req_EM_T (rs_APL ls) 0 then ap else rs_APL ls) nro naps (rs_AWRI ls) neutronMass ;
  reichMooreJs ls inc rad (sort_unique (map rl_AJ (rs_lines ls))) available.
Fixpoint reichMooreAll (spin : Z) (ap : R) (nro : option (R -> outcome R)) (naps : nat) (lss : list rm_lstate)
    (available : list qnum) : outcome (option (list channel_data) * list qnum) :=
  match lss with
  | [] => Ok (Some [], available)
  | ls :: r =>
      do (d, remaining) <- makeReichMooreChannelData spin ap nro naps ls available ;
      do (ds, remaining') <- reichMooreAll spin ap nro naps r remaining ;
      Ok (let? d := d in let? ds := ds in Some (d ++ ds), remaining')
  end.
(** makeReichMooreCompoundSystem.hpp:1-53 *)
Definition makeReichMooreCompoundSystem (f : rm_file) (nlsc : nat) (nro : option (R -> outcome R)) (naps : nat)
    : outcome (option (list group)) :=
  match rf_lstates f with
  | [] => UB "front() of an empty range"
  | first :: _ =>
      do inc <- legacyPair neutronMass incident target (rs_AWRI first) (rf_SPI f) ;
      do rad <- makeChannelRadii (rf_AP f) nro naps (rs_AWRI first) neutronMass ;
      do required <- makeQuantumNumbers 1 (rf_SPI f) nlsc ;
      do (ods, remaining) <- reichMooreAll (rf_SPI f) (rf_AP f) nro naps (rf_lstates f) required ;
      do empty <- mapM (fun n => makeChannelData (makeChannel Neutron inc inc (pp_id inc) 0 n rad 0) [] [] false) remaining ;
      match ods with
      | None => Ok None
      | Some ds => do out <- consolidateChannelData (ds ++ empty) ; omap Some (makeSystemFromData out)
      end
  end.

(** * Dispatch *)
(** The alternatives of endf::ResonanceRange::parameters(), in their order (ENDFtk, not in
    /repo; makeLegacyUnresolved... use 5, 6 and 7) *)
Inductive endf_parameters : Type :=
| SpecialCase
| ParametersSLBW (f : bw_file)
| ParametersMLBW (f : bw_file)
| ParametersReichMoore (f : rm_file) (nlsc : nat)
| ParametersLimited (f : endf_limited)
| ParametersIndependent (spin : Z) (ap : R) (uls : list unresolved_lvalue)
| ParametersFission (spin : Z) (ap : R) (energies : list R) (uls : list unresolved_lvalue)
| ParametersDependent (spin : Z) (ap : R) (uls : list unresolved_lvalue).
Definition parameters_index (p : endf_parameters) : nat :=
  match p with
  | SpecialCase => 0 | ParametersSLBW _ => 1 | ParametersMLBW _ => 2 | ParametersReichMoore _ _ => 3
  | ParametersLimited _ => 4 | ParametersIndependent _ _ _ => 5 | ParametersFission _ _ _ _ => 6
  | ParametersDependent _ _ _ => 7
  end%nat.
(** A tabulated radius: its regions and their interpolation types *)
Definition endf_radius : Type := list (list (R * R) * Z).
Record endf_range : Type := mkERange
  { er_lower : R; er_upper : R; er_LRU : Z; er_LRF : Z; er_NAPS : nat; er_radius : option endf_radius;
    er_parameters : endf_parameters }.
(** The table of the interpolation library made of regions with valid interpolation types *)
Variable multiRegion : endf_radius -> outcome (R -> outcome R).
(** makeChannelRadiusTable.hpp:1-61 *)
Definition makeChannelRadiusTable (r : option endf_radius) : outcome (option (R -> outcome R)) :=
  match r with
  | None => Ok None
  | Some regions =>
      if forallb (fun x => (1 <=? snd x)%Z && (snd x <=? 5)%Z) regions then omap Some (multiRegion regions)
      else Throw (RuntimeError "You somehow reached unreachable code")
  end.

(** What a freshly made group object holds in its arrays *)
Variable initial : forall g, cache (gsize g).
Definition fresh (gs : list group) : list object := map (fun g => existT _ g (initial g)) gs.

Definition reconstructorOf {A} (r : endf_range) (f : A -> compound_system) (o : outcome (option A))
    : outcome (option reconstructor) :=
  omap (option_map (fun s => mkReconstructor (er_lower r) (er_upper r) (f s))) o.
(** fromENDF.hpp:1-186 *)
Definition fromENDF (r : endf_range) : outcome (option reconstructor) :=
  do nro <- makeChannelRadiusTable (er_radius r) ;
  let naps := er_NAPS r in
  if (er_LRU r =? 1)%Z then
    if (er_LRF r =? 1)%Z then
      match er_parameters r with
      | ParametersSLBW f =>
          reconstructorOf r SLBW (makeLegacyBreitWigner hbar epsilon0 cwf neutronMass incident target f nro naps)
      | _ => Throw BadVariant
      end
    else if (er_LRF r =? 2)%Z then
      match er_parameters r with
      | ParametersMLBW f =>
          reconstructorOf r MLBW (makeLegacyBreitWigner hbar epsilon0 cwf neutronMass incident target f nro naps)
      | _ => Throw BadVariant
      end
    else if (er_LRF r =? 3)%Z then
      match er_parameters r with
      | ParametersReichMoore f nlsc =>
          reconstructorOf r (fun gs => ReichMooreShift (fresh gs)) (makeReichMooreCompoundSystem f nlsc nro naps)
      | _ => Throw BadVariant
      end
    else if (er_LRF r =? 7)%Z then
      match er_parameters r with
      | ParametersLimited f =>
          do flag <- at_or_ub (map ep_SHF (el_pairs f)) 0 "front() of an empty range" ;
          if (el_KRM f =? 3)%Z then
            if (flag =? 0)%Z
            then reconstructorOf r (fun gs => ReichMooreShift (fresh gs)) (makeCompoundSystem f)
            else reconstructorOf r (fun gs => ReichMooreConstant (fresh gs)) (makeCompoundSystem f)
          else if (el_KRM f =? 4)%Z
          then Throw (RuntimeError "fromENDF is not implemented for general R-matrix in the R-matrix limited resolved resonances")
          else Throw (RuntimeError "fromENDF is not implemented for SLBW and MLBW in the R-matrix limited resolved resonances")
      | _ => Throw BadVariant
      end
    else Throw (RuntimeError "fromENDF is not implemented for the AA resolved resonances")
  else if (er_LRU r =? 2)%Z then
    let unresolved spin ap grid uls :=
      reconstructorOf r Unresolved (omap Some (makeLegacyUnresolvedSystem neutronMass incident target spin ap nro naps grid
                                                 (er_lower r) (er_upper r) uls)) in
    match er_parameters r with
    | ParametersIndependent spin ap uls => unresolved spin ap None uls
    | ParametersFission spin ap energies uls => unresolved spin ap (Some energies) uls
    | ParametersDependent spin ap uls => unresolved spin ap None uls
    | _ => Throw (RuntimeError "You somehow reached unreachable code")
    end
  else Throw (RuntimeError "fromENDF is not implemented for the special case").
End Endf.
