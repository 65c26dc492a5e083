(** The legacy resolved resonances (single and multi-level Breit-Wigner) of the R-matrix
    interface.  Paths are relative to /repo/src/resonanceReconstruction/rmatrix. *)
From Coq Require Import String List ZArith Reals Bool.
From Verif Require Import Outcome QuantumModel SpinFactorModel HardSphereModel KinematicsModel
  CoulombModel RMatrixModel ChannelModel BreitWignerModel.
Import ListNotations.
Open Scope R_scope.

(** legacy/resolved/Resonance.hpp:20-31; penetrability_ is never initialised and not used *)
Record legacy_resonance : Type := mkLegacy
  { q_energy : R; q_elastic : R; q_capture : R; q_fission : R; q_competition : R;
    q_toP : option R;                 (* elastic_to_penetrability_ *)
    q_toQ : option R;                 (* competition_to_penetrability_ *)
    q_shift : R }.

(** legacy/resolved/Resonance/src/ctor.hpp:13-28 *)
Definition makeLegacyResonance (energy elastic capture fission competition P Q S : R)
    : legacy_resonance :=
  mkLegacy energy elastic capture fission competition
           (fdiv elastic P) (fdiv competition Q) S.

(** legacy/resolved/Resonance.hpp:66-70, 85-88, 93-96, 101-105, 113-118 *)
Definition legacyTotal (r : legacy_resonance) : R :=
  q_elastic r + q_capture r + q_fission r + q_competition r.
Definition legacyElasticAt (r : legacy_resonance) (P : R) : option R :=
  let? w := q_toP r in Some (P * w).
Definition legacyCompetitionAt (r : legacy_resonance) (Q : R) : option R :=
  let? w := q_toQ r in Some (Q * w).
Definition legacyTotalAt (r : legacy_resonance) (P Q : R) : option R :=
  let? e := legacyElasticAt r P in
  let? x := legacyCompetitionAt r Q in
  Some (e + q_capture r + q_fission r + x).
Definition energyPrime (r : legacy_resonance) (S : R) : option R :=
  let? w := q_toP r in Some (q_energy r + (q_shift r - S) / 2 * w).

(** legacy/resolved/SpinGroup/SingleLevelBreitWigner.hpp:15-23 without the arrays, which
    every evaluation overwrites *)
Record legacy_group : Type := mkLegacyGroup
  { lg_channel : channel; lg_resonances : list legacy_resonance; lg_qx : R }.

(** legacy/SpinGroupBase.hpp:28-39: the keys of the result map, particle, target and type *)
Definition legacy_key : Type := (string * string * string)%type.
Definition legacyKey (c : channel) (type : string) : legacy_key :=
  (p_id (pp_particle (c_pair c)), p_id (pp_residual (c_pair c)), type).
Definition legacy_key_eqb (a b : legacy_key) : bool :=
  let '(p, r, t) := a in let '(p', r', t') := b in
  String.eqb p p' && String.eqb r r' && String.eqb t t'.
Definition legacy_map : Type := legacy_key -> option R.
(** result[ key ] += x *)
Definition accumulateAt (m : legacy_map) (k : legacy_key) (x : R) : legacy_map :=
  fun k' => if legacy_key_eqb k' k
            then Some ((match m k with Some y => y | None => 0 end) + x) else m k'.

Section Evaluate.
Variables (hbar epsilon0 : R) (cwf : nat -> R -> R -> outcome coulomb).

(** The stored arrays for one resonance: elastic, capture, fission, total, delta, denominator *)
Record precomputed : Type := mkPre
  { pre_elastic : R; pre_capture : R; pre_fission : R; pre_total : R; pre_delta : R;
    pre_denominator : R }.

(** legacy/resolved/SpinGroup/SingleLevelBreitWigner/src/precompute.hpp:11-29 *)
Definition precompute1 (energy p q s : R) (r : legacy_resonance) : option precomputed :=
  let? elastic := legacyElasticAt r p in
  let? total := legacyTotalAt r p q in
  let? prime := energyPrime r s in
  let delta := energy - prime in
  Some (mkPre elastic (q_capture r) (q_fission r) total delta
              (delta * delta + 0.25 * total * total)).

(** The penetrabilities and the shift factor of precompute.hpp:3-9 and evaluate.hpp:10-17 *)
Definition legacyPQS (g : legacy_group) (energy : R) : outcome (option (R * R * R)) :=
  let c := lg_channel g in
  do op <- channelPenetrability hbar epsilon0 cwf c energy ;
  do oq <- (if Req_EM_T (lg_qx g) 0 then Ok op
            else channelPenetrability hbar epsilon0 cwf c (energy - lg_qx g)) ;
  do os <- channelShiftFactor hbar epsilon0 cwf c energy ;
  Ok (let? p := op in let? q := oq in let? s := os in Some (p, q, s)).

Definition precompute (g : legacy_group) (energy : R) : outcome (option (list precomputed)) :=
  do o <- legacyPQS g energy ;
  Ok (let? (p, q, s) := o in all_finite (map (precompute1 energy p q s) (lg_resonances g))).

(** legacy/resolved/SpinGroup/SingleLevelBreitWigner/src/evaluate.hpp:30-40 *)
Definition slbw_components (sin2phi sintwophi : R) (x : precomputed) : option triple :=
  let? e := fdiv (pre_elastic x * (pre_elastic x - 2 * pre_total x * sin2phi
                                   + 2 * pre_delta x * sintwophi)) (pre_denominator x) in
  let? c := fdiv (pre_capture x * pre_elastic x) (pre_denominator x) in
  let? f := fdiv (pre_fission x * pre_elastic x) (pre_denominator x) in
  Some (e, c, f).

(** legacy/resolved/SpinGroup/SingleLevelBreitWigner/src/evaluate.hpp:7-57 *)
Definition legacySLBW (g : legacy_group) (energy : R) (m : legacy_map)
    : outcome (option legacy_map) :=
  let c := lg_channel g in
  do ophi <- channelPhaseShift hbar epsilon0 cwf c energy ;
  do oxs <- precompute g energy ;
  Ok (let? phi := ophi in
      let? factor := channelFactor hbar c energy in
      let? xs := oxs in
      let? ys := all_finite (map (slbw_components (sin phi * sin phi) (sin (2 * phi))) xs) in
      let '(e, ca, f) := taccumulate ys (0, 0, 0) in
      let m1 := accumulateAt m (legacyKey c "elastic") (factor * e) in
      let m2 := accumulateAt m1 (legacyKey c "capture") (factor * ca) in
      Some (if Req_EM_T f 0 then m2 else accumulateAt m2 (legacyKey c "fission") (factor * f))).

(** The inner loop of legacy/resolved/SpinGroup/MultiLevelBreitWigner/src/evaluate.hpp:30-35;
    [before] are the entries rp < r, in order *)
Definition cross_term (x y : precomputed) : option R :=
  let? a := fdiv (2 * pre_elastic x * pre_elastic y
                  * (pre_delta x * pre_delta y + 0.25 * pre_total x * pre_total y))
                 (pre_denominator x) in
  fdiv a (pre_denominator y).
Fixpoint inner_loop (x : precomputed) (before : list precomputed) (term : R) : option R :=
  match before with
  | [] => Some term
  | y :: r => let? t := cross_term x y in inner_loop x r (term + t)
  end.
(** The outer loop, lines 28-36; for r = 0 the inner loop is empty *)
Fixpoint outer_loop (before rest : list precomputed) (term : R) : option R :=
  match rest with
  | [] => Some term
  | x :: r => let? t := inner_loop x before term in outer_loop (before ++ [x]) r t
  end.

(** legacy/resolved/SpinGroup/MultiLevelBreitWigner/src/evaluate.hpp:7-40 *)
Definition legacyMLBW (g : legacy_group) (energy : R) (m : legacy_map)
    : outcome (option legacy_map) :=
  let c := lg_channel g in
  do om <- legacySLBW g energy m ;
  do oxs <- precompute g energy ;
  Ok (let? m := om in
      let? factor := channelFactor hbar c energy in
      let? xs := oxs in
      let? term := outer_loop [] xs 0 in
      Some (accumulateAt m (legacyKey c "elastic") (factor * term))).

(** legacy/CompoundSystemBase/src/getLMax.hpp:1-13 *)
Definition getLMax (gs : list legacy_group) : nat :=
  fold_left (fun m g => Nat.max m (ql (c_numbers (lg_channel g)))) gs 0%nat.

(** legacy/CompoundSystemBase/src/verifySpinGroups.hpp:1-49 *)
Definition same_lJ (a b : qnum) : bool := Nat.eqb (ql a) (ql b) && (qJ a =? qJ b)%Z.
Definition legacyVerify (gs : list legacy_group) : outcome unit :=
  do _ <- check (negb (Nat.eqb (length gs) 0)) ;
  foldM (fun _ g => check (negb (Nat.ltb 1
    (count (fun h => same_lJ (c_numbers (lg_channel h)) (c_numbers (lg_channel g))) gs)))) gs tt.

(** legacy/CompoundSystemBase.hpp:11-13 and ctor.hpp:6-22 *)
Record legacy_system : Type := mkLegacySystem
  { ly_groups : list legacy_group; ly_lmax : nat }.
Definition makeLegacySystem (gs : list legacy_group) : outcome legacy_system :=
  let lmax := getLMax gs in
  do _ <- legacyVerify gs ;
  Ok (mkLegacySystem gs lmax).

(** legacy/CompoundSystemBase/src/evaluate.hpp:25-33; the loop variable runs from l *)
Fixpoint potential (ratio : R) (n l : nat) (value : R) : outcome R :=
  match n with
  | O => Ok value
  | S m => do phi <- phase_neutron l ratio ;
           potential ratio m (S l) (value + (2 * INR l + 1) * (sin phi * sin phi))
  end.

(** legacy/CompoundSystemBase/src/evaluate.hpp:7-36 *)
Definition legacy_evaluate
    (one : legacy_group -> R -> legacy_map -> outcome (option legacy_map))
    (s : legacy_system) (energy : R) (m : legacy_map) : outcome (option legacy_map) :=
  do om <- foldM (fun om g => match om with
                              | None => Ok None
                              | Some m => one g energy m
                              end) (ly_groups s) (Some m) ;
  match ly_groups s with
  | [] => UB "front() of an empty vector"
  | g :: _ =>
      let c := lg_channel g in
      match channelWaveNumber hbar c energy with
      | None => Ok None
      | Some k =>
          do a <- radius_at (r_phi (c_radii c)) energy ;
          do value <- potential (k * a) (S (ly_lmax s)) 0 0 ;
          Ok (let? m := om in
              let? factor := fdiv (4 * pi_value) (k * k) in
              Some (accumulateAt m (legacyKey c "elastic") (factor * value)))
      end
  end.
End Evaluate.

(** src/makeChannelRadii.hpp:1-44; [awri] and the neutron mass only matter for NAPS = 0 *)
Definition makeChannelRadii (ap : R) (nro : option (R -> outcome R)) (naps : nat)
    (awri neutronMass : R) : outcome radii :=
  let derived := 0.123 * Rpower (awri * neutronMass) (1 / 3) + 0.08 in
  match nro with
  | Some t =>
      match naps with
      | 0%nat => Ok (radii2 (Fixed derived) (Tabulated t))
      | 1%nat => Ok (radii1 (Tabulated t))
      | 2%nat => Ok (radii2 (Fixed ap) (Tabulated t))
      | _ => Throw (RuntimeError "You somehow reached unreachable code")
      end
  | None =>
      match naps with
      | 0%nat => Ok (radii2 (Fixed derived) (Fixed ap))
      | _ => Ok (radii1 (Fixed ap))
      end
  end.

Section Build.
Variables (hbar epsilon0 : R) (cwf : nat -> R -> R -> outcome coulomb).
(** The neutron mass, and the symbols of the two particles *)
Variables (neutronMass : R) (incident target : string).

(** src/makeLegacyBreitWignerSpinGroups.hpp:33-38 and makeLegacyBreitWignerCompoundSystem.hpp:19-24.
    The identifier of the pair is not used in the legacy system. *)
Definition legacyPair (awri : R) (spin : Z) : outcome particlePair :=
  do n <- makeParticle incident neutronMass 0 1 1 ;
  do t <- makeParticle target (awri * neutronMass) 0 spin 1 ;
  Ok (makeParticlePair n t (incident ++ "," ++ target)%string).

(** spinValues() | to_vector | action::sort | action::unique, lines 44-48: insertion into a
    strictly increasing list *)
Fixpoint insert_unique (j : Z) (l : list Z) : list Z :=
  match l with
  | [] => [j]
  | x :: r => if (j <? x)%Z then j :: l else if (j =? x)%Z then l else x :: insert_unique j r
  end.
Definition sort_unique (l : list Z) : list Z := fold_right insert_unique [] l.

(** One resonance of src/makeLegacyBreitWignerSpinGroups.hpp:64-115.  A penetrability that is
    not finite makes the resonance not finite. *)
Definition legacyLine (c : channel) (lrx : bool) (qx : R) (r : bw_line)
    : outcome (option legacy_resonance) :=
  do op <- channelPenetrability hbar epsilon0 cwf c (ln_ER r) ;
  do oq <- (if lrx then channelPenetrability hbar epsilon0 cwf c (ln_ER r - qx) else Ok op) ;
  do os <- channelShiftFactor hbar epsilon0 cwf c (ln_ER r) ;
  Ok (let? p := op in let? q := oq in let? s := os in
      Some (makeLegacyResonance (ln_ER r) (ln_GN r) (ln_GG r) (ln_GF r)
                                (if lrx then ln_GX r else 0) p q s)).

(** src/makeLegacyBreitWignerSpinGroups.hpp:50-115, one J value *)
Definition legacyJ (ls : bw_lstate) (pair : particlePair) (rad : radii) (j : Z)
    (available : list qnum) : outcome (option legacy_group * list qnum) :=
  let current := filter (fun r => (ln_AJ r =? j)%Z) (ls_lines ls) in
  do (numbers, remaining) <- retrieveQuantumNumber (ls_L ls) j available ;
  let c := makeChannel Neutron pair pair (pp_id pair) 0 numbers rad 0 in
  do rs <- mapM (legacyLine c (ls_LRX ls) (ls_QX ls)) current ;
  Ok (let? rs := all_finite rs in Some (mkLegacyGroup c rs (ls_QX ls)), remaining).

Fixpoint legacyJs (ls : bw_lstate) (pair : particlePair) (rad : radii) (js : list Z)
    (available : list qnum) : outcome (option (list legacy_group) * list qnum) :=
  match js with
  | [] => Ok (Some [], available)
  | j :: r =>
      do (g, remaining) <- legacyJ ls pair rad j available ;
      do (gs, remaining') <- legacyJs ls pair rad r remaining ;
      Ok (let? g := g in let? gs := gs in Some (g :: gs), remaining')
  end.

(** src/makeLegacyBreitWignerSpinGroups.hpp:1-119 *)
Definition legacyGroups (spin : Z) (ap : R) (nro : option (R -> outcome R)) (naps : nat)
    (ls : bw_lstate) (available : list qnum)
    : outcome (option (list legacy_group) * list qnum) :=
  do pr <- legacyPair (ls_AWRI ls) spin ;
  do rad <- makeChannelRadii ap nro naps (ls_AWRI ls) neutronMass ;
  legacyJs ls pr rad (sort_unique (map ln_AJ (ls_lines ls))) available.

Fixpoint legacyAllGroups (spin : Z) (ap : R) (nro : option (R -> outcome R)) (naps : nat)
    (lss : list bw_lstate) (available : list qnum) : outcome (option (list legacy_group)) :=
  match lss with
  | [] => Ok (Some [])
  | ls :: r =>
      do (gs, remaining) <- legacyGroups spin ap nro naps ls available ;
      do hs <- legacyAllGroups spin ap nro naps r remaining ;
      Ok (let? gs := gs in let? hs := hs in Some (gs ++ hs))
  end.

(** src/makeLegacyBreitWignerCompoundSystem.hpp:1-40.  The outcome [Ok None] stands for a
    system with a resonance that is not finite. *)
Definition makeLegacyBreitWigner (f : bw_file) (nro : option (R -> outcome R)) (naps : nat)
    : outcome (option legacy_system) :=
  match f_lstates f with
  | [] => UB "front() of an empty range"
  | first :: _ =>
      do _ <- legacyPair (ls_AWRI first) (f_SPI f) ;
      do available <- makeQuantumNumbers 1 (f_SPI f) (length (f_lstates f)) ;
      do ogs <- legacyAllGroups (f_SPI f) (f_AP f) nro naps (f_lstates f) available ;
      match ogs with
      | None => Ok None
      | Some gs => omap Some (makeLegacySystem gs)
      end
  end.
End Build.
