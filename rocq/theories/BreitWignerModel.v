(** The older Breit-Wigner interface.
    Paths are relative to /repo/src/resonanceReconstruction/breitWigner unless they start
    with "src/" or "reichMoore/", which are in /repo/src/resonanceReconstruction.
    Units are dropped; [None] is a number that is not finite. *)
From Coq Require Import String List ZArith Reals Bool.
From Verif Require Import Outcome QuantumModel SpinFactorModel HardSphereModel KinematicsModel
  RMatrixModel ChannelModel.
Import ListNotations.
Open Scope R_scope.

(** A computation on numbers of which one is not finite is not finite. *)
Notation "'let?' x := o 'in' k" := (match o with Some x => k | None => None end)
  (at level 200, x pattern, o at level 100, k at level 200).

(** pack.hpp:10-45 for three numbers *)
Definition triple : Type := (R * R * R)%type.
Definition tadd (a b : triple) : triple :=
  let '(a0, a1, a2) := a in let '(b0, b1, b2) := b in (a0 + b0, a1 + b1, a2 + b2).
Definition tmul (a : triple) (x : R) : triple :=
  let '(a0, a1, a2) := a in (a0 * x, a1 * x, a2 * x).
(** ranges::accumulate *)
Definition taccumulate (l : list triple) (init : triple) : triple := fold_left tadd l init.

Fixpoint all_finite {A} (l : list (option A)) : option (list A) :=
  match l with
  | [] => Some []
  | o :: r => let? x := o in let? xs := all_finite r in Some (x :: xs)
  end.

(** One ENDF resonance (library type), with ER, AJ doubled, GN, GG, GF, GX *)
Record bw_line : Type := mkLine
  { ln_ER : R; ln_AJ : Z; ln_GN : R; ln_GG : R; ln_GF : R; ln_GX : R }.
(** One ENDF l value: L, AWRI, LRX, QX and the resonances *)
Record bw_lstate : Type := mkLState
  { ls_L : nat; ls_AWRI : R; ls_LRX : bool; ls_QX : R; ls_lines : list bw_line }.
(** The ENDF Breit-Wigner parameters: SPI (doubled), AP and the l values *)
Record bw_file : Type := mkFile { f_SPI : Z; f_AP : R; f_lstates : list bw_lstate }.

(** resonance/Type.hpp:1-13 *)
Record bw_resonance : Type := mkBW
  { b_energy : R; b_neutron : R; b_capture : R; b_fission : R;
    b_competitive : option R;         (* weightedCompetitiveWidth *)
    b_inverse : option R;             (* inversePenetrationFactor *)
    b_shift : R; b_g : R }.

(** resonance/Type/src/ctor.hpp:1-16 *)
Definition makeBW (energy neutron capture fission : R) (competitive : option R)
    (penetrationFactor shiftFactor statisticalFactor : R) : bw_resonance :=
  mkBW energy neutron capture fission competitive (fdiv 1 penetrationFactor)
       shiftFactor statisticalFactor.

(** src/psiChi.hpp:1-10 *)
Definition psiChi (energy primedResonanceEnergy inverseTotalWidth : R) : R * R :=
  let x := 2 * (energy - primedResonanceEnergy) * inverseTotalWidth in
  let psi := 1 / (1 + x * x) in
  (psi, x * psi).

(** The common part of singleLevel/Resonance/src/call.hpp:8-28 and
    multiLevel/Resonance/src/call.hpp:5-24: psi, chi, the width ratio and 1 / total width *)
Definition bw_common (r : bw_resonance) (penetrationFactor shiftFactor competitiveWidth : R)
    (kernel : R -> R -> R * R) : option (R * R * R * R) :=
  let? inverse := b_inverse r in
  let weightedWidth := b_neutron r * inverse in
  let neutronWidth := weightedWidth * penetrationFactor in
  let? inverseTotalWidth :=
    fdiv 1 (neutronWidth + b_capture r + b_fission r + competitiveWidth) in
  let primed := b_energy r + 0.5 * weightedWidth * (b_shift r - shiftFactor) in
  let '(psi, chi) := kernel primed inverseTotalWidth in
  Some (psi, chi, neutronWidth * inverseTotalWidth, inverseTotalWidth).

(** singleLevel/Resonance/src/call.hpp:1-39 *)
Definition slbw_call (r : bw_resonance) (penetrationFactor shiftFactor sinSquaredPhi sin2Phi
    competitiveWidth : R) (kernel : R -> R -> R * R) : option triple :=
  let? (psi, chi, widthRatio, inverseTotalWidth) :=
    bw_common r penetrationFactor shiftFactor competitiveWidth kernel in
  let scattering := (widthRatio - 2 * sinSquaredPhi) * psi + sin2Phi * chi in
  let scaling := psi * inverseTotalWidth in
  Some (tmul (scattering, scaling * b_capture r, scaling * b_fission r) (b_g r * widthRatio)).

(** multiLevel/Resonance/src/call.hpp:1-33: ((psi, chi) times the width ratio, capture,
    fission) *)
Definition mlbw_call (r : bw_resonance) (penetrationFactor shiftFactor competitiveWidth : R)
    (kernel : R -> R -> R * R) : option (R * R * R * R) :=
  let? (psi, chi, widthRatio, inverseTotalWidth) :=
    bw_common r penetrationFactor shiftFactor competitiveWidth kernel in
  let scaling := psi * inverseTotalWidth * widthRatio in
  Some (psi * widthRatio, chi * widthRatio, scaling * b_capture r, scaling * b_fission r).

(** lvalue/Type.hpp:1-15 *)
Record bw_lvalue : Type := mkLvalue
  { lv_resonances : list bw_resonance; lv_q : option R; lv_l : nat; lv_gsum : R }.

(** lvalue/Type/src/ctor.hpp:1-18 *)
Definition makeLvalue (rs : list bw_resonance) (l : nat) (q : option R) (targetSpin : Z)
    : bw_lvalue :=
  mkLvalue rs q l (statisticalFactorSummation targetSpin l).

(** singleLevel/Lvalue/src/call.hpp:1-11 with lvalue/Type/src/competitiveWidth.hpp:1-10 and
    ../ZeroWidth.hpp:1-6: the competitive width as a function of the resonance *)
Definition competitiveWidth (lv : bw_lvalue) (energy : R) (rho : R -> outcome R)
    : outcome (bw_resonance -> option R) :=
  match lv_q lv with
  | None => Ok (fun _ => Some 0)
  | Some q =>
      do ratio <- rho (energy + q) ;
      do ps <- penetrationShift (Z.of_nat (lv_l lv)) ratio ;
      Ok (fun r => let? w := b_competitive r in Some (w * fst ps))
  end.

(** singleLevel/Lvalue/src/evaluate.hpp:1-33 *)
Definition slbw_lvalue (lv : bw_lvalue) (kernel : R -> R -> R * R)
    (channelRatio scatteringRatio : R) (comp : bw_resonance -> option R)
    : outcome (option triple) :=
  do ps <- penetrationShift (Z.of_nat (lv_l lv)) channelRatio ;
  do phi <- phaseShift (Z.of_nat (lv_l lv)) scatteringRatio ;
  let sinSquaredPhi := sin phi * sin phi in
  let sin2Phi := sin (2 * phi) in
  let crossSections := map (fun r =>
    let? c := comp r in
    slbw_call r (fst ps) (snd ps) sinSquaredPhi sin2Phi c kernel) (lv_resonances lv) in
  Ok (let? xs := all_finite crossSections in
      Some (taccumulate xs (sinSquaredPhi * (2 * INR (lv_l lv) + 1), 0, 0))).

(** ranges::view::group_by with the predicate of multiLevel/Lvalue/src/evaluate.hpp:22-24 and
    reichMoore/Lvalue/src/call.hpp:17-20: a group ends at the first element whose key
    differs from that of the first element of the group *)
Fixpoint group_from {A} (key : A -> R) (first : A) (acc l : list A) : list (A * list A) :=
  match l with
  | [] => [(first, rev acc)]
  | y :: r => if Req_EM_T (key first) (key y) then group_from key first (y :: acc) r
              else (first, rev acc) :: group_from key y [] r
  end.
Definition group_by {A} (key : A -> R) (l : list A) : list (A * list A) :=
  match l with [] => [] | x :: r => group_from key x [] r end.

(** pack( pack( 0., 0. ), 0., 0. ) and its addition, multiLevel/Lvalue/src/evaluate.hpp:26-40 *)
Definition qadd (a b : R * R * R * R) : R * R * R * R :=
  let '(a0, a1, a2, a3) := a in let '(b0, b1, b2, b3) := b in
  (a0 + b0, a1 + b1, a2 + b2, a3 + b3).

(** multiLevel/Lvalue/src/evaluate.hpp:30-53, one J group *)
Definition mlbw_Jgroup (ps : R * R) (sinSquaredPhi sin2Phi : R) (kernel : R -> R -> R * R)
    (comp : bw_resonance -> option R) (g : bw_resonance * list bw_resonance) : option triple :=
  let? xs := all_finite (map (fun r =>
    let? c := comp r in mlbw_call r (fst ps) (snd ps) c kernel) (fst g :: snd g)) in
  let '(first, second, capture, fission) := fold_left qadd xs (0, 0, 0, 0) in
  let scattering := first * (first - 2 * sinSquaredPhi) + second * (second + sin2Phi) in
  Some (tmul (scattering, capture, fission) (b_g (fst g))).

(** multiLevel/Lvalue/src/evaluate.hpp:1-63; [targetSpin] is doubled *)
Definition mlbw_lvalue (targetSpin : Z) (lv : bw_lvalue) (kernel : R -> R -> R * R)
    (channelRatio scatteringRatio : R) (comp : bw_resonance -> option R)
    : outcome (option triple) :=
  do ps <- penetrationShift (Z.of_nat (lv_l lv)) channelRatio ;
  do phi <- phaseShift (Z.of_nat (lv_l lv)) scatteringRatio ;
  let sinSquaredPhi := sin phi * sin phi in
  let sin2Phi := sin (2 * phi) in
  let Jgroups := group_by b_g (lv_resonances lv) in
  let crossSections := map (mlbw_Jgroup ps sinSquaredPhi sin2Phi kernel comp) Jgroups in
  do d <- D targetSpin (Z.of_nat (lv_l lv)) ;
  let scatteringBase := d * sinSquaredPhi
    + lv_gsum lv * (sinSquaredPhi * sinSquaredPhi + 0.25 * sin2Phi * sin2Phi) in
  Ok (let? xs := all_finite crossSections in
      Some (taccumulate xs (scatteringBase, 0, 0))).

(** Type.hpp:1-10 with the radii of singleLevel/Type.hpp and multiLevel/Type.hpp; a single
    radius is used for both *)
Record bw_system : Type := mkSystem
  { s_lvalues : list bw_lvalue; s_ratio : R; s_spin : Z;
    s_channel : R -> outcome R; s_scattering : R -> outcome R }.

Section System.
(** 5.787793139E-14 root(kg) / dirac of src/neutronWaveNumber.hpp:3-5 *)
Variable neutronConstant : R.

(** src/neutronWaveNumber.hpp:10-20, from a weight fraction *)
Definition waveNumberOld (fraction energy : R) : R :=
  neutronConstant * fraction * sqrt (Rabs energy).

(** singleLevel/Base/src/evaluate.hpp:1-32 and multiLevel/Base/src/evaluate.hpp:1-34, over the
    evaluation of one l value; singleLevel/Type/src/evaluate{1,2}.hpp supply the radii *)
Definition bw_evaluate
    (lvalue : bw_lvalue -> (R -> R -> R * R) -> R -> R -> (bw_resonance -> option R)
              -> outcome (option triple))
    (s : bw_system) (energy : R) : outcome (option triple) :=
  do channelRadius <- s_channel s energy ;
  do scatteringRadius <- s_scattering s energy ;
  let k := waveNumberOld (s_ratio s) in
  let rho e := omap (fun a => k e * a) (s_channel s e) in
  do xs <- mapM (fun lv =>
      do comp <- competitiveWidth lv energy rho ;
      lvalue lv (psiChi energy) (channelRadius * k energy) (scatteringRadius * k energy) comp)
    (s_lvalues s) ;
  Ok (let? scaling := fdiv (4 * pi_value) (k energy * k energy) in
      let? xs := all_finite xs in
      Some (tmul (taccumulate xs (0, 0, 0)) scaling)).

Definition slbw_evaluate : bw_system -> R -> outcome (option triple) := bw_evaluate slbw_lvalue.
Definition mlbw_evaluate (s : bw_system) : R -> outcome (option triple) :=
  bw_evaluate (mlbw_lvalue (s_spin s)) s.

(** std::sort, used with the order of the statistical factors *)
Variable sort : list bw_resonance -> list bw_resonance.

(** multiLevel/Base/src/order.hpp:5-19 *)
Definition order (lvs : list bw_lvalue) : list bw_lvalue :=
  map (fun lv => mkLvalue (sort (lv_resonances lv)) (lv_q lv) (lv_l lv) (lv_gsum lv)) lvs.

(** singleLevel/Apply/src/build.hpp:13-15; the spin and J are doubled *)
Definition g_old (SPI J : Z) : R :=
  (2 * spin_value J + 1) * (1 / (4 * spin_value SPI + 2)).

(** singleLevel/Apply/src/resonance.hpp:1-67 with competitiveWidth.hpp:1-10; [offset] is
    given when LRX is set.  The penetrability of the competitive channel is a divisor. *)
Definition bw_build_resonance (SPI : Z) (l : nat) (rho : R -> outcome R) (offset : option R)
    (r : bw_line) : outcome bw_resonance :=
  do comp <- match offset with
             | None => Ok (Some 0)
             | Some q =>
                 do ratio <- rho (ln_ER r + q) ;
                 do ps <- penetrationShift (Z.of_nat l) ratio ;
                 Ok (fdiv (ln_GX r) (fst ps))
             end ;
  do ratio <- rho (match offset with None => ln_ER r | Some _ => Rabs (ln_ER r) end) ;
  do ps <- penetrationShift (Z.of_nat l) ratio ;
  Ok (makeBW (ln_ER r) (ln_GN r) (ln_GG r) (ln_GF r) comp (fst ps) (snd ps)
             (g_old SPI (Z.abs (ln_AJ r)))).

(** singleLevel/Apply/src/lvalue.hpp:1-46: an l above 4 throws before anything else *)
Definition bw_build_lvalue (SPI : Z) (rho : R -> outcome R) (ls : bw_lstate)
    : outcome bw_lvalue :=
  if (4 <? ls_L ls)%nat then unsupported
  else
    let offset := if ls_LRX ls then Some (ls_QX ls * (ls_AWRI ls / (ls_AWRI ls + 1))) else None in
    do rs <- mapM (bw_build_resonance SPI (ls_L ls) rho offset) (ls_lines ls) ;
    Ok (makeLvalue rs (ls_L ls) offset SPI).

(** singleLevel/Apply/src/build.hpp:1-55 and multiLevel/Apply/src/build.hpp:1-57: [ordered]
    is true for the multi-level formalism.  The energy range and the nucleon number are
    stored but not used by the evaluation. *)
Definition bw_build (ordered : bool) (f : bw_file) (channel scattering : R -> outcome R)
    : outcome bw_system :=
  match f_lstates f with
  | [] => UB "front() of an empty range"
  | first :: _ =>
      let awr := ls_AWRI first in
      let rho e := omap (fun a => neutronWaveNumber neutronConstant awr e * a) (channel e) in
      do lvs <- mapM (bw_build_lvalue (f_SPI f) rho) (f_lstates f) ;
      Ok (mkSystem (if ordered then order lvs else lvs) (awr / (awr + 1)) (f_SPI f)
                   channel scattering)
  end.

(** singleLevel/Apply/src/call.hpp:1-45 and multiLevel/Apply/src/call.hpp:1-43 up to the
    callback, for a range holding the right parameters: NRO, NAPS and the optional tabulated
    scattering radius.  A NAPS outside the cases runs off the end of the function; every
    exception but bad_optional_access is replaced by a runtime_error. *)
Definition bw_apply (ordered : bool) (f : bw_file) (NRO : bool) (NAPS : Z)
    (table : option (R -> outcome R)) : outcome bw_system :=
  let fixed a := (fun _ : R => Ok a) in
  let value := match table with Some t => Ok t | None => Throw BadOptional end in
  let derived := match f_lstates f with
                 | [] => UB "front() of an empty range"
                 | first :: _ => Ok (fixed (channelRadius (ls_AWRI first)))
                 end in
  let result :=
    if NRO then
      if (NAPS =? 0)%Z then
        do a <- derived ; do t <- value ; bw_build ordered f a t
      else if (NAPS =? 1)%Z then do t <- value ; bw_build ordered f t t
      else if (NAPS =? 2)%Z then do t <- value ; bw_build ordered f (fixed (f_AP f)) t
      else UB "no return"
    else
      if (NAPS =? 0)%Z then do a <- derived ; bw_build ordered f a (fixed (f_AP f))
      else if (NAPS =? 1)%Z then bw_build ordered f (fixed (f_AP f)) (fixed (f_AP f))
      else UB "no return" in
  match result with
  | Throw BadOptional => Throw BadOptional
  | Throw _ => Throw (RuntimeError "The resonance range does not appear to contain parameters")
  | o => o
  end.
End System.
