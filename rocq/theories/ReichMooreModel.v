(** The older Reich-Moore interface from ENDF parameters to cross sections.
    Paths are relative to /repo/src/resonanceReconstruction/reichMoore unless they start
    with "src/", which is in /repo/src/resonanceReconstruction. *)
From Coq Require Import String List ZArith Reals Bool.
From Verif Require Import Outcome SpinFactorModel HardSphereModel KinematicsModel ChannelModel BreitWignerModel KMatrixModel.
Import ListNotations.
Open Scope R_scope.

(** One ENDF resonance (library type): ER, AJ (doubled, signed), GN, GG, GFA, GFB; an l value:
    L, AWRI, APL and its resonances; the Reich-Moore parameters: SPI (doubled), AP and the
    l values *)
Record rm_line : Type := mkRMLine
  { rl_ER : R; rl_AJ : Z; rl_GN : R; rl_GG : R; rl_GFA : R; rl_GFB : R }.
Record rm_lstate : Type := mkRMState
  { rs_L : nat; rs_AWRI : R; rs_APL : R; rs_lines : list rm_line }.
Record rm_file : Type := mkRMFile { rf_SPI : Z; rf_AP : R; rf_lstates : list rm_lstate }.

(** Lvalue.hpp:1-9 *)
Record rm_lvalue : Type := mkRMValue
  { rv_ap : option R; rv_resonances : list rm_resonance; rv_l : nat }.

(** Lvalue/src/call.hpp:1-58 with penetrationShift.hpp and phaseShift.hpp: elastic, capture,
    fission *)
Definition rm_lvalue_call (lv : rm_lvalue) (energy channelRatio scatteringRatio : R)
    : outcome (option triple) :=
  do ps <- penetrationShift (Z.of_nat (rv_l lv)) channelRatio ;
  let rootPenetrationFactor := sqrt (fst ps) in
  do phi <- phaseShift (Z.of_nat (rv_l lv)) scatteringRatio ;
  let sinSquaredPhi := sin phi * sin phi in
  let crossSections :=
    map (fun g => rm_Jgroup energy rootPenetrationFactor phi (fst g) (fst g :: snd g))
        (group_by rm_flagged (rv_resonances lv)) in
  Ok (let? xs := all_finite crossSections in
      let '(s0, s1, s2, s3) := fold_left qadd xs (0, 0, 0, 0) in
      let unaccounted := ((2 * INR (rv_l lv) + 1) - s3) * 4 * sinSquaredPhi in
      Some (s1 + unaccounted, s0 - s1 - s2, s2)).

(** Inspector.hpp:20-69 and the tags of ../reichMoore.hpp *)
Inductive rm_tag := Neither | Both | ScatteringTag | ChannelTag.
Definition inspect (tag : rm_tag) (waveNumber channelRatio scatteringRatio : R) (ap : option R)
    : R * R :=
  match tag, ap with
  | Both, Some a => (waveNumber * a, waveNumber * a)
  | ScatteringTag, Some a => (channelRatio, waveNumber * a)
  | ChannelTag, Some a => (waveNumber * a, scatteringRatio)
  | _, _ => (channelRatio, scatteringRatio)
  end.

(** Base.hpp:1-10 with the radii of Type.hpp *)
Record rm_system : Type := mkRMSystem
  { rt_lvalues : list rm_lvalue; rt_ratio : R; rt_tag : rm_tag;
    rt_channel : R -> outcome R; rt_scattering : R -> outcome R }.

Section System.
(** 5.787793139E-14 root(kg) / dirac of src/neutronWaveNumber.hpp:3-5 *)
Variable neutronConstant : R.

(** Base/src/evaluate.hpp:1-26 with Type/src/evaluate1.hpp and evaluate2.hpp *)
Definition rm_evaluate (s : rm_system) (energy : R) : outcome (option triple) :=
  do channelRadius <- rt_channel s energy ;
  do scatteringRadius <- rt_scattering s energy ;
  let waveNumber := waveNumberOld neutronConstant (rt_ratio s) energy in
  let channelRatio := waveNumber * channelRadius in
  let scatteringRatio := waveNumber * scatteringRadius in
  do xs <- mapM (fun lv =>
      let '(c, p) := inspect (rt_tag s) waveNumber channelRatio scatteringRatio (rv_ap lv) in
      rm_lvalue_call lv energy c p) (rt_lvalues s) ;
  Ok (let? xs := all_finite xs in
      let? scaling := fdiv pi_value (waveNumber * waveNumber) in
      Some (tmul (taccumulate xs (0, 0, 0)) scaling)).

(** std::sort, used with the order of the flagged statistical factors *)
Variable sort : list rm_resonance -> list rm_resonance.

(** Base/src/order.hpp:5-20 *)
Definition rm_order (lvs : list rm_lvalue) : list rm_lvalue :=
  map (fun lv => mkRMValue (rv_ap lv) (sort (rv_resonances lv)) (rv_l lv)) lvs.

(** std::copysign( g, AJ ); AJ = 0 counts as positive *)
Definition copysign (x : R) (AJ : Z) : R := if (AJ <? 0)%Z then - Rabs x else Rabs x.

(** Apply/src/resonance.hpp:1-28; [g_old] is the factor of Apply/src/build.hpp:12-14 *)
Definition rm_build_resonance (SPI : Z) (l : nat) (rho : R -> outcome R) (r : rm_line)
    : outcome rm_resonance :=
  do ratio <- rho (Rabs (rl_ER r)) ;
  do ps <- penetrationShift (Z.of_nat l) ratio ;
  Ok (makeRM (rl_ER r) (rl_GN r) (rl_GG r) (rl_GFA r) (rl_GFB r) (fst ps)
             (copysign (g_old SPI (Z.abs (rl_AJ r))) (rl_AJ r))).

(** Apply/src/lvalue.hpp:1-55; [k] is the wave number and [r] the channel radius *)
Definition rm_build_lvalue (SPI : Z) (k : R -> R) (r : R -> outcome R) (useAPL : bool)
    (ls : rm_lstate) : outcome rm_lvalue :=
  if (4 <? rs_L ls)%nat then unsupported
  else
    let given := if Req_EM_T (rs_APL ls) 0 then false else true in
    let rho e := if given && useAPL then Ok (rs_APL ls * k e) else omap (fun a => a * k e) (r e) in
    do rs <- mapM (rm_build_resonance SPI (rs_L ls) rho) (rs_lines ls) ;
    Ok (mkRMValue (if given then Some (rs_APL ls) else None) rs (rs_L ls)).

(** Apply/src/build.hpp:1-52 and Base/src/ctor.hpp:1-9 *)
Definition rm_build (f : rm_file) (tag : rm_tag) (channel scattering : R -> outcome R)
    (useAPL : bool) : outcome rm_system :=
  match rf_lstates f with
  | [] => UB "front() of an empty range"
  | first :: _ =>
      let awr := rs_AWRI first in
      do lvs <- mapM (rm_build_lvalue (rf_SPI f) (neutronWaveNumber neutronConstant awr) channel useAPL)
                     (rf_lstates f) ;
      Ok (mkRMSystem (rm_order lvs) (awr / (awr + 1)) tag channel scattering)
  end.

(** Apply/src/call.hpp:1-55 up to the callback, for a range holding Reich-Moore parameters.
    A NAPS outside the cases runs off the end of the function; every exception is replaced. *)
Definition rm_apply (f : rm_file) (NRO : bool) (NAPS : Z) (table : option (R -> outcome R))
    : outcome rm_system :=
  let fixed a := (fun _ : R => Ok a) in
  let value := match table with Some t => Ok t | None => Throw BadOptional end in
  let derived := match rf_lstates f with
                 | [] => UB "front() of an empty range"
                 | first :: _ => Ok (fixed (channelRadius (rs_AWRI first)))
                 end in
  let result :=
    if NRO then
      if (NAPS =? 0)%Z then do a <- derived ; do t <- value ; rm_build f Neither a t false
      else if (NAPS =? 1)%Z then do t <- value ; rm_build f Neither t t false
      else if (NAPS =? 2)%Z then do t <- value ; rm_build f ChannelTag (fixed (rf_AP f)) t true
      else UB "no return"
    else
      if (NAPS =? 0)%Z then do a <- derived ; rm_build f ScatteringTag a (fixed (rf_AP f)) false
      else if (NAPS =? 1)%Z then rm_build f Both (fixed (rf_AP f)) (fixed (rf_AP f)) true
      else UB "no return" in
  match result with
  | Throw _ => Throw (RuntimeError "The resonance range does not appear to contain Reich-Moore parameters")
  | o => o
  end.
End System.
