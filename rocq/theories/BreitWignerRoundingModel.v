(** Breit-Wigner cross sections on doubles: the part of LegacyModel.v from the penetrabilities,
    shift factors and phase shift of a channel to the cross sections, with every operation rounded
    to nearest.  Each operation of the source is taken to be one IEEE operation (no fused
    multiply-add, no extended precision), in the order the source has them.
    Paths are relative to /repo/src/resonanceReconstruction/rmatrix/legacy. *)
From Coq Require Import String List ZArith.
From Flocq Require Import Core.Zaux IEEE754.BinarySingleNaN.
From Verif Require Import Outcome UnresolvedModel DoubleModel RoundingModel FluctuationRoundingModel.
Import ListNotations.
Open Scope Z_scope.

(** resolved/Resonance.hpp:22-32 without the members elastic_, competition_ and penetrability_,
    which the cross sections do not use *)
Record resonance64 : Type := mkResonance64
  { y_energy : double; y_capture : double; y_fission : double; y_toP : double; y_toQ : double; y_shift : double }.
(** The arguments of the constructor *)
Record given64 : Type := mkGiven64
  { g_energy : double; g_elastic : double; g_capture : double; g_fission : double; g_competition : double;
    g_P : double; g_Q : double; g_S : double }.
(** resolved/Resonance/src/ctor.hpp:13-29 *)
Definition makeResonance64 (g : given64) : resonance64 :=
  mkResonance64 (g_energy g) (g_capture g) (g_fission g) (g_elastic g / g_P g)%D (g_competition g / g_Q g)%D (g_S g).

(** resolved/Resonance.hpp:88-131 *)
Definition elastic64 (r : resonance64) (P : double) : double := (P * y_toP r)%D.
Definition competition64 (r : resonance64) (Q : double) : double := (Q * y_toQ r)%D.
Definition total64 (r : resonance64) (P Q : double) : double :=
  (elastic64 r P + y_capture r + y_fission r + competition64 r Q)%D.
Definition energyPrime64 (r : resonance64) (S : double) : double :=
  (y_energy r + minus (y_shift r) S / #2 * y_toP r)%D.

(** The literal 0.25 *)
Definition quarter64 : double := literal (1, -2).
(** The arrays of one resonance *)
Record precomputed64 : Type := mkPre64
  { b_elastic : double; b_capture : double; b_fission : double; b_total : double; b_delta : double; b_denominator : double }.
(** resolved/SpinGroup/SingleLevelBreitWigner/src/precompute.hpp:11-29 *)
Definition precompute64 (energy p q s : double) (r : resonance64) : precomputed64 :=
  let total := total64 r p q in
  let delta := minus energy (energyPrime64 r s) in
  mkPre64 (elastic64 r p) (y_capture r) (y_fission r) total delta
          (delta * delta + quarter64 * total * total)%D.

(** resolved/SpinGroup/SingleLevelBreitWigner/src/evaluate.hpp:28-39 *)
Definition calculate64 (sin2phi sintwophi : double) (x : precomputed64) : data double :=
  mkData (b_elastic x * (minus (b_elastic x) (#2 * b_total x * sin2phi) + #2 * b_delta x * sintwophi) / b_denominator x)%D
         (b_capture x * b_elastic x / b_denominator x)%D
         (b_fission x * b_elastic x / b_denominator x)%D
         #0%D.
(** resolved/SpinGroup/SingleLevelBreitWigner/src/evaluate.hpp:23 *)
Definition factor64 (pi waveNumber spinFactor : double) : double := (pi / (waveNumber * waveNumber) * spinFactor)%D.
(** resolved/SpinGroup/SingleLevelBreitWigner/src/evaluate.hpp:19-56: what is added to the cross
    sections.  sinphi and sintwophi are what std::sin returns.  Fission is left out if it is zero. *)
Definition slbw64 (pi waveNumber spinFactor energy p q s sinphi sintwophi : double) (rs : list resonance64)
    : double * double * option double :=
  let sin2phi := (sinphi * sinphi)%D in
  let factor := factor64 pi waveNumber spinFactor in
  let components := fold_left data_add64 (map (calculate64 sin2phi sintwophi) (map (precompute64 energy p q s) rs))
                              (mkData #0%D #0%D #0%D #0%D) in
  ((factor * d_elastic components)%D, (factor * d_capture components)%D,
   if nonzero64 (d_fission components) then Some (factor * d_fission components)%D else None).

(** resolved/SpinGroup/MultiLevelBreitWigner/src/evaluate.hpp:32-34 *)
Definition cross64 (x y : precomputed64) : double :=
  (#2 * b_elastic x * b_elastic y * (b_delta x * b_delta y + quarter64 * b_total x * b_total y)
   / b_denominator x / b_denominator y)%D.
(** resolved/SpinGroup/MultiLevelBreitWigner/src/evaluate.hpp:28-36; [before] are the entries
    rp < r, in order *)
Fixpoint crosses64 (before rest : list precomputed64) (term : double) : double :=
  match rest with
  | [] => term
  | x :: r => crosses64 (before ++ [x]) r (fold_left (fun t y => t + cross64 x y)%D before term)
  end.
(** resolved/SpinGroup/MultiLevelBreitWigner/src/evaluate.hpp:21-40: what is added to the elastic
    cross section after slbw64 *)
Definition mlbw64 (pi waveNumber spinFactor energy p q s : double) (rs : list resonance64) : double :=
  (factor64 pi waveNumber spinFactor * crosses64 [] (map (precompute64 energy p q s) rs) #0)%D.
