(** The legacy unresolved resonances: fluctuation integrals, tables, evaluation, and how they
    are made from ENDF data.  Paths are relative to /repo/src/resonanceReconstruction/rmatrix. *)
From Coq Require Import String List ZArith Reals Bool.
From Verif Require Import Outcome QuantumModel SpinFactorModel HardSphereModel KinematicsModel
  CoulombModel RMatrixModel ChannelModel BreitWignerModel LegacyModel.
Import ListNotations.
Open Scope R_scope.

(** legacy/Data.hpp:5-17, 32-37, 48-51: four quantities; += is component by component and
    hasFission, hasCompetition compare with zero *)
Record data (A : Type) : Type := mkData
  { d_elastic : A; d_capture : A; d_fission : A; d_competition : A }.
Arguments mkData {A} _ _ _ _.
Arguments d_elastic {A} _.
Arguments d_capture {A} _.
Arguments d_fission {A} _.
Arguments d_competition {A} _.
Definition data_add (x y : data R) : data R :=
  mkData (d_elastic x + d_elastic y) (d_capture x + d_capture y)
         (d_fission x + d_fission y) (d_competition x + d_competition y).
Definition nonzero (x : R) : bool := if Req_EM_T x 0 then false else true.
Definition nonzero_degree (n : nat) : bool := negb (Nat.eqb n 0).

(** legacy/unresolved/src/calculateFluctuationIntegrals.hpp:16-28, the weights *)
Definition weights : list (list R) :=
  [ [1.1120413e-1; 3.3773418e-2; 3.3376214e-4; 1.7623788e-3];
    [2.3546798e-1; 7.9932171e-2; 1.8506108e-2; 2.1517749e-2];
    [2.8440987e-1; 1.2835937e-1; 1.2309946e-1; 8.0979849e-2];
    [2.2419127e-1; 1.7652616e-1; 2.9918923e-1; 1.8797998e-1];
    [1.0967668e-1; 2.1347043e-1; 3.3431475e-1; 3.0156335e-1];
    [3.0493789e-2; 2.1154965e-1; 1.7766657e-1; 2.9616091e-1];
    [4.2930874e-3; 1.3365186e-1; 4.2695894e-2; 1.0775649e-1];
    [2.5827047e-4; 2.2630659e-2; 4.0760575e-3; 2.5171914e-3];
    [4.9031965e-6; 1.6313638e-5; 1.1766115e-4; 8.9630388e-10];
    [1.4079206e-8; 2.7453830e-31; 5.0989546e-7; 0.0000000] ].
(** legacy/unresolved/src/calculateFluctuationIntegrals.hpp:30-42, the nodes *)
Definition nodes : list (list R) :=
  [ [3.0013465e-3; 1.3219203e-2; 1.0004488e-3; 1.3219203e-2];
    [7.8592886e-2; 7.2349624e-2; 2.6197629e-2; 7.2349624e-2];
    [4.3282415e-1; 1.9089473e-1; 1.4427472e-1; 1.9089473e-1];
    [1.3345267; 3.9528842e-1; 4.4484223e-1; 3.9528842e-1];
    [3.0481846; 7.4083443e-1; 1.0160615; 7.4083443e-1];
    [5.8263198; 1.3498293; 1.9421066; 1.3498293];
    [9.9452656; 2.5297983; 3.3150885; 2.5297983];
    [1.5782128e1; 5.2384894; 5.2607092; 5.2384894];
    [2.3996824e1; 1.3821772e1; 7.9989414; 1.3821772e1];
    [3.6216208e1; 7.5647525e1; 1.2072069e1; 7.5647525e1] ].

(** degrees - 1 in unsigned int, line 49: 0 wraps around *)
Definition unsigned_pred (n : nat) : Z := ((Z.of_nat n - 1) mod 4294967296)%Z.
(** std::array operator[] twice, unchecked *)
Definition entry (t : list (list R)) (i : nat) (column : Z) : outcome R :=
  do row <- at_or_ub t i "row index out of bounds" ;
  if (column <? 4)%Z then at_or_ub row (Z.to_nat column) "column index out of bounds"
  else UB "column index out of bounds".

(** The body of the loops, e.g. lines 113-121: [qi] is the node of the elastic width, [qj] and
    [qk] those of fission and competition; [None] in the result is a number that is not finite *)
Definition fluctuation_term (factor denominator qi : R) (qj qk : option R) : option (data R) :=
  let part (q : option R) : option R :=
    match q with Some x => fdiv (qi * x * factor) denominator | None => Some 0 end in
  let? e := fdiv (qi * qi * factor) denominator in
  let? c := fdiv (qi * factor) denominator in
  let? f := part qj in
  let? x := part qk in
  Some (mkData e c f x).
Definition add_term (acc : option (data R)) (t : option (data R)) : option (data R) :=
  let? a := acc in let? x := t in Some (data_add a x).
Definition ten : list nat := seq 0 10.

(** legacy/unresolved/src/calculateFluctuationIntegrals.hpp:44-128 *)
Definition calculateFluctuationIntegrals (widths : data R) (degrees : data nat)
    : outcome (option (data R)) :=
  let mu := unsigned_pred (d_elastic degrees) in
  let nu := if nonzero_degree (d_fission degrees)
            then unsigned_pred (d_fission degrees) else 0%Z in
  let lambda := if nonzero_degree (d_competition degrees)
                then unsigned_pred (d_competition degrees) else 0%Z in
  let zero := Some (mkData 0 0 0 0) in
  match nonzero (d_fission widths), nonzero (d_competition widths) with
  | false, false =>
      foldM (fun acc i =>
        do wi <- entry weights i mu ;
        do qi <- entry nodes i mu ;
        Ok (add_term acc (fluctuation_term wi (qi * d_elastic widths + d_capture widths)
                                           qi None None))) ten zero
  | true, false =>
      foldM (fun acc i => foldM (fun acc j =>
        do wi <- entry weights i mu ;
        do wj <- entry weights j nu ;
        do qi <- entry nodes i mu ;
        do qj <- entry nodes j nu ;
        Ok (add_term acc (fluctuation_term (wi * wj)
              (qi * d_elastic widths + d_capture widths + qj * d_fission widths)
              qi (Some qj) None))) ten acc) ten zero
  | false, true =>
      foldM (fun acc i => foldM (fun acc k =>
        do wi <- entry weights i mu ;
        do wk <- entry weights k lambda ;
        do qi <- entry nodes i mu ;
        do qk <- entry nodes k lambda ;
        Ok (add_term acc (fluctuation_term (wi * wk)
              (qi * d_elastic widths + d_capture widths + qk * d_competition widths)
              qi None (Some qk)))) ten acc) ten zero
  | true, true =>
      foldM (fun acc i => foldM (fun acc j => foldM (fun acc k =>
        do wi <- entry weights i mu ;
        do wj <- entry weights j nu ;
        do wk <- entry weights k lambda ;
        do qi <- entry nodes i mu ;
        do qj <- entry nodes j nu ;
        do qk <- entry nodes k lambda ;
        Ok (add_term acc (fluctuation_term (wi * wj * wk)
              (qi * d_elastic widths + d_capture widths + qj * d_fission widths
               + qk * d_competition widths)
              qi (Some qj) (Some qk)))) ten acc) ten acc) ten zero
  end.

(** legacy/unresolved/Resonance.hpp:12-19 *)
Record unresolved_resonance : Type := mkUnresolved
  { ur_energy : R; ur_spacing : R; ur_elastic : R; ur_capture : R; ur_fission : R;
    ur_competition : R }.

(** legacy/unresolved/ResonanceTable.hpp:23-29; the interpolation tables are functions of
    the resonances *)
Record unresolved_table : Type := mkUTable
  { ut_resonances : list unresolved_resonance; ut_degrees : data nat }.

(** legacy/unresolved/ResonanceTable/src/verifyTable.hpp:1-27 and ctor.hpp:6-34.  What the
    constructors of the interpolation tables check is not modelled. *)
Definition makeUnresolvedTable (rs : list unresolved_resonance) (degrees : data nat)
    : outcome unresolved_table :=
  do _ <- check (negb (Nat.ltb (length rs) 2)) ;
  do _ <- check (Nat.leb (d_elastic degrees) 4) ;
  do _ <- check (Nat.leb (d_capture degrees) 4) ;
  do _ <- check (Nat.leb (d_fission degrees) 4) ;
  do _ <- check (Nat.leb (d_competition degrees) 4) ;
  Ok (mkUTable rs degrees).

(** A lin-lin table of the interpolation library (Table.hpp:1-18; the library itself is not in
    /repo): throws outside its range, and on a strictly increasing abscissa the straight line
    between the neighbours of [x], the left interval when [x] is a tabulated point. *)
Fixpoint linlin (pts : list (R * R)) (x : R) : outcome (option R) :=
  match pts with
  | (x0, y0) :: (((x1, y1) :: _) as r) =>
      if Rlt_dec x x0 then Throw (OutOfRange "interpolation")
      else if Rle_dec x x1
      then Ok (let? slope := fdiv (y1 - y0) (x1 - x0) in Some (y0 + slope * (x - x0)))
      else linlin r x
  | _ => Throw (OutOfRange "interpolation")
  end.
Definition column_table (f : unresolved_resonance -> R) (t : unresolved_table) : list (R * R) :=
  map (fun r => (ur_energy r, f r)) (ut_resonances t).

(** legacy/unresolved/ResonanceTable/src/call.hpp:6-14 with make.hpp:1-69 *)
Definition unresolvedAt (t : unresolved_table) (energy : R) : outcome (option unresolved_resonance) :=
  do od <- linlin (column_table ur_spacing t) energy ;
  do oe <- linlin (column_table ur_elastic t) energy ;
  do oc <- linlin (column_table ur_capture t) energy ;
  do oF <- linlin (column_table ur_fission t) energy ;
  do ox <- linlin (column_table ur_competition t) energy ;
  Ok (let? d := od in let? e := oe in let? c := oc in let? f := oF in let? x := ox in
      Some (mkUnresolved energy d e c f x)).

(** legacy/SpinGroupBase.hpp:7-10 *)
Record unresolved_group : Type := mkUGroup { ug_channel : channel; ug_table : unresolved_table }.

(** std::sqrt: not a number for negative arguments *)
Definition fsqrt (x : R) : option R := if Rlt_dec x 0 then None else Some (sqrt x).

Section Evaluate.
Variables (hbar epsilon0 : R) (cwf : nat -> R -> R -> outcome coulomb).

(** The widths of legacy/unresolved/SpinGroup/src/evaluate.hpp:28-35 *)
Definition unresolvedWidths (energy penetrability ratio : R) (p : unresolved_resonance)
    (degrees : data nat) : option (data R) :=
  let? vl := fdiv (INR (d_elastic degrees) * penetrability) ratio in
  let? root := fsqrt energy in
  Some (mkData (ur_elastic p * root * vl) (ur_capture p) (ur_fission p) (ur_competition p)).

(** The three results of legacy/unresolved/SpinGroup/src/evaluate.hpp:41-53 *)
Definition unresolvedElastic (factor g spacing sin2phi : R) (w i : data R) : option R :=
  let? s := fdiv g spacing in
  Some (factor * (s * (d_elastic w * (d_elastic w * d_elastic i - 2 * sin2phi)))).
Definition unresolvedReaction (factor g spacing : R) (w : data R) (width integral : R) : option R :=
  let? s := fdiv (factor * g) spacing in
  Some (s * (d_elastic w * width * integral)).

(** legacy/unresolved/SpinGroup/src/evaluate.hpp:7-54.  When a number is not finite before the
    integrals are computed, the first table look-up is still made. *)
Definition unresolved_evaluate (u : unresolved_group) (energy : R) (m : legacy_map)
    : outcome (option legacy_map) :=
  let c := ug_channel u in
  let t := ug_table u in
  do op <- channelPenetrability hbar epsilon0 cwf c energy ;
  do ophi <- channelPhaseShift hbar epsilon0 cwf c energy ;
  do radius <- radius_at (r_P (c_radii c)) energy ;
  do oparameters <- unresolvedAt t energy ;
  let inputs :=
    let? k := channelWaveNumber hbar c energy in
    let? penetrability := op in
    let? phi := ophi in
    let? factor := fdiv (2 * pi_value * pi_value) (k * k) in
    let? p := oparameters in
    let? w := unresolvedWidths energy penetrability (k * radius) p (ut_degrees t) in
    Some (factor, sin phi * sin phi, ur_spacing p, w) in
  match inputs with
  | None => do _ <- entry weights 0 (unsigned_pred (d_elastic (ut_degrees t))) ; Ok None
  | Some (factor, sin2phi, spacing, w) =>
      do oi <- calculateFluctuationIntegrals w (ut_degrees t) ;
      Ok (let? i := oi in
          let? e := unresolvedElastic factor (spinFactor c) spacing sin2phi w i in
          let? ca := unresolvedReaction factor (spinFactor c) spacing w (d_capture w) (d_capture i) in
          let? f := unresolvedReaction factor (spinFactor c) spacing w (d_fission w) (d_fission i) in
          let m1 := accumulateAt m (legacyKey c "elastic") e in
          let m2 := accumulateAt m1 (legacyKey c "capture") ca in
          Some (if nonzero (d_fission w) then accumulateAt m2 (legacyKey c "fission") f else m2))
  end.

(** legacy/CompoundSystemBase.hpp:11-13, src/getLMax.hpp:1-13, src/verifySpinGroups.hpp:1-49 and
    src/ctor.hpp:6-22 for unresolved spin groups *)
Record unresolved_system : Type := mkUSystem
  { uy_groups : list unresolved_group; uy_lmax : nat }.
Definition unresolvedLMax (gs : list unresolved_group) : nat :=
  fold_left (fun m g => Nat.max m (ql (c_numbers (ug_channel g)))) gs 0%nat.
Definition unresolvedVerify (gs : list unresolved_group) : outcome unit :=
  do _ <- check (negb (Nat.eqb (length gs) 0)) ;
  foldM (fun _ g => check (negb (Nat.ltb 1
    (count (fun h => same_lJ (c_numbers (ug_channel h)) (c_numbers (ug_channel g))) gs)))) gs tt.
Definition makeUnresolvedSystem (gs : list unresolved_group) : outcome unresolved_system :=
  let lmax := unresolvedLMax gs in
  do _ <- unresolvedVerify gs ;
  Ok (mkUSystem gs lmax).

(** legacy/CompoundSystemBase/src/evaluate.hpp:7-36 for unresolved spin groups *)
Definition unresolved_system_evaluate (s : unresolved_system) (energy : R) (m : legacy_map)
    : outcome (option legacy_map) :=
  do om <- foldM (fun om g => match om with
                              | None => Ok None
                              | Some m => unresolved_evaluate g energy m
                              end) (uy_groups s) (Some m) ;
  match uy_groups s with
  | [] => UB "front() of an empty vector"
  | g :: _ =>
      let c := ug_channel g in
      match channelWaveNumber hbar c energy with
      | None => Ok None
      | Some k =>
          do a <- radius_at (r_phi (c_radii c)) energy ;
          do value <- potential (k * a) (S (uy_lmax s)) 0 0 ;
          Ok (let? m := om in
              let? factor := fdiv (4 * pi_value) (k * k) in
              Some (accumulateAt m (legacyKey c "elastic") (factor * value)))
      end
  end.
End Evaluate.

(** One J value of the three ENDF representations (a component of ENDFtk, not in /repo): its
    spin, the four degrees of freedom as the doubles of the file, and the parameters. *)
Inductive unresolved_parameters : Type :=
| EnergyIndependent (spacing elastic capture fission competition : R)
| FissionWidths (spacing elastic capture : R) (fission : list R) (competition : R)
| EnergyDependent (energies spacings elastics captures fissions competitions : list R).
Record unresolved_jvalue : Type := mkUJ
  { uj_AJ : Z; uj_AMUN : R; uj_AMUG : R; uj_AMUF : R; uj_AMUX : R;
    uj_parameters : unresolved_parameters }.
Record unresolved_lvalue : Type := mkUL
  { ul_L : nat; ul_AWRI : R; ul_jvalues : list unresolved_jvalue }.

(** static_cast< unsigned int >( double ): truncation, undefined outside (-1, 2^32) *)
Definition to_unsigned (x : R) : outcome nat :=
  if Rlt_dec (-1) x then
    if Rlt_dec x 4294967296 then Ok (Z.to_nat (Int_part x)) else UB "conversion to unsigned int"
  else UB "conversion to unsigned int".

(** ranges::view::zip_with over six ranges: as long as the shortest *)
Fixpoint zip_resonances (es ds ns gs fs xs : list R) : list unresolved_resonance :=
  match es, ds, ns, gs, fs, xs with
  | e :: es, d :: ds, n :: ns, g :: gs, f :: fs, x :: xs =>
      mkUnresolved e d n g f x :: zip_resonances es ds ns gs fs xs
  | _, _, _, _, _, _ => []
  end.

(** src/makeLegacyUnresolvedResonanceTable.hpp:1-56 (energy dependent), 58-108 (energy
    independent) and 110-165 (energy dependent fission widths) *)
Definition makeLegacyUnresolvedTable (energies : list R) (j : unresolved_jvalue)
    : outcome unresolved_table :=
  do rs <- match uj_parameters j with
           | EnergyDependent es ds ns gs fs xs => Ok (zip_resonances es ds ns gs fs xs)
           | EnergyIndependent d n g f x =>
               match energies with
               | [] => UB "front() of an empty vector"
               | lower :: _ => Ok [mkUnresolved lower d n g f x;
                                   mkUnresolved (last energies lower) d n g f x]
               end
           | FissionWidths d n g fs x =>
               let ne := length energies in
               Ok (zip_resonances energies (repeat d ne) (repeat n ne) (repeat g ne) fs
                                  (repeat x ne))
           end ;
  do n <- to_unsigned (uj_AMUN j) ;
  do g <- to_unsigned (uj_AMUG j) ;
  do f <- to_unsigned (uj_AMUF j) ;
  do x <- to_unsigned (uj_AMUX j) ;
  makeUnresolvedTable rs (mkData n g f x).

(** src/makeLegacyUnresolvedSpinGroups.hpp:1-38; std::pow( -1, l ) > 0. is the natural parity *)
Definition makeLegacyUnresolvedGroups (pair : particlePair) (rad : radii) (energies : list R)
    (ul : unresolved_lvalue) : outcome (list unresolved_group) :=
  mapM (fun j =>
    let numbers := mkQ (ul_L ul) 1 (uj_AJ j) (natural_parity (ul_L ul)) in
    let c := makeChannel Neutron pair pair (pp_id pair) 0 numbers rad 0 in
    do t <- makeLegacyUnresolvedTable energies j ;
    Ok (mkUGroup c t)) (ul_jvalues ul).

(** src/makeLegacyUnresolvedCompoundSystem.hpp:1-61; [grid] is the energy list of the
    representation with energy dependent fission widths, [None] for the other two *)
Definition makeLegacyUnresolvedSystem (neutronMass : R) (incident target : string) (spin : Z)
    (ap : R) (nro : option (R -> outcome R)) (naps : nat) (grid : option (list R))
    (lower upper : R) (uls : list unresolved_lvalue) : outcome unresolved_system :=
  match uls with
  | [] => UB "front() of an empty range"
  | first :: _ =>
      do pr <- legacyPair neutronMass incident target (ul_AWRI first) spin ;
      do rad <- makeChannelRadii ap nro naps (ul_AWRI first) neutronMass ;
      let energies := match grid with Some es => es | None => [lower; upper] end in
      do groups <- mapM (makeLegacyUnresolvedGroups pr rad energies) uls ;
      makeUnresolvedSystem (concat groups)
  end.
