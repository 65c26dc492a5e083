(** Energy grids and the Reconstructor.
    Paths are relative to /repo/src/resonanceReconstruction/rmatrix. *)
From Coq Require Import String List ZArith Reals Bool.
From Verif Require Import Outcome QuantumModel HardSphereModel KinematicsModel CoulombModel Cplx RMatrixModel
  ChannelModel SpinGroupModel BreitWignerModel LegacyModel UnresolvedModel.
Import ListNotations.
Open Scope R_scope.

(** ranges::action::sort | ranges::action::unique: any sort gives the same list of numbers *)
Fixpoint insertR (x : R) (l : list R) : list R :=
  match l with
  | [] => [x]
  | y :: r => if Rle_dec x y then x :: l else y :: insertR x r
  end.
Definition sortR (l : list R) : list R := fold_right insertR [] l.
Fixpoint uniqueR (l : list R) : list R :=
  match l with
  | [] => []
  | x :: r => match uniqueR r with
              | [] => [x]
              | y :: r' => if Req_EM_T x y then y :: r' else x :: y :: r'
              end
  end.
Definition sortUnique (l : list R) : list R := uniqueR (sortR l).

Section Grid.
Variables (hbar epsilon0 : R) (cwf : nat -> R -> R -> outcome coulomb).

(** SpinGroup/src/grid.hpp:15-27: ranges::accumulate over a zip, which ends with the shorter
    range *)
Fixpoint accumulateWidths (total : R) (widths penetrabilities : list R) : R :=
  match widths, penetrabilities with
  | g :: gs, p :: ps => accumulateWidths (total + 2 * p * g * g) gs ps
  | _, _ => total
  end.
(** SpinGroup/src/penetrabilities.hpp:1-11 *)
Definition groupPenetrabilities (g : group) (energy : R) : outcome (option (list R)) :=
  omap (@all_some R) (mapM (fun c => channelPenetrability hbar epsilon0 cwf c energy) (g_channels g)).
Definition totalWidth (g : group) (r : resonance) : outcome (option R) :=
  omap (option_map (accumulateWidths (2 * rs_eliminated r * rs_eliminated r) (rs_widths r)))
       (groupPenetrabilities g (rs_energy r)).

(** SpinGroup/src/grid.hpp:29-41, the loop.  [Ok None]: one of the numbers is not finite. *)
Fixpoint groupPoints (g : group) (rs : list resonance) : outcome (option (list R)) :=
  match rs with
  | [] => Ok (Some [])
  | r :: rest =>
      if Rlt_dec 0 (rs_energy r) then
        do ot <- totalWidth g r ;
        do ops <- groupPoints g rest ;
        Ok (let? t := ot in let? ps := ops in
            Some (rs_energy r - 0.5 * t :: rs_energy r :: rs_energy r + 0.5 * t :: ps))
      else groupPoints g rest
  end.
(** SpinGroup/src/grid.hpp:9-44 *)
Definition groupGrid (g : group) : outcome (option (list R)) :=
  omap (option_map sortUnique) (groupPoints g (t_resonances (g_table g))).

(** CompoundSystem/src/grid.hpp:10-22 *)
Fixpoint concatGrids {A} (grid : A -> outcome (option (list R))) (gs : list A) : outcome (option (list R)) :=
  match gs with
  | [] => Ok (Some [])
  | g :: r =>
      do og <- grid g ;
      do ors <- concatGrids grid r ;
      Ok (let? x := og in let? y := ors in Some (x ++ y))
  end.
Definition systemGrid (gs : list group) : outcome (option (list R)) :=
  omap (option_map sortUnique) (concatGrids groupGrid gs).

(** legacy/resolved/SpinGroup/SingleLevelBreitWigner/src/grid.hpp:9-28 (the multi-level group
    uses the same, MultiLevelBreitWigner.hpp:22) *)
Fixpoint legacyPoints (rs : list legacy_resonance) : list R :=
  match rs with
  | [] => []
  | r :: rest =>
      if Rlt_dec 0 (q_energy r) then
        q_energy r - 0.5 * legacyTotal r :: q_energy r :: q_energy r + 0.5 * legacyTotal r
        :: legacyPoints rest
      else legacyPoints rest
  end.
Definition legacyGrid (g : legacy_group) : list R := sortUnique (legacyPoints (lg_resonances g)).
(** legacy/resolved/CompoundSystem/src/grid.hpp:10-22 *)
Definition legacySystemGrid (s : legacy_system) : list R :=
  sortUnique (concat (map legacyGrid (ly_groups s))).
End Grid.

(** legacy/unresolved/CompoundSystem/src/grid.hpp:32-33 *)
Definition points : list R := [1.0; 1.25; 1.5; 1.7; 2.0; 2.5; 3.0; 3.5; 4.0; 5.0; 6.0; 7.2; 8.5].

(** grid.hpp:41-45; log10 and pow are exact here, and the exponent of a double fits an int *)
Definition exponent (previous : R) : Z :=
  let e := Int_part (ln (Rabs previous) / ln 10) in
  if Rle_dec (8.5 * powerRZ 10 e) previous then (e + 1)%Z else e.
Definition pointValues (e : Z) : list R := map (fun x => x * powerRZ 10 e) points.

(** std::upper_bound and std::lower_bound on increasing values *)
Fixpoint from_upper (x : R) (l : list R) : list R :=
  match l with [] => [] | y :: r => if Rlt_dec x y then l else from_upper x r end.
Fixpoint to_lower (x : R) (l : list R) : list R :=
  match l with [] => [] | y :: r => if Rlt_dec y x then y :: to_lower x r else [] end.
Definition inserted (previous current : R) : list R :=
  to_lower current (from_upper previous (pointValues (exponent previous))).

(** grid.hpp:38, for doubles: x / 0 is infinite, 0 / 0 is not a number *)
Inductive comparison := Greater | NotGreater | OfZero.
Definition compare_ratio (current previous : R) : comparison :=
  if Req_EM_T previous 0 then (if Rlt_dec 0 current then OfZero else NotGreater)
  else if Rlt_dec 1.25 (current / previous) then Greater else NotGreater.

(** grid.hpp:35-60, the loop; the iterators are positions.  std::vector::insert returns the
    position of the first inserted element, or (nothing inserted) the position it was given. *)
Definition vector_insert (grid : list R) (at_ : nat) (new : list R) : list R :=
  firstn at_ grid ++ new ++ skipn at_ grid.
Fixpoint refine (fuel : nat) (grid : list R) (previous iter : nat) : outcome (list R) :=
  if Nat.eqb iter (length grid) then Ok grid
  else match fuel with
  | O => Diverge
  | S n =>
      do p <- at_or_ub grid previous "iterator out of bounds" ;
      do c <- at_or_ub grid iter "iterator out of bounds" ;
      match compare_ratio c p with
      | OfZero => UB "conversion of minus infinity to int"
      | NotGreater => refine n grid iter (iter + 1)
      | Greater =>
          let new := inserted p c in
          let grid := vector_insert grid iter new in
          let iter := (iter + length new - 1)%nat in        (* std::advance( iter, distance - 1 ) *)
          refine n grid iter (iter + 1)
      end
  end.
Definition unresolvedGrid (fuel : nat) (s : unresolved_system) : outcome (list R) :=
  match sortUnique (concat (map (fun u => map ur_energy (ut_resonances (ug_table u))) (uy_groups s))) with
  | (_ :: _ :: _) as grid => refine fuel grid 0 1
  | grid => Ok grid
  end.

(** ../rmatrix.hpp:92-99, CompoundSystemVariant *)
Inductive compound_system : Type :=
| SLBW (s : legacy_system)
| MLBW (s : legacy_system)
| ReichMooreShift (gs : list object)
| ReichMooreConstant (gs : list object)
| Unresolved (s : unresolved_system).
(** Reconstructor.hpp:5-20 *)
Record reconstructor : Type := mkReconstructor
  { rc_lower : R; rc_upper : R; rc_system : compound_system }.
(** Reconstructor.hpp:30-42; std::variant::index and std::variant_size_v *)
Definition variant_index (s : compound_system) : nat :=
  match s with
  | SLBW _ => 0 | MLBW _ => 1 | ReichMooreShift _ => 2 | ReichMooreConstant _ => 3 | Unresolved _ => 4
  end%nat.
Definition isResolved (r : reconstructor) : bool := negb (Nat.eqb (variant_index (rc_system r)) (5 - 1)).
Definition isUnresolved (r : reconstructor) : bool := negb (isResolved r).

Section Reconstruct.
Variables (hbar epsilon0 : R) (cwf : nat -> R -> R -> outcome coulomb).

(** Reconstructor.hpp:58-71 *)
Definition compoundGrid (fuel : nat) (s : compound_system) : outcome (option (list R)) :=
  match s with
  | SLBW s | MLBW s => Ok (Some (legacySystemGrid s))
  | ReichMooreShift gs | ReichMooreConstant gs =>
      systemGrid hbar epsilon0 cwf (map (fun o : object => projT1 o) gs)
  | Unresolved s => omap Some (unresolvedGrid fuel s)
  end.
Definition inside (r : reconstructor) (energy : R) : bool :=
  (if Rle_dec (rc_lower r) energy then true else false) && (if Rle_dec energy (rc_upper r) then true else false).
Definition reconstructorGrid (fuel : nat) (r : reconstructor) : outcome (option (list R)) :=
  omap (option_map (filter (inside r))) (compoundGrid fuel (rc_system r)).

(** Reconstructor.hpp:76-88.  The map of the code has one type of key; the two models of the
    keys are kept apart here.  The stored matrices of the groups are returned as well. *)
Inductive cross_sections : Type :=
| Empty
| Legacy (m : legacy_map)
| Matrix (m : reaction_map).
Definition evaluateCompound (s : compound_system) (energy : R) : outcome (option (compound_system * cross_sections)) :=
  match s with
  | SLBW y => omap (option_map (fun m => (s, Legacy m)))
                   (legacy_evaluate hbar (legacySLBW hbar epsilon0 cwf) y energy (fun _ => None))
  | MLBW y => omap (option_map (fun m => (s, Legacy m)))
                   (legacy_evaluate hbar (legacyMLBW hbar epsilon0 cwf) y energy (fun _ => None))
  | ReichMooreShift gs =>
      omap (option_map (fun p => (ReichMooreShift (fst p), Matrix (snd p))))
           (evaluateSystem hbar epsilon0 cwf ShiftFactor gs energy (fun _ => None))
  | ReichMooreConstant gs =>
      omap (option_map (fun p => (ReichMooreConstant (fst p), Matrix (snd p))))
           (evaluateSystem hbar epsilon0 cwf Constant gs energy (fun _ => None))
  | Unresolved y => omap (option_map (fun m => (s, Legacy m)))
                         (unresolved_system_evaluate hbar epsilon0 cwf y energy (fun _ => None))
  end.
Definition reconstruct (r : reconstructor) (energy : R) : outcome (option (reconstructor * cross_sections)) :=
  if (if Rle_dec (rc_lower r) energy then true else false) && (if Rle_dec energy (rc_upper r) then true else false) then
    omap (option_map (fun p => (mkReconstructor (rc_lower r) (rc_upper r) (fst p), snd p)))
         (evaluateCompound (rc_system r) energy)
  else Ok (Some (r, Empty)).
End Reconstruct.
