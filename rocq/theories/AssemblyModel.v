(** From channel data to resonance tables, spin groups and compound systems.
    Paths are relative to /repo/src/resonanceReconstruction/rmatrix. *)
From Coq Require Import String List ZArith Reals Bool.
From Verif Require Import Outcome QuantumModel HardSphereModel KinematicsModel CoulombModel Cplx RMatrixModel ChannelModel
  SpinGroupModel.
Import ListNotations.
Open Scope R_scope.

(** ParticleChannelData.hpp:11-17 *)
Record channel_data : Type := mkChannelData
  { cd_channel : channel; cd_energies : list R; cd_widths : list R; cd_eliminated : bool }.
(** ParticleChannelData/src/verifySize.hpp:1-14 and ctor.hpp:8-16 *)
Definition makeChannelData (c : channel) (energies widths : list R) (eliminated : bool) : outcome channel_data :=
  do _ <- check (Nat.eqb (length energies) (length widths)) ;
  Ok (mkChannelData c energies widths eliminated).

(** std::find_if and ranges::distance: the index of the first element, or the length *)
Fixpoint find_index {A} (f : A -> bool) (l : list A) : nat :=
  match l with [] => 0%nat | x :: r => if f x then 0%nat else S (find_index f r) end.
(** v.erase( v.begin() + i ) for an index inside the vector *)
Definition erase_at {A} (i : nat) (l : list A) : list A := firstn i l ++ skipn (S i) l.
(** v[ i ] = x for an index inside the vector *)
Definition assign_at {A} (i : nat) (x : A) (l : list A) : list A := firstn i l ++ x :: skipn (S i) l.

(** std::map< Energy, std::vector< ReducedWidth > >: the entries in the order of the keys *)
Definition width_map : Type := list (R * list R).
(** addWidth of SpinGroup/src/makeResonanceTable.hpp:37-40; a new vector holds [n] zeros.  The
    index is always below [n] and the vectors have [n] elements (AssemblyProofs). *)
Fixpoint addWidth (n : nat) (m : width_map) (energy width : R) (index : nat) : width_map :=
  match m with
  | [] => [(energy, assign_at index width (repeat 0 n))]
  | (e, ws) :: r =>
      if Rlt_dec energy e then (energy, assign_at index width (repeat 0 n)) :: m
      else if Req_EM_T energy e then (e, assign_at index width ws) :: r
      else (e, ws) :: addWidth n r energy width index
  end.
(** SpinGroup/src/makeResonanceTable.hpp:41-60 *)
Definition addWidthsToMap (n : nat) (m : width_map) (p : channel_data * nat) : width_map :=
  fold_left (fun m ew => addWidth n m (fst ew) (snd ew) (snd p))
            (combine (cd_energies (fst p)) (cd_widths (fst p))) m.
(** SpinGroup/src/makeResonanceTable.hpp:62-76; [eliminated] is the index if there is one *)
Definition toResonance (eliminated : option nat) (p : R * list R) : resonance :=
  match eliminated with
  | Some i => Resonance (fst p) (erase_at i (snd p)) (nth i (snd p) 0)
  | None => Resonance (fst p) (snd p) 0
  end.
(** SpinGroup/src/makeResonanceTable.hpp:1-80 *)
Definition makeResonanceTable (data : list channel_data) : outcome table :=
  let index := find_index cd_eliminated data in
  let number := length (filter cd_eliminated data) in
  if Nat.ltb 1 number then std_exception
  else
    let eliminated := if Nat.eqb number 0 then None else Some index in
    let all := map (fun d => c_id (cd_channel d)) data in
    let ids := match eliminated with Some i => erase_at i all | None => all end in
    let n := length data in
    let m := fold_left (addWidthsToMap n) (combine data (seq 0 n)) [] in
    makeTable ids (map (toResonance eliminated) m).

(** SpinGroup/src/makeChannels.hpp:1-28 *)
Definition makeChannels (data : list channel_data) : list channel :=
  let index := find_index cd_eliminated data in
  let all := map cd_channel data in
  if Nat.eqb index (length data) then all else erase_at index all.

(** SpinGroup/src/ctor.hpp:21-27; makeChannels cannot fail, so the order of the arguments does
    not matter *)
Definition makeGroupFromData (data : list channel_data) : outcome group :=
  do t <- makeResonanceTable data ;
  makeGroup (makeChannels data) t.

(** std::pair< J, parity > in lexicographic order, sorted and without duplicates *)
Definition Jpi : Type := (Z * Z)%type.
Definition Jpi_ltb (a b : Jpi) : bool :=
  ((fst a <? fst b) || ((fst a =? fst b) && (snd a <? snd b)))%Z.
Definition Jpi_eqb (a b : Jpi) : bool := ((fst a =? fst b) && (snd a =? snd b))%Z.
Fixpoint insertJpi (j : Jpi) (l : list Jpi) : list Jpi :=
  match l with
  | [] => [j]
  | x :: r => if Jpi_ltb j x then j :: l else if Jpi_eqb j x then l else x :: insertJpi j r
  end.
Definition sortUniqueJpi (l : list Jpi) : list Jpi := fold_right insertJpi [] l.
(** getJpi and filter of CompoundSystem/src/makeSpinGroups.hpp:8-12, 28-32 *)
Definition numbersJpi (q : qnum) : Jpi := (qJ q, qp q).
Definition getJpi (d : channel_data) : Jpi := numbersJpi (c_numbers (cd_channel d)).
Definition hasJpi (j : Jpi) (d : channel_data) : bool := Jpi_eqb (getJpi d) j.

(** CompoundSystem/src/makeSpinGroups.hpp:1-38 *)
Definition makeSpinGroups (data : list channel_data) : outcome (list group) :=
  mapM (fun j => makeGroupFromData (filter (hasJpi j) data)) (sortUniqueJpi (map getJpi data)).

(** CompoundSystem/src/verifySpinGroups.hpp:1-54; the first channel of a group is read without
    a check, a group without channels does not exist (C51) *)
Definition verifySpinGroups (groups : list group) : outcome unit :=
  do _ <- check (negb (Nat.eqb (length groups) 0)) ;
  do numbers <- mapM (fun g => omap c_numbers (at_or_ub (g_channels g) 0 "front() of an empty vector")) groups ;
  foldM (fun _ reference => check (negb (Nat.ltb 1
    (count (fun current => same_Jpi current reference) numbers)))) numbers tt.
(** CompoundSystem/src/ctor.hpp:6-20 *)
Definition makeSystem (groups : list group) : outcome (list group) :=
  do _ <- verifySpinGroups groups ; Ok groups.
Definition makeSystemFromData (data : list channel_data) : outcome (list group) :=
  do groups <- makeSpinGroups data ; makeSystem groups.

(** One spin of src/makeParticleChannelData.hpp:42-66 *)
Definition consolidateOne (eliminated : list channel_data) : outcome channel_data :=
  match eliminated with
  | [] => UB "front() of an empty range"
  | [d] => Ok d
  | d :: _ => makeChannelData (cd_channel d) (concat (map cd_energies eliminated))
                              (concat (map cd_widths eliminated)) true
  end.
(** src/makeParticleChannelData.hpp:1-70 *)
Definition consolidateChannelData (data : list channel_data) : outcome (list channel_data) :=
  let remaining := filter cd_eliminated data in
  do eliminated <- mapM (fun j => consolidateOne (filter (hasJpi j) remaining))
                        (sortUniqueJpi (map getJpi remaining)) ;
  Ok (filter (fun d => negb (cd_eliminated d)) data ++ eliminated).
