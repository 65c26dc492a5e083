(** Channels, channel data, resonance tables and the construction of spin groups.
    Paths are relative to /repo/src/resonanceReconstruction/rmatrix. *)
From Coq Require Import String List ZArith Reals Bool.
From Verif Require Import Outcome QuantumModel SpinFactorModel HardSphereModel KinematicsModel
  CoulombModel RMatrixModel.
Import ListNotations.
Open Scope R_scope.

(** constexpr double pi, ../../resonanceReconstruction.hpp:65 *)
Definition pi_value : R := 3.141592653589793.

(** ChannelRadii.hpp:15-22: a number, or a table whose evaluation may throw outside its
    range (Table.hpp:36-44; the interpolation library is not modelled). *)
Inductive radius : Type := Fixed (a : R) | Tabulated (f : R -> outcome R).
Definition radius_at (r : radius) (energy : R) : outcome R :=
  match r with Fixed a => Ok a | Tabulated f => f energy end.
Record radii : Type := mkRadii { r_P : radius; r_S : radius; r_phi : radius }.
(** ChannelRadii/src/ctor.hpp:6-36, the three constructors *)
Definition radii1 (a : radius) : radii := mkRadii a a a.
Definition radii2 (true_ effective : radius) : radii := mkRadii true_ true_ effective.

(** Channel.hpp:11-21 together with the alternative of ParticleChannel.hpp:11-14 it is in *)
Record channel : Type := mkChannel
  { c_type : channel_type; c_id : string; c_reaction : reactionID;
    c_incident : particlePair; c_pair : particlePair; c_q : R; c_numbers : qnum;
    c_radii : radii; c_boundary : R }.

(** Channel/src/ctor.hpp:58-66 and 92-101; [name] is the symbol of the pair, or the
    replacement identifier *)
Definition makeChannel (t : channel_type) (incident pair : particlePair) (name : string)
    (q : R) (numbers : qnum) (r : radii) (boundary : R) : channel :=
  mkChannel t (makeChannelID name numbers) (makeReactionID incident pair)
            incident pair q numbers r boundary.

(** Channel.hpp:80-84 *)
Definition isIncidentChannel (c : channel) : bool :=
  String.eqb (pp_id (c_pair c)) (pp_id (c_incident c)).

(** Channel/src/ctor.hpp:29-33 *)
Definition spinFactor (c : channel) : R :=
  statisticalSpinFactor (qJ (c_numbers c)) (p_spin (pp_particle (c_pair c)))
                        (p_spin (pp_residual (c_pair c))).

Section Functions.
(** Physical constants and the Coulomb wave functions come from outside. *)
Variables (hbar epsilon0 : R) (cwf : nat -> R -> R -> outcome coulomb).

(** Channel/src/waveNumber.hpp:13-19; [None] is a number that is not finite *)
Definition channelWaveNumber (c : channel) (energy : R) : option R :=
  match pp_reduced (c_pair c), pp_ratio (c_incident c) with
  | Some mu, Some ratio => Some (waveNumber hbar mu ratio (c_q c) energy)
  | _, _ => None
  end.

(** Channel/src/belowThreshold.hpp:12-16; a comparison with NaN is false *)
Definition channelBelowThreshold (c : channel) (energy : R) : bool :=
  match pp_ratio (c_incident c) with
  | Some ratio => belowThreshold ratio (c_q c) energy
  | None => false
  end.

(** Channel/src/sommerfeldParameter.hpp:17-34 *)
Definition channelEta (c : channel) (energy : R) : option R :=
  let z := p_charge (pp_particle (c_pair c)) in
  let Z := p_charge (pp_residual (c_pair c)) in
  if Req_EM_T (z * Z) 0 then Some 0
  else match pp_reduced (c_pair c), channelWaveNumber c energy with
       | Some mu, Some k => sommerfeldParameter pi_value epsilon0 hbar z Z mu k
       | _, _ => None
       end.

(** The common shape of Channel/src/penetrability.hpp, shiftFactor.hpp and phaseShift.hpp:
    Sommerfeld parameter, wave number times radius, function of l.  Photon and fission
    channels ignore their arguments.  [Ok None] is a number that is not finite. *)
Definition channelFunction
    (f : channel_type -> nat -> R -> R -> outcome R) (c : channel) (rad : radius) (energy : R)
    : outcome (option R) :=
  let l := ql (c_numbers c) in
  do a <- radius_at rad energy ;
  match c_type c with
  | Photon | Fission => omap Some (f (c_type c) l 0 0)
  | Neutron | ChargedParticle =>
      match channelWaveNumber c energy, channelEta c energy with
      | Some k, Some eta => omap Some (f (c_type c) l (k * a) eta)
      | _, _ => Ok None
      end
  end.

Definition channelPenetrability (c : channel) (energy : R) : outcome (option R) :=
  channelFunction (calculatePenetrability cwf) c (r_P (c_radii c)) energy.
Definition channelShiftFactor (c : channel) (energy : R) : outcome (option R) :=
  channelFunction (calculateShiftFactor cwf) c (r_S (c_radii c)) energy.
Definition channelPhaseShift (c : channel) (energy : R) : outcome (option R) :=
  channelFunction (calculatePhaseShift cwf) c (r_phi (c_radii c)) energy.
(** Channel/src/coulombPhaseShift.hpp:7-12 *)
Definition channelCoulombShift (c : channel) (energy : R) : option R :=
  match c_type c with
  | Neutron | Photon | Fission => calculateCoulombPhaseShift (c_type c) (ql (c_numbers c)) 0
  | ChargedParticle =>
      match channelEta c energy with
      | Some eta => calculateCoulombPhaseShift (c_type c) (ql (c_numbers c)) eta
      | None => None
      end
  end.

(** The numbers SpinGroup/src/evaluate.hpp:12-21 asks a channel for.  The shift factor is
    only computed for the Constant boundary option. *)
Definition channelValues (b : boundary_option) (c : channel) (energy : R)
    : outcome (option values) :=
  do p <- channelPenetrability c energy ;
  do s <- match b with Constant => channelShiftFactor c energy | ShiftFactor => Ok (Some 0) end ;
  do phi <- channelPhaseShift c energy ;
  match p, s, phi, channelCoulombShift c energy with
  | Some p, Some s, Some phi, Some w =>
      Ok (Some (Values p s (c_boundary c) phi w (channelBelowThreshold c energy)))
  | _, _, _, _ => Ok None
  end.

(** The factor pi / k^2 g of SpinGroup/src/evaluate.hpp:24-32 *)
Definition channelFactor (c : channel) (energy : R) : option R :=
  match channelWaveNumber c energy with
  | None => None
  | Some k => option_map (fun x => x * spinFactor c) (fdiv pi_value (k * k))
  end.
End Functions.

(** ResonanceTable.hpp:7-9 *)
Record table : Type := mkTable { t_channels : list string; t_resonances : list resonance }.

(** throw std::exception() *)
Definition std_exception {A} : outcome A := Throw (RuntimeError "std::exception").
Definition check (b : bool) : outcome unit := if b then Ok tt else std_exception.

(** ResonanceTable/src/verifyTable.hpp:1-21 and ctor.hpp:15-21 *)
Definition makeTable (channels : list string) (rs : list resonance) : outcome table :=
  do _ <- foldM (fun _ r => check (Nat.eqb (length channels) (length (rs_widths r)))) rs tt ;
  Ok (mkTable channels rs).

(** SpinGroup.hpp:8-14 *)
Record group : Type := mkGroup
  { g_reactions : list reactionID; g_incident : list nat; g_channels : list channel;
    g_table : table }.

(** SpinGroup/src/makeReactionIdentifiers.hpp:1-19 *)
Definition makeReactionIdentifiers (channels : list channel) : outcome (list reactionID) :=
  match channels with
  | [] => UB "front() of an empty vector"
  | c :: _ => Ok (map c_reaction channels ++ [Transfer (pp_id (c_incident c)) "capture"])
  end.

(** SpinGroup/src/determineIncidentChannels.hpp:1-22; [start] is the distance of the
    iterator from begin() *)
Fixpoint determineIncident (start : nat) (channels : list channel) : list nat :=
  match channels with
  | [] => []
  | c :: r => if isIncidentChannel c then start :: determineIncident (S start) r
              else determineIncident (S start) r
  end.

Fixpoint count {A} (f : A -> bool) (l : list A) : nat :=
  match l with [] => 0%nat | x :: r => ((if f x then 1 else 0) + count f r)%nat end.

(** SpinGroup/src/verifyChannels.hpp:1-91 *)
Definition same_Jpi (a b : qnum) : bool := (qJ a =? qJ b)%Z && (qp a =? qp b)%Z.
Definition verifyChannels (channels : list channel) : outcome unit :=
  match channels with
  | [] => std_exception
  | first :: rest =>
      do _ <- check (negb (Nat.ltb
                (count (fun c => String.eqb (pp_id (c_incident c)) (pp_id (c_incident first)))
                       channels) (length channels))) ;
      do _ <- foldM (fun _ e => check (negb (Nat.ltb 1
                (count (fun c => String.eqb (c_id c) (c_id e)) channels)))) channels tt ;
      foldM (fun _ e => check (same_Jpi (c_numbers e) (c_numbers first))) rest tt
  end.

(** SpinGroup/src/verifyIncidentChannels.hpp:1-13 *)
Definition verifyIncidentChannels (indices : list nat) : outcome unit :=
  check (negb (Nat.eqb (length indices) 0)).

(** SpinGroup/src/verifyResonanceChannels.hpp:1-42 *)
Definition verifyResonanceChannels (channels : list channel) (t : table) : outcome unit :=
  do _ <- check (Nat.eqb (length channels) (length (t_channels t))) ;
  foldM (fun _ p => check (String.eqb (fst p) (snd p)))
        (combine (map c_id channels) (t_channels t)) tt.

(** SpinGroup/src/ctor.hpp:7-19; members are initialised in the order of SpinGroup.hpp:8-14,
    before the checks of the body *)
Definition makeGroup (channels : list channel) (t : table) : outcome group :=
  do reactions <- makeReactionIdentifiers channels ;
  let incident := determineIncident 0 channels in
  do _ <- verifyChannels channels ;
  do _ <- verifyIncidentChannels incident ;
  do _ <- verifyResonanceChannels channels t ;
  Ok (mkGroup reactions incident channels t).
