(** What a spin group evaluation has to deliver. *)
From Coq Require Import Reals Ascii String BinNums.
From mathcomp Require Import all_ssreflect all_algebra.
From Verif Require Import Outcome KinematicsModel CoulombModel Cplx RMatrixModel RMatrixSpec ChannelModel
  SpinGroupModel.
Set Implicit Arguments.
Unset Strict Implicit.
Unset Printing Implicit Defensive.
Local Open Scope ring_scope.

Section Group.
Variable (g : group).
Notation n := (gsize g).
Definition dummy_channel : channel :=
  let p := mkParticle EmptyString 0%re 0%re Z0 Z0 in
  let pp := makeParticlePair p p EmptyString in
  mkChannel HardSphereModel.Fission EmptyString (Elastic EmptyString EmptyString) pp pp 0%re
    (QuantumModel.mkQ 0 Z0 Z0 Z0) (radii1 (Fixed 0%re)) 0%re.
Definition chan (i : 'I_n) : channel := nth dummy_channel (g_channels g) i.
Definition capture_id : reactionID :=
  Transfer (pp_id (c_incident (head dummy_channel (g_channels g)))) "capture".

(** sum over the incident channels c of |delta exp(i w) - U_cj|^2 over the channels j that
    lead to reaction k, and of 1 - sum_j |U_cj|^2 for capture *)
Definition contribution (vs : seq values) (A : 'M[cx]_n) (factor : R) (k : reactionID) : R :=
  (factor * \big[Rplus/0]_(c | isIncidentChannel (chan c))
     (\big[Rplus/0]_(j | c_reaction (chan j) == k)
         norm2 ((if j == c then cis (v_w (val_of vs c)) else 0%R) - U_spec vs A c j)%R
      + (if k == capture_id then 1 - \big[Rplus/0]_j norm2 (U_spec vs A c j) else 0)))%re.

(** the keys written to *)
Definition written (k : reactionID) : bool :=
  (k == capture_id) || has (fun c => c_reaction c == k) (g_channels g).

(** adding [x k] to what [m] holds under the keys written to, leaving the others alone *)
Definition added (keys : reactionID -> bool) (x : reactionID -> R) (m m' : reaction_map) : Prop :=
  forall k, m' k = if keys k then Some (odflt 0%re (m k) + x k)%re else m k.
End Group.

(** A spin group as a user makes it: a resonance table, then the group. *)
Definition constructed (channels : seq channel) (rs : seq resonance) (g : group) : Prop :=
  exists cs t, makeTable cs rs = Ok t /\ makeGroup channels t = Ok g.
(** What the two constructors accept. *)
Definition acceptable_table (cs : seq string) (rs : seq resonance) : Prop :=
  forall r, List.In r rs -> size (rs_widths r) = size cs.
Definition acceptable_group (channels : seq channel) (t : table) : Prop :=
  (forall c c', List.In c channels -> List.In c' channels ->
     pp_id (c_incident c) = pp_id (c_incident c')) /\
  List.NoDup (List.map c_id channels) /\
  (forall c c', List.In c channels -> List.In c' channels ->
     QuantumModel.qJ (c_numbers c) = QuantumModel.qJ (c_numbers c') /\
     QuantumModel.qp (c_numbers c) = QuantumModel.qp (c_numbers c')) /\
  (exists c, List.In c channels /\ pp_id (c_pair c) = pp_id (c_incident c)) /\
  t_channels t = List.map c_id channels.

(** what the map gained in total over the keys the group writes to *)
Definition gained (g : group) (m m' : reaction_map) : R :=
  \big[Rplus/0%re]_(k <- undup (g_reactions g)) (odflt 0 (m' k) - odflt 0 (m k))%re.

(** the incident channel whose wave number and spin factor are used *)
Definition first_incident (g : group) : channel := nth dummy_channel (g_channels g) (head 0%N (g_incident g)).

(** identifiers without '>', so that "a->b" can be taken apart *)
Definition arrow_free (s : string) : Prop := forall i, String.get i s <> Some ">"%char.

(** a neutron, photon or fission channel the code can evaluate at this energy *)
Definition tame (energy : R) (c : channel) : Prop :=
  match c_type c with
  | HardSphereModel.Photon | HardSphereModel.Fission =>
      (exists a, c_radii c = radii1 (Fixed a)) \/
      (exists a a', c_radii c = radii2 (Fixed a) (Fixed a'))
  | HardSphereModel.Neutron =>
      (QuantumModel.ql (c_numbers c) <= 4)%N /\
      (p_charge (pp_particle (c_pair c)) * p_charge (pp_residual (c_pair c)) = 0)%re /\
      (exists mu ratio, pp_reduced (c_pair c) = Some mu /\ (0 < mu)%re /\
         pp_ratio (c_incident c) = Some ratio /\ (energy * ratio + c_q c <> 0)%re) /\
      exists a a', c_radii c = radii2 (Fixed a) (Fixed a') /\ (0 < a)%re /\ (0 < a')%re
  | HardSphereModel.ChargedParticle => False
  end.
Definition neutral_channels (energy : R) (g : group) : Prop :=
  forall c, List.In c (g_channels g) -> tame energy c.

Section Evaluation.
Variables (hbar epsilon0 : R) (cwf : nat -> R -> R -> outcome coulomb) (b : boundary_option).
Notation evalG := (@evaluateGroup hbar epsilon0 cwf b).
(** What an evaluation that went through was made of *)
Definition evaluated (rs : seq resonance) (g : group) (energy : R) (vs : seq values)
    (A : 'M[cx]_(gsize g)) (factor : R) : Prop :=
  groupValues hbar epsilon0 cwf b g energy = Ok (Some vs) /\
  channelFactor hbar (first_incident g) energy = Some factor /\
  is_RL b energy rs vs A.

(* what a caller sees of a sequence of evaluate calls on one object, each with a map of its own *)
Definition seen (g : group) (energies : seq R) (s0 : cache (gsize g)) (m : reaction_map)
    : seq (outcome (option reaction_map)) :=
  (fix go es (s : cache (gsize g)) :=
    match es with
    | [::] => [::]
    | e :: r => let o := evalG e s m in
        Outcome.omap (ssrfun.omap snd) o ::
        go r (match o with Ok (Some (s', _)) => s' | _ => s end)
    end) energies s0.
End Evaluation.
