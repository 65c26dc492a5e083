(** The resonance parameters of the R-Matrix Limited format: what becomes of each width of the
    file, without the model's helpers. *)
From Coq Require Import String List ZArith Reals Bool.
From Verif Require Import Outcome QuantumModel HardSphereModel KinematicsModel CoulombModel RMatrixModel ChannelModel
  AssemblyModel AssemblySpec EndfModel EndfSpec.
Import ListNotations.
Open Scope R_scope.

(** The file has the width [w] for the resonance at [e] in the i-th channel of the spin group *)
Definition given (g : endf_group) (i : nat) (e w : R) : Prop :=
  eg_NRS g <> 0%nat /\
  exists k row, nth_error (eg_ER g) k = Some e /\ nth_error (eg_GAM g) k = Some row /\ nth_error row i = Some w.
(** The i-th channel of a group, described by its entry and by the MT number at its position *)
Definition channel_at (inc : particlePair) (pairs : list particlePair) (es : list endf_pair) (g : endf_group) (i : nat) (c : channel) : Prop :=
  exists ec x, nth_error (eg_channels g) i = Some ec /\ nth_error es i = Some x /\ described inc pairs es g ec (ep_MT x) c.
(** The number the table has for it: the width itself if the file has reduced widths (IFG is
    not zero), the reduced width otherwise *)
Definition stored (penetrability : channel -> R -> outcome (option R)) (ifg : Z) (c : channel) (e w gamma : R) : Prop :=
  (ifg <> 0%Z -> gamma = w) /\
  (ifg = 0%Z -> exists p, penetrability c e = Ok (Some p) /\ 0 < p /\ reduced p w gamma).
Definition pair_of (pairs : list particlePair) (e : endf_channel) (p : particlePair) : Prop :=
  exists n, ec_PPI e = S n /\ nth_error pairs n = Some p.
(** The first channel of the group whose pair has the identifier of the capture pair *)
Definition removed (pairs : list particlePair) (es : list endf_pair) (g : endf_group) (i : nat) : Prop :=
  exists n capture, first_at 102%Z (map ep_MT es) n /\ nth_error pairs n = Some capture /\
    (exists e p, nth_error (eg_channels g) i = Some e /\ pair_of pairs e p /\ pp_id p = pp_id capture) /\
    forall k e p, (k < i)%nat -> nth_error (eg_channels g) k = Some e -> pair_of pairs e p -> pp_id p <> pp_id capture.
(** Two groups for one spin and parity *)
Definition same_state (g g' : endf_group) : Prop :=
  Z.abs (eg_AJ g) = Z.abs (eg_AJ g') /\ exists p, parity_of (eg_AJ g) (eg_PJ g) p /\ parity_of (eg_AJ g') (eg_PJ g') p.
(** No other group of the file has this spin and parity *)
Definition alone (gs : list endf_group) (g : endf_group) : Prop :=
  exists a b, gs = a ++ g :: b /\ forall g', In g' (a ++ b) -> ~ same_state g g'.
(** All channels of a group of the system have the spin and parity of the group of the file *)
Definition state_of (g : endf_group) (G : group) : Prop :=
  forall c, In c (g_channels G) -> qJ (c_numbers c) = Z.abs (eg_AJ g) /\ parity_of (eg_AJ g) (eg_PJ g) (qp (c_numbers c)).

(** A file that describes a system: the elastic and the capture pair are there, every group has
    its own spin and parity and an incident channel that is not the removed one, the
    identifiers of its channels are different, all pair numbers exist, every resonance has a
    width for every channel, and the penetrability is positive where it is divided out *)
Record well_formed (penetrability : channel -> R -> outcome (option R)) (f : endf_limited) (pairs : list particlePair) (inc : particlePair) : Prop := mkWellFormed
  { wf_elastic : exists n, first_at 2%Z (map ep_MT (el_pairs f)) n /\ nth_error pairs n = Some inc;
    wf_capture : In 102%Z (map ep_MT (el_pairs f));
    wf_groups : el_groups f <> [];
    wf_alone : forall g, In g (el_groups f) -> alone (el_groups f) g;
    wf_numbers : forall g e, In g (el_groups f) -> In e (eg_channels g) -> valid_number (el_pairs f) e;
    wf_widths : forall g row, In g (el_groups f) -> In row (eg_GAM g) -> (length (eg_channels g) <= length row)%nat;
    wf_incident : forall g, In g (el_groups f) -> exists i c, channel_at inc pairs (el_pairs f) g i c /\ pp_id (c_pair c) = pp_id inc /\
                                                        ~ removed pairs (el_pairs f) g i;
    wf_distinct : forall g i k c c', In g (el_groups f) -> channel_at inc pairs (el_pairs f) g i c -> channel_at inc pairs (el_pairs f) g k c' ->
                                     c_id c = c_id c' -> i = k;
    wf_penetrable : forall g i c e w, el_IFG f = 0%Z -> In g (el_groups f) -> channel_at inc pairs (el_pairs f) g i c -> given g i e w -> w <> 0 ->
                                      exists p, penetrability c e = Ok (Some p) /\ 0 < p }.
