(** The widths of the R-Matrix Limited format in the tables of the spin groups, and the
    interpolation of radius tables: C78. *)
From Coq Require Import String List ZArith Reals Bool Lra Lia.
From Verif Require Import Outcome QuantumModel HardSphereModel KinematicsModel CoulombModel RMatrixModel ChannelModel
  AssemblyModel AssemblySpec EndfModel EndfSpec EndfProperties LimitedSpec LimitedProofs LimitedTheorems LimitedAcceptProofs LimitedCases.
Import ListNotations.
Open Scope R_scope.

(** Every width that is not zero is in the table of the group with its spin and parity, in the
    row of its energy and in the column of its channel; the capture width is the eliminated
    one.  Every resonance, width and channel comes from the file, and incident channels are
    there even without widths. *)
Theorem C78_widths hbar epsilon0 cwf nm ec incident target products f gs :
  makeCompoundSystem hbar epsilon0 cwf nm ec incident target products f = Ok (Some gs) ->
  let pen := channelPenetrability hbar epsilon0 cwf in
  let es := el_pairs f in
  exists pairs inc, makeParticlePairs nm ec incident target products es = Ok pairs /\
    (exists n, first_at 2%Z (map ep_MT es) n /\ nth_error pairs n = Some inc) /\
    (forall g i e w, In g (el_groups f) -> NoDup (eg_ER g) -> (i < length (eg_channels g))%nat -> (i < length es)%nat -> given g i e w -> w <> 0 ->
       exists c gamma G r, channel_at inc pairs es g i c /\ stored pen (el_IFG f) c e w gamma /\
         In G gs /\ state_of g G /\ In r (t_resonances (g_table G)) /\ rs_energy r = e /\
         (~ removed pairs es g i -> exists k, nth_error (g_channels G) k = Some c /\ nth_error (rs_widths r) k = Some gamma) /\
         (removed pairs es g i -> alone (el_groups f) g -> rs_eliminated r = gamma)) /\
    (forall G r, In G gs -> In r (t_resonances (g_table G)) ->
       (exists g i w, In g (el_groups f) /\ state_of g G /\ given g i (rs_energy r) w /\ w <> 0) /\
       length (rs_widths r) = length (g_channels G) /\
       (forall k c gamma, nth_error (g_channels G) k = Some c -> nth_error (rs_widths r) k = Some gamma -> gamma <> 0 ->
          exists g i w, In g (el_groups f) /\ channel_at inc pairs es g i c /\ ~ removed pairs es g i /\ given g i (rs_energy r) w /\
            stored pen (el_IFG f) c (rs_energy r) w gamma) /\
       (rs_eliminated r <> 0 ->
          exists g i c w, In g (el_groups f) /\ state_of g G /\ channel_at inc pairs es g i c /\ removed pairs es g i /\ given g i (rs_energy r) w /\
            stored pen (el_IFG f) c (rs_energy r) w (rs_eliminated r))) /\
    (forall G c, In G gs -> In c (g_channels G) -> exists g i, In g (el_groups f) /\ channel_at inc pairs es g i c /\
       (pp_id (c_pair c) = pp_id inc \/ exists e w, given g i e w /\ w <> 0)) /\
    (forall g i c, In g (el_groups f) -> channel_at inc pairs es g i c -> pp_id (c_pair c) = pp_id inc -> ~ removed pairs es g i ->
       exists G, In G gs /\ state_of g G /\ In c (g_channels G)).
Proof. exact (limited_system hbar epsilon0 cwf nm ec incident target products f gs). Qed.
Print Assumptions C78_widths.
Theorem C78_accepts hbar epsilon0 cwf nm ec incident target products f pairs inc :
  makeParticlePairs nm ec incident target products (el_pairs f) = Ok pairs ->
  well_formed (channelPenetrability hbar epsilon0 cwf) f pairs inc ->
  exists gs, makeCompoundSystem hbar epsilon0 cwf nm ec incident target products f = Ok (Some gs).
Proof. exact (accepted_file hbar epsilon0 cwf nm ec incident target products f pairs inc). Qed.
Print Assumptions C78_accepts.
(** A file with widths (IFG 0) and with reduced widths (IFG 1): it is accepted, so C78_widths
    applies to it; two of its widths, one of an ordinary and one of the removed channel *)
Example C78_case epsilon0 cwf ifg : exists pairs inc gs, makeParticlePairs 1 1 "n" "U235" ex_products li_pairs = Ok pairs /\
  well_formed (channelPenetrability 1 epsilon0 cwf) (li_file ifg) pairs inc /\
  makeCompoundSystem 1 epsilon0 cwf 1 1 "n" "U235" ex_products (li_file ifg) = Ok (Some gs) /\
  In li_first (el_groups (li_file ifg)) /\ NoDup (eg_ER li_first) /\ alone (el_groups (li_file ifg)) li_first /\
  given li_first 1 10 2 /\ ~ removed pairs li_pairs li_first 1 /\ given li_first 0 20 3 /\ removed pairs li_pairs li_first 0.
Proof.
  destruct li_made as (pairs & cap & E & -> & Hc). pose proof (li_well_formed epsilon0 cwf cap Hc ifg) as W.
  destruct (C78_accepts 1 epsilon0 cwf 1 1 "n" "U235" ex_products (li_file ifg) _ _ E W) as (gs & Eg).
  exists [cap; ex_inc], ex_inc, gs. split; [exact E|]. split; [exact W|]. split; [exact Eg|]. split; [left; reflexivity|].
  destruct li_given as (A & B & C). split; [exact C|]. split; [exact (wf_alone _ _ _ _ W li_first (or_introl eq_refl))|]. split; [exact A|].
  split; [rewrite (li_removed cap li_first 1 (or_introl eq_refl)); discriminate|]. split; [exact B|]. apply (li_removed cap li_first 0 (or_introl eq_refl)). reflexivity.
Qed.

(** Radius tables with an interpolation the library has are made of all regions, and any other
    type is refused *)
Theorem C78_interpolation hbar epsilon0 cwf nm ec incident target products multiRegion initial :
  (forall regions, (forall x, In x regions -> (1 <= snd x <= 5)%Z) ->
     makeChannelRadiusTable multiRegion (Some regions) = omap Some (multiRegion regions)) /\
  (forall r regions x, er_radius r = Some regions -> In x regions -> ~ (1 <= snd x <= 5)%Z ->
     fromENDF hbar epsilon0 cwf nm ec incident target products multiRegion initial r = Throw (RuntimeError "You somehow reached unreachable code")).
Proof. exact (conj (table_regions multiRegion) (table_refused hbar epsilon0 cwf nm ec incident target products multiRegion initial)). Qed.
Print Assumptions C78_interpolation.
Example C78_interpolation_case : (forall x, In x [([(1, 2)], 2%Z); ([(3, 4)], 5%Z)] -> (1 <= snd x <= 5)%Z) /\
  exists r, er_radius r = Some [([(1, 2); (3, 4)], 2%Z); ([(5, 6)], 6%Z)].
Proof.
  split; [intros x [<-|[<-|[]]]; cbn; lia|]. exists (mkERange 0 1 1 7 1 (Some [([(1, 2); (3, 4)], 2%Z); ([(5, 6)], 6%Z)]) (ParametersLimited (li_file 1))). reflexivity.
Qed.
