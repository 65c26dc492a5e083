(** Resonance tables, spin groups and compound systems from channel data: C27 to C30, the
    channel data part of C14 and the channel part of C05. *)
From Coq Require Import String List ListDec ZArith Reals Bool Sorted Lra Lia Permutation.
From Verif Require Import Outcome QuantumModel SpinFactorModel QuantumSpec SpinFactorProofs HardSphereModel KinematicsModel
  RMatrixModel ChannelModel SpinGroupModel SpinGroupExample GridSpec AssemblyModel AssemblySpec AssemblyProofs AssemblyTheorems.
Import ListNotations.
Open Scope R_scope.

(** A capture channel, and data for elastic scattering, fission and capture *)
Definition ex_capture := makeChannel Photon ex_pair (makeParticlePair ex_neutron ex_target "capture") "capture" 0
  (mkQ 0 0 6 (-1)) (radii1 (Fixed 0)) 0.
Definition ex_elastic_data := mkChannelData ex_elastic [20; 10] [1; 2] false.
Definition ex_fission_data := mkChannelData ex_fission [30] [3] false.
Definition ex_capture_data := mkChannelData ex_capture [10; 20] [4; 5] true.
Definition ex_capture_more := mkChannelData ex_capture [10] [6] true.
Definition ex_data := [ex_elastic_data; ex_capture_data; ex_fission_data].

Lemma ex_consistent d : In d ex_data -> consistent d.
Proof. intros [<-|[<-|[<-|[]]]]; reflexivity. Qed.
Lemma ex_distinct d : In d ex_data -> distinct_energies d.
Proof.
  unfold distinct_energies. intros [<-|[<-|[<-|[]]]]; cbn [cd_energies ex_elastic_data ex_capture_data ex_fission_data];
    repeat constructor; cbn [In]; intros H; repeat destruct H as [H|H]; lra || contradiction.
Qed.
Lemma ex_one : one_eliminated ex_data.
Proof. right. exists [ex_elastic_data], ex_capture_data, [ex_fission_data]. split; [reflexivity|]. split; [reflexivity|]. intros x [<-|[<-|[]]]; reflexivity. Qed.
Lemma ex_acceptable : acceptable_data ex_data.
Proof.
  split; [exact ex_one|]. split; [intros c c' [<-|[<-|[]]] [<-|[<-|[]]]; reflexivity|]. split.
  - cbn. repeat constructor; cbn [In]; intros H; repeat destruct H as [H|H]; discriminate || contradiction.
  - exists ex_elastic. split; [left|]; reflexivity.
Qed.

(** * C05: the factors of the channels *)
Theorem C05_channel_sum p l lmax qs t name q r b : is_spin (p_spin (pp_particle p)) -> is_spin (p_spin (pp_residual p)) -> (l < lmax)%nat ->
  makeQuantumNumbers (p_spin (pp_particle p)) (p_spin (pp_residual p)) lmax = Ok qs ->
  Rsum (map (fun n => spinFactor (makeChannel t p p name q n r b)) (filter (fun n => Nat.eqb (ql n) l) qs)) = 2 * INR l + 1.
Proof. exact (spin_factor_sum (p_spin (pp_particle p)) (p_spin (pp_residual p)) lmax l qs). Qed.
Print Assumptions C05_channel_sum.
Example C05_channel_case : is_spin (p_spin (pp_particle ex_pair)) /\ is_spin (p_spin (pp_residual ex_pair)) /\
  exists qs, makeQuantumNumbers (p_spin (pp_particle ex_pair)) (p_spin (pp_residual ex_pair)) 2 = Ok qs /\ length qs = 8%nat.
Proof. split; [unfold is_spin; cbn; lia|]. split; [unfold is_spin; cbn; lia|]. eexists. split; [vm_compute; reflexivity | reflexivity]. Qed.

(** * C14: channel data *)
Theorem C14_channel_data c es ws e :
  (length es = length ws -> makeChannelData c es ws e = Ok (mkChannelData c es ws e)) /\
  (length es <> length ws -> makeChannelData c es ws e = Throw (RuntimeError "std::exception")).
Proof. exact (channel_data_accepts c es ws e). Qed.
Print Assumptions C14_channel_data.
Example C14_channel_data_case : makeChannelData ex_elastic [1; 2] [3] false = Throw (RuntimeError "std::exception").
Proof. reflexivity. Qed.

(** * C27 *)
(** One row per energy, in increasing order, every channel's width in its column ... *)
Theorem C27_table data : (forall d, In d data -> consistent d) -> one_eliminated data ->
  exists t, makeResonanceTable data = Ok t /\ faithful_table data t /\
    t_channels t = map c_id (ordinary_channels data).
Proof. exact (table_made data). Qed.
Print Assumptions C27_table.
(** ... where no energy is listed twice by a channel all given widths are there, and zeros
    elsewhere ... *)
Theorem C27_complete data t : (forall d, In d data -> consistent d) -> (forall d, In d data -> distinct_energies d) ->
  one_eliminated data -> makeResonanceTable data = Ok t ->
  (forall d e w, In d data -> In (e, w) (entries d) -> exists r, In r (t_resonances t) /\ rs_energy r = e) /\
  forall r, In r (t_resonances t) ->
    length (rs_widths r) = length (ordinary_channels data) /\
    (forall k d, nth_error (filter (fun d => negb (cd_eliminated d)) data) k = Some d ->
       (forall w, In (rs_energy r, w) (entries d) -> nth_error (rs_widths r) k = Some w) /\
       (~ In (rs_energy r) (cd_energies d) -> nth_error (rs_widths r) k = Some 0)) /\
    (forall d, In d data -> cd_eliminated d = true ->
       (forall w, In (rs_energy r, w) (entries d) -> rs_eliminated r = w) /\
       (~ In (rs_energy r) (cd_energies d) -> rs_eliminated r = 0)) /\
    ((forall d, In d data -> ordinary d) -> rs_eliminated r = 0).
Proof. exact (table_made_complete data t). Qed.
Print Assumptions C27_complete.
(** ... and two eliminated channels are refused. *)
Theorem C27_throws data : ~ one_eliminated data -> makeResonanceTable data = Throw (RuntimeError "std::exception").
Proof. exact (resonance_table_throws data). Qed.
Print Assumptions C27_throws.
Example C27_case : (forall d, In d ex_data -> consistent d) /\ (forall d, In d ex_data -> distinct_energies d) /\ one_eliminated ex_data /\
  ~ one_eliminated [ex_capture_data; ex_capture_more].
Proof.
  split; [exact ex_consistent|]. split; [exact ex_distinct|]. split; [exact ex_one|]. rewrite one_eliminated_count. cbn. lia.
Qed.
(** An energy listed twice: the first width is lost *)
Theorem C27_lost_refuted : exists data t d e w, (forall d, In d data -> consistent d) /\ one_eliminated data /\
  makeResonanceTable data = Ok t /\ In d data /\ In (e, w) (entries d) /\
  forall r, In r (t_resonances t) -> ~ In w (rs_widths r) /\ rs_eliminated r <> w.
Proof. exact (table_loses ex_elastic). Qed.
Print Assumptions C27_lost_refuted.

(** * C28 *)
(** A system is made exactly of data that is acceptable for every J and parity ... *)
Theorem C28_system data : (forall d, In d data -> consistent d) ->
  (data <> [] /\ forall j, of_Jpi j data <> [] -> acceptable_data (of_Jpi j data)) <-> exists gs, makeSystemFromData data = Ok gs.
Proof. exact (system_iff data). Qed.
Print Assumptions C28_system.
(** ... and then there is one group for every J and parity, in increasing order, made of the
    channels with that J and parity and of their resonances ... *)
Theorem C28_groups data gs : (forall d, In d data -> consistent d) -> makeSystemFromData data = Ok gs ->
  exists js, StronglySorted Jpi_lt js /\ (forall j, In j js <-> of_Jpi j data <> []) /\
    Forall2 (fun j g => g_channels g = ordinary_channels (of_Jpi j data) /\ faithful_table (of_Jpi j data) (g_table g)) js gs.
Proof. exact (system_groups data gs). Qed.
Print Assumptions C28_groups.
(** ... so every channel is in exactly one group, the one of its J and parity. *)
Theorem C28_partition data gs : (forall d, In d data -> consistent d) -> makeSystemFromData data = Ok gs ->
  Permutation (concat (map g_channels gs)) (ordinary_channels data) /\
  exists js, StronglySorted Jpi_lt js /\ Forall2 (fun j g => forall c, In c (g_channels g) -> Jpi_of (c_numbers c) = j) js gs.
Proof. exact (system_partition data gs). Qed.
Print Assumptions C28_partition.
(** Groups given as such are refused if there are none or if two have the same J and parity *)
Theorem C28_verify gs : (forall g, In g gs -> g_channels g <> []) ->
  (gs <> [] /\ NoDup (map (fun g => match g_channels g with c :: _ => Jpi_of (c_numbers c) | [] => (0, 0)%Z end) gs) <->
     makeSystem gs = Ok gs) /\
  (makeSystem gs = Ok gs \/ makeSystem gs = Throw (RuntimeError "std::exception")).
Proof. exact (system_accepts gs). Qed.
Print Assumptions C28_verify.
Example C28_case : (forall d, In d ex_data -> consistent d) /\ exists gs, makeSystemFromData ex_data = Ok gs.
Proof.
  split; [exact ex_consistent|]. apply C28_system; [exact ex_consistent|]. split; [discriminate|]. intros j Hj.
  assert (E : of_Jpi j ex_data = ex_data \/ of_Jpi j ex_data = []).
  { unfold of_Jpi, ex_data. cbn [filter cd_channel ex_elastic_data ex_capture_data ex_fission_data].
    change (c_numbers ex_elastic) with (mkQ 0 7 6 (-1)). change (c_numbers ex_capture) with (mkQ 0 0 6 (-1)). change (c_numbers ex_fission) with (mkQ 0 0 6 (-1)).
    cbn [qJ qp]. destruct (6 =? fst j)%Z, (-1 =? snd j)%Z; auto. }
  destruct E as [-> | E]; [exact ex_acceptable | contradiction].
Qed.
(** Data with an eliminated channel only is not refused: front() of an empty vector is read *)
Theorem C28_only_eliminated_refuted : exists data, (forall d, In d data -> consistent d) /\ data <> [] /\
  makeSystemFromData data = UB "front() of an empty vector".
Proof. exists [mkChannelData ex_capture [] [] true]. split; [intros d [<-|[]]; reflexivity|]. split; [discriminate | reflexivity]. Qed.
Print Assumptions C28_only_eliminated_refuted.

(** * C29 *)
Theorem C29_consolidate data : (forall d, In d data -> consistent d) ->
  exists out, consolidateChannelData data = Ok out /\ consolidated data out /\
    Permutation (concat (map entries (eliminated_data out))) (concat (map entries (eliminated_data data))).
Proof. exact (consolidate_all data). Qed.
Print Assumptions C29_consolidate.
Theorem C29_idempotent data out : (forall d, In d data -> consistent d) ->
  consolidateChannelData data = Ok out -> consolidateChannelData out = Ok out.
Proof. exact (consolidate_idempotent data out). Qed.
Print Assumptions C29_idempotent.
Example C29_case : (forall d, In d (ex_data ++ [ex_capture_more]) -> consistent d) /\
  consolidateChannelData (ex_data ++ [ex_capture_more]) =
    Ok [ex_elastic_data; ex_fission_data; mkChannelData ex_capture [10; 20; 10] [4; 5; 6] true].
Proof. split; [|reflexivity]. intros d Hd. apply in_app_or in Hd as [Hd|[<-|[]]]; [exact (ex_consistent d Hd) | reflexivity]. Qed.

(** * C30 *)
Theorem C30_tables data out : (forall d, In d data -> consistent d) -> consolidateChannelData data = Ok out ->
  forall j, exists t, makeResonanceTable (of_Jpi j out) = Ok t /\ faithful_table (of_Jpi j out) t.
Proof. exact (consolidated_tables data out). Qed.
Print Assumptions C30_tables.
(** The system can only be refused for what its ordinary channels are *)
Theorem C30_system data out : (forall d, In d data -> consistent d) -> consolidateChannelData data = Ok out ->
  (out <> [] /\ forall j, of_Jpi j out <> [] ->
     let cs := ordinary_channels (of_Jpi j data) in
     (forall c c', In c cs -> In c' cs -> pp_id (c_incident c) = pp_id (c_incident c')) /\ NoDup (map c_id cs) /\
     exists c, In c cs /\ pp_id (c_pair c) = pp_id (c_incident c)) <-> exists gs, makeSystemFromData out = Ok gs.
Proof. exact (consolidated_system data out). Qed.
Print Assumptions C30_system.
Example C30_case : ~ one_eliminated (ex_data ++ [ex_capture_more]) /\ exists out, consolidateChannelData (ex_data ++ [ex_capture_more]) = Ok out.
Proof. split; [rewrite one_eliminated_count; cbn; lia | eexists; reflexivity]. Qed.
(** Eliminated channels with resonances at the same energy: consolidation keeps both widths,
    the table only the last one *)
Theorem C30_lost_refuted : exists data out t d e w, (forall d, In d data -> consistent d /\ distinct_energies d) /\
  consolidateChannelData data = Ok out /\ makeResonanceTable out = Ok t /\ In d data /\ In (e, w) (entries d) /\
  forall r, In r (t_resonances t) -> ~ In w (rs_widths r) /\ rs_eliminated r <> w.
Proof. exact (consolidation_loses ex_elastic ex_capture). Qed.
Print Assumptions C30_lost_refuted.
