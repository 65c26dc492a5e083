(** What the assembly of spin groups has to do, without the model's helpers. *)
From Coq Require Import String List ZArith Reals Bool Sorted.
From Verif Require Import Outcome QuantumModel KinematicsModel RMatrixModel ChannelModel AssemblyModel GridSpec.
Import ListNotations.
Open Scope R_scope.

(** The (energy, width) pairs of a channel *)
Definition entries (d : channel_data) : list (R * R) := combine (cd_energies d) (cd_widths d).
(** What the class guarantees: as many widths as energies *)
Definition consistent (d : channel_data) : Prop := length (cd_energies d) = length (cd_widths d).
(** No energy twice *)
Definition distinct_energies (d : channel_data) : Prop := NoDup (cd_energies d).

(** [w] is the width of the channel at [e]: the one listed (the last one, should there be
    several), zero if none is *)
Definition width_at (d : channel_data) (e w : R) : Prop :=
  (exists a b, entries d = a ++ (e, w) :: b /\ ~ In e (map fst b)) \/ (~ In e (cd_energies d) /\ w = 0).

Definition ordinary (d : channel_data) : Prop := cd_eliminated d = false.
(** At most one channel is eliminated *)
Definition one_eliminated (data : list channel_data) : Prop :=
  (forall d, In d data -> ordinary d) \/
  exists a d b, data = a ++ d :: b /\ cd_eliminated d = true /\ forall x, In x (a ++ b) -> ordinary x.

(** The row of a table: widths of the ordinary channels in their order, and of the eliminated
    one *)
Inductive row (e : R) : list channel_data -> list R -> R -> Prop :=
| row_none data ws : Forall ordinary data -> Forall2 (fun d w => width_at d e w) data ws -> row e data ws 0
| row_one a d b ws vs x : cd_eliminated d = true -> Forall ordinary a -> Forall ordinary b ->
    Forall2 (fun d w => width_at d e w) a ws -> Forall2 (fun d w => width_at d e w) b vs -> width_at d e x ->
    row e (a ++ d :: b) (ws ++ vs) x.

Record faithful_table (data : list channel_data) (t : table) : Prop := mkFaithful
  { ft_increasing : increasing (map rs_energy (t_resonances t));
    ft_energies : forall e, In e (map rs_energy (t_resonances t)) <-> exists d, In d data /\ In e (cd_energies d);
    ft_rows : forall r, In r (t_resonances t) -> row (rs_energy r) data (rs_widths r) (rs_eliminated r) }.

(** Lexicographic order of J and parity *)
Definition Jpi_lt (a b : Jpi) : Prop := (fst a < fst b \/ fst a = fst b /\ snd a < snd b)%Z.
Definition Jpi_of (q : qnum) : Jpi := (qJ q, qp q).

(** The data of one J and parity, and the channels the group is made of *)
Definition of_Jpi (j : Jpi) (data : list channel_data) : list channel_data :=
  filter (fun d => (qJ (c_numbers (cd_channel d)) =? fst j)%Z && (qp (c_numbers (cd_channel d)) =? snd j)%Z) data.
Definition ordinary_channels (data : list channel_data) : list channel :=
  map cd_channel (filter (fun d => negb (cd_eliminated d)) data).
Definition eliminated_data (data : list channel_data) : list channel_data := filter cd_eliminated data.

(** What makes a spin group of data with one J and parity *)
Definition acceptable_data (data : list channel_data) : Prop :=
  one_eliminated data /\
  (forall c c', In c (ordinary_channels data) -> In c' (ordinary_channels data) ->
     pp_id (c_incident c) = pp_id (c_incident c')) /\
  NoDup (map c_id (ordinary_channels data)) /\
  exists c, In c (ordinary_channels data) /\ pp_id (c_pair c) = pp_id (c_incident c).

(** The consolidated list *)
Record consolidated (data out : list channel_data) : Prop := mkConsolidated
  { co_consistent : forall d, In d out -> consistent d;
    co_ordinary : filter (fun d => negb (cd_eliminated d)) out = filter (fun d => negb (cd_eliminated d)) data;
    co_last : exists es, out = filter (fun d => negb (cd_eliminated d)) data ++ es /\ forall d, In d es -> cd_eliminated d = true;
    co_sorted : StronglySorted Jpi_lt (map (fun d => Jpi_of (c_numbers (cd_channel d))) (eliminated_data out));
    co_entries : forall j, concat (map entries (of_Jpi j (eliminated_data out))) =
                           concat (map entries (of_Jpi j (eliminated_data data)));
    co_channels : forall d, In d (eliminated_data out) -> exists d', In d' (eliminated_data data) /\ cd_channel d = cd_channel d' }.
