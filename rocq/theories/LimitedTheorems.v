(** From the R-Matrix Limited format to the tables of the spin groups. *)
From Coq Require Import String List ZArith Reals Bool Lra Lia Permutation Sorted.
From Verif Require Import Outcome ListFacts QuantumModel HardSphereModel KinematicsModel CoulombModel RMatrixModel ChannelModel BreitWignerModel
  AssemblyModel AssemblySpec AssemblyProofs AssemblyTheorems EndfModel EndfSpec EndfProofs LimitedSpec LimitedProofs.
Import ListNotations.
Open Scope R_scope.

Section Limited.
Variables (hbar epsilon0 : R) (cwf : nat -> R -> R -> outcome coulomb).
Variables (nm ec : R) (incident target : string) (products : Z -> outcome (string * string)).
Notation pen := (channelPenetrability hbar epsilon0 cwf).
Notation system := (makeCompoundSystem hbar epsilon0 cwf nm ec incident target products).

(** The steps of the function *)
Definition reads (f : endf_limited) (pairs : list particlePair) (inc : particlePair) (ds : list (list channel_data)) : Prop :=
  makeParticlePairs nm ec incident target products (el_pairs f) = Ok pairs /\
  nth_error pairs (incidentIndex (el_pairs f)) = Some inc /\
  Forall2 (fun g d => makeParticleChannelData hbar epsilon0 cwf inc pairs (el_pairs f) (negb (el_IFG f =? 0)%Z) g = Ok (Some d)) (el_groups f) ds.
Definition assembled (f : endf_limited) (pairs : list particlePair) (inc : particlePair) (ds : list (list channel_data))
    (out : list channel_data) (gs : list group) : Prop :=
  reads f pairs inc ds /\ consolidateChannelData (concat ds) = Ok out /\ makeSystemFromData out = Ok gs.
Lemma steps f gs : system f = Ok (Some gs) <-> exists pairs inc ds out, assembled f pairs inc ds out gs.
Proof.
  unfold makeCompoundSystem, assembled, reads. split.
  - intros H. apply bind_Ok in H as (pairs & Ep & H). apply bind_Ok in H as (inc & Ei & H). apply bind_Ok in H as (ods & Ed & H).
    destruct (all_finite ods) as [ds|] eqn:Ef; [|discriminate]. apply bind_Ok in H as (out & Eo & H).
    apply all_finite_Some in Ef. subst ods. apply mapM_Ok in Ed. exists pairs, inc, ds, out. split; [split; [exact Ep|]; split|].
    + unfold at_or_ub in Ei. destruct (nth_error pairs _); [congruence | discriminate].
    + clear -Ed. revert ds Ed. induction (el_groups f) as [|g l IH]; intros [|d ds] F; cbn in F; inversion F; subst; constructor; [assumption | apply IH; assumption].
    + split; [exact Eo|]. destruct (makeSystemFromData out) as [gs'| | |]; try discriminate. cbn in H. congruence.
  - intros (pairs & inc & ds & out & (Ep & Ei & F) & Eo & Es). rewrite Ep. cbn [bind]. unfold at_or_ub. rewrite Ei. cbn [bind].
    assert (Ed : mapM (makeParticleChannelData hbar epsilon0 cwf inc pairs (el_pairs f) (negb (el_IFG f =? 0)%Z)) (el_groups f) = Ok (map Some ds)).
    { apply mapM_Ok. clear -F. induction F; constructor; assumption. }
    rewrite Ed. cbn [bind]. rewrite (proj2 (all_finite_Some (map Some ds) ds) eq_refl), Eo. cbn [bind]. rewrite Es. reflexivity.
Qed.

Section Made.
Variables (f : endf_limited) (pairs : list particlePair) (inc : particlePair) (ds : list (list channel_data)).
Hypothesis A : reads f pairs inc ds.
Notation es := (el_pairs f).
Notation data := (concat ds).
Notation ok := (good hbar epsilon0 cwf inc pairs es).
Definition st (g : endf_group) : Jpi := (Z.abs (eg_AJ g), endfParity (eg_AJ g) (eg_PJ g)).

Lemma L : length pairs = length es.
Proof. destruct A as (Ep & _). exact (pairs_length _ _ _ _ _ _ _ Ep). Qed.
Lemma incident_first : exists n, first_at 2%Z (map ep_MT es) n /\ nth_error pairs n = Some inc.
Proof.
  destruct A as (_ & Ei & _). exists (incidentIndex es). split; [|exact Ei].
  destruct (in_dec Z.eq_dec 2%Z (map ep_MT es)) as [I|I]; [exact (proj1 (find_pair _ _) I)|]. exfalso.
  unfold incidentIndex in Ei. rewrite (proj2 (find_pair _ _) I), map_length, <- L in Ei.
  assert (K : (length pairs < length pairs)%nat) by (apply nth_error_Some; congruence). lia.
Qed.
Lemma channel_state g i c : channel_at inc pairs es g i c -> Jpi_of (c_numbers c) = st g.
Proof.
  intros (e & x & _ & _ & D). unfold Jpi_of, st. f_equal; [exact (de_J _ _ _ _ _ _ _ D)|].
  exact (parity_unique _ _ _ _ (de_p _ _ _ _ _ _ _ D) (parity_spec _ _)).
Qed.
Lemma data_good d : In d data -> exists g i dg, In g (el_groups f) /\ In dg ds /\ In d dg /\ ok g (el_IFG f) i d.
Proof.
  intros Hd. apply in_concat in Hd as (dg & Hdg & Hd). destruct A as (_ & _ & F). destruct (Forall2_right _ _ _ _ F Hdg) as (g & Hg & E).
  destruct (group_data hbar epsilon0 cwf inc pairs es L g _ dg E) as (G & _). destruct (G d Hd) as (i & Gi). exists g, i, dg. auto.
Qed.
Lemma data_consistent d : In d data -> consistent d.
Proof. intros Hd. destruct (data_good d Hd) as (g & i & dg & _ & _ & _ & G). exact (go_consistent _ _ _ _ _ _ _ _ _ _ G). Qed.

Variables (out : list channel_data) (gs : list group).
Hypothesis Eo : consolidateChannelData data = Ok out.
Hypothesis Es : makeSystemFromData out = Ok gs.
Lemma out_consolidated : consolidated data out.
Proof. exact (consolidate_result data out data_consistent Eo). Qed.
Lemma ordinary_in d : cd_eliminated d = false -> (In d data <-> In d out).
Proof.
  intros E. pose proof (co_ordinary _ _ out_consolidated) as Q.
  split; intros H; [assert (X : In d (filter (fun d => negb (cd_eliminated d)) out)) | assert (X : In d (filter (fun d => negb (cd_eliminated d)) data))].
  - rewrite Q. apply filter_In. rewrite E. auto.
  - apply filter_In in X. apply X.
  - rewrite <- Q. apply filter_In. rewrite E. auto.
  - apply filter_In in X. apply X.
Qed.
Lemma groups_made : exists js, Forall2 (fun j G => g_channels G = ordinary_channels (of_Jpi j out) /\ faithful_table (of_Jpi j out) (g_table G)) js gs /\
  forall j, In j js <-> of_Jpi j out <> [].
Proof.
  destruct (system_groups out gs (co_consistent _ _ out_consolidated) Es) as (js & _ & J & F). exists js. auto.
Qed.
Lemma in_table d e gamma : In d out -> In (e, gamma) (entries d) -> exists G r, In G gs /\ In r (t_resonances (g_table G)) /\ rs_energy r = e /\
  g_channels G = ordinary_channels (of_Jpi (Jpi_data d) out) /\ row e (of_Jpi (Jpi_data d) out) (rs_widths r) (rs_eliminated r).
Proof.
  intros Hd He. destruct groups_made as (js & F & J). assert (Hj : In d (of_Jpi (Jpi_data d) out)) by (apply of_Jpi_In; auto).
  assert (I : In (Jpi_data d) js) by (apply J; intros X; rewrite X in Hj; exact Hj).
  destruct (Forall2_left _ _ _ _ F I) as (G & HG & Ec & [_ T1 T2]). assert (X : In e (map rs_energy (t_resonances (g_table G)))).
  { apply T1. exists d. split; [exact Hj|]. rewrite <- (fst_entries d (co_consistent _ _ out_consolidated d Hd)). exact (in_map fst _ _ He). }
  apply in_map_iff in X as (r & <- & Hr). exists G, r. split; [exact HG|]. split; [exact Hr|]. split; [reflexivity|]. split; [exact Ec | exact (T2 r Hr)].
Qed.
Lemma group_state j G : In G gs -> g_channels G = ordinary_channels (of_Jpi j out) -> forall c, In c (g_channels G) -> Jpi_of (c_numbers c) = j.
Proof.
  intros HG E c Hc. rewrite E in Hc. unfold ordinary_channels in Hc. apply in_map_iff in Hc as (d & <- & Hd). apply filter_In in Hd as [Hd _].
  apply of_Jpi_In in Hd as [_ Hd]. exact Hd.
Qed.
Lemma state_spec g j G : In G gs -> g_channels G = ordinary_channels (of_Jpi j out) -> j = st g -> state_of g G.
Proof.
  intros HG E -> c Hc. pose proof (group_state _ _ HG E c Hc) as Q. unfold Jpi_of, st in Q. injection Q as Q1 Q2. split; [exact Q1|]. rewrite Q2. apply parity_spec.
Qed.

Theorem kept g i e w : In g (el_groups f) -> NoDup (eg_ER g) -> (i < length (eg_channels g))%nat -> (i < length es)%nat -> given g i e w -> w <> 0 ->
  exists c gamma G r, channel_at inc pairs es g i c /\ stored pen (el_IFG f) c e w gamma /\
    In G gs /\ state_of g G /\ In r (t_resonances (g_table G)) /\ rs_energy r = e /\
    (~ removed pairs es g i -> exists k, nth_error (g_channels G) k = Some c /\ nth_error (rs_widths r) k = Some gamma) /\
    (removed pairs es g i -> alone (el_groups f) g -> rs_eliminated r = gamma).
Proof.
  intros Hg N H1 H2 Hw Hz. pose proof A as (_ & _ & F). destruct (Forall2_left _ _ _ _ F Hg) as (dg & Hdg & E).
  destruct (group_data hbar epsilon0 cwf inc pairs es L g _ dg E) as (_ & K & _). destruct (K i e w H1 H2 Hw Hz) as (d & gamma & Hd & G & He & S).
  pose proof (go_channel _ _ _ _ _ _ _ _ _ _ G) as At. assert (Hj : Jpi_data d = st g) by exact (channel_state g i _ At).
  assert (Hdd : In d data) by (apply in_concat; exists dg; auto). assert (Ne : entries d <> []) by (intros X; rewrite X in He; exact He).
  destruct (cd_eliminated d) eqn:Q.
  - pose proof (go_removed _ _ _ _ _ _ _ _ _ _ G Q) as Rm.
    assert (X : In (e, gamma) (concat (map entries (of_Jpi (st g) (eliminated_data out))))).
    { rewrite (co_entries _ _ out_consolidated (st g)). apply in_concat. exists (entries d). split; [apply in_map; apply of_Jpi_In; split; [apply filter_In; auto | exact Hj] | exact He]. }
    apply in_concat in X as (en & Hen & Hx). apply in_map_iff in Hen as (d' & <- & Hd'). apply of_Jpi_In in Hd' as [Hd' Hj']. apply filter_In in Hd' as [Hd' Hel'].
    destruct (in_table d' e gamma Hd' Hx) as (G' & r & HG & Hr & Er & Ec & Row). rewrite Hj' in Ec, Row.
    exists (cd_channel d), gamma, G', r. split; [exact At|]. split; [exact S|]. split; [exact HG|]. split; [exact (state_spec g (st g) G' HG Ec eq_refl)|].
    split; [exact Hr|]. split; [exact Er|]. split; [contradiction|]. intros _ (a & b & Eg & Al).
    destruct (row_columns _ _ _ _ Row) as (_ & _ & Wx & _). specialize (Wx d' (proj2 (of_Jpi_In _ _ _) (conj Hd' Hj')) Hel').
    assert (Only : of_Jpi (st g) (eliminated_data data) = [d]).
    { rewrite Eg in F. apply Forall2_app_inv_l in F as (da & drest & Fa & Fr & Eds). inversion Fr as [|? dg' ? db E' Fb Q1 Q2]. subst drest. clear Q1. rewrite E in E'. injection E' as <-.
      assert (None : forall gl dl, (forall g', In g' gl -> ~ same_state g g') ->
        Forall2 (fun g d => makeParticleChannelData hbar epsilon0 cwf inc pairs es (negb (el_IFG f =? 0)%Z) g = Ok (Some d)) gl dl ->
        of_Jpi (st g) (eliminated_data (concat dl)) = []).
      { intros gl dl Hn Fl. unfold of_Jpi, eliminated_data. apply filter_no. intros y Hy. apply filter_In in Hy as [Hy _].
        apply in_concat in Hy as (dy & Hdy & Hy). destruct (Forall2_right _ _ _ _ Fl Hdy) as (g' & Hg' & Ey).
        destruct (group_data hbar epsilon0 cwf inc pairs es L g' _ dy Ey) as (Gy & _). destruct (Gy y Hy) as (iy & Gy').
        pose proof (channel_state g' iy _ (go_channel _ _ _ _ _ _ _ _ _ _ Gy')) as Sy. destruct (Z.eqb_spec (qJ (c_numbers (cd_channel y))) (fst (st g))) as [Q1|]; [|reflexivity].
        destruct (Z.eqb_spec (qp (c_numbers (cd_channel y))) (snd (st g))) as [Q2|]; [|reflexivity]. exfalso. apply (Hn g' Hg').
        unfold Jpi_of, st in Sy. injection Sy as Sy1 Sy2. cbn in Q1, Q2. split; [congruence|]. exists (endfParity (eg_AJ g) (eg_PJ g)). split; [apply parity_spec|].
        rewrite <- Q2, Sy2. apply parity_spec. }
      rewrite Eds, concat_app. cbn [concat]. unfold eliminated_data. rewrite !filter_app. unfold of_Jpi. rewrite !filter_app.
      pose proof (None a da (fun g' Hg' => Al g' (in_or_app _ _ _ (or_introl Hg'))) Fa) as Na.
      pose proof (None b db (fun g' Hg' => Al g' (in_or_app _ _ _ (or_intror Hg'))) Fb) as Nb. unfold of_Jpi, eliminated_data in Na, Nb. rewrite Na, Nb, app_nil_r. cbn [app].
      destruct (group_data hbar epsilon0 cwf inc pairs es L g _ dg E) as (_ & _ & One & _).
      assert (Hin : In d (filter cd_eliminated dg)) by (apply filter_In; auto). destruct (filter cd_eliminated dg) as [|z [|z' rest]]; [destruct Hin | | cbn in One; lia].
      destruct Hin as [->|[]]. cbn [filter]. unfold Jpi_data, Jpi_of in Hj. rewrite <- Hj. cbn [fst snd]. rewrite !Z.eqb_refl. reflexivity. }
    assert (Same : entries d' = entries d).
    { pose proof (co_entries _ _ out_consolidated (st g)) as Ce. rewrite Only in Ce. cbn [map concat] in Ce. rewrite app_nil_r in Ce. rewrite <- Ce.
      pose proof (proj1 (one_eliminated_count _) (consolidated_one data out (st g) out_consolidated)) as One.
      assert (Sw : filter cd_eliminated (of_Jpi (st g) out) = of_Jpi (st g) (eliminated_data out)).
      { unfold of_Jpi, eliminated_data. rewrite !filter_filter. apply filter_ext. intros z. apply Bool.andb_comm. }
      rewrite Sw in One. assert (Hin : In d' (of_Jpi (st g) (eliminated_data out))) by (apply of_Jpi_In; split; [apply filter_In; auto | exact Hj']).
      destruct (of_Jpi (st g) (eliminated_data out)) as [|z [|z' rest]]; [destruct Hin | | cbn in One; lia]. destruct Hin as [->|[]]. cbn. rewrite app_nil_r. reflexivity. }
    apply (width_at_unique d' e _ gamma (co_consistent _ _ out_consolidated d' Hd') Wx). apply width_at_listed; [exact (co_consistent _ _ out_consolidated d' Hd') | | exact Hx].
    unfold distinct_energies. rewrite <- (fst_entries d' (co_consistent _ _ out_consolidated d' Hd')), Same, (fst_entries d (data_consistent d Hdd)).
    exact (go_distinct _ _ _ _ _ _ _ _ _ _ G N).
  - pose proof (proj1 (ordinary_in d Q) Hdd) as Ho. destruct (in_table d e gamma Ho He) as (G' & r & HG & Hr & Er & Ec & Row). rewrite Hj in Ec, Row.
    exists (cd_channel d), gamma, G', r. split; [exact At|]. split; [exact S|]. split; [exact HG|]. split; [exact (state_spec g (st g) G' HG Ec eq_refl)|].
    split; [exact Hr|]. split; [exact Er|]. split.
    + intros _. assert (Hin : In d (filter (fun d => negb (cd_eliminated d)) (of_Jpi (st g) out))) by (apply filter_In; rewrite Q; split; [apply of_Jpi_In; auto | reflexivity]).
      apply In_nth_error in Hin as (k & Hk). exists k. split; [rewrite Ec; unfold ordinary_channels; rewrite nth_error_map, Hk; reflexivity|].
      destruct (row_columns _ _ _ _ Row) as (_ & Cw & _). destruct (Cw k d Hk) as (v & Hv & Wv). rewrite Hv. f_equal.
      apply (width_at_unique d e v gamma (data_consistent d Hdd) Wv). apply width_at_listed; [exact (data_consistent d Hdd) | exact (go_distinct _ _ _ _ _ _ _ _ _ _ G N) | exact He].
    + intros Rm. pose proof (go_eliminated _ _ _ _ _ _ _ _ _ _ G Rm Ne). congruence.
Qed.

(** Nothing else is in the tables *)
Theorem only_given G r : In G gs -> In r (t_resonances (g_table G)) ->
  (exists g i w, In g (el_groups f) /\ state_of g G /\ given g i (rs_energy r) w /\ w <> 0) /\
  length (rs_widths r) = length (g_channels G) /\
  (forall k c gamma, nth_error (g_channels G) k = Some c -> nth_error (rs_widths r) k = Some gamma -> gamma <> 0 ->
     exists g i w, In g (el_groups f) /\ channel_at inc pairs es g i c /\ ~ removed pairs es g i /\ given g i (rs_energy r) w /\
       stored pen (el_IFG f) c (rs_energy r) w gamma) /\
  (rs_eliminated r <> 0 ->
     exists g i c w, In g (el_groups f) /\ state_of g G /\ channel_at inc pairs es g i c /\ removed pairs es g i /\ given g i (rs_energy r) w /\
       stored pen (el_IFG f) c (rs_energy r) w (rs_eliminated r)).
Proof.
  intros HG Hr. destruct groups_made as (js & F & J). destruct (Forall2_right _ _ _ _ F HG) as (j & Hj & Ec & [_ T1 T2]). pose proof (T2 r Hr) as Row.
  pose proof (in_map rs_energy _ _ Hr) as He. apply T1 in He as (d & Hd & He). apply of_Jpi_In in Hd as [Hd Hdj].
  (* an entry of the consolidated list comes from the data *)
  assert (From : forall d e gamma, In d out -> In (e, gamma) (entries d) -> exists d', In d' data /\ In (e, gamma) (entries d') /\ Jpi_data d' = Jpi_data d /\ cd_eliminated d' = cd_eliminated d /\ (cd_eliminated d = false -> d' = d)).
  { clear d Hd Hdj He. intros d e gamma Hd He. destruct (cd_eliminated d) eqn:Q.
    - assert (X : In (e, gamma) (concat (map entries (of_Jpi (Jpi_data d) (eliminated_data data))))).
      { rewrite <- (co_entries _ _ out_consolidated). apply in_concat. exists (entries d). split; [apply in_map; apply of_Jpi_In; split; [apply filter_In; auto | reflexivity] | exact He]. }
      apply in_concat in X as (en & Hen & Hx). apply in_map_iff in Hen as (d' & <- & Hd'). apply of_Jpi_In in Hd' as [Hd' Hj']. apply filter_In in Hd' as [Hd' Hel'].
      exists d'. split; [exact Hd'|]. split; [exact Hx|]. split; [exact Hj'|]. split; [exact Hel' | discriminate].
    - exists d. split; [apply ordinary_in; assumption|]. auto. }
  assert (Width : forall d e gamma, width_at d e gamma -> gamma <> 0 -> In (e, gamma) (entries d)).
  { intros d0 e gamma [(a & b & -> & _)|[_ Q]] Hz; [apply in_or_app; right; left; reflexivity | contradiction]. }
  split; [|split; [|split]].
  - rewrite <- (fst_entries d (co_consistent _ _ out_consolidated d Hd)) in He. apply in_map_iff in He as ([e gamma] & Ee & Hx). cbn in Ee.
    destruct (From d e gamma Hd Hx) as (d' & Hd' & Hx' & Hj' & _). destruct (data_good d' Hd') as (g & i & dg & Hg & _ & _ & Gd).
    destruct (go_given _ _ _ _ _ _ _ _ _ _ Gd _ _ Hx') as (w & Hw & Hz & _). exists g, i, w. split; [exact Hg|]. split; [|rewrite <- Ee; auto].
    apply (state_spec g j G HG Ec). rewrite <- Hdj, <- Hj'. exact (channel_state g i _ (go_channel _ _ _ _ _ _ _ _ _ _ Gd)).
  - destruct (row_columns _ _ _ _ Row) as (Lr & _). rewrite Lr, Ec. reflexivity.
  - intros k c gamma Hc Hv Hz. rewrite Ec in Hc. unfold ordinary_channels in Hc. rewrite nth_error_map in Hc.
    destruct (nth_error (filter (fun d => negb (cd_eliminated d)) (of_Jpi j out)) k) as [d0|] eqn:Hk; [|discriminate]. injection Hc as <-.
    destruct (row_columns _ _ _ _ Row) as (_ & Cw & _). destruct (Cw k d0 Hk) as (v & Hv' & Wv). rewrite Hv in Hv'. injection Hv' as <-.
    pose proof (Width _ _ _ Wv Hz) as Hx. apply nth_error_In in Hk. apply filter_In in Hk as [Hk Hn]. apply Bool.negb_true_iff in Hn. apply of_Jpi_In in Hk as [Hk _].
    pose proof (proj2 (ordinary_in d0 Hn) Hk) as Hd0. destruct (data_good d0 Hd0) as (g & i & dg & Hg & _ & _ & Gd).
    destruct (go_given _ _ _ _ _ _ _ _ _ _ Gd _ _ Hx) as (w & Hw & _ & S). exists g, i, w. split; [exact Hg|]. split; [exact (go_channel _ _ _ _ _ _ _ _ _ _ Gd)|]. split; [|auto].
    intros Rm. assert (Ne : entries d0 <> []) by (intros X; rewrite X in Hx; exact Hx). pose proof (go_eliminated _ _ _ _ _ _ _ _ _ _ Gd Rm Ne). congruence.
  - intros Hz. destruct (row_columns _ _ _ _ Row) as (_ & _ & Wx & W0).
    assert (X : exists d', In d' (of_Jpi j out) /\ cd_eliminated d' = true).
    { destruct (Classical_Prop.classic (exists d', In d' (of_Jpi j out) /\ cd_eliminated d' = true)) as [X|X]; [exact X|]. exfalso. apply Hz, W0. intros y Hy. unfold ordinary.
      destruct (cd_eliminated y) eqn:Qy; [exfalso; apply X; exists y; auto | reflexivity]. }
    destruct X as (d' & Hd' & Q'). pose proof (Width _ _ _ (Wx d' Hd' Q') Hz) as Hx. apply of_Jpi_In in Hd' as [Hd' Hj'].
    destruct (From d' _ _ Hd' Hx) as (d0 & Hd0 & Hx0 & Hj0 & Q0 & _). rewrite Q' in Q0. destruct (data_good d0 Hd0) as (g & i & dg & Hg & _ & _ & Gd).
    destruct (go_given _ _ _ _ _ _ _ _ _ _ Gd _ _ Hx0) as (w & Hw & _ & S). exists g, i, (cd_channel d0), w. split; [exact Hg|]. split.
    + apply (state_spec g j G HG Ec). rewrite <- Hj', <- Hj0. exact (channel_state g i _ (go_channel _ _ _ _ _ _ _ _ _ _ Gd)).
    + split; [exact (go_channel _ _ _ _ _ _ _ _ _ _ Gd)|]. split; [exact (go_removed _ _ _ _ _ _ _ _ _ _ Gd Q0)|]. auto.
Qed.

(** The channels: those with a width that is not zero, and the incident ones *)
Theorem channels_kept :
  (forall G c, In G gs -> In c (g_channels G) -> exists g i, In g (el_groups f) /\ channel_at inc pairs es g i c /\
     (pp_id (c_pair c) = pp_id inc \/ exists e w, given g i e w /\ w <> 0)) /\
  (forall g i c, In g (el_groups f) -> channel_at inc pairs es g i c -> pp_id (c_pair c) = pp_id inc -> ~ removed pairs es g i ->
     exists G, In G gs /\ state_of g G /\ In c (g_channels G)).
Proof.
  destruct groups_made as (js & F & J). split.
  - intros G c HG Hc. destruct (Forall2_right _ _ _ _ F HG) as (j & Hj & Ec & _). rewrite Ec in Hc. unfold ordinary_channels in Hc.
    apply in_map_iff in Hc as (d & <- & Hd). apply filter_In in Hd as [Hd Hn]. apply Bool.negb_true_iff in Hn. apply of_Jpi_In in Hd as [Hd _].
    apply (ordinary_in d Hn) in Hd. destruct (data_good d Hd) as (g & i & dg & Hg & _ & _ & Gd). exists g, i. split; [exact Hg|].
    split; [exact (go_channel _ _ _ _ _ _ _ _ _ _ Gd)|]. destruct (entries d) as [|[e gamma] l] eqn:Q; [left; exact (go_empty _ _ _ _ _ _ _ _ _ _ Gd Q)|]. right.
    destruct (go_given _ _ _ _ _ _ _ _ _ _ Gd e gamma) as (w & Hw & Hz & _); [rewrite Q; left; reflexivity|]. exists e, w. auto.
  - intros g i c Hg At Hi Nr. pose proof A as (_ & _ & Fd). destruct (Forall2_left _ _ _ _ Fd Hg) as (dg & Hdg & E).
    destruct (group_data hbar epsilon0 cwf inc pairs es L g _ dg E) as (_ & _ & _ & K & _). destruct (K i c At Hi) as (d & Hd & Gd & <-).
    assert (Q : cd_eliminated d = false) by (destruct (cd_eliminated d) eqn:Q; [exfalso; exact (Nr (go_removed _ _ _ _ _ _ _ _ _ _ Gd Q)) | reflexivity]).
    assert (Ho : In d out) by (apply ordinary_in; [exact Q | apply in_concat; exists dg; auto]).
    assert (Hj : In d (of_Jpi (Jpi_data d) out)) by (apply of_Jpi_In; auto). assert (I : In (Jpi_data d) js) by (apply J; intros X; rewrite X in Hj; exact Hj).
    destruct (Forall2_left _ _ _ _ F I) as (G & HG & Ec & _). exists G. split; [exact HG|]. split; [exact (state_spec g _ G HG Ec (channel_state g i _ At))|].
    rewrite Ec. unfold ordinary_channels. apply in_map, filter_In. rewrite Q. auto.
Qed.
End Made.
End Limited.
