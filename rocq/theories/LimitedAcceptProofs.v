(** Files in the R-Matrix Limited format that are accepted. *)
From Coq Require Import String List ZArith Reals Bool Lra Lia Permutation Sorted.
From Verif Require Import Outcome ListFacts QuantumModel HardSphereModel KinematicsModel CoulombModel RMatrixModel ChannelModel SpinGroupModel BreitWignerModel GridModel
  AssemblyModel AssemblySpec AssemblyProofs AssemblyTheorems EndfModel EndfSpec EndfProofs LimitedSpec LimitedProofs LimitedTheorems.
Import ListNotations.
Open Scope R_scope.

Section Accept.
Variables (hbar epsilon0 : R) (cwf : nat -> R -> R -> outcome coulomb).
Notation pen := (channelPenetrability hbar epsilon0 cwf).

Lemma mapM_total {A B} (f : A -> outcome B) l : (forall x, In x l -> exists y, f x = Ok y) -> exists ys, mapM f l = Ok ys.
Proof.
  induction l as [|x l IH]; intros H; [exists []; reflexivity|]. destruct (H x (or_introl eq_refl)) as (y & E).
  destruct (IH (fun z Hz => H z (or_intror Hz))) as (ys & E'). exists (y :: ys). cbn. rewrite E. cbn. rewrite E'. reflexivity.
Qed.
Lemma data_total g ifg E c i :
  (eg_NRS g <> 0%nat -> forall row, In row (eg_GAM g) -> (i < length row)%nat) ->
  (ifg = 0%Z -> forall e w, given g i e w -> w <> 0 -> exists p, pen c e = Ok (Some p) /\ 0 < p) ->
  exists ds, makeDataOfChannel hbar epsilon0 cwf g (negb (ifg =? 0)%Z) E (c, i) = Ok (Some ds).
Proof.
  intros Hr Hp. unfold makeDataOfChannel.
  assert (Empty : exists ds, (if isIncidentChannel c then do d <- makeChannelData c [] [] false; Ok (Some [d]) else Ok (Some [])) = Ok (Some ds)).
  { destruct (isIncidentChannel c); [rewrite (proj1 (channel_data_accepts c [] [] false) eq_refl)|]; eexists; reflexivity. }
  destruct (Nat.eqb_spec (eg_NRS g) 0) as [Q|Q]; [exact Empty|].
  destruct (mapM_total (fun ws => at_or_ub ws i "operator[] past the end") (eg_GAM g)) as (widths & Ew).
  { intros row Hrow. unfold at_or_ub. specialize (Hr Q row Hrow). destruct (nth_error row i) as [x|] eqn:X; [eexists; reflexivity | apply nth_error_None in X; lia]. }
  rewrite Ew. cbn [bind]. set (nz := filter _ _). destruct nz as [|x0 rest] eqn:En; [exact Empty|]. rewrite <- En. clear Empty.
  assert (Nz : forall e w, In (e, w) nz -> given g i e w /\ w <> 0).
  { intros e w H. unfold nz in H. apply filter_In in H as [H Hw]. cbn [snd] in Hw. destruct (Req_EM_T w 0) as [|Hz]; [discriminate|]. split; [|exact Hz].
    apply combine_In in H as (k & A & B). split; [exact Q|]. apply mapM_Ok in Ew. destruct (Forall2_at _ _ _ _ _ Ew B) as (row & C & D). exists k, row. split; [exact A|]. split; [exact C|].
    unfold at_or_ub in D. destruct (nth_error row i); [congruence | discriminate]. }
  assert (T : exists rs, toReducedWidths hbar epsilon0 cwf (negb (ifg =? 0)%Z) c (map fst nz) (map snd nz) = Ok (Some rs) /\ length rs = length nz).
  { unfold toReducedWidths. destruct (Z.eqb_spec ifg 0) as [Z0|Z0]; cbn [negb]; [|exists (map snd nz); split; [reflexivity | apply map_length]].
    assert (M : exists rs, mapM (fun p => calculateReducedWidth hbar epsilon0 cwf c (fst p) (snd p)) (combine (map fst nz) (map snd nz)) = Ok (map Some rs) /\ length rs = length nz).
    { clear En x0 rest. revert Nz. generalize nz. intros l. induction l as [|[e w] l IH]; intros Nz; [exists []; split; reflexivity|].
      destruct IH as (rs & E1 & E2); [intros e' w' H; apply Nz; right; exact H|]. destruct (Nz e w (or_introl eq_refl)) as [G W]. destruct (Hp Z0 e w G W) as (p & Ep & Pp).
      destruct (proj1 (reduced_width hbar epsilon0 cwf c e w p Ep) Pp) as (gamma & Eg & _). exists (gamma :: rs). cbn [map combine mapM fst snd]. rewrite Eg. cbn [bind]. rewrite E1. cbn [bind length]. split; [reflexivity | lia]. }
    destruct M as (rs & -> & Hl). cbn [bind]. exists rs. split; [|exact Hl]. rewrite (proj2 (all_finite_Some (map Some rs) rs) eq_refl). reflexivity. }
  destruct T as (rs & -> & Hl). cbn [bind]. rewrite (proj1 (channel_data_accepts c (map fst nz) rs _)) by (rewrite map_length; symmetry; exact Hl). eexists. reflexivity.
Qed.

Variables (inc : particlePair) (pairs : list particlePair) (es : list endf_pair).
Hypothesis L : length pairs = length es.

Lemma identifiers {A} (id : channel_data -> A) (idc : channel -> A) (cs : list channel) : forall dss,
  NoDup (map idc cs) -> Forall2 (fun c ds => (length ds <= 1)%nat /\ forall d, In d ds -> id d = idc c) cs dss ->
  NoDup (map id (concat dss)) /\ forall x, In x (map id (concat dss)) -> In x (map idc cs).
Proof.
  induction cs as [|c cs IH]; intros dss N F; inversion F as [|? ds ? rest [Hl Hd] F']; subst; cbn [concat map]; [split; [constructor | intros x []]|].
  cbn [map] in N. inversion N as [|? ? Nc N']; subst. destruct (IH rest N' F') as [A1 A2]. rewrite map_app. split.
  - destruct ds as [|d [|d' r]]; cbn in *; [exact A1 | | lia]. constructor; [|exact A1]. intros X. apply Nc. rewrite <- (Hd d (or_introl eq_refl)). exact (A2 _ X).
  - intros x Hx. apply in_app_or in Hx as [Hx|Hx]; [|right; exact (A2 x Hx)]. apply in_map_iff in Hx as (d & <- & Hx). left. symmetry. exact (Hd d Hx).
Qed.
Lemma group_total g ifg : In 102%Z (map ep_MT es) ->
  (forall e, In e (eg_channels g) -> valid_number es e) ->
  (forall row, In row (eg_GAM g) -> (length (eg_channels g) <= length row)%nat) ->
  (forall i c e w, ifg = 0%Z -> channel_at inc pairs es g i c -> given g i e w -> w <> 0 -> exists p, pen c e = Ok (Some p) /\ 0 < p) ->
  (forall i k c c', channel_at inc pairs es g i c -> channel_at inc pairs es g k c' -> c_id c = c_id c' -> i = k) ->
  exists data, makeParticleChannelData hbar epsilon0 cwf inc pairs es (negb (ifg =? 0)%Z) g = Ok (Some data) /\
    NoDup (map (fun d => c_id (cd_channel d)) data).
Proof.
  intros Hc Hv Hw Hp Hd.
  assert (K : exists data, makeParticleChannelData hbar epsilon0 cwf inc pairs es (negb (ifg =? 0)%Z) g = Ok (Some data)).
  { unfold makeParticleChannelData. destruct (channels_positional inc pairs es g L) as [A _]. destruct A as (cs & Ec & _).
    { intros e He. apply Hv. rewrite <- (firstn_skipn (length es)). apply in_or_app. left. exact He. }
    rewrite Ec. cbn [bind]. destruct (nth_error pairs (eliminatedIndex es)) as [pr|] eqn:Ep.
    2:{ exfalso. destruct (proj1 (find_pair (map ep_MT es) 102) Hc) as (a' & b' & E' & La' & _). unfold eliminatedIndex in Ep. rewrite <- La' in Ep.
      apply nth_error_None in Ep. rewrite L, <- (map_length ep_MT es), E', app_length in Ep. cbn in Ep. lia. }
    unfold at_or_ub at 1. rewrite Ep. cbn [bind]. set (E := find_index _ _).
    assert (T : exists dss, mapM (makeDataOfChannel hbar epsilon0 cwf g (negb (ifg =? 0)%Z) E) (combine cs (seq 0 (length cs))) = Ok (map Some dss)).
    { assert (G : forall ci, In ci (combine cs (seq 0 (length cs))) -> exists ds, makeDataOfChannel hbar epsilon0 cwf g (negb (ifg =? 0)%Z) E ci = Ok (Some ds)).
      { intros [c i] Hci. apply In_nth_error in Hci as (k & Hk). apply combine_seq in Hk as [Hk Hi]. cbn [fst snd] in *. subst k.
        apply data_total; [intros _ row Hrow | intros Z0 e w Hg Hz; exact (Hp i c e w Z0 (made_channels inc pairs es L g cs i c Ec Hk) Hg Hz)].
        specialize (Hw row Hrow). assert (X : (i < length cs)%nat) by (apply nth_error_Some; congruence). rewrite (channels_length inc pairs es L g cs Ec) in X. lia. }
      revert G. generalize (combine cs (seq 0 (length cs))). intros l. induction l as [|ci l IH]; intros G; [exists []; reflexivity|].
      destruct (G ci (or_introl eq_refl)) as (ds & E1). destruct IH as (dss & E2); [intros x Hx; apply G; right; exact Hx|]. exists (ds :: dss). cbn [mapM]. rewrite E1. cbn [bind]. rewrite E2. reflexivity. }
    destruct T as (dss & ->). cbn [bind]. rewrite (proj2 (all_finite_Some (map Some dss) dss) eq_refl). eexists. reflexivity. }
  destruct K as (data & K). exists data. split; [exact K|].
  destruct (data_of_group hbar epsilon0 cwf inc pairs es _ g data K) as (cs & pr & dss & Ec & Ep & -> & F).
  apply (identifiers (fun d => c_id (cd_channel d)) c_id cs).
  - apply (NoDup_nth_error (map c_id cs)). intros i k Hi Q. rewrite !nth_error_map in Q. rewrite map_length in Hi.
    destruct (nth_error cs i) as [c|] eqn:E1; [|apply nth_error_None in E1; lia]. destruct (nth_error cs k) as [c'|] eqn:E2; [|discriminate]. injection Q as Q.
    exact (Hd i k c c' (made_channels inc pairs es L g cs i c Ec E1) (made_channels inc pairs es L g cs k c' Ec E2) Q).
  - clear -F. assert (G : forall s cs dss, Forall2 (fun ci ds => (length ds <= 1)%nat /\ forall d, In d ds -> cd_channel d = fst ci) (combine cs (seq s (length cs))) dss ->
      Forall2 (fun c ds => (length ds <= 1)%nat /\ forall d, In d ds -> c_id (cd_channel d) = c_id c) cs dss).
    { clear. intros s cs. revert s. induction cs as [|c cs IH]; intros s dss F; cbn [length seq combine] in F; inversion F as [|? ds ? rest [A B] F']; subst; constructor.
      - split; [exact A|]. intros d Hd. rewrite (B d Hd). reflexivity.
      - exact (IH (S s) rest F'). }
    apply (G 0%nat). clear G. induction F as [|ci ds l dss (el & _ & R) F IH]; constructor; [|exact IH].
    destruct R as [[_ ->]|[_ (l' & _ & [[_ ->]|[_ (d & -> & Hd & _)]])]].
    + destruct (isIncidentChannel (fst ci)); (split; [cbn; lia|]); [intros d [<-|[]]; reflexivity | intros d []].
    + destruct (isIncidentChannel (fst ci)); (split; [cbn; lia|]); [intros d [<-|[]]; reflexivity | intros d []].
    + split; [cbn; lia|]. intros d' [<-|[]]. exact Hd.
Qed.
End Accept.

Lemma nodup_filter_map {A B} (f : A -> B) (p : A -> bool) l : NoDup (map f l) -> NoDup (map f (filter p l)).
Proof.
  induction l as [|x l IH]; intros N; [constructor|]. cbn in *. inversion N as [|? ? Nx N']; subst. destruct (p x); [|apply IH; exact N'].
  cbn. constructor; [|apply IH; exact N']. intros H. apply Nx. apply in_map_iff in H as (y & <- & H). apply filter_In in H as [H _]. apply in_map. exact H.
Qed.

Theorem accepted_file hbar epsilon0 cwf nm ec incident target products f pairs inc :
  makeParticlePairs nm ec incident target products (el_pairs f) = Ok pairs ->
  well_formed (channelPenetrability hbar epsilon0 cwf) f pairs inc ->
  exists gs, makeCompoundSystem hbar epsilon0 cwf nm ec incident target products f = Ok (Some gs).
Proof.
  intros Ep [We Wc Wg Wa Wn Ww Wi Wd Wp]. pose proof (pairs_length _ _ _ _ _ _ _ Ep) as L. set (es := el_pairs f) in *.
  assert (Each : forall g, In g (el_groups f) -> exists data, makeParticleChannelData hbar epsilon0 cwf inc pairs es (negb (el_IFG f =? 0)%Z) g = Ok (Some data) /\
    NoDup (map (fun d => c_id (cd_channel d)) data)).
  { intros g Hg. apply (group_total hbar epsilon0 cwf inc pairs es L); [exact Wc | intros e He; exact (Wn g e Hg He) | intros row Hr; exact (Ww g row Hg Hr) | | ].
    - intros i c e w Z0 At Gv Hz. exact (Wp g i c e w Z0 Hg At Gv Hz).
    - intros i k c c'. exact (Wd g i k c c' Hg). }
  assert (X : exists ds, Forall2 (fun g d => makeParticleChannelData hbar epsilon0 cwf inc pairs es (negb (el_IFG f =? 0)%Z) g = Ok (Some d)) (el_groups f) ds).
  { revert Each. generalize (el_groups f). intros l. induction l as [|g l IH]; intros G; [exists []; constructor|].
    destruct (G g (or_introl eq_refl)) as (d & E1 & _). destruct IH as (ds & E2); [intros x Hx; apply G; right; exact Hx|]. exists (d :: ds). constructor; assumption. }
  destruct X as (ds & F). assert (Ei : nth_error pairs (incidentIndex es) = Some inc).
  { destruct We as (n & (a & b & E & <- & N) & Hn). assert (I : In 2%Z (map ep_MT es)) by (rewrite E; apply in_or_app; right; left; reflexivity).
    destruct (proj1 (find_pair (map ep_MT es) 2) I) as (a' & b' & E' & La & N'). unfold incidentIndex. rewrite <- La. replace (length a') with (length a); [exact Hn|].
    rewrite E in E'. clear -E' N N'. revert a' E' N'. induction a as [|x a IH]; intros [|y a'] Q N'; cbn in *; try (injection Q as Qx Q).
    - reflexivity.
    - exfalso. apply N'. left. symmetry. exact Qx.
    - exfalso. apply N. left. exact Qx.
    - f_equal. apply IH; [intros X; apply N; right; exact X | exact Q | intros X; apply N'; right; exact X]. }
  assert (A : reads hbar epsilon0 cwf nm ec incident target products f pairs inc ds) by (split; [exact Ep|]; split; [exact Ei | exact F]).
  pose proof (data_consistent _ _ _ _ _ _ _ _ _ _ _ _ A) as Con. destruct (consolidate_all (concat ds) Con) as (out & Eo & Co & _).
  assert (S : exists gs, makeSystemFromData out = Ok gs).
  { apply system_iff; [exact (co_consistent _ _ Co)|].
    assert (Inc : forall g, In g (el_groups f) -> exists dg d, In dg ds /\ In d dg /\ cd_eliminated d = false /\ pp_id (c_pair (cd_channel d)) = pp_id inc /\
        Jpi_data d = st g /\ makeParticleChannelData hbar epsilon0 cwf inc pairs es (negb (el_IFG f =? 0)%Z) g = Ok (Some dg)).
    { intros g Hg. destruct (Wi g Hg) as (i & c & At & Hi & Nr). destruct (Forall2_left _ _ _ _ F Hg) as (dg & Hdg & E).
      destruct (group_data hbar epsilon0 cwf inc pairs es L g _ dg E) as (_ & _ & _ & K & _). destruct (K i c At Hi) as (d & Hd & Gd & <-). exists dg, d. split; [exact Hdg|]. split; [exact Hd|].
      split; [destruct (cd_eliminated d) eqn:Q; [exfalso; exact (Nr (go_removed _ _ _ _ _ _ _ _ _ _ Gd Q)) | reflexivity]|]. split; [exact Hi|]. split; [|exact E].
      exact (channel_state f pairs inc g i _ At). }
    assert (Ord : forall d, cd_eliminated d = false -> In d (concat ds) -> In d out).
    { intros d Q Hd. pose proof (co_ordinary _ _ Co) as Ho. assert (X : In d (filter (fun d => negb (cd_eliminated d)) out)); [|apply filter_In in X; apply X].
      rewrite Ho. apply filter_In. rewrite Q. auto. }
    split.
    - destruct (el_groups f) as [|g l] eqn:Eg; [contradiction|]. destruct (Inc g (or_introl eq_refl)) as (dg & d & Hdg & Hd & Q & _). intros X.
      assert (Y : In d out) by (apply Ord; [exact Q | apply in_concat; exists dg; auto]). rewrite X in Y. exact Y.
    - intros j Hj. assert (Hg : exists g, In g (el_groups f) /\ st g = j).
      { destruct (of_Jpi j out) as [|d r] eqn:Q; [contradiction|]. assert (Hd : In d (of_Jpi j out)) by (rewrite Q; left; reflexivity). apply of_Jpi_In in Hd as [Hd Hdj].
        assert (X : exists d', In d' (concat ds) /\ cd_channel d = cd_channel d').
        { destruct (cd_eliminated d) eqn:Qe.
          - destruct (co_channels _ _ Co d) as (d' & Hd' & Ec); [apply filter_In; auto|]. apply filter_In in Hd' as [Hd' _]. exists d'. auto.
          - exists d. split; [|reflexivity]. pose proof (co_ordinary _ _ Co) as Ho. assert (X : In d (filter (fun d => negb (cd_eliminated d)) (concat ds))); [|apply filter_In in X; apply X].
            rewrite <- Ho. apply filter_In. rewrite Qe. auto. }
        destruct X as (d' & Hd' & Ec). destruct (data_good _ _ _ _ _ _ _ _ _ _ _ _ A d' Hd') as (g & i & dg & Hg & _ & _ & Gd). exists g. split; [exact Hg|].
        rewrite <- (channel_state f pairs inc g i _ (go_channel _ _ _ _ _ _ _ _ _ _ Gd)), <- Ec. exact Hdj. }
      destruct Hg as (g & Hg & <-). destruct (Inc g Hg) as (dg & d & Hdg & Hd & Qd & Hid & Hjd & E). destruct (Each g Hg) as (dg' & E' & Nd). rewrite E in E'. injection E' as <-.
      assert (Whole : of_Jpi (st g) (concat ds) = dg).
      { destruct (Wa g Hg) as (a & b & Eg & Al). rewrite Eg in F. apply Forall2_app_inv_l in F as (da & drest & Fa & Fr & Eds). inversion Fr as [|? dg' ? db E' Fb Q1 Q2]. subst drest. clear Q1. rewrite E in E'. injection E' as <-.
        assert (None : forall gl dl, (forall g', In g' gl -> ~ same_state g g') ->
          Forall2 (fun g d => makeParticleChannelData hbar epsilon0 cwf inc pairs es (negb (el_IFG f =? 0)%Z) g = Ok (Some d)) gl dl -> of_Jpi (st g) (concat dl) = []).
        { intros gl dl Hn Fl. unfold of_Jpi. apply filter_no. intros y Hy. apply in_concat in Hy as (dy & Hdy & Hy). destruct (Forall2_right _ _ _ _ Fl Hdy) as (g' & Hg' & Ey).
          destruct (group_data hbar epsilon0 cwf inc pairs es L g' _ dy Ey) as (Gy & _). destruct (Gy y Hy) as (iy & Gy').
          pose proof (channel_state f pairs inc g' iy _ (go_channel _ _ _ _ _ _ _ _ _ _ Gy')) as Sy. destruct (Z.eqb_spec (qJ (c_numbers (cd_channel y))) (fst (st g))) as [Q1|]; [|reflexivity].
          destruct (Z.eqb_spec (qp (c_numbers (cd_channel y))) (snd (st g))) as [Q2|]; [|reflexivity]. exfalso. apply (Hn g' Hg').
          unfold Jpi_of, st in Sy. injection Sy as Sy1 Sy2. cbn in Q1, Q2. split; [congruence|]. exists (endfParity (eg_AJ g) (eg_PJ g)). split; [apply parity_spec|].
          rewrite <- Q2, Sy2. apply parity_spec. }
        rewrite Eds, concat_app. cbn [concat]. unfold of_Jpi. rewrite !filter_app.
        pose proof (None a da (fun g' Hg' => Al g' (in_or_app _ _ _ (or_introl Hg'))) Fa) as Na.
        pose proof (None b db (fun g' Hg' => Al g' (in_or_app _ _ _ (or_intror Hg'))) Fb) as Nb. unfold of_Jpi in Na, Nb. rewrite Na, Nb, app_nil_r. cbn [app].
        apply filter_all. intros y Hy. destruct (group_data hbar epsilon0 cwf inc pairs es L g _ dg E) as (Gy & _). destruct (Gy y Hy) as (iy & Gy').
        pose proof (channel_state f pairs inc g iy _ (go_channel _ _ _ _ _ _ _ _ _ _ Gy')) as Sy. unfold Jpi_of in Sy. rewrite <- Sy. cbn [fst snd]. rewrite !Z.eqb_refl. reflexivity. }
      split; [exact (consolidated_one _ out (st g) Co)|]. rewrite (consolidated_channels _ out (st g) Co), Whole. split; [|split].
      + assert (In1 : forall c, In c (ordinary_channels dg) -> c_incident c = inc).
        { intros c Hc. unfold ordinary_channels in Hc. apply in_map_iff in Hc as (y & <- & Hy). apply filter_In in Hy as [Hy _].
          destruct (group_data hbar epsilon0 cwf inc pairs es L g _ dg E) as (Gy & _). destruct (Gy y Hy) as (iy & Gy'). destruct (go_channel _ _ _ _ _ _ _ _ _ _ Gy') as (e & x & _ & _ & D).
          exact (de_incident _ _ _ _ _ _ _ D). }
        intros c c' Hc Hc'. rewrite (In1 c Hc), (In1 c' Hc'). reflexivity.
      + unfold ordinary_channels. rewrite map_map. apply nodup_filter_map. exact Nd.
      + exists (cd_channel d). split; [apply in_map, filter_In; rewrite Qd; auto|].
        destruct (group_data hbar epsilon0 cwf inc pairs es L g _ dg E) as (Gy & _). destruct (Gy d Hd) as (iy & Gy'). destruct (go_channel _ _ _ _ _ _ _ _ _ _ Gy') as (e & x & _ & _ & D).
        rewrite (de_incident _ _ _ _ _ _ _ D). exact Hid. }
  destruct S as (gs & Es). exists gs. apply steps. exists pairs, inc, ds, out. split; [exact A|]. auto.
Qed.

Theorem limited_system hbar epsilon0 cwf nm ec incident target products f gs :
  makeCompoundSystem hbar epsilon0 cwf nm ec incident target products f = Ok (Some gs) ->
  let pen := channelPenetrability hbar epsilon0 cwf in
  let es := el_pairs f in
  exists pairs inc, makeParticlePairs nm ec incident target products es = Ok pairs /\
    (exists n, first_at 2%Z (map ep_MT es) n /\ nth_error pairs n = Some inc) /\
    (forall g i e w, In g (el_groups f) -> NoDup (eg_ER g) -> (i < length (eg_channels g))%nat -> (i < length es)%nat -> given g i e w -> w <> 0 ->
       exists c gamma G r, channel_at inc pairs es g i c /\ stored pen (el_IFG f) c e w gamma /\
         In G gs /\ state_of g G /\ In r (t_resonances (g_table G)) /\ rs_energy r = e /\
         (~ removed pairs es g i -> exists k, nth_error (g_channels G) k = Some c /\ nth_error (rs_widths r) k = Some gamma) /\
         (removed pairs es g i -> alone (el_groups f) g -> rs_eliminated r = gamma)) /\
    (forall G r, In G gs -> In r (t_resonances (g_table G)) ->
       (exists g i w, In g (el_groups f) /\ state_of g G /\ given g i (rs_energy r) w /\ w <> 0) /\
       length (rs_widths r) = length (g_channels G) /\
       (forall k c gamma, nth_error (g_channels G) k = Some c -> nth_error (rs_widths r) k = Some gamma -> gamma <> 0 ->
          exists g i w, In g (el_groups f) /\ channel_at inc pairs es g i c /\ ~ removed pairs es g i /\ given g i (rs_energy r) w /\
            stored pen (el_IFG f) c (rs_energy r) w gamma) /\
       (rs_eliminated r <> 0 ->
          exists g i c w, In g (el_groups f) /\ state_of g G /\ channel_at inc pairs es g i c /\ removed pairs es g i /\ given g i (rs_energy r) w /\
            stored pen (el_IFG f) c (rs_energy r) w (rs_eliminated r))) /\
    (forall G c, In G gs -> In c (g_channels G) -> exists g i, In g (el_groups f) /\ channel_at inc pairs es g i c /\
       (pp_id (c_pair c) = pp_id inc \/ exists e w, given g i e w /\ w <> 0)) /\
    (forall g i c, In g (el_groups f) -> channel_at inc pairs es g i c -> pp_id (c_pair c) = pp_id inc -> ~ removed pairs es g i ->
       exists G, In G gs /\ state_of g G /\ In c (g_channels G)).
Proof.
  intros H pen es. apply steps in H as (pairs & inc & ds & out & A & Eo & Es). exists pairs, inc. split; [apply A|]. split; [exact (incident_first _ _ _ _ _ _ _ _ _ _ _ _ A)|].
  split; [exact (kept _ _ _ _ _ _ _ _ _ _ _ _ A _ _ Eo Es)|]. split; [exact (only_given _ _ _ _ _ _ _ _ _ _ _ _ A _ _ Eo Es)|].
  exact (channels_kept _ _ _ _ _ _ _ _ _ _ _ _ A _ _ Eo Es).
Qed.

(** * Radius tables *)
Section Radius.
Variables (hbar epsilon0 : R) (cwf : nat -> R -> R -> outcome coulomb).
Variables (nm ec : R) (incident target : string) (products : Z -> outcome (string * string)).
Variable multiRegion : endf_radius -> outcome (R -> outcome R).
Variable initial : forall g, cache (gsize g).
Theorem table_regions regions : (forall x, In x regions -> (1 <= snd x <= 5)%Z) -> makeChannelRadiusTable multiRegion (Some regions) = omap Some (multiRegion regions).
Proof.
  intros H. cbn. replace (forallb _ regions) with true; [reflexivity|]. symmetry. apply forallb_forall. intros x Hx. specialize (H x Hx).
  apply andb_true_intro. split; apply Z.leb_le; lia.
Qed.
Theorem table_refused r regions x : er_radius r = Some regions -> In x regions -> ~ (1 <= snd x <= 5)%Z ->
  fromENDF hbar epsilon0 cwf nm ec incident target products multiRegion initial r = Throw (RuntimeError "You somehow reached unreachable code").
Proof.
  intros E Hx Hn. unfold fromENDF. rewrite E. cbn [makeChannelRadiusTable]. replace (forallb _ regions) with false; [reflexivity|]. symmetry.
  apply Bool.not_true_is_false. intros Q. rewrite forallb_forall in Q. specialize (Q x Hx). apply andb_prop in Q as [A B]. apply Z.leb_le in A. apply Z.leb_le in B. lia.
Qed.
End Radius.
