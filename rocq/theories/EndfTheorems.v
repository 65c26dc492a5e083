(** Reich-Moore compound systems from files. *)
From Coq Require Import String List ZArith Reals Bool Lra Lia Permutation.
From Verif Require Import Outcome QuantumModel QuantumSpec QuantumProofs SpinFactorModel SpinFactorProofs HardSphereModel HardSphereSpec HardSphereProofs KinematicsModel CoulombModel RMatrixModel ChannelModel SpinGroupModel
  BreitWignerModel ReichMooreModel LegacyModel UnresolvedModel ListFacts AssemblyModel AssemblySpec AssemblyTheorems EndfModel EndfSpec EndfProofs EndfFlagProofs EndfReichMooreProofs.
From Verif Require LegacyProofs BreitWignerSpec BreitWignerSystemProofs ReichMooreProofs.
Import ListNotations.
Open Scope R_scope.

(** * Enough channels *)
Definition asks (l : nat) (J : Z) (r : nat * Z) : bool := Nat.eqb (fst r) l && (Z.abs (snd r) =? J)%Z.
Definition offers (l : nat) (J : Z) (q : qnum) : bool := Nat.eqb (ql q) l && (qJ q =? J)%Z.
Lemma retrieveAll_count reqs : forall av, (forall l J, (length (filter (asks l J) reqs) <= length (filter (offers l J) av))%nat) ->
  exists got left, retrieveAll reqs av = Ok (got, left).
Proof.
  induction reqs as [|[l j] reqs IH]; intros av H; cbn [retrieveAll]; [eauto|].
  destruct (retrieve_total l j av) as (q & rest & E).
  { specialize (H l (Z.abs j)). cbn [filter] in H. unfold asks at 1 in H. cbn [fst snd] in H. rewrite Nat.eqb_refl, Z.eqb_refl in H. cbn [andb length] in H.
    destruct (filter (offers l (Z.abs j)) av) as [|q m] eqn:F; [cbn in H; lia|]. assert (Q : In q (filter (offers l (Z.abs j)) av)) by (rewrite F; left; reflexivity).
    apply filter_In in Q as [Q1 Q2]. unfold offers in Q2. apply andb_prop in Q2 as [Q2 Q3]. apply Nat.eqb_eq in Q2. apply Z.eqb_eq in Q3. exists q. auto. }
  rewrite E. cbn [bind]. destruct (IH rest) as (got & left & E'); [|rewrite E'; cbn [bind]; eauto].
  intros l' J. specialize (H l' J). pose proof (retrieve_perm _ _ _ _ _ E) as P. apply retrieve_ok in E as (A & B & _).
  rewrite (Permutation_length (filter_perm (offers l' J) _ _ P)) in H. cbn [filter] in H.
  unfold asks at 1, offers at 1 in H. cbn [fst snd] in H. rewrite A, B in H. destruct (Nat.eqb l l' && (Z.abs j =? J)%Z); cbn [length] in H; lia.
Qed.
Lemma asks_perm l J r r' : Permutation r r' -> length (filter (asks l J) r) = length (filter (asks l J) r').
Proof. intros P. apply Permutation_length, filter_perm, P. Qed.
Lemma enough reqs av qs : NoDup qs -> (forall q, In q qs -> In q av) -> Forall2 (fun r q => ql q = fst r /\ qJ q = Z.abs (snd r)) reqs qs ->
  forall l J, (length (filter (asks l J) reqs) <= length (filter (offers l J) av))%nat.
Proof.
  intros N I F l J. replace (length (filter (asks l J) reqs)) with (length (filter (offers l J) qs)).
  - apply NoDup_incl_length; [apply NoDup_filter, N|]. intros q Hq. apply filter_In in Hq as [A B]. apply filter_In. auto.
  - clear -F. induction F as [|r q reqs qs [A B] _ IH]; [reflexivity|]. cbn [filter]. unfold offers at 1, asks at 1. rewrite A, B.
    destruct (Nat.eqb (fst r) l && (Z.abs (snd r) =? J)%Z); cbn [length]; rewrite IH; reflexivity.
Qed.

(** * Nothing undefined when every J and parity has an ordinary channel *)
Lemma mapM_throw {A B} (g : A -> outcome B) w l : (forall x, In x l -> (exists y, g x = Ok y) \/ g x = Throw w) ->
  (exists ys, mapM g l = Ok ys) \/ mapM g l = Throw w.
Proof.
  induction l as [|x l IH]; intros H; cbn [mapM]; [left; exists []; reflexivity|].
  destruct (H x (or_introl eq_refl)) as [[y ->]| ->]; cbn [bind]; [|right; reflexivity].
  destruct IH as [[ys ->]| ->]; [intros z Hz; apply H; right; exact Hz| |]; cbn [bind]; [left; eexists; reflexivity | right; reflexivity].
Qed.
Lemma system_defined data : (forall d, In d data -> consistent d) -> (forall j, of_Jpi j data <> [] -> ordinary_channels (of_Jpi j data) <> []) ->
  (exists gs, makeSystemFromData data = Ok gs) \/ makeSystemFromData data = Throw (RuntimeError "std::exception").
Proof.
  intros C O. unfold makeSystemFromData, makeSpinGroups.
  assert (S : forall j, In j (sortUniqueJpi (map getJpi data)) -> of_Jpi j data <> []).
  { intros j Hj Q. apply sortUniqueJpi_spec, in_map_iff in Hj as (d & E & Hd). assert (G : In d (of_Jpi j data)) by (apply of_Jpi_In; auto). rewrite Q in G. destruct G. }
  destruct (mapM_throw (fun j => makeGroupFromData (filter (hasJpi j) data)) (RuntimeError "std::exception") (sortUniqueJpi (map getJpi data))) as [[gs E]|E].
  - intros j Hj. rewrite filter_hasJpi. destruct (group_from_data j (of_Jpi j data)) as [A B]; [intros d Hd; apply of_Jpi_In in Hd; apply C, Hd | intros d Hd; apply of_Jpi_In in Hd; apply Hd|].
    destruct (Classical_Prop.classic (acceptable_data (of_Jpi j data))) as [Q|Q].
    + destruct (A Q) as (g & Eg & _). left. exists g. exact Eg.
    + destruct (B Q) as [Eg|[_ Eg]]; [right; exact Eg|]. exfalso. exact (O j (S j Hj) Eg).
  - rewrite E. cbn [bind]. assert (N : forall g, In g gs -> g_channels g <> []).
    { apply mapM_Ok in E. clear -E O S C. revert E S. generalize (sortUniqueJpi (map getJpi data)). intros js E. induction E as [|j g js gs H _ IH]; intros S g' Hg; [destruct Hg|].
      destruct Hg as [<-|Hg]; [|apply IH; [intros k Hk; apply S; right; exact Hk | exact Hg]].
      rewrite filter_hasJpi in H. destruct (group_from_data j (of_Jpi j data)) as [A B]; [intros d Hd; apply of_Jpi_In in Hd; apply C, Hd | intros d Hd; apply of_Jpi_In in Hd; apply Hd|].
      destruct (Classical_Prop.classic (acceptable_data (of_Jpi j data))) as [Q|Q].
      - destruct (A Q) as (g' & Eg & Ech & _). rewrite H in Eg. injection Eg as <-. rewrite Ech. apply O, S. left. reflexivity.
      - destruct (B Q) as [Eg|[Eg _]]; rewrite H in Eg; discriminate. }
    destruct (system_accepts gs N) as [_ [Q|Q]]; rewrite Q; [left; eexists; reflexivity | right; reflexivity].
  - rewrite E. right. reflexivity.
Qed.

Section ReichMoore.
Variables (hbar epsilon0 : R) (cwf : nat -> R -> R -> outcome coulomb) (neutronMass : R) (incident target : string).
Let make := makeReichMooreCompoundSystem hbar epsilon0 cwf neutronMass incident target.
Let pen : channel -> R -> option R := fun c e => match channelPenetrability hbar epsilon0 cwf c e with Ok (Some p) => Some p | _ => None end.

Lemma empties (mk : qnum -> channel) ns : mapM (fun n => makeChannelData (mk n) [] [] false) ns = Ok (map (fun n => mkChannelData (mk n) [] [] false) ns).
Proof. induction ns as [|n ns IH]; [reflexivity|]. cbn [mapM map]. rewrite IH. reflexivity. Qed.

(** * One l value *)
Theorem lvalue_made spin ap nro naps ls av ds rem :
  makeReichMooreChannelData hbar epsilon0 cwf neutronMass incident target spin ap nro naps ls av = Ok (Some ds, rem) ->
  exists inc rad js nds, legacyPair neutronMass incident target (rs_AWRI ls) spin = Ok inc /\
    makeChannelRadii (if Req_EM_T (rs_APL ls) 0 then ap else rs_APL ls) nro naps (rs_AWRI ls) neutronMass = Ok rad /\
    NoDup js /\ (forall j, In j js <-> In j (map rl_AJ (rs_lines ls))) /\
    Forall2 (fun j nd => rm_block pen ls inc rad j (fst nd) (snd nd)) js nds /\ ds = concat (map snd nds) /\
    Permutation av (map fst nds ++ rem).
Proof.
  unfold makeReichMooreChannelData. intros H. apply bind_Ok in H as (inc & Ei & H). apply bind_Ok in H as (rad & Er & H).
  destruct (pair_id _ _ _ _ _ _ Ei) as (Hid & _ & _ & Hi). rewrite <- Hid in Hi.
  destruct (blocks_J _ _ _ ls inc rad _ (eq_sym Hi) av ds rem H) as (bs & J & F & -> & Rt).
  exists inc, rad, (sort_unique (map rl_AJ (rs_lines ls))), (map (fun b => (b_n b, b_ds b)) bs).
  split; [exact Ei|]. split; [exact Er|]. split; [apply su_nodup|]. split; [intros j; apply su_in|]. split; [|split].
  - rewrite <- J. clear -F. induction F as [|b bs (Ob & <- & <- & <-) _ IH]; constructor; [exact Ob | exact IH].
  - rewrite map_map. reflexivity.
  - rewrite map_map. apply (retrieveAll_spec _ _ _ _ Rt).
Qed.

(** * Complete potential scattering *)
Theorem complete_scattering f nlsc nro naps gs : is_spin (rf_SPI f) -> make f nlsc nro naps = Ok (Some gs) ->
  let channels := filter isIncidentChannel (concat (map g_channels gs)) in
  NoDup (map c_numbers channels) /\ (forall q, In q (map c_numbers channels) <-> spec_number 1 (rf_SPI f) nlsc q) /\
  forall l, (l < nlsc)%nat -> Rsum (map spinFactor (filter (fun c => Nat.eqb (ql (c_numbers c)) l) channels)) = 2 * INR l + 1.
Proof.
  intros Hs H channels. unfold make, makeReichMooreCompoundSystem in H. destruct (rf_lstates f) as [|first rest] eqn:Ef; [discriminate|].
  apply bind_Ok in H as (inc & Ei & H). apply bind_Ok in H as (rad & Er & H). apply bind_Ok in H as (required & Eq & H). apply bind_Ok in H as ([ods remaining] & Ea & H). cbn [fst snd] in H.
  rewrite empties in H. cbn [bind] in H. destruct ods as [ds|]; [|discriminate]. apply bind_Ok in H as (out & Eo & H).
  destruct (makeSystemFromData out) as [gs'| | |] eqn:Em; try discriminate. cbn in H. injection H as ->.
  rewrite <- Ef in Ea. destruct (blocks_all _ _ _ _ _ _ _ _ _ _ _ _ _ _ Ea) as (bss & Fb & Ed & Rt).
  set (all := ds ++ map (fun n => mkChannelData (makeChannel Neutron inc inc (pp_id inc) 0 n rad 0) [] [] false) remaining) in *.
  assert (Cc : forall d, In d all -> consistent d).
  { intros d. exact (whole_consistent hbar epsilon0 cwf neutronMass incident target f nro naps inc rad remaining bss ds Fb Ed d). }
  pose proof (consolidate_result all out Cc Eo) as K. destruct (system_partition out gs (co_consistent _ _ K) Em) as [P _].
  assert (Eord : ordinary_channels out = ordinary_channels all) by (unfold ordinary_channels; rewrite (co_ordinary _ _ K); reflexivity).
  rewrite Eord in P.
  destruct (whole_scattering hbar epsilon0 cwf neutronMass incident target f nlsc nro naps first inc rad required remaining bss ds Hs Eq Ei Fb Ed Rt _ P) as [P1 P2].
  destruct (makeQuantumNumbers_spec 1 (rf_SPI f) nlsc) as (qs & E & N & I); [unfold is_spin; lia | exact Hs|]. rewrite Eq in E. injection E as <-.
  split; [exact (Permutation_NoDup (Permutation_sym P1) N)|]. split; [|exact P2].
  intros q. rewrite <- I. split; apply Permutation_in; [exact P1 | exact (Permutation_sym P1)].
Qed.

(** * Duplicate identifiers *)
Theorem clash_never f nlsc nro naps gs : is_spin (rf_SPI f) -> clash f -> make f nlsc nro naps <> Ok (Some gs).
Proof.
  intros Hs Cl H. unfold make, makeReichMooreCompoundSystem in H. destruct (rf_lstates f) as [|first rest] eqn:Ef; [discriminate|].
  apply bind_Ok in H as (inc & Ei & H). apply bind_Ok in H as (rad & Er & H). apply bind_Ok in H as (required & Eq & H). apply bind_Ok in H as ([ods remaining] & Ea & H). cbn [fst snd] in H.
  rewrite empties in H. cbn [bind] in H. destruct ods as [ds|]; [|discriminate]. apply bind_Ok in H as (out & Eo & H).
  destruct (makeSystemFromData out) as [gs'| | |] eqn:Em; try discriminate.
  rewrite <- Ef in Ea. destruct (blocks_all _ _ _ _ _ _ _ _ _ _ _ _ _ _ Ea) as (bss & Fb & Ed & Rt).
  set (all := ds ++ map (fun n => mkChannelData (makeChannel Neutron inc inc (pp_id inc) 0 n rad 0) [] [] false) remaining) in *.
  assert (Cc : forall d, In d all -> consistent d).
  { intros d. exact (whole_consistent hbar epsilon0 cwf neutronMass incident target f nro naps inc rad remaining bss ds Fb Ed d). }
  pose proof (consolidate_result all out Cc Eo) as K.
  destruct (proj2 (consolidated_system all out Cc Eo) (ex_intro _ gs' Em)) as [_ S].
  destruct (whole_clash hbar epsilon0 cwf neutronMass incident target f nro naps inc rad remaining bss ds Fb Ed Cl) as (jp & N1 & N2).
  apply N2. destruct (S jp) as (_ & S2 & _); [|exact S2].
  exact (of_Jpi_out hbar epsilon0 cwf neutronMass incident target f nlsc nro naps inc rad required remaining bss ds Hs Eq Fb Ed Rt jp out K N1).
Qed.

(** * Sensible files *)
Lemma sub_nodup jp data : NoDup (map c_id (ordinary_channels data)) -> NoDup (map c_id (ordinary_channels (of_Jpi jp data))).
Proof.
  unfold ordinary_channels, of_Jpi. rewrite !map_map. induction data as [|d l IH]; intros H; cbn [filter]; [constructor|]. cbn [filter] in H.
  destruct (negb (cd_eliminated d)) eqn:E.
  - cbn [map] in H. apply NoDup_cons_iff in H as [H1 H2]. specialize (IH H2). destruct (_ && _)%bool; [|exact IH]. cbn [filter]. rewrite E. cbn [map]. constructor; [|exact IH].
    intros Q. apply H1. apply in_map_iff in Q as (x & Ex & Hx). rewrite <- Ex. apply (in_map (fun x => c_id (cd_channel x))). apply filter_In in Hx as [Hx Nx]. apply filter_In in Hx as [Hx _]. apply filter_In. auto.
  - specialize (IH H). destruct (_ && _)%bool; [|exact IH]. cbn [filter]. rewrite E. exact IH.
Qed.

Hypotheses (Hhbar : 0 < hbar) (Hmass : 0 < neutronMass).

Definition positive_radius (rad : radii) : Prop := forall e, exists a, radius_at (r_P rad) e = Ok a /\ 0 < a.
Lemma radii_positive ap nro naps awri : 0 < awri -> 0 < ap -> legal (match nro with Some _ => true | None => false end) (Z.of_nat naps) ->
  (forall t e, nro = Some t -> exists a, t e = Ok a /\ 0 < a) -> exists rad, makeChannelRadii ap nro naps awri neutronMass = Ok rad /\ positive_radius rad.
Proof.
  intros Ha Hp L T. assert (D : 0 < 0.123 * Rpower (awri * neutronMass) (1 / 3) + 0.08) by (pose proof (exp_pos (1 / 3 * ln (awri * neutronMass))); unfold Rpower; lra).
  unfold makeChannelRadii, positive_radius. destruct nro as [t|], naps as [|[|[|n]]]; unfold legal in L; try lia; eexists; (split; [reflexivity|]); intros e; cbn;
    try (eexists; split; [reflexivity | assumption]). apply T. reflexivity.
Qed.
Lemma penetrability_positive awri spin inc n rad e : 0 < awri -> legacyPair neutronMass incident target awri spin = Ok inc -> (ql n <= 4)%nat -> positive_radius rad -> e <> 0 ->
  exists p, channelPenetrability hbar epsilon0 cwf (makeChannel Neutron inc inc (pp_id inc) 0 n rad 0) e = Ok (Some p) /\ 0 < p.
Proof.
  intros Ha Hi Hl Hr He. set (c := makeChannel Neutron inc inc (pp_id inc) 0 n rad 0).
  assert (Hc : LegacyProofs.legacy_channel neutronMass incident target awri spin c rad) by (exists inc, n; auto).
  unfold channelPenetrability, channelFunction. destruct (Hr e) as (a & Ea & Pa). change (c_radii c) with rad. rewrite Ea. cbn [bind]. change (c_type c) with Neutron.
  rewrite (LegacyProofs.channel_k hbar neutronMass Hmass incident target awri spin Ha c rad e Hc), (LegacyProofs.channel_eta hbar epsilon0 neutronMass Hmass incident target awri spin Ha c rad e Hc).
  cbn [calculatePenetrability]. change (ql (c_numbers c)) with (ql n).
  match goal with |- context [penetrability_neutron _ ?r] => assert (Hp : 0 < r) end.
  { apply Rmult_lt_0_compat; [|exact Pa]. apply BreitWignerSystemProofs.k_old_pos; [apply (LegacyProofs.C_new_pos hbar neutronMass Hhbar Hmass) | exact Ha | exact He]. }
  rewrite (penetrability_code (ql n) _ Hp Hl). cbn [omap]. eexists. split; [reflexivity | apply ReichMooreProofs.P_spec_pos, Hp].
Qed.
Lemma J_total ls awri spin inc rad j av n left : 0 < awri -> legacyPair neutronMass incident target awri spin = Ok inc -> (rs_L ls <= 4)%nat -> positive_radius rad ->
  (forall r, In r (rs_lines ls) -> rl_ER r <> 0) -> retrieveQuantumNumber (rs_L ls) j av = Ok (n, left) ->
  exists ds, reichMooreJ hbar epsilon0 cwf ls inc rad j av = Ok (Some ds, left).
Proof.
  intros Ha Hi Hl Hr He En. unfold reichMooreJ. rewrite En. cbn [bind fst snd].
  assert (Hl' : (ql n <= 4)%nat) by (apply retrieve_ok in En as (Q & _); rewrite Q; exact Hl).
  set (rows := filter (fun r => (rl_AJ r =? j)%Z) (rs_lines ls)). assert (He' : forall r, In r rows -> rl_ER r <> 0) by (intros r Q; apply filter_In in Q; apply He, Q).
  clearbody rows. set (cE := makeChannel Neutron inc inc (pp_id inc) 0 n rad 0).
  assert (G : exists ps, mapM (channelPenetrability hbar epsilon0 cwf cE) (map rl_ER rows) = Ok (map Some ps) /\ length ps = length rows /\ forall p, In p ps -> 0 < p).
  { induction rows as [|r rows IH]; [exists []; cbn; repeat split; intros p []|]. destruct IH as (ps & E & Lp & P); [intros x Hx; apply He'; right; exact Hx|].
    destruct (penetrability_positive awri spin inc n rad (rl_ER r) Ha Hi Hl' Hr (He' r (or_introl eq_refl))) as (p & Ep & Pp).
    exists (p :: ps). cbn [map mapM]. fold cE in Ep. rewrite Ep, E. cbn [bind]. split; [reflexivity|]. split; [cbn; lia|]. intros x [<-|Hx]; auto. }
  destruct G as (ps & E & Lp & P). rewrite E. cbn [bind].
  assert (F : all_finite (map Some ps) = Some ps) by (clear; induction ps as [|p ps IH]; [reflexivity | cbn [map all_finite]; rewrite IH; reflexivity]). rewrite F.
  assert (G : exists ws, all_finite (map (fun q => toElasticWidth (fst q) (snd q)) (combine (map rl_GN rows) ps)) = Some ws /\ length ws = length rows).
  { clear E F He'. revert ps Lp P. induction rows as [|r rows IH]; intros [|p ps] Lp P; try discriminate; [exists []; auto|].
    destruct (IH ps) as (ws & E & Lw); [cbn in Lp; lia | intros x Hx; apply P; right; exact Hx|]. destruct (elastic_total (rl_GN r) p (P p (or_introl eq_refl))) as (g & Eg).
    exists (g :: ws). cbn [map combine all_finite fst snd]. rewrite Eg, E. split; [reflexivity | cbn; lia]. }
  destruct G as (ws & Ew & Lw). rewrite Ew.
  rewrite made_total by (rewrite map_length; lia). cbn [bind]. rewrite made_total by (rewrite !map_length; reflexivity). cbn [bind].
  destruct (isAllZero (map rl_GFA rows)), (isAllZero (map rl_GFB rows)); cbn [negb bind]; rewrite ?made_total by (rewrite !map_length; reflexivity); cbn [bind]; eexists; reflexivity.
Qed.
Lemma Js_total ls awri spin inc rad : 0 < awri -> legacyPair neutronMass incident target awri spin = Ok inc -> (rs_L ls <= 4)%nat -> positive_radius rad ->
  (forall r, In r (rs_lines ls) -> rl_ER r <> 0) -> forall js av got left, retrieveAll (map (fun j => (rs_L ls, j)) js) av = Ok (got, left) ->
  exists ds, reichMooreJs hbar epsilon0 cwf ls inc rad js av = Ok (Some ds, left).
Proof.
  intros Ha Hi Hl Hr He. induction js as [|j js IH]; intros av got left H; cbn [map retrieveAll reichMooreJs] in *; [injection H as _ <-; eexists; reflexivity|].
  apply bind_Ok in H as ([q rest] & E & H). cbn [fst snd] in H. apply bind_Ok in H as ([qs' rest'] & E' & H). injection H as _ <-.
  destruct (J_total ls awri spin inc rad j av q rest Ha Hi Hl Hr He E) as (d & ->). cbn [bind]. destruct (IH rest qs' rest' E') as (ds & ->). eexists. reflexivity.
Qed.
Lemma retrieveAll_split r r' av got left : retrieveAll (r ++ r') av = Ok (got, left) ->
  exists g1 mid g2, retrieveAll r av = Ok (g1, mid) /\ retrieveAll r' mid = Ok (g2, left).
Proof.
  revert av got. induction r as [|[l j] r IH]; intros av got H; cbn [app retrieveAll] in *; [exists [], av, got; auto|].
  apply bind_Ok in H as ([q rest] & E & H). cbn [fst snd] in H. apply bind_Ok in H as ([qs' rest'] & E' & H). injection H as _ <-.
  destruct (IH rest qs' E') as (g1 & mid & g2 & A & B). rewrite E. cbn [bind]. rewrite A. cbn [bind]. eexists _, _, _. split; [reflexivity | exact B].
Qed.
Lemma All_total spin ap nro naps : 0 < ap -> legal (match nro with Some _ => true | None => false end) (Z.of_nat naps) ->
  (forall t e, nro = Some t -> exists a, t e = Ok a /\ 0 < a) -> forall lss,
  (forall ls, In ls lss -> 0 < rs_AWRI ls /\ (rs_L ls <= 4)%nat /\ 0 <= rs_APL ls /\ forall r, In r (rs_lines ls) -> rl_ER r <> 0) ->
  forall av got left, retrieveAll (concat (map (fun ls => map (fun j => (rs_L ls, j)) (js_rm ls)) lss)) av = Ok (got, left) ->
  exists ds, reichMooreAll hbar epsilon0 cwf neutronMass incident target spin ap nro naps lss av = Ok (Some ds, left).
Proof.
  intros Hap L T. induction lss as [|ls lss IH]; intros H av got left Rt; cbn [map concat reichMooreAll] in *; [injection Rt as _ <-; eexists; reflexivity|].
  destruct (retrieveAll_split _ _ _ _ _ Rt) as (g1 & mid & g2 & R1 & R2). destruct (H ls (or_introl eq_refl)) as (Ha & Hl & Hapl & He).
  unfold makeReichMooreChannelData. destruct (LegacyProofs.legacyPair_ok neutronMass Hmass incident target (rs_AWRI ls) spin Ha) as (inc & Ei & _). rewrite Ei. cbn [bind].
  destruct (radii_positive (if Req_EM_T (rs_APL ls) 0 then ap else rs_APL ls) nro naps (rs_AWRI ls) Ha) as (rad & Er & Pr); [destruct (Req_EM_T (rs_APL ls) 0); lra | exact L | exact T|].
  rewrite Er. cbn [bind]. destruct (Js_total ls _ _ inc rad Ha Ei Hl Pr He _ _ _ _ R1) as (d & Ed). unfold js_rm in Ed. rewrite Ed. cbn [bind].
  destruct (IH (fun l Q => H l (or_intror Q)) mid g2 left R2) as (ds & ->). eexists. reflexivity.
Qed.
Lemma requested_perm f : Permutation (requested f) (concat (map (fun ls => map (fun j => (rs_L ls, j)) (js_rm ls)) (rf_lstates f))).
Proof.
  unfold requested. induction (rf_lstates f) as [|ls lss IH]; [constructor|]. cbn [map concat]. apply Permutation_app; [|exact IH]. apply Permutation_map.
  apply NoDup_Permutation; [apply NoDup_nodup | apply su_nodup|]. intros x. rewrite nodup_In. unfold js_rm. rewrite su_in. tauto.
Qed.

Theorem sensible_made f nlsc nro naps : sensible f nlsc nro naps -> no_brace incident -> no_brace target ->
  (~ clash f -> exists gs, make f nlsc nro naps = Ok (Some gs)) /\
  (clash f -> make f nlsc nro naps = Throw (RuntimeError "std::exception")).
Proof.
  intros S Bi Bt. pose proof (se_spin _ _ _ _ S) as Hs. destruct (makeQuantumNumbers_spec 1 (rf_SPI f) nlsc) as (required & Eq & N & I); [unfold is_spin; lia | exact Hs|].
  assert (A : exists ds remaining, reichMooreAll hbar epsilon0 cwf neutronMass incident target (rf_SPI f) (rf_AP f) nro naps (rf_lstates f) required = Ok (Some ds, remaining)).
  { destruct (se_channels _ _ _ _ S) as (qs & Nq & Iq & Fq).
    destruct (retrieveAll_count (concat (map (fun ls => map (fun j => (rs_L ls, j)) (js_rm ls)) (rf_lstates f))) required) as (got & left & Rt).
    { intros l J. rewrite <- (asks_perm l J _ _ (requested_perm f)). apply (enough _ _ qs Nq); [intros q Hq; apply I, Iq, Hq | exact Fq]. }
    destruct (All_total (rf_SPI f) (rf_AP f) nro naps (se_radius _ _ _ _ S) (se_flags _ _ _ _ S) (se_table _ _ _ _ S) (rf_lstates f)) with (2 := Rt) as (ds & E).
    - intros ls Hls. split; [exact (se_target _ _ _ _ S ls Hls)|]. split; [exact (se_l _ _ _ _ S ls Hls)|]. split; [exact (se_APL _ _ _ _ S ls Hls)|]. intros r Hr. exact (se_energies _ _ _ _ S ls r Hls Hr).
    - exists ds, left. exact E. }
  destruct A as (ds & remaining & Ea). unfold make, makeReichMooreCompoundSystem.
  destruct (rf_lstates f) as [|first rest] eqn:Ef; [destruct (se_states _ _ _ _ S Ef)|].
  assert (Hfirst : In first (rf_lstates f)) by (rewrite Ef; left; reflexivity). pose proof (se_target _ _ _ _ S first Hfirst) as Ha.
  destruct (LegacyProofs.legacyPair_ok neutronMass Hmass incident target (rs_AWRI first) (rf_SPI f) Ha) as (inc & Ei & _).
  destruct (radii_positive (rf_AP f) nro naps (rs_AWRI first) Ha (se_radius _ _ _ _ S) (se_flags _ _ _ _ S) (se_table _ _ _ _ S)) as (rad & Er & _).
  rewrite Ei. cbn [bind]. rewrite Er. cbn [bind]. rewrite Eq. cbn [bind]. rewrite Ea. cbn [bind]. rewrite empties. cbn [bind].
  rewrite <- Ef in Ea. destruct (blocks_all _ _ _ _ _ _ _ _ _ _ _ _ _ _ Ea) as (bss & Fb & Ed & Rt).
  set (all := ds ++ map (fun n => mkChannelData (makeChannel Neutron inc inc (pp_id inc) 0 n rad 0) [] [] false) remaining) in *.
  assert (Cc : forall d, In d all -> consistent d).
  { intros d. exact (whole_consistent hbar epsilon0 cwf neutronMass incident target f nro naps inc rad remaining bss ds Fb Ed d). }
  destruct (consolidate_ok all Cc) as (out & Eo & K). rewrite Eo. cbn [bind]. split.
  - intros Nc. destruct (proj1 (consolidated_system all out Cc Eo)) as (gs & Eg); [|rewrite Eg; eexists; reflexivity].
    pose proof (fun jp (H : of_Jpi jp out <> []) => of_Jpi_all inc rad remaining ds jp out K H) as OA.
    split.
    + intros Q. pose proof (whole_nonempty hbar epsilon0 cwf neutronMass incident target f nlsc nro naps inc rad required remaining bss ds Hs Eq Fb Ed Rt (se_nlsc _ _ _ _ S)) as NE.
      fold all in NE. destruct all as [|d all'] eqn:Eall; [contradiction|]. rewrite <- Eall in *.
      assert (G : of_Jpi (Jpi_data d) all <> []). { intros G. assert (Z : In d (of_Jpi (Jpi_data d) all)) by (apply of_Jpi_In; rewrite Eall; split; [left|]; reflexivity). rewrite G in Z. destruct Z. }
      apply (of_Jpi_out hbar epsilon0 cwf neutronMass incident target f nlsc nro naps inc rad required remaining bss ds Hs Eq Fb Ed Rt (Jpi_data d) out K) in G. rewrite Q in G. apply G. reflexivity.
    + intros jp Hj cs. specialize (OA jp Hj). split; [|split].
      * assert (G : forall c, In c cs -> pp_id (c_incident c) = (incident ++ "," ++ target)%string).
        { intros c Hc. apply (whole_incident_id hbar epsilon0 cwf neutronMass incident target f nro naps first inc rad remaining bss ds Ei Fb Ed).
          unfold cs, ordinary_channels in Hc. apply in_map_iff in Hc as (d & <- & Hd). apply in_map. apply filter_In in Hd as [Hd Nd]. apply of_Jpi_In in Hd as [Hd _]. apply filter_In. auto. }
        intros c c' Hc Hc'. rewrite (G c Hc), (G c' Hc'). reflexivity.
      * apply sub_nodup. exact (whole_distinct hbar epsilon0 cwf neutronMass incident target f nlsc nro naps first inc rad required remaining bss ds Hs Eq Ei Fb Ed Rt Bi Bt Nc).
      * exact (whole_has_incident hbar epsilon0 cwf neutronMass incident target f nlsc nro naps inc rad required remaining bss ds Hs Eq Fb Ed Rt jp OA).
  - intros Cl. destruct (system_defined out) as [[gs Eg]|Eg]; [exact (co_consistent _ _ K)| | |rewrite Eg; reflexivity].
    + intros jp Hj. rewrite (consolidated_channels _ _ jp K).
      pose proof (of_Jpi_all inc rad remaining ds jp out K Hj) as OA.
      destruct (whole_has_incident hbar epsilon0 cwf neutronMass incident target f nlsc nro naps inc rad required remaining bss ds Hs Eq Fb Ed Rt jp OA) as (c & Hc & _).
      intros Q. fold all in Hc. rewrite Q in Hc. destruct Hc.
    + exfalso. apply (clash_never f nlsc nro naps gs Hs Cl). unfold make, makeReichMooreCompoundSystem. rewrite Ef, Ei. cbn [bind]. rewrite Er. cbn [bind]. rewrite Eq. cbn [bind].
      rewrite <- Ef, Ea. cbn [bind]. rewrite empties. cbn [bind]. fold all. rewrite Eo. cbn [bind]. rewrite Eg. reflexivity.
Qed.
End ReichMoore.
