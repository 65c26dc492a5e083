(** From a file in the R-Matrix Limited format to the cross sections: C79. *)
From Coq Require Import String List ZArith Reals Bool Lra Lia.
From Verif Require Import Outcome QuantumModel QuantumSpec HardSphereModel KinematicsModel CoulombModel Cplx RMatrixModel RMatrixSpec
  ChannelModel SpinGroupModel SpinGroupSpec GridModel AssemblyModel AssemblySpec EndfModel EndfSpec EndfProperties
  LimitedSpec LimitedProofs LimitedTheorems LimitedAcceptProofs LimitedCases LimitedFileSpec LimitedCrossSpec LimitedCrossProofs LimitedFrom LimitedFlagCases.
Import ListNotations.
Open Scope R_scope.

(** What is reconstructed inside the energy range is, reaction by reaction, the sum over the
    spin groups of what the collision matrix of the lines of the group gives. *)
Theorem C79_cross hbar epsilon0 cwf nm ec incident target products multiRegion initial r f rc e rc' o :
  er_LRU r = 1%Z -> er_LRF r = 7%Z -> er_parameters r = ParametersLimited f ->
  fromENDF hbar epsilon0 cwf nm ec incident target products multiRegion initial r = Ok (Some rc) ->
  er_lower r <= e <= er_upper r -> reconstruct hbar epsilon0 cwf rc e = Ok (Some (rc', o)) ->
  (forall g, In g (el_groups f) -> alone (el_groups f) g) -> (forall g, In g (el_groups f) -> NoDup (eg_ER g)) ->
  exists x b pairs inc m xs, hd_error (el_pairs f) = Some x /\ flagged b x /\
    makeParticlePairs nm ec incident target products (el_pairs f) = Ok pairs /\
    (exists n, first_at 2%Z (map ep_MT (el_pairs f)) n /\ nth_error pairs n = Some inc) /\
    o = Matrix m /\ Forall2 (group_gives hbar epsilon0 cwf b e f pairs inc) (el_groups f) xs /\
    (forall k, match m k with Some y => y | None => 0 end = Rsum (map (fun x => x k) xs)) /\
    (forall k, ~ some_reaction f pairs inc k -> m k = None).
Proof. exact (from_limited hbar epsilon0 cwf nm ec incident target products multiRegion initial r f rc e rc' o). Qed.
Print Assumptions C79_cross.
(** With channels without charge, the reconstruction succeeds. *)
Theorem C79_evaluates hbar epsilon0 cwf nm ec incident target products multiRegion initial r f rc e :
  er_LRU r = 1%Z -> er_LRF r = 7%Z -> er_parameters r = ParametersLimited f ->
  fromENDF hbar epsilon0 cwf nm ec incident target products multiRegion initial r = Ok (Some rc) ->
  er_lower r <= e <= er_upper r -> 0 < hbar ->
  (forall g, In g (el_groups f) -> alone (el_groups f) g) -> (forall g, In g (el_groups f) -> NoDup (eg_ER g)) ->
  (forall pairs inc, makeParticlePairs nm ec incident target products (el_pairs f) = Ok pairs ->
     (exists n, first_at 2%Z (map ep_MT (el_pairs f)) n /\ nth_error pairs n = Some inc) -> evaluable hbar e f pairs inc) ->
  exists rc' m, reconstruct hbar epsilon0 cwf rc e = Ok (Some (rc', Matrix m)).
Proof. exact (from_limited_evaluates hbar epsilon0 cwf nm ec incident target products multiRegion initial r f rc e). Qed.
Print Assumptions C79_evaluates.
(** The flag that asks for the shift factor of a pair is not heeded: with the capture pair first
    (flag 0), the elastic p wave is computed without a shift although its flag is 1, and the
    capture cross section is not the one with the shift. *)
Theorem C79_shift_flag_refuted : exists r f nm ec incident target products,
  er_LRU r = 1%Z /\ er_LRF r = 7%Z /\ er_parameters r = ParametersLimited f /\
  forall epsilon0 cwf multiRegion initial, exists pairs inc rc rc' m e,
  (forall x, In x (el_pairs f) -> ep_MT x = 2%Z -> ep_SHF x = 1%Z) /\
  makeParticlePairs nm ec incident target products (el_pairs f) = Ok pairs /\
  (exists n, first_at 2%Z (map ep_MT (el_pairs f)) n /\ nth_error pairs n = Some inc) /\
  (forall g i c, In g (el_groups f) -> used inc pairs (el_pairs f) g i c -> c_pair c = inc) /\
  fromENDF 1 epsilon0 cwf nm ec incident target products multiRegion initial r = Ok (Some rc) /\
  er_lower r <= e <= er_upper r /\ reconstruct 1 epsilon0 cwf rc e = Ok (Some (rc', Matrix m)) /\
  ~ exists xs, Forall2 (group_gives 1 epsilon0 cwf Constant e f pairs inc) (el_groups f) xs /\
      (forall k, match m k with Some y => y | None => 0 end = Rsum (map (fun x => x k) xs)).
Proof.
  exists sh_range, sh_file, 1, 1, "n"%string, "U235"%string, ex_products. split; [reflexivity|]. split; [reflexivity|]. split; [reflexivity|]. intros epsilon0 cwf multiRegion initial.
  destruct (shift_flag epsilon0 cwf multiRegion initial) as (pairs & inc & rc & rc' & m & A & B & C & D & E & F & G). exists pairs, inc, rc, rc', m, 10.
  split; [exact A|]. split; [exact B|]. split; [exact C|]. split; [intros g i c [<-|[]]; exact (D i c)|]. split; [exact E|]. split; [unfold sh_range; cbn [er_lower er_upper]; lra|]. split; [exact F | exact G].
Qed.
Print Assumptions C79_shift_flag_refuted.

(** A file with two spin groups, at the energy of one of its resonances: all hypotheses of
    C79_cross and C79_evaluates hold *)
Definition li_range (ifg : Z) : endf_range := mkERange 1 100 1 7 0 None (ParametersLimited (li_file ifg)).
Example C79_case epsilon0 cwf multiRegion initial ifg : exists rc rc' m,
  fromENDF 1 epsilon0 cwf 1 1 "n" "U235" ex_products multiRegion initial (li_range ifg) = Ok (Some rc) /\
  er_lower (li_range ifg) <= 10 <= er_upper (li_range ifg) /\ reconstruct 1 epsilon0 cwf rc 10 = Ok (Some (rc', Matrix m)) /\
  (forall g, In g (el_groups (li_file ifg)) -> alone (el_groups (li_file ifg)) g /\ NoDup (eg_ER g)) /\
  (forall pairs inc, makeParticlePairs 1 1 "n" "U235" ex_products li_pairs = Ok pairs ->
     (exists n, first_at 2%Z (map ep_MT li_pairs) n /\ nth_error pairs n = Some inc) -> evaluable 1 10 (li_file ifg) pairs inc) /\
  given li_first 1 10 2.
Proof.
  destruct li_made as (pairs & cap & E & -> & Hcap). pose proof (li_well_formed epsilon0 cwf cap Hcap ifg) as W.
  destruct (accepted_file 1 epsilon0 cwf 1 1 "n" "U235" ex_products (li_file ifg) _ _ E W) as (gs & Eg).
  destruct (from_limited_accepts 1 epsilon0 cwf 1 1 "n" "U235" ex_products multiRegion initial (li_range ifg) (li_file ifg) gs ex_capture_pair None eq_refl eq_refl eq_refl eq_refl eq_refl eq_refl Eg) as (rc & Er).
  assert (Range : er_lower (li_range ifg) <= 10 <= er_upper (li_range ifg)) by (unfold li_range; cbn [er_lower er_upper]; lra).
  assert (Gr : forall g, In g (el_groups (li_file ifg)) -> g = li_first \/ g = li_second) by (intros g [<-|[<-|[]]]; auto).
  assert (Nd : forall g, In g (el_groups (li_file ifg)) -> NoDup (eg_ER g)).
  { intros g Hg. destruct (Gr g Hg) as [->| ->]; [exact (proj2 (proj2 li_given)) | constructor]. }
  pose proof (wf_alone _ _ _ _ W) as Al.
  assert (Ev : forall pairs inc, makeParticlePairs 1 1 "n" "U235" ex_products li_pairs = Ok pairs ->
     (exists n, first_at 2%Z (map ep_MT li_pairs) n /\ nth_error pairs n = Some inc) -> evaluable 1 10 (li_file ifg) pairs inc).
  { intros pairs inc E' (n & F & Hn). rewrite E in E'. injection E' as <-. assert (Hi : inc = ex_inc).
    { destruct F as (a & b & Q & N & L). destruct n as [|[|n]]; [destruct a as [|? a]; cbn in *; congruence | cbn in Hn; congruence | destruct n; discriminate]. } subst inc.
    assert (U : forall g i c, In g (el_groups (li_file ifg)) -> used ex_inc [cap; ex_inc] li_pairs g i c -> g = li_second \/ i = 1%nat /\ channel_at ex_inc [cap; ex_inc] li_pairs g 1 c).
    { intros g i c Hg (At & Ne & _). destruct (Gr g Hg) as [->| ->]; [right | left; reflexivity]. destruct (li_channel cap li_first i c (or_introl eq_refl) At) as [(-> & _)|(-> & _)]; [|auto].
      exfalso. apply Ne. split; [apply (li_removed cap li_first 0 (or_introl eq_refl)); reflexivity|]. exists 20, 3. split; [exact (proj1 (proj2 li_given)) | lra]. }
    assert (U2 : forall i c, used ex_inc [cap; ex_inc] li_pairs li_second i c -> i = 1%nat).
    { intros i c (At & Ne & [Hc|(e & w & [N0 _] & _)]); [|cbn in N0; contradiction]. destruct (li_channel cap li_second i c (or_intror eq_refl) At) as [(-> & Hp & _)|(-> & _)]; [|auto].
      rewrite Hp, Hcap in Hc. discriminate. }
    assert (V : forall g i c, In g (el_groups (li_file ifg)) -> used ex_inc [cap; ex_inc] li_pairs g i c -> c_pair c = ex_inc /\ c_type c = Neutron /\ c_incident c = ex_inc /\ c_q c = 0 /\
      ql (c_numbers c) = 0%nat /\ c_radii c = radii2 (Fixed 2) (Fixed 1)).
    { intros g i c Hg Hu. assert (Hi : i = 1%nat) by (destruct (U g i c Hg Hu) as [->|[-> _]]; [exact (U2 i c Hu) | reflexivity]). destruct Hu as (At & _).
      destruct (li_channel cap g i c (Gr g Hg) At) as [(-> & _)|(_ & Hp & Ht)]; [discriminate|]. destruct At as (ec & x & E1 & E2 & D).
      assert (K : eg_channels g = [ex_echannel 1; ex_echannel 2]) by (destruct (Gr g Hg) as [->| ->]; reflexivity). rewrite K in E1. subst i. cbn in E1, E2. injection E1 as <-. injection E2 as <-.
      destruct (de_q _ _ _ _ _ _ _ D) as (n' & y & En & Hn' & Hq). cbn in En. injection En as <-. cbn in Hn'. injection Hn' as <-. cbn in Hq.
      split; [exact Hp|]. split; [exact Ht|]. split; [exact (de_incident _ _ _ _ _ _ _ D)|]. split; [exact Hq|]. split; [exact (de_l _ _ _ _ _ _ _ D)|].
      pose proof (de_P _ _ _ _ _ _ _ D). pose proof (de_S _ _ _ _ _ _ _ D). pose proof (de_phi _ _ _ _ _ _ _ D). destruct (c_radii c). cbn in *. subst. reflexivity. }
    constructor.
    - intros g i c Hg Hu. destruct (V g i c Hg Hu) as (Hp & Ht & Hi & Hq & Hl & Hr). unfold tame. rewrite Ht, Hl, Hp, Hi, Hq, Hr, inc_reduced, inc_ratio. split; [reflexivity|]. split; [cbn; ring|].
      split; [eexists _, _; split; [reflexivity|]; split; [lra|]; split; [reflexivity | lra]|]. exists 2, 1. split; [reflexivity | lra].
    - intros g i c Hg Hu _. destruct (V g i c Hg Hu) as (Hp & Ht & Hi & Hq & Hl & Hr). unfold channelFactor, channelWaveNumber. rewrite Hp, Hi, Hq, inc_reduced, inc_ratio.
      match goal with |- context [fdiv _ (?k * ?k)] => assert (Hk : 0 < k) end.
      { unfold waveNumber. apply Rdiv_lt_0_compat; [|lra]. apply sqrt_lt_R0. rewrite Rabs_right; lra. }
      unfold fdiv. destruct (Req_EM_T _ 0) as [Q|_]; [exfalso; nra|]. cbn [option_map]. eauto.
    - intros g i w Hg Gv Hw. destruct (Gr g Hg) as [->| ->]; [|destruct Gv as [N0 _]; cbn in N0; contradiction].
      destruct (li_exists cap li_first 0 (or_introl eq_refl)) as (c0 & A0); [lia|]. exists 0%nat, c0, 1.
      assert (Gv0 : given li_first 0 10 1) by (split; [discriminate|]; exists 0%nat, [1; 2]; auto).
      split; [split; [apply (li_removed cap li_first 0 (or_introl eq_refl)); reflexivity|]; exists 10, 1; split; [exact Gv0 | lra]|]. split; [exact A0|]. split; [exact Gv0 | lra]. }
  destruct (C79_evaluates 1 epsilon0 cwf 1 1 "n" "U235" ex_products multiRegion initial (li_range ifg) (li_file ifg) rc 10 eq_refl eq_refl eq_refl Er Range Rlt_0_1 Al Nd Ev) as (rc' & m & R).
  exists rc, rc', m. split; [exact Er|]. split; [exact Range|]. split; [exact R|]. split; [intros g Hg; split; [exact (Al g Hg) | exact (Nd g Hg)]|]. split; [exact Ev | exact (proj1 li_given)].
Qed.
