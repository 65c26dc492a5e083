(** A file in the R-Matrix Limited format with one p wave resonance: the capture pair comes
    first and has the shift flag 0, the elastic pair has the shift flag 1. *)
From Coq Require Import String List ZArith Reals Bool Lra Lia Sorted.
From Verif Require Import Outcome QuantumModel QuantumSpec HardSphereModel HardSphereSpec HardSphereProofs KinematicsModel CoulombModel Cplx RMatrixModel RMatrixSpec
  ChannelModel SpinGroupModel SpinGroupSpec GridModel
  AssemblyModel AssemblySpec EndfModel EndfSpec EndfProofs EndfProperties LimitedSpec LimitedProofs LimitedTheorems LimitedAcceptProofs
  LimitedFileSpec LimitedCrossSpec LimitedCrossProofs LimitedFrom LimitedFlagProofs.
Import ListNotations.
Open Scope R_scope.

Definition sh_elastic : endf_pair := mkEPair 1 235 0 92 1 (-7) 0 1 2 1 1.
Definition sh_pairs : list endf_pair := [ex_capture_pair; sh_elastic].
Definition sh_echannel (n l : nat) : endf_channel := mkEChannel n l 6 0 1 2.
Definition sh_group : endf_group := mkEGroup 6 0 [sh_echannel 1 0; sh_echannel 2 1] 1 [10] [[1; 1]].
Definition sh_file : endf_limited := mkELimited 3 1 sh_pairs [sh_group].
Definition sh_range : endf_range := mkERange 1 100 1 7 0 None (ParametersLimited sh_file).

Lemma sh_made : exists cap, makeParticlePairs 1 1 "n" "U235" ex_products sh_pairs = Ok [cap; ex_inc] /\ pp_id cap = "g,U236"%string.
Proof.
  unfold sh_pairs, sh_elastic. ex_particles. rewrite !Rmult_1_r. eexists. split; reflexivity.
Qed.

Section Case.
Variables (epsilon0 : R) (cwf : nat -> R -> R -> outcome coulomb).
Notation pen := (channelPenetrability 1 epsilon0 cwf).
Variables (cap : particlePair).
Hypothesis Hcap : pp_id cap = "g,U236"%string.
Notation pairs := [cap; ex_inc].

Lemma sh_channel i c : channel_at ex_inc pairs sh_pairs sh_group i c ->
  (i = 0%nat /\ c_pair c = cap /\ c_type c = Photon) \/ (i = 1%nat /\ c_pair c = ex_inc /\ c_type c = Neutron).
Proof.
  intros (e & x & E1 & E2 & D).
  destruct (de_pair _ _ _ _ _ _ _ D) as (n & En & Hn). pose proof (de_type _ _ _ _ _ _ _ D) as T.
  destruct i as [|[|i]]; cbn in E1, E2; try discriminate; [left | right | destruct i; discriminate]; injection E1 as <-; injection E2 as <-; cbn in En; injection En as <-; cbn in Hn; injection Hn as Hn.
  - split; [reflexivity|]. split; [symmetry; exact Hn|]. destruct T as [[_ T]|[[T _]|[[T _]|[T _]]]]; [exact T | cbn in T; lia | exfalso; apply T; reflexivity | exfalso; apply T; reflexivity].
  - split; [reflexivity|]. split; [symmetry; exact Hn|]. destruct T as [[T _]|[[T _]|[(_ & _ & T & _)|(_ & _ & _ & T)]]]; [cbn in T; lia | cbn in T; lia | | exact T].
    rewrite <- Hn in T. cbn in T. lra.
Qed.
Lemma sh_exists i : (i < 2)%nat -> exists c, channel_at ex_inc pairs sh_pairs sh_group i c.
Proof.
  intros Hi.
  destruct (channels_positional ex_inc pairs sh_pairs sh_group eq_refl) as [A _]. destruct A as (cs & Ec & F).
  { cbn. intros e [<-|[<-|[]]]; unfold valid_number; cbn; lia. }
  pose proof (channels_length ex_inc pairs sh_pairs eq_refl sh_group cs Ec) as Hl. cbn in Hl.
  destruct (nth_error cs i) as [c|] eqn:E; [|apply nth_error_None in E; lia]. exists c. exact (made_channels ex_inc pairs sh_pairs eq_refl sh_group cs i c Ec E).
Qed.
Lemma sh_removed i : removed pairs sh_pairs sh_group i <-> i = 0%nat.
Proof.
  assert (R : removed pairs sh_pairs sh_group 0).
  { exists 0%nat, cap. split; [exists [], [2%Z]; cbn; auto|]. split; [reflexivity|]. split; [|intros; lia]. exists (sh_echannel 1 0), cap. split; [reflexivity|]. split; [exists 0%nat; auto | reflexivity]. }
  split; [|intros ->; exact R]. intros H. exact (removed_unique pairs sh_pairs eq_refl sh_group i 0 H R).
Qed.
Lemma sh_given i e w : given sh_group i e w <-> (i < 2)%nat /\ e = 10 /\ w = 1.
Proof.
  split.
  - intros (_ & k & row & A & B & C). destruct k as [|k]; [|destruct k; discriminate]. injection A as <-. injection B as <-. destruct i as [|[|i]]; [| |destruct i; discriminate]; injection C as <-; auto.
  - intros (Hi & -> & ->). split; [discriminate|]. exists 0%nat, [1; 1]. split; [reflexivity|]. split; [reflexivity|]. destruct i as [|[|i]]; [reflexivity | reflexivity | lia].
Qed.
Lemma sh_eliminated i : eliminated_at pairs sh_pairs sh_group i <-> i = 0%nat.
Proof.
  unfold eliminated_at. rewrite sh_removed. split; [tauto|]. intros ->. split; [reflexivity|]. exists 10, 1. rewrite sh_given. split; [auto | lra].
Qed.
Lemma sh_used i c : used ex_inc pairs sh_pairs sh_group i c <-> i = 1%nat /\ channel_at ex_inc pairs sh_pairs sh_group 1 c.
Proof.
  unfold used. rewrite sh_eliminated. split.
  - intros (At & N & _). destruct (sh_channel i c At) as [[Q _]|[-> _]]; [contradiction | auto].
  - intros [-> At]. split; [exact At|]. split; [discriminate|]. right. exists 10, 1. rewrite sh_given. split; [auto | lra].
Qed.

Section Elastic.
Variable c : channel.
Hypothesis At : channel_at ex_inc pairs sh_pairs sh_group 1 c.
Let At' := At.
Lemma sh_numbers : c_pair c = ex_inc /\ c_type c = Neutron /\ c_incident c = ex_inc /\ c_q c = 0 /\ ql (c_numbers c) = 1%nat /\
  c_radii c = radii2 (Fixed 2) (Fixed 1) /\ c_boundary c = 0 /\ c_reaction c = Elastic "n" "U235".
Proof.
  destruct (sh_channel 1 c At) as [[Q _]|(_ & Hp & Ht)]; [discriminate|]. destruct At as (ec & x & E1 & E2 & D). cbn in E1, E2. injection E1 as <-. injection E2 as <-.
  destruct (de_q _ _ _ _ _ _ _ D) as (n & y & En & Hn & Hq). cbn in En. injection En as <-. cbn in Hn. injection Hn as <-. cbn in Hq.
  split; [exact Hp|]. split; [exact Ht|]. split; [exact (de_incident _ _ _ _ _ _ _ D)|]. split; [exact Hq|]. split; [exact (de_l _ _ _ _ _ _ _ D)|].
  split; [|split; [exact (de_boundary _ _ _ _ _ _ _ D)|]].
  - pose proof (de_P _ _ _ _ _ _ _ D). pose proof (de_S _ _ _ _ _ _ _ D). pose proof (de_phi _ _ _ _ _ _ _ D). destruct (c_radii c). cbn in *. subst. reflexivity.
  - rewrite (de_reaction _ _ _ _ _ _ _ D), Hp. reflexivity.
Qed.
Lemma inc_reduced : pp_reduced ex_inc = Some (1 * 235 / (1 + 235)).
Proof. unfold ex_inc, makeParticlePair; cbn; unfold fdiv; repeat destruct (Req_EM_T _ _); try lra; reflexivity. Qed.
Lemma inc_ratio : pp_ratio ex_inc = Some (235 / (1 + 235)).
Proof. unfold ex_inc, makeParticlePair; cbn; unfold fdiv; repeat destruct (Req_EM_T _ _); try lra; reflexivity. Qed.
Lemma sh_tame e : 0 < e -> tame e c.
Proof.
  intros He. destruct sh_numbers as (Hp & Ht & Hi & Hq & Hl & Hr & _). unfold tame. rewrite Ht, Hl, Hp, Hi, Hq, Hr, inc_reduced, inc_ratio. split; [reflexivity|]. split; [cbn; ring|].
  split; [eexists _, _; split; [reflexivity|]; split; [lra|]; split; [reflexivity | lra]|]. exists 2, 1. split; [reflexivity | lra].
Qed.
Lemma sh_wave e : 0 < e -> exists k, channelWaveNumber 1 c e = Some k /\ 0 < k.
Proof.
  intros He. destruct sh_numbers as (Hp & Ht & Hi & Hq & _). unfold channelWaveNumber. rewrite Hp, Hi, Hq, inc_reduced, inc_ratio. eexists. split; [reflexivity|].
  unfold waveNumber. apply Rdiv_lt_0_compat; [|lra]. apply sqrt_lt_R0. rewrite Rabs_right; lra.
Qed.
Lemma sh_functions e : 0 < e -> exists p s, pen c e = Ok (Some p) /\ 0 < p /\ channelShiftFactor 1 epsilon0 cwf c e = Ok (Some s) /\ s < 0.
Proof.
  intros He. destruct (sh_wave e He) as (k & Ek & Hk). destruct sh_numbers as (Hp & Ht & Hi & Hq & Hl & Hr & _).
  unfold channelPenetrability, channelShiftFactor, channelFunction. rewrite Hr. cbn [r_P r_S radii2 radius_at bind]. rewrite Ht, Ek. unfold channelEta. rewrite Hp.
  destruct (Req_EM_T (p_charge (pp_particle ex_inc) * p_charge (pp_residual ex_inc)) 0) as [_|N]; [|exfalso; apply N; cbn; ring].
  unfold calculatePenetrability, calculateShiftFactor. rewrite Hl.
  assert (Hx : 0 < k * 2) by lra. rewrite (penetrability_code 1 _ Hx) by lia. rewrite (shift_code 1 _ Hx) by lia. cbn [omap bind].
  eexists _, _. split; [reflexivity|]. split; [apply ReichMooreProofs.P_spec_pos, Hx|]. split; [reflexivity|].
  rewrite (S_spec_den 1 _ Hx) by lia. pose proof (den_pos 1 _ Hx) as Hd. cbn [num_shift]. apply Ropp_lt_cancel. rewrite Ropp_0.
  replace (- (- (1) / den 1 (k * 2))) with (/ den 1 (k * 2)) by (field; lra). apply Rinv_0_lt_compat. exact Hd.
Qed.
Lemma sh_factor e : 0 < e -> exists x, channelFactor 1 c e = Some x /\ 0 < x.
Proof.
  intros He. destruct (sh_wave e He) as (k & Ek & Hk). destruct sh_numbers as (Hp & _). unfold channelFactor. rewrite Ek. unfold fdiv. destruct (Req_EM_T (k * k) 0) as [Q|_]; [exfalso; nra|]. cbn [option_map].
  eexists. split; [reflexivity|]. apply Rmult_lt_0_compat.
  - apply Rdiv_lt_0_compat; [unfold pi_value; lra | nra].
  - unfold spinFactor, SpinFactorModel.statisticalSpinFactor, SpinFactorModel.spin_value. destruct At' as (ec & x & E1 & E2 & D). cbn in E1, E2. injection E1 as <-. injection E2 as <-. rewrite (de_J _ _ _ _ _ _ _ D), Hp. cbn. lra.
Qed.
Lemma sh_open e : 0 < e -> channelBelowThreshold c e = false.
Proof.
  intros He. destruct sh_numbers as (_ & _ & Hi & Hq & _). unfold channelBelowThreshold. rewrite Hi, Hq, inc_ratio. unfold belowThreshold. destruct (Rlt_dec _ _) as [Q|Q]; [lra | reflexivity].
Qed.
(** What the group gives *)
Lemma sh_table G rs : tabulated pen 1 ex_inc pairs sh_pairs sh_group (g_channels G) rs -> g_channels G = [c] /\ rs = [Resonance 10 [1] 1].
Proof.
  intros (idx & So & U & All & _ & Ls). specialize (Ls ltac:(discriminate)). cbn in Ls. inversion Ls as [|? r ? rest Li Q E1 E2]. inversion Q. subst. cbn [fst snd] in Li.
  assert (I : idx = [1%nat]).
  { pose proof (All 1%nat c (proj2 (sh_used 1 c) (Logic.conj eq_refl At))) as I1. assert (K : forall i, In i idx -> i = 1%nat).
    { intros i Hi. destruct (Forall2_left _ _ _ _ U Hi) as (c' & _ & Hc). apply sh_used in Hc. apply Hc. }
    destruct idx as [|a [|b idx]]; [destruct I1 | rewrite (K a (or_introl eq_refl)); reflexivity|]. exfalso. inversion So as [|? ? _ F]. inversion F as [|? ? Lt _]. subst.
    rewrite (K a (or_introl eq_refl)), (K b (or_intror (or_introl eq_refl))) in Lt. lia. }
  subst idx. inversion U as [|? c' ? l Hc Q' E1 E2]. inversion Q'. subst. assert (c' = c).
  { apply sh_used in Hc as [_ Hc]. exact (channel_at_unique ex_inc pairs sh_pairs sh_group 1 c' c Hc At). } subst c'. split; [reflexivity|].
  rewrite <- E2 in *. f_equal. destruct r as [e ws x]. pose proof (li_energy _ _ _ _ _ _ _ _ _ _ _ Li) as R1. pose proof (li_size _ _ _ _ _ _ _ _ _ _ _ Li) as R2. cbn in R1, R2. subst e.
  destruct (li_widths _ _ _ _ _ _ _ _ _ _ _ Li 0%nat 1%nat c eq_refl eq_refl) as (w & gamma & W1 & W2 & _ & W3). cbn in W1, W2. injection W1 as <-.
  destruct (sh_exists 0) as (c0 & A0); [lia|].
  destruct (li_eliminated _ _ _ _ _ _ _ _ _ _ _ Li 0%nat c0 (proj2 (sh_eliminated 0) eq_refl) A0) as (w' & X1 & _ & X2). cbn in X1, X2. injection X1 as <-.
  destruct ws as [|y [|? ?]]; try discriminate. cbn in W2. injection W2 as <-.
  destruct (W3 R1_neq_R0) as [Y _]. destruct (X2 R1_neq_R0) as [Z _]. rewrite Y, Z by discriminate. reflexivity.
Qed.
Lemma sh_gives b x : group_gives 1 epsilon0 cwf b 10 sh_file pairs ex_inc sh_group x ->
  exists factor p s, channelFactor 1 c 10 = Some factor /\ pen c 10 = Ok (Some p) /\ channelShiftFactor 1 epsilon0 cwf c 10 = Ok (Some s) /\
    x (Transfer "n,U235" "capture") = factor * (4 * p / ((match b with Constant => s * s | ShiftFactor => 0 end) + (1 + p) * (1 + p))).
Proof.
  destruct (sh_functions 10 ltac:(lra)) as (p & s & Ep & Hp & Es & Hs). destruct sh_numbers as (Np & Nt & Ni & Nq & Nl & Nr & Nb & Nx).
  intros [(G & rs & vs & A & factor & T & F1 & F2 & Ev & Hx)|[No _]].
  - destruct (sh_table G rs T) as [Ec ->]. exists factor, p, s. pose proof Ev as (_ & Ef & _).
    assert (Fi : first_incident G = c) by (rewrite Ec in F1; destruct F1 as [F1|[]]; auto).
    rewrite Fi in Ef. split; [exact Ef|]. split; [exact Ep|]. split; [exact Es|]. rewrite Hx.
    rewrite Fi in F2. pose proof (one_capture Ec Nt F2 (ltac:(rewrite Nx; discriminate)) (sh_open 10 ltac:(lra)) Ep Hp Es R1_neq_R0 Ev) as O.
    rewrite Ni in O. cbn [pp_id ex_inc makeParticlePair] in O. rewrite O.
    rewrite Nb. f_equal. assert (0 <= s * s) by nra. destruct b; field; nra.
  - exfalso. exact (No 1%nat c (proj2 (sh_used 1 c) (Logic.conj eq_refl At))).
Qed.
Lemma sh_differ x y : group_gives 1 epsilon0 cwf ShiftFactor 10 sh_file pairs ex_inc sh_group x ->
  group_gives 1 epsilon0 cwf Constant 10 sh_file pairs ex_inc sh_group y -> y (Transfer "n,U235" "capture") < x (Transfer "n,U235" "capture").
Proof.
  intros Hx Hy. destruct (sh_gives ShiftFactor x Hx) as (f & p & s & E1 & E2 & E3 & ->). destruct (sh_gives Constant y Hy) as (f' & p' & s' & E1' & E2' & E3' & ->).
  destruct (sh_factor 10 ltac:(lra)) as (f0 & F1 & F2). destruct (sh_functions 10 ltac:(lra)) as (p0 & s0 & P1 & P2 & S1 & S2).
  assert (f = f0) by congruence. assert (f' = f0) by congruence. assert (p = p0) by congruence. assert (p' = p0) by congruence. assert (s' = s0) by congruence. subst.
  apply Rmult_lt_compat_l; [exact F2|]. unfold Rdiv. apply Rmult_lt_compat_l; [lra|]. apply Rinv_lt_contravar; [|nra]. apply Rmult_lt_0_compat; nra.
Qed.
End Elastic.

Lemma sh_alone g : In g (el_groups sh_file) -> alone (el_groups sh_file) g.
Proof. intros [<-|[]]. exists [], []. split; [reflexivity | intros g' []]. Qed.
Lemma sh_nodup g : In g (el_groups sh_file) -> NoDup (eg_ER g).
Proof. intros [<-|[]]. cbn. repeat constructor. intros []. Qed.
Lemma sh_well_formed : well_formed pen sh_file pairs ex_inc.
Proof.
  constructor; cbn [sh_file el_pairs el_groups el_IFG].
  - exists 1%nat. split; [exists [102%Z], []; cbn; repeat split; intros [H|[]]; discriminate | reflexivity].
  - cbn. auto.
  - discriminate.
  - exact sh_alone.
  - intros g e [<-|[]]. cbn. intros [<-|[<-|[]]]; unfold valid_number; cbn; lia.
  - intros g row [<-|[]]. cbn. intros [<-|[]]; cbn; lia.
  - intros g [<-|[]]. destruct (sh_exists 1 (Nat.lt_succ_diag_r 1)) as (c & At). exists 1%nat, c. split; [exact At|].
    split; [destruct (sh_channel 1 c At) as [[Q _]|(_ & -> & _)]; [discriminate | reflexivity]|]. rewrite (sh_removed 1). discriminate.
  - intros g i k c c' [<-|[]] A1 A2 Q. pose proof A1 as (e1 & x1 & _ & _ & D1). pose proof A2 as (e2 & x2 & _ & _ & D2).
    rewrite (de_id _ _ _ _ _ _ _ D1), (de_id _ _ _ _ _ _ _ D2) in Q. unfold makeChannelID in Q.
    destruct (sh_channel i c A1) as [(-> & P1 & _)|(-> & P1 & _)], (sh_channel k c' A2) as [(-> & P2 & _)|(-> & P2 & _)]; try reflexivity;
      rewrite P1, P2, Hcap in Q; cbn in Q; discriminate.
  - discriminate.
Qed.
Lemma sh_evaluable e : 0 < e -> evaluable 1 e sh_file pairs ex_inc.
Proof.
  intros He. constructor.
  - intros g i c [<-|[]] U. apply sh_used in U as [_ At]. exact (sh_tame c At e He).
  - intros g i c [<-|[]] U _. apply sh_used in U as [_ At]. destruct (sh_factor c At e He) as (x & E & _). eauto.
  - intros g i w [<-|[]] Gv Hw. apply sh_given in Gv as (Hi & -> & ->). destruct (sh_exists 0) as (c0 & A0); [lia|]. exists 0%nat, c0, 1. split; [apply sh_eliminated; reflexivity|].
    split; [exact A0|]. split; [apply sh_given; auto | exact Hw].
Qed.
End Case.

Theorem shift_flag epsilon0 cwf multiRegion initial : exists pairs inc rc rc' m,
  (forall x, In x sh_pairs -> ep_MT x = 2%Z -> ep_SHF x = 1%Z) /\
  makeParticlePairs 1 1 "n" "U235" ex_products sh_pairs = Ok pairs /\
  (exists n, first_at 2%Z (map ep_MT sh_pairs) n /\ nth_error pairs n = Some inc) /\
  (forall i c, used inc pairs sh_pairs sh_group i c -> c_pair c = inc) /\
  fromENDF 1 epsilon0 cwf 1 1 "n" "U235" ex_products multiRegion initial sh_range = Ok (Some rc) /\
  reconstruct 1 epsilon0 cwf rc 10 = Ok (Some (rc', Matrix m)) /\
  ~ exists xs, Forall2 (group_gives 1 epsilon0 cwf Constant 10 sh_file pairs inc) (el_groups sh_file) xs /\
      (forall k, match m k with Some y => y | None => 0 end = Rsum (map (fun x => x k) xs)).
Proof.
  destruct sh_made as (cap & E & Hcap). pose proof (sh_well_formed epsilon0 cwf cap Hcap) as W.
  destruct (accepted_file 1 epsilon0 cwf 1 1 "n" "U235" ex_products sh_file _ _ E W) as (gs & Eg).
  destruct (from_limited_accepts 1 epsilon0 cwf 1 1 "n" "U235" ex_products multiRegion initial sh_range sh_file gs ex_capture_pair None eq_refl eq_refl eq_refl eq_refl eq_refl eq_refl Eg) as (rc & Er).
  assert (First : exists n, first_at 2%Z (map ep_MT sh_pairs) n /\ nth_error [cap; ex_inc] n = Some ex_inc) by exact (wf_elastic _ _ _ _ W).
  assert (Uniq : forall pairs inc, makeParticlePairs 1 1 "n" "U235" ex_products sh_pairs = Ok pairs -> (exists n, first_at 2%Z (map ep_MT sh_pairs) n /\ nth_error pairs n = Some inc) ->
    pairs = [cap; ex_inc] /\ inc = ex_inc).
  { intros pairs inc E' (n & F & Hn). rewrite E in E'. injection E' as <-. split; [reflexivity|]. destruct F as (a & b & Q & N & L). destruct n as [|[|n]].
    - destruct a as [|? a]; [cbn in Q; congruence | cbn in *; congruence].
    - cbn in Hn. congruence.
    - destruct n; discriminate. }
  assert (Range : er_lower sh_range <= 10 <= er_upper sh_range) by (unfold sh_range; cbn [er_lower er_upper]; lra).
  destruct (from_limited_evaluates 1 epsilon0 cwf 1 1 "n" "U235" ex_products multiRegion initial sh_range sh_file rc 10 eq_refl eq_refl eq_refl Er Range Rlt_0_1 sh_alone sh_nodup) as (rc' & m & Ev).
  { intros pairs inc E' F. destruct (Uniq pairs inc E' F) as [-> ->]. assert (0 < 10) as H10 by lra. apply sh_evaluable; [.. | exact H10]. all: assumption. }
  exists [cap; ex_inc], ex_inc, rc, rc', m. split; [intros x [<-|[<-|[]]]; [discriminate | reflexivity]|]. split; [exact E|]. split; [exact First|].
  split; [intros i c U; destruct (proj1 (sh_used epsilon0 cwf cap i c) U) as [_ At]; exact (proj1 (sh_numbers cap c At))|]. split; [exact Er|]. split; [exact Ev|].
  intros (ys & Y & Sy).
  destruct (from_limited 1 epsilon0 cwf 1 1 "n" "U235" ex_products multiRegion initial sh_range sh_file rc 10 rc' (Matrix m) eq_refl eq_refl eq_refl Er Range Ev sh_alone sh_nodup)
    as (x & b & pairs & inc & m' & xs & F0 & Fl & E' & Fi & Em & X & Sx & _).
  cbn in F0. injection F0 as <-. destruct Fl as [Fl _]. rewrite (Fl eq_refl) in X. destruct (Uniq pairs inc E' Fi) as [-> ->]. injection Em as <-.
  cbn [sh_file el_groups] in X, Y. inversion X as [|? x0 ? xr X0 X1]. inversion X1. inversion Y as [|? y0 ? yr Y0 Y1]. inversion Y1. subst.
  specialize (Sx (Transfer "n,U235" "capture")). specialize (Sy (Transfer "n,U235" "capture")). rewrite Sx in Sy. unfold Rsum in Sy. cbn in Sy.
  destruct (sh_exists cap 1) as (c & At); [lia|]. pose proof (sh_differ epsilon0 cwf cap c At x0 y0 X0 Y0). lra.
Qed.
