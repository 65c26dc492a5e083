(** From the ENDF parameters to compound systems: C31 to C36, C50 and C53. *)
From Coq Require Import String List ZArith Reals Bool Lra Lia Permutation.
From Verif Require Import Outcome QuantumModel QuantumSpec SpinFactorModel HardSphereModel KinematicsModel CoulombModel RMatrixModel ChannelModel SpinGroupModel
  BreitWignerModel ReichMooreModel LegacyModel UnresolvedModel GridModel AssemblyModel AssemblySpec EndfModel EndfSpec EndfProofs EndfFlagProofs EndfReichMooreProofs EndfTheorems.
Import ListNotations.
Open Scope R_scope.

(** Fission widths with one sign of J, and with both *)
Definition ex_rm (fission : R) : rm_file :=
  mkRMFile 1 1 [mkRMState 0 10 0 [mkRMLine 5 0 1 1 0 0];
                mkRMState 1 10 2 [mkRMLine 10 2 1 2 3 0; mkRMLine 20 (-2) (-1) 2 fission fission; mkRMLine 30 2 1 2 0 4]].
Lemma ex_rm_sensible x : sensible (ex_rm x) 2 None 1.
Proof.
  constructor; cbn; try lia; try lra; try discriminate; try (unfold is_spin; lia).
  - intros ls [<-|[<-|[]]]; cbn; lra.
  - intros ls [<-|[<-|[]]]; cbn; lia.
  - intros ls [<-|[<-|[]]]; cbn; lra.
  - intros ls r [<-|[<-|[]]]; cbn; [intros [<-|[]] | intros [<-|[<-|[<-|[]]]]]; cbn; lra.
  - exists [mkQ 0 0 0 1; mkQ 1 2 2 (-1); mkQ 1 0 2 (-1)]. split; [|split].
    + repeat constructor; cbn; intros H; repeat destruct H as [H|H]; try discriminate; contradiction.
    + intros q [<-|[<-|[<-|[]]]]; unfold spec_number, triangle; cbn; (split; [lia|]); (split; [split; [lia|]; first [exists 0%Z; lia | exists 1%Z; lia | exists 2%Z; lia | exists 3%Z; lia]|]);
        (split; [|reflexivity]); (split; [lia|]); first [exists 0%Z; lia | exists 1%Z; lia | exists 2%Z; lia | exists 3%Z; lia].
    + cbn. repeat constructor.
Qed.
Lemma ex_rm_fine : ~ clash (ex_rm 0).
Proof.
  unfold fissile; intros [(ls & r & r' & H & A & B & C & D & E & F)|(a & ls & b & ls' & c & r & r' & H & L & _)].
  - destruct H as [<-|[<-|[]]]; cbn in A, B.
    + destruct A as [<-|[]], B as [<-|[]]. apply F. reflexivity.
    + destruct A as [<-|[<-|[<-|[]]]], B as [<-|[<-|[<-|[]]]]; cbn in *; try (apply F; reflexivity); destruct C as [C|C], D as [D|D]; first [exact (C eq_refl) | exact (D eq_refl)].
  - cbn in H. destruct a as [|x [|y a]]; cbn in H.
    + injection H as <- H. destruct b as [|z b]; [injection H as <- _; discriminate|]. injection H as _ H. destruct b; discriminate.
    + injection H as _ _ H. destruct b; discriminate.
    + injection H as _ _ H. destruct a; discriminate.
Qed.
Lemma ex_rm_clash : clash (ex_rm 1).
Proof.
  left. exists (mkRMState 1 10 2 [mkRMLine 10 2 1 2 3 0; mkRMLine 20 (-2) (-1) 2 1 1; mkRMLine 30 2 1 2 0 4]), (mkRMLine 10 2 1 2 3 0), (mkRMLine 20 (-2) (-1) 2 1 1).
  split; [right; left; reflexivity|]. split; [left; reflexivity|]. split; [right; left; reflexivity|]. unfold fissile; cbn. split; [left; lra|]. split; [left; lra|]. split; [reflexivity | discriminate].
Qed.
Lemma ex_no_brace : no_brace "n" /\ no_brace "U235".
Proof. cbn. repeat split; discriminate. Qed.

(** * C31 *)
(** A sensible file is accepted unless fission widths are given for both signs of a J (or for
    one l and J in two l-values), and then never *)
Theorem C31_accepts hbar epsilon0 cwf mn incident target f nlsc nro naps : 0 < hbar -> 0 < mn ->
  sensible f nlsc nro naps -> no_brace incident -> no_brace target -> ~ clash f ->
  exists gs, makeReichMooreCompoundSystem hbar epsilon0 cwf mn incident target f nlsc nro naps = Ok (Some gs).
Proof. intros Hh Hm S I T. exact (proj1 (sensible_made hbar epsilon0 cwf mn incident target Hh Hm f nlsc nro naps S I T)). Qed.
Print Assumptions C31_accepts.
Theorem C31_both_spins hbar epsilon0 cwf mn incident target f nlsc nro naps : 0 < hbar -> 0 < mn ->
  sensible f nlsc nro naps -> no_brace incident -> no_brace target -> clash f ->
  makeReichMooreCompoundSystem hbar epsilon0 cwf mn incident target f nlsc nro naps = Throw (RuntimeError "std::exception").
Proof. intros Hh Hm S I T. exact (proj2 (sensible_made hbar epsilon0 cwf mn incident target Hh Hm f nlsc nro naps S I T)). Qed.
Print Assumptions C31_both_spins.
(** ... also for files that are not sensible and identifiers with braces *)
Theorem C31_never hbar epsilon0 cwf mn incident target f nlsc nro naps gs : is_spin (rf_SPI f) -> clash f ->
  makeReichMooreCompoundSystem hbar epsilon0 cwf mn incident target f nlsc nro naps <> Ok (Some gs).
Proof. exact (clash_never hbar epsilon0 cwf mn incident target f nlsc nro naps gs). Qed.
Print Assumptions C31_never.
Theorem C31_refuted : exists f nlsc, sensible f nlsc None 1 /\ forall epsilon0 cwf,
  makeReichMooreCompoundSystem 1 epsilon0 cwf 1 "n" "U235" f nlsc None 1 = Throw (RuntimeError "std::exception").
Proof.
  exists (ex_rm 1), 2%nat. split; [apply ex_rm_sensible|]. intros e w. destruct ex_no_brace as [A B].
  apply C31_both_spins; [lra | lra | apply ex_rm_sensible | exact A | exact B | exact ex_rm_clash].
Qed.
Print Assumptions C31_refuted.
Example C31_case : sensible (ex_rm 0) 2 None 1 /\ ~ clash (ex_rm 0) /\ (exists r, In r (rs_lines (mkRMState 1 10 2 [mkRMLine 10 2 1 2 3 0])) /\ fissile r) /\
  clash (ex_rm 1).
Proof.
  split; [apply ex_rm_sensible|]. split; [exact ex_rm_fine|]. split; [|exact ex_rm_clash]. eexists. split; [left; reflexivity|]. left. cbn. lra.
Qed.

(** * C53 *)
Theorem C53_complete hbar epsilon0 cwf mn incident target f nlsc nro naps gs : is_spin (rf_SPI f) ->
  makeReichMooreCompoundSystem hbar epsilon0 cwf mn incident target f nlsc nro naps = Ok (Some gs) ->
  let channels := filter isIncidentChannel (concat (map g_channels gs)) in
  NoDup (map c_numbers channels) /\ (forall q, In q (map c_numbers channels) <-> spec_number 1 (rf_SPI f) nlsc q) /\
  forall l, (l < nlsc)%nat -> Rsum (map spinFactor (filter (fun c => Nat.eqb (ql (c_numbers c)) l) channels)) = 2 * INR l + 1.
Proof. exact (complete_scattering hbar epsilon0 cwf mn incident target f nlsc nro naps gs). Qed.
Print Assumptions C53_complete.
Example C53_case epsilon0 cwf : is_spin (rf_SPI (ex_rm 0)) /\
  exists gs, makeReichMooreCompoundSystem 1 epsilon0 cwf 1 "n" "U235" (ex_rm 0) 2 None 1 = Ok (Some gs).
Proof.
  split; [unfold is_spin; cbn; lia|]. destruct ex_no_brace as [A B].
  apply C31_accepts; [lra | lra | apply ex_rm_sensible | exact A | exact B | exact ex_rm_fine].
Qed.

(** * C32 *)
Definition ex_elastic_pair := mkEPair 1 235 0 92 1 (-7) 0 0 2 1 1.
Definition ex_capture_pair := mkEPair 0 236 0 92 0 (-7) 6 0 102 1 1.
Definition ex_proton_pair := mkEPair 1 235 1 91 1 (-7) 1 0 600 1 1.
Definition ex_echannel (n : nat) := mkEChannel n 0 7 0 1 2.
Definition ex_products (mt : Z) : outcome (string * string) :=
  Ok (if (mt =? 102)%Z then ("g", "U236") else ("p", "Pa235"))%string.
Definition ex_pairs (es : list endf_pair) : list particlePair :=
  match makeParticlePairs 1 1 "n" "U235" ex_products es with Ok ps => ps | _ => [] end.
Definition ex_inc : particlePair := makeParticlePair (mkParticle "n" 1 0 1 1) (mkParticle "U235" 235 92 7 (-1)) "n,U235".

(** What the code does: the i-th channel is described by its entry, but has the type of the
    i-th pair, and there are no more channels than pairs *)
Theorem C32_positional inc pairs es g : length pairs = length es ->
  ((forall e, In e (firstn (length es) (eg_channels g)) -> valid_number es e) ->
     exists cs, makeParticleChannels inc pairs es g = Ok cs /\
       Forall2 (fun p c => described inc pairs es g (fst p) (snd p) c) (combine (eg_channels g) (map ep_MT es)) cs) /\
  (~ (forall e, In e (firstn (length es) (eg_channels g)) -> valid_number es e) ->
     makeParticleChannels inc pairs es g = UB "operator[] past the end").
Proof. exact (channels_positional inc pairs es g). Qed.
Print Assumptions C32_positional.
(** ... so that the channels are right exactly when there are at most as many as pairs and
    the pair of each has the kind of reaction of the pair at its position *)
Theorem C32_exact inc pairs es g cs : length pairs = length es -> makeParticleChannels inc pairs es g = Ok cs ->
  (forall e, In e (eg_channels g) -> valid_number es e) ->
  (Forall2 (fun e c => exists mt, own_mt es e mt /\ described inc pairs es g e mt c) (eg_channels g) cs <->
   (length (eg_channels g) <= length es)%nat /\
   forall i e x pr mt t, nth_error (eg_channels g) i = Some e -> nth_error es i = Some x ->
     nth_error pairs (ec_PPI e - 1) = Some pr -> own_mt es e mt ->
     kind (ep_MT x) (p_charge (pp_particle pr)) t <-> kind mt (p_charge (pp_particle pr)) t).
Proof. exact (channels_right inc pairs es g cs). Qed.
Print Assumptions C32_exact.
Ltac ex_particles := unfold ex_pairs, makeParticlePairs, ex_elastic_pair, ex_capture_pair, ex_proton_pair; cbn [mapM bind]; unfold makeEndfPair, makeEndfParticle, makeParticleIDs, makeParticle, verifyNotNegative, ex_products;
  cbn [ep_MT ep_MA ep_MB ep_ZA ep_ZB ep_IA ep_IB ep_PA ep_PB Z.eqb Pos.eqb bind Z.abs endfParity];
  repeat match goal with |- context [Rlt_dec ?a 0] => destruct (Rlt_dec a 0); [exfalso; lra|] end; cbn [bind].
Lemma ex_pairs_length : length (ex_pairs [ex_capture_pair; ex_elastic_pair]) = 2%nat.
Proof. ex_particles. reflexivity. Qed.
Theorem C32_truncated_refuted : exists inc pairs es g cs, makeParticlePairs 1 1 "n" "U235" ex_products es = Ok pairs /\
  (forall e, In e (eg_channels g) -> valid_number es e) /\ makeParticleChannels inc pairs es g = Ok cs /\
  length cs <> length (eg_channels g).
Proof.
  pose (g := mkEGroup 6 (-1) [ex_echannel 1; ex_echannel 2; ex_echannel 2] 0 [] []).
  exists ex_inc, (ex_pairs [ex_capture_pair; ex_elastic_pair]), [ex_capture_pair; ex_elastic_pair], g.
  assert (V : forall e, In e (eg_channels g) -> valid_number [ex_capture_pair; ex_elastic_pair] e) by (intros e [<-|[<-|[<-|[]]]]; unfold valid_number; cbn; lia).
  destruct (C32_positional ex_inc (ex_pairs [ex_capture_pair; ex_elastic_pair]) [ex_capture_pair; ex_elastic_pair] g ex_pairs_length) as [H _].
  destruct H as (cs & E & F); [intros e He; apply V; destruct He as [<-|[<-|[]]]; [left | right; left]; reflexivity|].
  exists cs. split; [ex_particles; reflexivity|]. split; [exact V|]. split; [exact E|]. cbn in F. intros Q. cbn in Q.
  inversion F as [|? ? ? ? _ F1]; subst. inversion F1 as [|? ? ? ? _ F2]; subst. inversion F2; subst. discriminate.
Qed.
Print Assumptions C32_truncated_refuted.
(** ... and an elastic channel becomes a photon channel *)
Theorem C32_mistyped_refuted : exists inc pairs es g c cs e, makeParticlePairs 1 1 "n" "U235" ex_products es = Ok pairs /\
  eg_channels g = [e] /\ valid_number es e /\ own_mt es e 2 /\ makeParticleChannels inc pairs es g = Ok cs /\ cs = [c] /\ c_type c = Photon.
Proof.
  pose (g := mkEGroup 6 (-1) [ex_echannel 2] 0 [] []).
  destruct (C32_positional ex_inc (ex_pairs [ex_capture_pair; ex_elastic_pair]) [ex_capture_pair; ex_elastic_pair] g ex_pairs_length) as [H _].
  assert (V : valid_number [ex_capture_pair; ex_elastic_pair] (ex_echannel 2)) by (unfold valid_number; cbn; lia).
  destruct H as (cs & E & F); [intros e [<-|[]]; exact V|]. cbn in F. apply Forall2_cons_l in F as (c & m & -> & D & F). inversion F; subst.
  exists ex_inc, (ex_pairs [ex_capture_pair; ex_elastic_pair]), [ex_capture_pair; ex_elastic_pair], g, c, [c], (ex_echannel 2).
  split; [ex_particles; reflexivity|]. split; [reflexivity|]. split; [exact V|]. split; [exists 1%nat, ex_elastic_pair; auto|]. split; [exact E|]. split; [reflexivity|].
  pose proof (de_type _ _ _ _ _ _ _ D) as K. cbn [fst snd] in K. unfold kind in K. destruct K as [[_ K]|[[K _]|[[K _]|[K _]]]]; [exact K | cbn in K; lia | contradiction | contradiction].
Qed.
Print Assumptions C32_mistyped_refuted.

(** * C33 *)
Theorem C33_lookup mts mt : (In mt mts -> first_at mt mts (findParticlePairForReaction mts mt)) /\
  (~ In mt mts -> findParticlePairForReaction mts mt = length mts).
Proof. exact (find_pair mts mt). Qed.
Print Assumptions C33_lookup.
Theorem C33_elastic hbar epsilon0 cwf nm ec inc tgt products f pairs : makeParticlePairs nm ec inc tgt products (el_pairs f) = Ok pairs ->
  ~ In 2%Z (map ep_MT (el_pairs f)) ->
  makeCompoundSystem hbar epsilon0 cwf nm ec inc tgt products f = UB "operator[] past the end".
Proof. exact (no_elastic hbar epsilon0 cwf nm ec inc tgt products f pairs). Qed.
Print Assumptions C33_elastic.
Theorem C33_capture hbar epsilon0 cwf inc pairs es flag g : length pairs = length es -> ~ In 102%Z (map ep_MT es) ->
  makeParticleChannelData hbar epsilon0 cwf inc pairs es flag g = UB "operator[] past the end".
Proof. exact (no_capture hbar epsilon0 cwf inc pairs es flag g). Qed.
Print Assumptions C33_capture.
Example C33_case : (exists pairs, makeParticlePairs 1 1 "n" "U235" ex_products [ex_capture_pair; ex_proton_pair] = Ok pairs) /\
  ~ In 2%Z (map ep_MT [ex_capture_pair; ex_proton_pair]) /\ ~ In 102%Z (map ep_MT [ex_elastic_pair; ex_proton_pair]) /\
  findParticlePairForReaction [102; 2; 600; 2]%Z 2 = 1%nat.
Proof. split; [eexists; ex_particles; reflexivity|]. split; [cbn; lia|]. split; [cbn; lia | reflexivity]. Qed.

(** * C34 *)
Theorem C34_width hbar epsilon0 cwf c e w p : channelPenetrability hbar epsilon0 cwf c e = Ok (Some p) ->
  (0 < p -> exists gamma, calculateReducedWidth hbar epsilon0 cwf c e w = Ok (Some gamma) /\ reduced p w gamma) /\
  (p = 0 -> calculateReducedWidth hbar epsilon0 cwf c e w = Ok None).
Proof. exact (reduced_width hbar epsilon0 cwf c e w p). Qed.
Print Assumptions C34_width.
(** The data of a spin group of the R-Matrix Limited format: every nonzero width, converted
    unless the file has reduced widths *)
Theorem C34_limited hbar epsilon0 cwf inc pairs es flag g data :
  makeParticleChannelData hbar epsilon0 cwf inc pairs es flag g = Ok (Some data) ->
  exists cs pr dss, makeParticleChannels inc pairs es g = Ok cs /\ nth_error pairs (eliminatedIndex es) = Some pr /\ data = concat dss /\
    Forall2 (fun ci ds => exists eliminated : bool,
               (eliminated = true <-> pp_id (c_pair (fst ci)) = pp_id pr /\ forall k c', (k < snd ci)%nat -> nth_error cs k = Some c' -> pp_id (c_pair c') <> pp_id pr) /\
               channel_result (fun c e => match channelPenetrability hbar epsilon0 cwf c e with Ok (Some p) => Some p | _ => None end)
                              g flag eliminated (snd ci) (fst ci) ds)
            (combine cs (seq 0 (length cs))) dss.
Proof. exact (data_of_group hbar epsilon0 cwf inc pairs es flag g data). Qed.
Print Assumptions C34_limited.
(** The data of an l value of the Reich-Moore format *)
Theorem C34_reich_moore hbar epsilon0 cwf mn incident target spin ap nro naps ls av ds rem :
  makeReichMooreChannelData hbar epsilon0 cwf mn incident target spin ap nro naps ls av = Ok (Some ds, rem) ->
  exists inc rad js nds, legacyPair mn incident target (rs_AWRI ls) spin = Ok inc /\
    makeChannelRadii (if Req_EM_T (rs_APL ls) 0 then ap else rs_APL ls) nro naps (rs_AWRI ls) mn = Ok rad /\
    NoDup js /\ (forall j, In j js <-> In j (map rl_AJ (rs_lines ls))) /\
    Forall2 (fun j nd => rm_block (fun c e => match channelPenetrability hbar epsilon0 cwf c e with Ok (Some p) => Some p | _ => None end)
                                  ls inc rad j (fst nd) (snd nd)) js nds /\
    ds = concat (map snd nds) /\ Permutation av (map fst nds ++ rem).
Proof. exact (lvalue_made hbar epsilon0 cwf mn incident target spin ap nro naps ls av ds rem). Qed.
Print Assumptions C34_reich_moore.
(** A penetrability of 2 and a width of -16 give the reduced width -2 *)
Example C34_case : reduced 2 (-16) (-2) /\ ~ reduced 2 (-16) 2.
Proof. unfold reduced. rewrite Rabs_left by lra. split; [repeat split; intros; lra | intros (_ & _ & H & _); lra]. Qed.
Example C34_limited_case hbar epsilon0 cwf : exists data,
  makeParticleChannelData hbar epsilon0 cwf ex_inc (ex_pairs [ex_capture_pair; ex_elastic_pair]) [ex_capture_pair; ex_elastic_pair] true
    (mkEGroup 6 (-1) [ex_echannel 1; ex_echannel 2] 2 [10; 20] [[1; 0]; [2; 3]]) = Ok (Some data) /\ length data = 2%nat.
Proof.
  ex_particles. unfold makeParticleChannelData, makeDataOfChannel. cbn. repeat match goal with |- context [Req_EM_T ?a ?b] => destruct (Req_EM_T a b); try (exfalso; lra) end.
  cbn. eexists. split; reflexivity.
Qed.
Example C34_reich_moore_case epsilon0 cwf : exists ds rem,
  makeReichMooreChannelData 1 epsilon0 cwf 1 "n" "U235" 1 1 None 1 (mkRMState 0 10 0 [mkRMLine 5 0 1 1 0 0; mkRMLine 6 0 1 1 0 2]) [mkQ 0 0 0 1] = Ok (Some ds, rem).
Proof.
  destruct (All_total 1 epsilon0 cwf 1 "n" "U235" Rlt_0_1 Rlt_0_1 1 1 None 1 Rlt_0_1) with (lss := [mkRMState 0 10 0 [mkRMLine 5 0 1 1 0 0; mkRMLine 6 0 1 1 0 2]])
    (av := [mkQ 0 0 0 1]) (got := [mkQ 0 0 0 1]) (left := @nil qnum) as (ds & E); [cbn; lia | discriminate | | reflexivity |].
  - intros ls [<-|[]]; cbn. split; [lra|]. split; [lia|]. split; [lra|]. intros r [<-|[<-|[]]]; cbn; lra.
  - cbn [reichMooreAll] in E. apply ListFacts.bind_Ok in E as ([[d|] r] & -> & E); [|discriminate]. eexists _, _. reflexivity.
Qed.

(** * C35 *)
Theorem C35_prescribed ap nro naps awri mn : 0 < awri * mn -> legal (match nro with Some _ => true | None => false end) (Z.of_nat naps) ->
  exists rad, makeChannelRadii ap nro naps awri mn = Ok rad /\ prescribed ap (awri * mn) nro naps rad.
Proof. exact (radii_prescribed ap nro naps awri mn). Qed.
Print Assumptions C35_prescribed.
Theorem C35_throws ap t naps awri mn : (2 < naps)%nat ->
  makeChannelRadii ap (Some t) naps awri mn = Throw (RuntimeError "You somehow reached unreachable code").
Proof. exact (radii_throws ap t naps awri mn). Qed.
Print Assumptions C35_throws.
(** Without a table every other flag is taken for 1 *)
Theorem C35_rest ap naps awri mn : (1 < naps)%nat ->
  exists rad, makeChannelRadii ap None naps awri mn = Ok rad /\ r_P rad = Fixed ap /\ r_S rad = Fixed ap /\ r_phi rad = Fixed ap.
Proof. exact (radii_unprescribed ap naps awri mn). Qed.
Print Assumptions C35_rest.
Theorem C35_rest_refuted : exists ap naps awri mn, 0 < awri * mn /\ ~ legal false (Z.of_nat naps) /\
  exists rad, makeChannelRadii ap None naps awri mn = Ok rad.
Proof. exists 1, 2%nat, 1, 1. split; [lra|]. split; [unfold legal; lia|]. eexists. reflexivity. Qed.
Print Assumptions C35_rest_refuted.
(** The manual leaves no choice ... *)
Theorem C35_unique ap m nro naps rad rad' : prescribed ap m nro naps rad -> prescribed ap m nro naps rad' -> rad = rad'.
Proof. exact (prescribed_unique ap m nro naps rad rad'). Qed.
Print Assumptions C35_unique.
(** ... and the older interface uses the same radii *)
Theorem C35_breit_wigner C sort ordered f NRO NAPS t first rest rad :
  f_lstates f = first :: rest -> legal NRO NAPS -> 0 < ls_AWRI first ->
  prescribed (f_AP f) (ls_AWRI first * 1.00866491582) (if NRO then Some t else None) (Z.to_nat NAPS) rad ->
  bw_apply C sort ordered f NRO NAPS (Some t) = bw_wrap (bw_build C sort ordered f (radius_at (r_P rad)) (radius_at (r_phi rad))).
Proof. exact (older_breit_wigner C sort ordered f NRO NAPS t first rest rad). Qed.
Print Assumptions C35_breit_wigner.
Theorem C35_reich_moore C sort f NRO NAPS t s first rest : rf_lstates f = first :: rest -> 0 < rs_AWRI first ->
  rm_apply C sort f NRO NAPS (Some t) = Ok s ->
  exists lvs, rt_lvalues s = rm_order sort lvs /\
    Forall2 (fun ls lv => forall rad, prescribed (if Req_EM_T (rs_APL ls) 0 then rf_AP f else rs_APL ls) (rs_AWRI first * 1.00866491582)
                                                 (if NRO then Some t else None) (Z.to_nat NAPS) rad ->
       rm_build_lvalue (rf_SPI f) (neutronWaveNumber C (rs_AWRI first)) (radius_at (r_P rad)) false ls = Ok lv /\
       forall E k c p a a', rt_channel s E = Ok c -> rt_scattering s E = Ok p -> radius_at (r_P rad) E = Ok a -> radius_at (r_phi rad) E = Ok a' ->
         inspect (rt_tag s) k (k * c) (k * p) (rv_ap lv) = (k * a, k * a'))
      (rf_lstates f) lvs.
Proof. exact (older_reich_moore C sort f NRO NAPS t s first rest). Qed.
Print Assumptions C35_reich_moore.
Example C35_case : legal true 2 /\ legal false 0 /\ ~ legal false 2 /\ ~ legal true 3 /\
  prescribed 5 8 None 0 (radii2 (Fixed 0.326) (Fixed 5)) /\ ~ prescribed 5 8 None 0 (radii1 (Fixed 5)).
Proof.
  unfold legal. split; [lia|]. split; [lia|]. split; [lia|]. split; [lia|]. split.
  - split; [|reflexivity]. exists 0.326. split; [exists 2; split; lra | split; reflexivity].
  - intros [(a & (r & Hr & ->) & H & _) _]. cbn in H. injection H as H. assert (r = 40) by lra. subst r. lra.
Qed.

(** * C36 *)
Section C36.
Variables (hbar epsilon0 : R) (cwf : nat -> R -> R -> outcome coulomb) (neutronMass elementaryCharge : R) (incident target : string)
  (products : Z -> outcome (string * string)) (multiRegion : endf_radius -> outcome (R -> outcome R)) (initial : forall g, cache (gsize g)).
Let from := fromENDF hbar epsilon0 cwf neutronMass elementaryCharge incident target products multiRegion initial.
Theorem C36_dispatch r rc : from r = Ok (Some rc) <->
  exists nro, makeChannelRadiusTable multiRegion (er_radius r) = Ok nro /\ rc_lower rc = er_lower r /\ rc_upper rc = er_upper r /\
    matching hbar epsilon0 cwf neutronMass elementaryCharge incident target products initial r nro (rc_system rc).
Proof. exact (dispatch hbar epsilon0 cwf neutronMass elementaryCharge incident target products multiRegion initial r rc). Qed.
Theorem C36_resolved r rc : from r = Ok (Some rc) -> (isResolved rc = true <-> er_LRU r = 1%Z) /\ (isResolved rc = false <-> er_LRU r = 2%Z).
Proof. exact (dispatch_resolved hbar epsilon0 cwf neutronMass elementaryCharge incident target products multiRegion initial r rc). Qed.
Theorem C36_rest r : defined (makeChannelRadiusTable multiRegion (er_radius r)) -> ~ accepted r ->
  (forall f, er_parameters r = ParametersLimited f -> el_pairs f <> []) -> exists e, from r = Throw e.
Proof. exact (dispatch_rest hbar epsilon0 cwf neutronMass elementaryCharge incident target products multiRegion initial r). Qed.
End C36.
Print Assumptions C36_dispatch.
Print Assumptions C36_resolved.
Print Assumptions C36_rest.
Example C36_case epsilon0 cwf products multiRegion initial :
  let r := mkERange 1 100 1 3 1 None (ParametersReichMoore (ex_rm 0) 2) in
  (exists rc, fromENDF 1 epsilon0 cwf 1 1 "n" "U235" products multiRegion initial r = Ok (Some rc)) /\
  ~ accepted (mkERange 1 100 1 4 1 None SpecialCase) /\
  fromENDF 1 epsilon0 cwf 1 1 "n" "U235" products multiRegion initial (mkERange 1 100 1 1 1 None (ParametersReichMoore (ex_rm 0) 2)) = Throw BadVariant.
Proof.
  cbv zeta. split; [|split; [|reflexivity]].
  - destruct (C53_case epsilon0 cwf) as [_ (gs & E)]. unfold fromENDF, reconstructorOf. cbn [er_radius er_LRU er_LRF er_parameters er_NAPS makeChannelRadiusTable bind Z.eqb Pos.eqb].
    rewrite E. eexists. reflexivity.
  - unfold accepted. cbn. intros H. repeat (destruct H as [H|H]; [destruct H as (A & B & H); discriminate|]). destruct H as [H _]. discriminate.
Qed.

(** * C50 *)
(** The pairs of flags the manual does not know run off the end of the function ... *)
Theorem C50_breit_wigner_no_return C sort ordered f NRO NAPS table : ~ legal NRO NAPS -> bw_apply C sort ordered f NRO NAPS table = UB "no return".
Proof. exact (older_no_return_bw C sort ordered f NRO NAPS table). Qed.
Print Assumptions C50_breit_wigner_no_return.
Theorem C50_reich_moore_no_return C sort f NRO NAPS table : ~ legal NRO NAPS -> rm_apply C sort f NRO NAPS table = UB "no return".
Proof. exact (older_no_return_rm C sort f NRO NAPS table). Qed.
Print Assumptions C50_reich_moore_no_return.
(** ... the others build an object or throw *)
Theorem C50_breit_wigner_defined C sort ordered f NRO NAPS table : f_lstates f <> [] -> legal NRO NAPS ->
  (forall t e, table = Some t -> defined (t e)) -> defined (bw_apply C sort ordered f NRO NAPS table).
Proof. exact (older_defined_bw C sort ordered f NRO NAPS table). Qed.
Print Assumptions C50_breit_wigner_defined.
Theorem C50_reich_moore_defined C sort f NRO NAPS table : rf_lstates f <> [] -> legal NRO NAPS ->
  (forall t e, table = Some t -> defined (t e)) -> defined (rm_apply C sort f NRO NAPS table).
Proof. exact (older_defined_rm C sort f NRO NAPS table). Qed.
Print Assumptions C50_reich_moore_defined.
Theorem C50_refuted : exists NRO NAPS, forall C sort sort' ordered f f' table,
  bw_apply C sort ordered f NRO NAPS table = UB "no return" /\ rm_apply C sort' f' NRO NAPS table = UB "no return".
Proof. exists false, 2%Z. intros. split; [apply C50_breit_wigner_no_return | apply C50_reich_moore_no_return]; unfold legal; lia. Qed.
Print Assumptions C50_refuted.
Example C50_case : ~ legal false 2 /\ ~ legal true 3 /\ ~ legal true (-1) /\ legal true 2 /\ rf_lstates (ex_rm 0) <> [].
Proof. unfold legal. split; [lia|]. split; [lia|]. split; [lia|]. split; [lia | discriminate]. Qed.
