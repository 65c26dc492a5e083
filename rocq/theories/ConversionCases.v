(** A Reich-Moore file with fission for a target without spin, and its conversion. *)
From Coq Require Import String List ZArith Reals Bool Lra Lia Permutation.
From Verif Require Import Outcome QuantumModel QuantumSpec HardSphereModel HardSphereSpec HardSphereProofs KinematicsModel CoulombModel RMatrixModel ChannelModel SpinGroupModel
  BreitWignerSpec ReichMooreModel ReichMooreSpec LegacyModel GridModel AssemblyModel AssemblySpec EndfModel EndfSpec EndfProofs EndfTheorems EndfProperties LimitedSpec LimitedProofs LimitedTheorems LimitedAcceptProofs
  NewerRMSpec NewerTheorems NewerFrom FormatsFrom LimitedFrom ReconstructionTheorems ConversionSpec ConversionFrom.
Import ListNotations.
Open Scope R_scope.

Definition cv_s : rm_lstate := mkRMState 0 2 0 [mkRMLine 5 1 1 1 3 0; mkRMLine 8 1 2 1 4 0].
Definition cv_p : rm_lstate := mkRMState 1 2 0 [mkRMLine 10 1 1 2 0 0].
Definition cv_file : rm_file := mkRMFile 0 1 [cv_s; cv_p].
Definition cv_el : endf_pair := mkEPair 1 2 0 1 1 0 0 0 2 1 1.
Definition cv_ca : endf_pair := mkEPair 0 3 0 1 0 1 6 0 102 1 1.
Definition cv_fi : endf_pair := mkEPair 0 0 0 0 0 0 7 0 18 1 1.
Definition cv_es : list endf_pair := [cv_el; cv_ca; cv_fi].
Definition cv_entry (n l : nat) : endf_channel := mkEChannel n l 1 0 1 1.
Definition cv_A : endf_group := mkEGroup 1 0 [cv_entry 1 0; cv_entry 2 0; cv_entry 3 0] 2 [5; 8] [[1; 1; 3]; [2; 1; 4]].
Definition cv_B : endf_group := mkEGroup (-1) 0 [cv_entry 1 1; cv_entry 2 0] 1 [10] [[1; 2]].
Definition cv_C : endf_group := mkEGroup (-3) 0 [cv_entry 1 1; cv_entry 2 0] 0 [] [].
Definition cv_limited : endf_limited := mkELimited 3 0 cv_es [cv_C; cv_A; cv_B].
Definition cv_rad : rm_lstate -> radii := ap_radii cv_file.
Definition cv_products (mt : Z) : outcome (string * string) := Ok ("g", "t1")%string.
Definition cv_inc : particlePair := makeParticlePair (mkParticle "n" 1 0 1 1) (mkParticle "t" 2 1 0 1) "n,t".
Definition cv_r3 : endf_range := mkERange 1 100 1 3 1 None (ParametersReichMoore cv_file 2).
Definition cv_r7 : endf_range := mkERange 1 100 1 7 0 None (ParametersLimited cv_limited).

Lemma cv_rad_value ls : In ls [cv_s; cv_p] -> cv_rad ls = radii1 (Fixed 1).
Proof. intros [<-|[<-|[]]]; unfold cv_rad, ap_radii, or_ap; cbn; destruct (Req_EM_T 0 0); try congruence; reflexivity. Qed.
Lemma cv_converted : converted cv_file 2 2 cv_rad (radii1 (Fixed 1)) cv_limited.
Proof.
  constructor; try reflexivity.
  - exists cv_el, cv_ca, [cv_fi]. repeat split; reflexivity.
  - exists [cv_A; cv_B], [cv_C]. split; [exact (Permutation_middle [cv_A; cv_B] [] cv_C)|].
    assert (Ew : waves cv_file = [(cv_s, 1%Z); (cv_p, 1%Z)]) by reflexivity. rewrite Ew. split; [|split].
    + constructor; [|constructor; [|constructor]]; cbn [fst snd]; rewrite cv_rad_value by (cbn; auto).
      * constructor; try reflexivity.
        -- cbn. unfold parity_of. lia.
        -- intros x [<-|[<-|[]]]; cbn; lra.
        -- exists (cv_entry 1 0), (cv_entry 2 0). split; [constructor; reflexivity|]. split; [reflexivity|]. right. exists (cv_entry 3 0).
           split; [reflexivity|]. split; [reflexivity|]. split; [intros x [<-|[<-|[]]]; cbn; lra|]. split; [reflexivity|]. split; [reflexivity|].
           exists cv_fi. split; [reflexivity|]. split; [reflexivity | cbn; lra].
      * constructor; try reflexivity.
        -- cbn. unfold parity_of. lia.
        -- intros x [<-|[]]; cbn; lra.
        -- exists (cv_entry 1 1), (cv_entry 2 0). split; [constructor; reflexivity|]. split; [reflexivity|]. left.
           split; [reflexivity|]. split; [reflexivity|]. intros x [<-|[]]. reflexivity.
    + intros h [<-|[]]. constructor; [reflexivity | cbn; lia|]. exists (cv_entry 1 1), (cv_entry 2 0). split; [reflexivity|]. split; [constructor; reflexivity | reflexivity].
    + intros [|[|l]] Hl; [| |lia]; cbn [filter map group_l cv_C cv_entry eg_channels ec_L Nat.eqb rf_lstates cv_file cv_s cv_p rs_L eg_AJ Z.abs Rsum fold_right rf_SPI].
      * unfold accounted, g_neutron, signed_J; cbn. lra.
      * unfold accounted, g_neutron, signed_J; cbn. lra.
Qed.

Lemma cv_made : exists cap fis, makeParticlePairs 1 1 "n" "t" cv_products cv_es = Ok [cv_inc; cap; fis] /\ pp_id cap = "g,t1"%string /\ pp_id fis = "fission"%string.
Proof.
  unfold cv_es, makeParticlePairs, cv_el, cv_ca, cv_fi; cbn [mapM bind]; unfold makeEndfPair, makeEndfParticle, makeParticleIDs, makeParticle, verifyNotNegative, cv_products;
  cbn [ep_MT ep_MA ep_MB ep_ZA ep_ZB ep_IA ep_IB ep_PA ep_PB Z.eqb Pos.eqb bind Z.abs endfParity existsb orb andb].
  repeat match goal with |- context [Rlt_dec ?a 0] => destruct (Rlt_dec a 0); [exfalso; lra|] end; cbn [bind].
  rewrite !Rmult_1_r. eexists _, _. split; [reflexivity|]. split; reflexivity.
Qed.

Section Case.
Variables (epsilon0 : R) (cwf : nat -> R -> R -> outcome coulomb).
Notation pen := (channelPenetrability 1 epsilon0 cwf).
Variables (cap fis : particlePair).
Hypotheses (Hcap : pp_id cap = "g,t1"%string) (Hfis : pp_id fis = "fission"%string).
Notation pairs := [cv_inc; cap; fis].

Lemma cv_groups_in g : In g [cv_C; cv_A; cv_B] -> g = cv_A \/ g = cv_B \/ g = cv_C.
Proof. cbn. intuition. Qed.
Lemma cv_channel g i c : In g [cv_C; cv_A; cv_B] -> channel_at cv_inc pairs cv_es g i c ->
  (i = 0%nat /\ c_pair c = cv_inc /\ c_type c = Neutron) \/ (i = 1%nat /\ c_pair c = cap /\ c_type c = Photon) \/
  (i = 2%nat /\ g = cv_A /\ c_pair c = fis /\ c_type c = Fission).
Proof.
  intros Hg (e & x & E1 & E2 & D). destruct (de_pair _ _ _ _ _ _ _ D) as (n & En & Hn). pose proof (de_type _ _ _ _ _ _ _ D) as T.
  assert (Ei : nth_error [1; 2; 3]%nat i = Some (ec_PPI e)) by (destruct (cv_groups_in g Hg) as [->|[->| ->]]; destruct i as [|[|[|[|i]]]]; cbn in E1; try discriminate; injection E1 as <-; reflexivity).
  destruct i as [|[|[|[|i]]]]; cbn in Ei; try discriminate; injection Ei as Ei; rewrite <- Ei in En; injection En as <-; cbn in Hn; injection Hn as Hn; cbn in E2; injection E2 as <-.
  - left. split; [reflexivity|]. split; [symmetry; exact Hn|]. rewrite <- Hn in T. destruct T as [[T _]|[[T _]|[(_ & _ & T & _)|(_ & _ & _ & T)]]]; [cbn in T; lia | cbn in T; lia | cbn in T; lra | exact T].
  - right; left. split; [reflexivity|]. split; [symmetry; exact Hn|]. destruct T as [[_ T]|[[T _]|[[T _]|[T _]]]]; [exact T | cbn in T; lia | exfalso; apply T; reflexivity | exfalso; apply T; reflexivity].
  - right; right. split; [reflexivity|]. split; [destruct (cv_groups_in g Hg) as [->|[->| ->]]; cbn in E1; [reflexivity | discriminate | discriminate]|]. split; [symmetry; exact Hn|].
    destruct T as [[T _]|[[_ T]|[(_ & T & _)|(_ & T & _)]]]; [cbn in T; lia | exact T | exfalso; apply T; cbn; auto | exfalso; apply T; cbn; auto].
Qed.
Lemma cv_exists g i : In g [cv_C; cv_A; cv_B] -> (i < 2)%nat -> exists c, channel_at cv_inc pairs cv_es g i c.
Proof.
  intros Hg Hi. destruct (channels_positional cv_inc pairs cv_es g eq_refl) as [A _]. destruct A as (cs & Ec & F).
  { destruct (cv_groups_in g Hg) as [->|[->| ->]]; cbn; intros e He; repeat destruct He as [<-|He]; try contradiction; unfold valid_number; cbn; lia. }
  pose proof (channels_length cv_inc pairs cv_es eq_refl g cs Ec) as Hl.
  destruct (nth_error cs i) as [c|] eqn:E; [|apply nth_error_None in E; destruct (cv_groups_in g Hg) as [->|[->| ->]]; cbn in Hl; lia]. exists c. exact (made_channels cv_inc pairs cv_es eq_refl g cs i c Ec E).
Qed.
Lemma cv_removed g : In g [cv_C; cv_A; cv_B] -> removed pairs cv_es g 1.
Proof.
  intros Hg. exists 1%nat, cap. split; [exists [2%Z], [18%Z]; cbn; repeat split; intros [H|[]]; discriminate|]. split; [reflexivity|]. split.
  - exists (cv_entry 2 0), cap. split; [destruct (cv_groups_in g Hg) as [->|[->| ->]]; reflexivity|]. split; [exists 1%nat; auto | reflexivity].
  - intros [|k] e p Hk E1 (n & En & Hp); [|lia]. assert (ec_PPI e = 1%nat) by (destruct (cv_groups_in g Hg) as [->|[->| ->]]; cbn in E1; injection E1 as <-; reflexivity).
    assert (n = 0%nat) by lia. subst n. cbn in Hp. injection Hp as <-. rewrite Hcap. discriminate.
Qed.
Lemma cv_penetrable g c e : In g [cv_C; cv_A; cv_B] -> channel_at cv_inc pairs cv_es g 0 c -> 0 < e -> exists p, pen c e = Ok (Some p) /\ 0 < p.
Proof.
  intros Hg At He. destruct (cv_channel g 0 c Hg At) as [(_ & Hp & Ht)|[(Q & _)|(Q & _)]]; try discriminate.
  destruct At as (ec & x & E1 & E2 & D). cbn in E2. injection E2 as <-.
  assert (Hec : ec = cv_entry 1 (ec_L ec) /\ (ec_L ec <= 1)%nat) by (destruct (cv_groups_in g Hg) as [->|[->| ->]]; cbn in E1; injection E1 as <-; cbn; split; auto; lia). destruct Hec as [Hec Hl]. 
  unfold channelPenetrability, channelFunction. rewrite (de_P _ _ _ _ _ _ _ D), (de_l _ _ _ _ _ _ _ D). destruct (de_q _ _ _ _ _ _ _ D) as (n & y & En & Hn & Hq).
  rewrite Hec in En |- *. cbn in En. injection En as <-. cbn in Hn. injection Hn as <-. cbn in Hq. cbn [radius_at bind ec_APT cv_entry ec_L]. rewrite Ht.
  unfold channelWaveNumber, channelEta. rewrite Hp, (de_incident _ _ _ _ _ _ _ D), Hq.
  assert (Q1 : pp_reduced cv_inc = Some (1 * 2 / (1 + 2))) by (unfold cv_inc, makeParticlePair; cbn; unfold fdiv; repeat destruct (Req_EM_T _ _); try lra; reflexivity).
  assert (Q2 : pp_ratio cv_inc = Some (2 / (1 + 2))) by (unfold cv_inc, makeParticlePair; cbn; unfold fdiv; repeat destruct (Req_EM_T _ _); try lra; reflexivity).
  rewrite Q1, Q2. destruct (Req_EM_T (p_charge (pp_particle cv_inc) * p_charge (pp_residual cv_inc)) 0) as [_|N]; [|exfalso; apply N; cbn; ring].
  unfold calculatePenetrability.
  match goal with |- context [penetrability_neutron _ ?r] => assert (Hr : 0 < r) end.
  { apply Rmult_lt_0_compat; [|lra]. unfold waveNumber. apply Rdiv_lt_0_compat; [|lra]. apply sqrt_lt_R0.
    rewrite Rabs_right; apply Rmult_lt_0_compat || idtac; lra || idtac. all: cbn [ep_Q cv_el]; lra. }
  rewrite (penetrability_code (ec_L ec) _ Hr) by lia. cbn [omap]. eexists. split; [reflexivity | apply ReichMooreProofs.P_spec_pos, Hr].
Qed.

Lemma cv_well_formed : well_formed pen cv_limited pairs cv_inc.
Proof.
  constructor; cbn [cv_limited el_pairs el_groups el_IFG].
  - exists 0%nat. split; [exists [], [102; 18]%Z; cbn; auto | reflexivity].
  - cbn. auto.
  - discriminate.
  - intros g Hg. destruct (cv_groups_in g Hg) as [->|[->| ->]].
    + exists [cv_C], [cv_B]. split; [reflexivity|]. intros g' [<-|[<-|[]]] [H (p & P1 & P2)]; unfold parity_of in *; cbn in *; lia.
    + exists [cv_C; cv_A], []. split; [reflexivity|]. intros g' [<-|[<-|[]]] [H (p & P1 & P2)]; unfold parity_of in *; cbn in *; lia.
    + exists [], [cv_A; cv_B]. split; [reflexivity|]. intros g' [<-|[<-|[]]] [H (p & P1 & P2)]; unfold parity_of in *; cbn in *; lia.
  - intros g e Hg. destruct (cv_groups_in g Hg) as [->|[->| ->]]; cbn; intros He; repeat destruct He as [<-|He]; try contradiction; unfold valid_number; cbn; lia.
  - intros g row Hg. destruct (cv_groups_in g Hg) as [->|[->| ->]]; cbn; intros He; repeat destruct He as [<-|He]; try contradiction; cbn; lia.
  - intros g Hg. destruct (cv_exists g 0 Hg) as (c & At); [lia|]. exists 0%nat, c. split; [exact At|].
    split; [destruct (cv_channel g 0 c Hg At) as [(_ & -> & _)|[(Q & _)|(Q & _)]]; [reflexivity | discriminate | discriminate]|].
    intros Q. pose proof (removed_unique pairs cv_es eq_refl g 0 1 Q (cv_removed g Hg)). discriminate.
  - intros g i k c c' Hg A1 A2 Q. pose proof A1 as (e1 & x1 & _ & _ & D1). pose proof A2 as (e2 & x2 & _ & _ & D2).
    rewrite (de_id _ _ _ _ _ _ _ D1), (de_id _ _ _ _ _ _ _ D2) in Q. unfold makeChannelID in Q.
    destruct (cv_channel g i c Hg A1) as [(-> & P1 & _)|[(-> & P1 & _)|(-> & _ & P1 & _)]], (cv_channel g k c' Hg A2) as [(-> & P2 & _)|[(-> & P2 & _)|(-> & _ & P2 & _)]]; try reflexivity;
      rewrite P1, P2, ?Hcap, ?Hfis in Q; cbn in Q; discriminate.
  - intros g i c e w _ Hg At Gv Hw. destruct (cv_channel g i c Hg At) as [(-> & _ & Ht)|[(-> & _ & Ht)|(-> & _ & _ & Ht)]].
    + apply (cv_penetrable g); [exact Hg | exact At|]. destruct Gv as [N (k & row & Ek & _)]. apply nth_error_In in Ek. destruct (cv_groups_in g Hg) as [->|[->| ->]]; cbn in Ek; repeat destruct Ek as [<-|Ek]; try contradiction; lra.
    + unfold channelPenetrability, channelFunction. destruct At as (ec & x & _ & _ & D). rewrite (de_P _ _ _ _ _ _ _ D). cbn [radius_at bind]. rewrite Ht. cbn. exists 1. split; [reflexivity | lra].
    + unfold channelPenetrability, channelFunction. destruct At as (ec & x & _ & _ & D). rewrite (de_P _ _ _ _ _ _ _ D). cbn [radius_at bind]. rewrite Ht. cbn. exists 1. split; [reflexivity | lra].
Qed.
End Case.

Lemma cv_sensible : sensible cv_file 2 None 1.
Proof.
  constructor; cbn; try lia; try lra; try discriminate; try (unfold is_spin; lia).
  - intros ls [<-|[<-|[]]]; cbn; lra.
  - intros ls [<-|[<-|[]]]; cbn; lia.
  - intros ls [<-|[<-|[]]]; cbn; lra.
  - intros ls r [<-|[<-|[]]]; cbn; [intros [<-|[<-|[]]] | intros [<-|[]]]; cbn; lra.
  - exists [mkQ 0 1 1 1; mkQ 1 1 1 (-1)]. split; [|split].
    + repeat constructor; cbn; intros H; repeat destruct H as [H|H]; try discriminate; contradiction.
    + intros q [<-|[<-|[]]]; number.
    + cbn. repeat constructor.
Qed.
Lemma cv_fine : ~ clash cv_file.
Proof.
  unfold fissile; intros [(ls & r & r' & H & A & B & C & D & E & F)|(a & ls & b & ls' & c & r & r' & H & L & _)].
  - destruct H as [<-|[<-|[]]]; cbn in A, B; repeat destruct A as [<-|A]; try contradiction; repeat destruct B as [<-|B]; try contradiction; apply F; reflexivity.
  - cbn in H. destruct a as [|x [|y a]]; cbn in H.
    + injection H as <- H. destruct b as [|z b]; [injection H as <- _; discriminate|]. injection H as _ H. destruct b; discriminate.
    + injection H as _ _ H. destruct b; discriminate.
    + injection H as _ _ H. destruct a; discriminate.
Qed.
Lemma cv_input : newer_input 1 cv_file 2 None 1 cv_rad (radii1 (Fixed 1)).
Proof.
  constructor.
  - lra.
  - intros ls [<-|[<-|[]]]; reflexivity.
  - cbn. unfold is_spin. lia.
  - intros ls Hls. rewrite (cv_rad_value ls Hls). destruct Hls as [<-|[<-|[]]]; unfold or_ap; cbn; destruct (Req_EM_T 0 0); try congruence; (split; [lra|]); auto.
  - split; [cbn; lra | cbn; auto].
  - discriminate.
  - intros J even. unfold of_wave, cv_file. destruct even; cbn [rf_lstates filter rs_L cv_s cv_p Nat.even Bool.eqb]; cbn [map concat rs_lines]; rewrite app_nil_r; apply filter_nodup; cbn;
      repeat constructor; cbn; intros H; repeat destruct H as [H|H]; lra || contradiction.
Qed.
Lemma cv_both epsilon0 cwf multiRegion initial : exists rc3 rc7 rc3' o3,
  fromENDF 1 epsilon0 cwf 1 1 "n" "t" cv_products multiRegion initial cv_r3 = Ok (Some rc3) /\
  fromENDF 1 epsilon0 cwf 1 1 "n" "t" cv_products multiRegion initial cv_r7 = Ok (Some rc7) /\
  reconstruct 1 epsilon0 cwf rc3 9 = Ok (Some (rc3', o3)).
Proof.
  destruct (sensible_made 1 epsilon0 cwf 1 "n" "t" ltac:(lra) ltac:(lra) cv_file 2 None 1 cv_sensible ltac:(cbn; repeat split; discriminate) ltac:(cbn; repeat split; discriminate)) as [H _].
  destruct (H cv_fine) as (gs & Hgs).
  destruct cv_made as (cap & fis & E & Hcap & Hfis).
  destruct (accepted_file 1 epsilon0 cwf 1 1 "n" "t" cv_products cv_limited _ _ E (cv_well_formed epsilon0 cwf cap fis Hcap Hfis)) as (gs7 & Eg).
  destruct (from_limited_accepts 1 epsilon0 cwf 1 1 "n" "t" cv_products multiRegion initial cv_r7 cv_limited gs7 cv_el None eq_refl eq_refl eq_refl eq_refl eq_refl eq_refl Eg) as (rc7 & Er).
  assert (Hobj : map (@projT1 _ _) (fresh initial gs) = gs) by (unfold fresh; rewrite map_map; cbn [projT1]; apply map_id).
  destruct (newer_evaluates 1 epsilon0 cwf 1 "n" "t" ltac:(lra) ltac:(lra) cv_file 2 None 1 cv_rad (radii1 (Fixed 1)) cv_input 9 ltac:(lra) 2%nat gs (fresh initial gs) (fun _ => None) Hgs Hobj ltac:(discriminate)) as [S _].
  destruct S as (gs' & m' & Ev).
  { split; [lia|]. intros ls x [<-|[<-|[]]]; cbn; intros Hx; repeat destruct Hx as [<-|Hx]; try contradiction; cbn; left; lra. }
  eexists. exists rc7. eexists. eexists. split; [|split; [exact Er|]].
  - unfold fromENDF. cbn [cv_r3 er_radius er_LRU er_LRF er_parameters er_NAPS makeChannelRadiusTable bind Z.eqb Pos.eqb]. unfold reconstructorOf. rewrite Hgs. cbn. reflexivity.
  - rewrite in_range by (cbn; lra). cbn [rc_system evaluateCompound]. rewrite Ev. reflexivity.
Qed.
