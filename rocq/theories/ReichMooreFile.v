(** Whole ENDF files through the older Reich-Moore interface. *)
From Coq Require Import String List ZArith Reals Lra Lia Permutation Bool Psatz FunctionalExtensionality.
From Verif Require Import Outcome QuantumModel QuantumSpec SpinFactorModel SpinFactorProofs HardSphereModel
  HardSphereSpec HardSphereProofs KinematicsModel Cplx RMatrixModel RMatrixSpec ChannelModel BreitWignerModel
  BreitWignerSpec ListFacts BreitWignerProofs BreitWignerSystemProofs KMatrixModel KMatrixSpec KMatrixProofs
  KMatrixMore ReichMooreModel ReichMooreSpec ReichMooreProofs.
Import ListNotations.
Open Scope R_scope.

Section Whole.
Variables (C : R) (sort : list rm_resonance -> list rm_resonance) (f : rm_file)
  (first : rm_lstate) (others : list rm_lstate) (tag : rm_tag) (ch sc : R -> outcome R) (E : R).
Hypotheses (HC : 0 < C) (Hf : rf_lstates f = first :: others) (HA : 0 < rs_AWRI first)
  (HI : is_spin (rf_SPI f)) (Hsort : sorts rm_flagged sort)
  (Hch : forall ls, In ls (rf_lstates f) -> positive (own (own_channel tag) ls ch))
  (Hsc : forall ls, In ls (rf_lstates f) -> positive (own (own_scattering tag) ls sc))
  (HG : forall ls x, In ls (rf_lstates f) -> In x (rs_lines ls) -> 0 <= rl_GG x).
Let A := rs_AWRI first.
Let k := k_old C A.
Let I := rf_SPI f.
Let a ls e := oval (own (own_channel tag) ls ch e).
Let ahat ls := oval (own (own_scattering tag) ls sc E).

Lemma own_ok use ls r v : r E = Ok v -> own use ls r E = Ok (oval (own use ls r E)).
Proof. unfold own. destruct (given ls && use); [reflexivity|]. intros ->. reflexivity. Qed.

Lemma rm_file_values s e c fi :
  rm_build C sort f tag ch sc (own_channel tag) = Ok s -> rm_evaluate C s E = Ok (Some (e, c, fi)) ->
  E <> 0 /\ (forall ls, In ls (rf_lstates f) -> 0 < a ls E /\ 0 < ahat ls /\ (rs_L ls <= 4)%nat /\
    forall x, In x (rs_lines ls) -> 0 <= rl_GN x /\ 0 < P_rm k a ls (Rabs (rl_ER x)) /\ (rl_ER x <> E \/ rl_GG x <> 0)) /\
  forall phi, (forall ls, In ls (rf_lstates f) -> is_phase (rs_L ls) (k E * ahat ls) (phi ls)) ->
  e = RM_elastic k E I a phi (rf_lstates f) /\ c = RM_capture k E I a phi (rf_lstates f) /\
  fi = RM_fission k E I a phi (rf_lstates f).
Proof.
  intros Hb He. unfold rm_build in Hb. rewrite Hf in Hb.
  apply bind_Ok in Hb as (lvs & Elvs & Hb). injection Hb as <-. rewrite <- Hf in Elvs.
  unfold rm_evaluate in He. cbn [rt_channel rt_scattering rt_ratio rt_tag rt_lvalues] in He.
  apply bind_Ok in He as (cR & EcR & He). apply bind_Ok in He as (sR & EsR & He).
  apply bind_Ok in He as (xs & Exs & He). injection He as He.
  fold A in He, Exs. change (waveNumberOld C (A / (A + 1)) E) with (k E) in *.
  destruct (all_finite xs) as [ts|] eqn:Ets; [|discriminate]. apply all_finite_Some in Ets. subst xs.
  unfold fdiv in He. destruct (Req_EM_T (k E * k E) 0) as [|NZ]; [discriminate|].
  rewrite taccumulate_sum in He. cbn [tmul] in He. injection He as <- <- <-.
  assert (HE : E <> 0).
  { intros HE. apply NZ. unfold k, k_old. rewrite HE, Rabs_R0, sqrt_0. ring. }
  assert (Pk : 0 < k E) by (apply k_old_pos; assumption).
  assert (Hpa : forall ls, In ls (rf_lstates f) -> 0 < a ls E /\ 0 < ahat ls).
  { intros ls Hin. split; [apply (Hch ls Hin E), own_ok with cR | apply (Hsc ls Hin E), own_ok with sR]; assumption. }
  assert (G : forall phi, (forall ls, In ls (rf_lstates f) -> (rs_L ls <= 4)%nat -> is_phase (rs_L ls) (k E * ahat ls) (phi ls)) ->
    Forall2 (rm_part C f first tag ch E phi) (rf_lstates f) ts).
  { intros phi Hphi. apply mapM_Ok in Elvs. apply mapM_Ok in Exs.
    unfold rm_order in Exs.
    assert (Exs' : Forall2 (fun lv u => (let '(c, p) := inspect tag (k E) (k E * cR) (k E * sR) (rv_ap lv) in
        rm_lvalue_call lv E c p) = Ok (Some u))
      (map (fun lv => mkRMValue (rv_ap lv) (sort (rv_resonances lv)) (rv_l lv)) lvs) ts).
    { clear -Exs. revert ts Exs. generalize (map (fun lv => mkRMValue (rv_ap lv) (sort (rv_resonances lv)) (rv_l lv)) lvs).
      intros l; induction l as [|lv l IH]; intros ts F.
      - inversion F as [Q|]; subst. symmetry in H. apply map_eq_nil in H as ->. constructor.
      - destruct ts as [|u ts]; [inversion F|]. cbn in F. inversion F as [|? ? ? ? E1 F1]; subst.
        constructor; [exact E1 | apply IH; exact F1]. }
    pose proof (Forall2_chain _ _ _ _ _ _ Elvs Exs') as G.
    eapply Forall2_In_l; [exact G|]. intros ls u Hin (lv & Hlv & Hu). cbv beta in Hu.
    assert (Hap : rv_ap lv = (if given ls then Some (rs_APL ls) else None) /\ (rs_L ls <= 4)%nat).
    { unfold rm_build_lvalue in Hlv. destruct (4 <? rs_L ls)%nat eqn:E4; [discriminate|].
      apply Nat.ltb_ge in E4. apply bind_Ok in Hlv as (? & _ & H). injection H as <-. auto. }
    destruct Hap as [Hap Hl4].
    pose proof (inspect_ratios C first tag ch sc E cR sR ls
      (mkRMValue (rv_ap lv) (sort (rv_resonances lv)) (rv_l lv)) EcR EsR Hap) as Hi.
    fold A k in Hi. rewrite Hi in Hu.
    destruct (Hpa ls Hin) as [P1 P2].
    apply (rm_part_value C sort f first tag ch sc E HC HA HI Hsort Hch HG phi) with (lv := lv); try assumption.
    - apply Rmult_lt_0_compat; assumption.
    - apply Rmult_lt_0_compat; assumption. }
  split; [exact HE|]. split.
  - intros ls Hin. destruct (Hpa ls Hin) as [P1 P2]. split; [exact P1|]. split; [exact P2|].
    assert (Hex : exists phi : rm_lstate -> R, forall ls, In ls (rf_lstates f) -> (rs_L ls <= 4)%nat -> is_phase (rs_L ls) (k E * ahat ls) (phi ls)).
    { exists (fun ls => match phaseShift (Z.of_nat (rs_L ls)) (k E * ahat ls) with Ok p => p | _ => 0 end).
      intros l' Hl' H4. destruct (Hpa l' Hl') as [_ P2'].
      destruct (phaseShift_ok (rs_L l') (k E * ahat l')) as (p & -> & Hp); [|exact H4|exact Hp].
      apply Rmult_lt_0_compat; assumption. }
    destruct Hex as (phi & Hphi).
    apply (Forall2_left _ (fun ls => (rs_L ls <= 4)%nat /\ forall x, In x (rs_lines ls) ->
      0 <= rl_GN x /\ 0 < P_rm k a ls (Rabs (rl_ER x)) /\ (rl_ER x <> E \/ rl_GG x <> 0)) _ _ (G phi Hphi)); [|exact Hin].
    intros l0 u (H1 & H2 & _). split; [exact H1|exact H2].
  - intros phi Hphi. specialize (G phi (fun ls Hin _ => Hphi ls Hin)).
    rewrite !Rplus_0_l. unfold RM_elastic, RM_capture, RM_fission.
    repeat split; rewrite (Rmult_comm _ (pi_value / _)); unfold barns; f_equal; symmetry;
      apply Rsum_Forall2 with (P := rm_part C f first tag ch E phi); try exact G;
      intros ls u (_ & _ & H1 & H2 & H3); symmetry; assumption.
Qed.

(** * When the evaluation succeeds *)
Lemma mapM_exists {X Y} (g : X -> outcome Y) (Q : X -> Y -> Prop) l :
  (forall x, In x l -> exists y, g x = Ok y /\ Q x y) -> exists ys, mapM g l = Ok ys /\ Forall2 Q l ys.
Proof.
  induction l as [|x l IH]; intros H; [exists []; split; [reflexivity|constructor]|].
  destruct (H x (or_introl eq_refl)) as (y & Ey & Qy).
  destruct IH as (ys & Eys & Qys); [intros z Hz; apply H; right; exact Hz|].
  exists (y :: ys). cbn. rewrite Ey, Eys. split; [reflexivity | constructor; assumption].
Qed.

Definition usable (ls : rm_lstate) : Prop :=
  (rs_L ls <= 4)%nat /\ forall x, In x (rs_lines ls) ->
    0 <= rl_GN x /\ rl_ER x <> 0 /\ (exists r, own (own_channel tag) ls ch (Rabs (rl_ER x)) = Ok r) /\
    (rl_ER x <> E \/ rl_GG x <> 0).

Lemma rm_resonance_ok ls x : In ls (rf_lstates f) -> In x (rs_lines ls) -> usable ls ->
  exists r, rm_build_resonance I (rs_L ls)
    (fun e => if given ls && own_channel tag then Ok (rs_APL ls * neutronWaveNumber C A e)
              else omap (fun a0 => a0 * neutronWaveNumber C A e) (ch e)) x = Ok r /\ finite3 E r /\ 0 <= rm_capture r.
Proof.
  intros Hin Hx (Hl & Hu). destruct (Hu x Hx) as (HN & HE & (r & Hr) & HD).
  set (e := Rabs (rl_ER x)) in *.
  assert (Hw : neutronWaveNumber C A e = k e).
  { unfold neutronWaveNumber, k, k_old. fold A in HA. field; lra. }
  assert (Hr0 : 0 < r) by (apply (Hch ls Hin e); exact Hr).
  assert (Hk : 0 < k e) by (apply k_old_pos; [exact HC | exact HA | unfold e; apply Rabs_no_R0; exact HE]).
  assert (Hrho : (if given ls && own_channel tag then Ok (rs_APL ls * neutronWaveNumber C A e)
              else omap (fun a0 => a0 * neutronWaveNumber C A e) (ch e)) = Ok (r * k e)).
  { unfold own in Hr. destruct (given ls && own_channel tag).
    - injection Hr as <-. rewrite Hw. reflexivity.
    - rewrite Hr, <- Hw. reflexivity. }
  assert (Hp : 0 < r * k e) by (apply Rmult_lt_0_compat; assumption).
  unfold rm_build_resonance. fold e. rewrite Hrho. cbn [bind].
  rewrite penetrationShift_ok by assumption. cbn [bind fst]. eexists; split; [reflexivity|].
  pose proof (P_spec_pos (rs_L ls) _ Hp) as HP. pose proof (HG ls x Hin Hx) as Hgg.
  unfold finite3, makeRM, den3, fsqrt, frecip; cbn [rm_rootNeutron rm_inverseRoot rm_energy rm_capture].
  destruct (Rlt_dec (rl_GN x) 0) as [Hz|?]; [lra|]. destruct (Rlt_dec (P_spec (rs_L ls) (r * k e)) 0) as [Hz|?]; [lra|].
  cbn [ssrbool.is_left]. destruct (Req_EM_T (sqrt (P_spec (rs_L ls) (r * k e))) 0) as [Hz|?].
  { pose proof (sqrt_lt_R0 _ HP); lra. }
  cbn [ssrbool.is_left]. repeat split; try discriminate; [|exact Hgg].
  destruct HD as [HD|HD].
  - assert (0 < (rl_ER x - E) * (rl_ER x - E)) by (apply Rsqr_pos_lt; lra).
    pose proof (Rle_0_sqr (rl_GG x)) as Q. unfold Rsqr in Q. lra.
  - assert (0 < rl_GG x * rl_GG x) by (apply Rsqr_pos_lt; lra).
    pose proof (Rle_0_sqr (rl_ER x - E)) as Q. unfold Rsqr in Q. lra.
Qed.

Lemma rm_file_ok cR sR : E <> 0 -> ch E = Ok cR -> sc E = Ok sR ->
  (forall ls, In ls (rf_lstates f) -> usable ls) ->
  exists s t, rm_build C sort f tag ch sc (own_channel tag) = Ok s /\ rm_evaluate C s E = Ok (Some t).
Proof.
  intros HE EcR EsR Hu.
  assert (Pk : 0 < k E) by (apply k_old_pos; assumption).
  assert (Hpa : forall ls, In ls (rf_lstates f) -> 0 < a ls E /\ 0 < ahat ls).
  { intros ls Hin. split; [apply (Hch ls Hin E), own_ok with cR | apply (Hsc ls Hin E), own_ok with sR]; assumption. }
  destruct (mapM_exists (rm_build_lvalue I (neutronWaveNumber C A) ch (own_channel tag))
    (fun ls lv => rv_ap lv = (if given ls then Some (rs_APL ls) else None) /\ rv_l lv = rs_L ls /\ (rs_L ls <= 4)%nat /\
       forall r, In r (rv_resonances lv) -> finite3 E r /\ 0 <= rm_capture r) (rf_lstates f)) as (lvs & Elvs & F).
  { intros ls Hin. unfold rm_build_lvalue. pose proof (proj1 (Hu ls Hin)) as Hl.
    apply Nat.ltb_ge in Hl as Hl'. rewrite Hl'. fold (given ls).
    destruct (mapM_exists (rm_build_resonance I (rs_L ls)
      (fun e => if given ls && own_channel tag then Ok (rs_APL ls * neutronWaveNumber C A e)
                else omap (fun a0 => a0 * neutronWaveNumber C A e) (ch e)))
      (fun _ r => finite3 E r /\ 0 <= rm_capture r) (rs_lines ls)) as (rs & Ers & Fr).
    { intros x Hx. apply rm_resonance_ok; auto. }
    rewrite Ers. cbn [bind]. eexists; split; [reflexivity|]. cbn [rv_ap rv_l rv_resonances].
    repeat split; auto; intros; apply Forall2_flip in Fr; revert r H;
      apply (Forall2_left _ _ _ _ Fr); intros r x0 H; apply H. }
  unfold rm_build. rewrite Hf. fold A I. rewrite <- Hf, Elvs. cbn [bind].
  eexists. 
  assert (Hev : exists t, rm_evaluate C {| rt_lvalues := rm_order sort lvs; rt_ratio := A / (A + 1); rt_tag := tag;
    rt_channel := ch; rt_scattering := sc |} E = Ok (Some t)).
  2:{ destruct Hev as (t & Ht). exists t. split; [reflexivity | exact Ht]. }
  unfold rm_evaluate. cbn [rt_channel rt_scattering rt_ratio rt_tag rt_lvalues]. rewrite EcR, EsR. cbn [bind].
  change (waveNumberOld C (A / (A + 1)) E) with (k E).
  destruct (mapM_exists (fun lv => let '(c, p) := inspect tag (k E) (k E * cR) (k E * sR) (rv_ap lv) in
      rm_lvalue_call lv E c p) (fun _ y => y <> None) (rm_order sort lvs)) as (ys & Eys & Fy).
  { intros lv' Hlv'. unfold rm_order in Hlv'. apply in_map_iff in Hlv' as (lv & <- & Hlv).
    assert (HX : exists ls, In ls (rf_lstates f) /\ rv_ap lv = (if given ls then Some (rs_APL ls) else None) /\
      rv_l lv = rs_L ls /\ (rs_L ls <= 4)%nat /\
       forall r, In r (rv_resonances lv) -> finite3 E r /\ 0 <= rm_capture r).
    { clear -F Hlv. induction F as [|ls lv0 lss lvs H F IH]; [destruct Hlv|].
      destruct Hlv as [->|Hlv]; [exists ls; split; [left; reflexivity | exact H]|].
      destruct (IH Hlv) as (l0 & H0 & H1). exists l0; split; [right; exact H0 | exact H1]. }
    destruct HX as (ls & Hin & Hap & Hrl & Hl4 & Hfin). destruct (Hpa ls Hin) as [P1 P2].
    cbn [rv_ap]. 
    pose proof (inspect_ratios C first tag ch sc E cR sR ls lv EcR EsR Hap) as Hi.
    fold A k in Hi. rewrite Hi. fold (a ls E) (ahat ls).
    assert (Q1 : 0 < k E * a ls E) by (apply Rmult_lt_0_compat; assumption).
    assert (Q2 : 0 < k E * ahat ls) by (apply Rmult_lt_0_compat; assumption).
    unfold rm_lvalue_call. cbn [rv_l rv_resonances]. rewrite Hrl.
    rewrite penetrationShift_ok by assumption. cbn [bind fst].
    destruct (phaseShift_ok (rs_L ls) (k E * ahat ls) Q2 Hl4) as (p & -> & _). cbn [bind].
    destruct (Hsort (rv_resonances lv)) as [Hp Hasc].
    pose proof (proj2 (all_finite_map (fun g => rm_Jgroup E (sqrt (P_spec (rs_L ls) (k E * a ls E))) p (fst g) (fst g :: snd g))
      (group_by rm_flagged (sort (rv_resonances lv))))) as HH.
    destruct HH as (zs & Ezs).
    { intros g Hg.
      assert (Hm : forall r, In r (fst g :: snd g) -> finite3 E r /\ 0 <= rm_capture r).
      { intros r Hr. apply Hfin. apply (Permutation_in r (Permutation_sym Hp)).
        apply (group_by_In rm_flagged _ r Hasc). eauto. }
      apply Jgroup_finite; [apply P_spec_pos; exact Q1 | intros r Hr; apply Hm; exact Hr | intros r Hr; apply Hm; exact Hr]. }
    rewrite Ezs. destruct (fold_left qadd zs (0, 0, 0, 0)) as [[[s0 s1] s2] s3].
    eexists; split; [reflexivity|]. discriminate. }
  rewrite Eys. cbn [bind].
  pose proof (proj2 (all_finite_map (fun y : option triple => y) ys)) as HH. rewrite map_id in HH.
  destruct HH as (zs & Ezs).
  { apply Forall2_flip in Fy. apply (Forall2_left _ _ _ _ Fy). intros y x H; exact H. }
  rewrite Ezs. unfold fdiv. destruct (Req_EM_T (k E * k E) 0) as [Hz|]; [nra|].
  eexists. reflexivity.
Qed.
End Whole.
