From Coq Require Import String List ZArith Reals Lra Lia Permutation Bool Psatz.
From Verif Require Import Outcome QuantumModel QuantumSpec SpinFactorModel SpinFactorProofs HardSphereModel
  HardSphereSpec HardSphereProofs KinematicsModel Cplx RMatrixModel RMatrixSpec ChannelModel BreitWignerModel
  BreitWignerSpec ListFacts BreitWignerProofs BreitWignerSystemProofs KMatrixModel KMatrixSpec KMatrixProofs KMatrixMore
  ReichMooreModel ReichMooreSpec.
Import ListNotations.
Open Scope R_scope.

Lemma P_spec_pos l rho : 0 < rho -> 0 < P_spec l rho.
Proof. intros H. apply Rdiv_lt_0_compat; [exact H | apply amplitude2_pos]. Qed.

Lemma Forall2_map_Some {A B} (f : A -> option B) l xs : map f l = map Some xs ->
  Forall2 (fun a b => f a = Some b) l xs.
Proof.
  revert xs; induction l as [|a l IH]; intros [|x xs] H; cbn in H; try discriminate; constructor.
  - injection H as H _; exact H.
  - injection H as _ H. apply IH; exact H.
Qed.

(** * One l value *)
Definition over_keys (rs : list rm_resonance) (F : list resonance -> R) : R :=
  Rsum (map (fun x => Rabs x * F (map reduced (keyed rm_flagged x rs))) (nodup Req_EM_T (map rm_flagged rs))).

Lemma lvalue_value lv E cr sr e c f :
  0 < cr -> 0 < sr -> ascending rm_flagged (rv_resonances lv) ->
  (forall r, In r (rv_resonances lv) -> 0 <= rm_capture r) ->
  rm_lvalue_call lv E cr sr = Ok (Some (e, c, f)) ->
  (rv_l lv <= 4)%nat /\ (forall r, In r (rv_resonances lv) -> finite3 E r) /\
  exists phi, is_phase (rv_l lv) sr phi /\
  let P := P_spec (rv_l lv) cr in
  let S := over_keys (rv_resonances lv) in
  e = S (J_elastic E P phi)
      + (2 * INR (rv_l lv) + 1 - Rsum (map Rabs (nodup Req_EM_T (map rm_flagged (rv_resonances lv)))))
        * scattered (cis (- (2 * phi))) /\
  c = S (J_capture E P phi) /\ f = S (J_fission E P phi).
Proof.
  intros Hcr Hsr Hasc Hcap H. unfold rm_lvalue_call in H.
  apply bind_Ok in H as (ps & Eps & H). pose proof (penetrationShift_l _ _ _ Eps) as Hl.
  rewrite penetrationShift_ok in Eps by assumption. injection Eps as <-. cbn [fst] in H.
  destruct (phaseShift_ok (rv_l lv) sr Hsr Hl) as (phi & Ephi & Hphi). rewrite Ephi in H. cbn [bind] in H.
  injection H as H. destruct (all_finite _) as [xs|] eqn:Exs; [|discriminate].
  apply all_finite_Some, Forall2_map_Some in Exs.
  rewrite qaccumulate_sum in H. injection H as He Hc Hf.
  set (rs := rv_resonances lv) in *. set (P := P_spec (rv_l lv) cr) in *.
  assert (HP : 0 < P) by (apply P_spec_pos; exact Hcr).
  assert (G : Forall2 (fun g x => (forall r, In r (fst g :: snd g) -> finite3 E r) /\
      q3 x = Rabs (rm_flagged (fst g)) /\
      q0 x = Rabs (rm_flagged (fst g)) * J_total E P phi (map reduced (fst g :: snd g)) /\
      q1 x = Rabs (rm_flagged (fst g)) * J_elastic E P phi (map reduced (fst g :: snd g)) /\
      q2 x = Rabs (rm_flagged (fst g)) * J_fission E P phi (map reduced (fst g :: snd g)))
    (group_by rm_flagged rs) xs).
  { eapply Forall2_In_l; [exact Exs|]. intros g [[[t el] fi] g'] Hg Hx. cbv beta in Hx.
    assert (Hc' : forall r, In r (fst g :: snd g) -> 0 <= rm_capture r).
    { intros r Hr. apply Hcap. apply (group_by_In rm_flagged rs r Hasc). eauto. }
    apply (@Jgroup_value E P phi (fst g) (fst g :: snd g) HP Hc' t el fi g') in Hx as (H1 & H2 & H3 & H4 & H5).
    unfold q0, q1, q2, q3; cbn [fst snd]. auto. }
  assert (Sum : forall (q : R * R * R * R -> R) (F : list rm_resonance -> R -> R),
    (forall g x, (q3 x = Rabs (rm_flagged (fst g)) /\
      q0 x = Rabs (rm_flagged (fst g)) * J_total E P phi (map reduced (fst g :: snd g)) /\
      q1 x = Rabs (rm_flagged (fst g)) * J_elastic E P phi (map reduced (fst g :: snd g)) /\
      q2 x = Rabs (rm_flagged (fst g)) * J_fission E P phi (map reduced (fst g :: snd g))) ->
      q x = F (fst g :: snd g) (rm_flagged (fst g))) ->
    Rsum (map q xs) = Rsum (map (fun x => F (keyed rm_flagged x rs) x) (nodup Req_EM_T (map rm_flagged rs)))).
  { intros q F HF. rewrite <- (group_by_sum2 rm_flagged F rs Hasc). symmetry.
    eapply Rsum_Forall2; [exact G|]. intros g x (_ & Hx). symmetry. apply HF, Hx. }
  split; [exact Hl|]. split.
  { intros r Hr. apply (group_by_In rm_flagged rs r Hasc) in Hr as (g & Hg & Hr).
    clear -G Hg Hr. induction G as [|g0 x gs xs (H1 & _) G IH]; [destruct Hg|].
    destruct Hg as [->|Hg]; [apply H1; exact Hr | apply IH; exact Hg]. }
  exists phi. split; [exact Hphi|]. cbv zeta.
  assert (S0 := Sum q0 (fun l x => Rabs x * J_total E P phi (map reduced l)) (fun g x H => proj1 (proj2 H))).
  assert (S1 := Sum q1 (fun l x => Rabs x * J_elastic E P phi (map reduced l)) (fun g x H => proj1 (proj2 (proj2 H)))).
  assert (S2 := Sum q2 (fun l x => Rabs x * J_fission E P phi (map reduced l)) (fun g x H => proj2 (proj2 (proj2 H)))).
  assert (S3 := Sum q3 (fun l x => Rabs x) (fun g x H => proj1 H)).
  rewrite S0, S1, S2, S3 in *. clear S0 S1 S2 S3 Sum. cbv beta in *.
  change (Rsum (map (fun x => Rabs x) (nodup Req_EM_T (map rm_flagged rs))))
    with (Rsum (map Rabs (nodup Req_EM_T (map rm_flagged rs)))) in *.
  unfold over_keys. repeat split.
  - rewrite scattered_hard. rewrite <- He. ring.
  - rewrite <- Hc. rewrite !Rplus_0_l, <- !Rsum_minus. apply Rsum_ext. intros x _.
    rewrite (J_sum E P phi (keyed rm_flagged x rs)). ring.
  - rewrite <- Hf. ring.
Qed.

(** * From lines to resonances *)
Lemma signed_root_half w : signed_root w / sqrt 2 = signed_sqrt (w / 2).
Proof.
  assert (0 < sqrt 2) by (apply sqrt_lt_R0; lra).
  unfold signed_root, signed_sqrt. destruct (Rlt_dec w 0), (Rlt_dec (w / 2) 0); cbn [ssrbool.is_left]; try lra.
  - rewrite Rabs_left by assumption. replace (- (w / 2)) with (- w / 2) by lra.
    rewrite (sqrt_div (- w) 2) by lra. field. lra.
  - rewrite Rabs_right by lra. rewrite (sqrt_div w 2) by lra. field. lra.
Qed.

Section File.
Variables (C A : R) (I : Z).
Hypotheses (HC : 0 < C) (HA : 0 < A) (HI : is_spin I).
Let k := k_old C A.
Variable (ar : rm_lstate -> R -> outcome R).
Let a (ls : rm_lstate) (e : R) := oval (ar ls e).

Definition line_key (x : rm_line) : R := copysign (g_old I (Z.abs (rl_AJ x))) (rl_AJ x).
Lemma g_old_pos J : (0 <= J)%Z -> 0 < g_old I J.
Proof.
  intros HJ. rewrite (g_old_spec I J HI). unfold is_spin in HI. apply IZR_le in HI, HJ.
  unfold g_neutron. apply Rdiv_lt_0_compat; lra.
Qed.
Lemma key_abs J : Rabs (copysign (g_old I (Z.abs J)) J) = g_neutron I (Z.abs J).
Proof.
  pose proof (g_old_pos (Z.abs J) (Z.abs_nonneg J)) as H. rewrite <- (g_old_spec I _ HI).
  unfold copysign. destruct (J <? 0)%Z; rewrite ?Rabs_Ropp, ?Rabs_Rabsolu; apply Rabs_pos_eq; lra.
Qed.
Lemma key_inj J J' : copysign (g_old I (Z.abs J)) J = copysign (g_old I (Z.abs J')) J' -> J = J'.
Proof.
  pose proof (g_old_pos (Z.abs J) (Z.abs_nonneg J)) as H. pose proof (g_old_pos (Z.abs J') (Z.abs_nonneg J')) as H'.
  unfold copysign. rewrite !Rabs_pos_eq by lra. rewrite !(g_old_spec I _ HI) in *.
  destruct (Z.ltb_spec J 0), (Z.ltb_spec J' 0); intros Heq.
  - assert (Z.abs J = Z.abs J') by (apply (g_neutron_inj I); [exact HI | lra]). lia.
  - lra.
  - lra.
  - assert (Z.abs J = Z.abs J') by (apply (g_neutron_inj I); [exact HI | lra]). lia.
Qed.

(** A resonance as the code builds it, when it can be evaluated *)
Lemma resonance_value rho ls x r E :
  (forall e y, rho e = Ok y -> y = k e * a ls e /\ 0 <= y) ->
  rm_build_resonance I (rs_L ls) rho x = Ok r -> finite3 E r ->
  rm_flagged r = line_key x /\ rm_capture r = rl_GG x /\ reduced r = reduced_of k a ls x /\ 0 <= rl_GN x /\
  0 < P_rm k a ls (Rabs (rl_ER x)) /\ (rl_ER x <> E \/ rl_GG x <> 0).
Proof.
  intros Hrho H (F1 & F2 & F3). unfold rm_build_resonance in H.
  apply bind_Ok in H as (y & Ey & H). apply Hrho in Ey as (Ey & Hy).
  apply bind_Ok in H as (ps & Eps & H). apply (shift_P _ _ _ Hy) in Eps. injection H as <-.
  unfold makeRM in *. cbn [rm_flagged rm_capture reduced rm_rootNeutron rm_inverseRoot rm_energy rm_rootA rm_rootB] in *.
  unfold den3 in F3; cbn [rm_energy rm_capture] in F3.
  unfold reduced, reduced_of; cbn [rm_energy rm_rootNeutron rm_inverseRoot rm_rootA rm_rootB rm_capture].
  rewrite !signed_root_half. fold (P_rm k a ls (Rabs (rl_ER x))). rewrite Eps, Ey in *.
  change (P_spec (rs_L ls) (k (Rabs (rl_ER x)) * a ls (Rabs (rl_ER x)))) with (P_rm k a ls (Rabs (rl_ER x))) in *.
  set (P := P_rm k a ls (Rabs (rl_ER x))) in *.
  unfold fsqrt in F1, F2 |- *. destruct (Rlt_dec (rl_GN x) 0) as [|HN]; cbn [ssrbool.is_left] in *; [congruence|].
  destruct (Rlt_dec P 0) as [|HP]; cbn [ssrbool.is_left] in *; [congruence|].
  unfold frecip in F2 |- *. destruct (Req_EM_T (sqrt P) 0) as [|HP']; cbn [ssrbool.is_left] in *; [congruence|].
  assert (HP0 : 0 < P).
  { destruct (Req_dec P 0) as [Z|Z]; [|lra]. exfalso; apply HP'. rewrite Z; apply sqrt_0. }
  split; [reflexivity|]. split; [reflexivity|]. split; [|split; [lra|split; [exact HP0|]]].
  - f_equal. f_equal. cbn [oget ssrfun.Option.default]. unfold oget; cbn.
    rewrite sqrt_div by lra. rewrite sqrt_mult by lra.
    assert (0 < sqrt 2) by (apply sqrt_lt_R0; lra). field. split; [exact HP' | lra].
  - destruct (Req_dec (rl_ER x) E) as [He|]; [right|left; assumption].
    intros Hg. apply F3. rewrite Hg, He. ring.
Qed.

Lemma mapM_build rho ls lv E :
  (forall e y, rho e = Ok y -> y = k e * a ls e /\ 0 <= y) ->
  (forall x, In x (rs_lines ls) -> 0 <= rl_GG x) ->
  forall rs, mapM (rm_build_resonance I (rs_L ls) rho) (rs_lines ls) = Ok rs -> Permutation rs lv ->
  (forall r, In r lv -> finite3 E r) ->
  Forall2 (fun x r => rm_flagged r = line_key x /\ rm_capture r = rl_GG x /\ reduced r = reduced_of k a ls x /\
    0 <= rl_GN x /\ 0 < P_rm k a ls (Rabs (rl_ER x)) /\ (rl_ER x <> E \/ rl_GG x <> 0)) (rs_lines ls) rs.
Proof.
  intros Hrho Hg rs Hm Hp Hf. apply mapM_Ok in Hm.
  assert (Hf' : forall r, In r rs -> finite3 E r) by (intros r Hr; apply Hf; eapply Permutation_in; eauto).
  clear Hp Hf lv. induction Hm as [|x r xs rs H Hm IH]; constructor.
  - eapply resonance_value; [exact Hrho | exact H | apply Hf'; left; reflexivity].
  - apply IH; [intros y Hy; apply Hg; right; exact Hy | intros y Hy; apply Hf'; right; exact Hy].
Qed.

(** * Sums over keys are sums over signed J *)
Definition line_ok (E : R) ls x (r : rm_resonance) : Prop :=
  rm_flagged r = line_key x /\ rm_capture r = rl_GG x /\ reduced r = reduced_of k a ls x /\
  0 <= rl_GN x /\ 0 < P_rm k a ls (Rabs (rl_ER x)) /\ (rl_ER x <> E \/ rl_GG x <> 0).

Lemma keyed_lines3 E ls y xs rs : Forall2 (line_ok E ls) xs rs ->
  map reduced (keyed rm_flagged y rs) = map (reduced_of k a ls) (keyed line_key y xs) /\
  map rm_flagged rs = map line_key xs.
Proof.
  intros F; induction F as [|x r xs rs (Hg & _ & Hr & _) F [IH1 IH2]]; [split; reflexivity|].
  rewrite !keyed_cons, Hg. cbn [map]. split; [|rewrite Hg, IH2; reflexivity].
  destruct (Reqb (line_key x) y); [cbn [map]; rewrite Hr, IH1; reflexivity | exact IH1].
Qed.

Lemma keyed_lines_of j xs :
  keyed line_key (copysign (g_old I (Z.abs j)) j) xs = lines_of j xs.
Proof.
  unfold keyed, lines_of. apply filter_ext. intros x. unfold line_key, Reqb.
  destruct (Req_EM_T _ _) as [H|H]; destruct (Z.eqb_spec (rl_AJ x) j) as [H'|H']; try reflexivity.
  - exfalso; apply H', key_inj, H.
  - exfalso; apply H. rewrite H'. reflexivity.
Qed.

Lemma over_keys_J E ls rs lv F : (forall l m, Permutation l m -> F l = F m) ->
  Forall2 (line_ok E ls) (rs_lines ls) rs -> Permutation rs lv ->
  over_keys lv F = over_J k I a ls F /\
  Rsum (map Rabs (nodup Req_EM_T (map rm_flagged lv))) = accounted I ls.
Proof.
  intros HF H2 Hp. set (xs := rs_lines ls) in *.
  assert (Hk : forall G : R -> R, Rsum (map G (nodup Req_EM_T (map rm_flagged lv))) =
     Rsum (map (fun j => G (copysign (g_old I (Z.abs j)) j)) (signed_J xs))).
  { intros G. rewrite (Rsum_perm (map G (nodup Req_EM_T (map rm_flagged lv)))
      (map G (nodup Req_EM_T (map rm_flagged rs)))).
    2:{ apply Permutation_map, nodup_perm, Permutation_map, Permutation_sym, Hp. }
    destruct (keyed_lines3 E ls 0 xs rs H2) as [_ ->]. unfold line_key, signed_J.
    apply (nodup_inj_sum rl_AJ (fun j => copysign (g_old I (Z.abs j)) j) G xs).
    intros x y _ _. apply key_inj. }
  split.
  - unfold over_keys. rewrite Hk. unfold over_J. fold xs. apply Rsum_ext. intros j _.
    rewrite key_abs. f_equal. rewrite <- keyed_lines_of.
    destruct (keyed_lines3 E ls (copysign (g_old I (Z.abs j)) j) xs rs H2) as [<- _].
    apply HF, Permutation_map, keyed_perm, Permutation_sym, Hp.
  - rewrite Hk. unfold accounted. fold xs. apply Rsum_ext. intros j _. apply key_abs.
Qed.
End File.

(** * The file *)
Definition given (ls : rm_lstate) : bool := if Req_EM_T (rs_APL ls) 0 then false else true.
Definition own (use : bool) (ls : rm_lstate) (r : R -> outcome R) (e : R) : outcome R :=
  if given ls && use then Ok (rs_APL ls) else r e.
Definition own_channel (tag : rm_tag) : bool := match tag with Both | ChannelTag => true | _ => false end.
Definition own_scattering (tag : rm_tag) : bool := match tag with Both | ScatteringTag => true | _ => false end.

Section Whole.
Variables (C : R) (sort : list rm_resonance -> list rm_resonance) (f : rm_file)
  (first : rm_lstate) (others : list rm_lstate) (tag : rm_tag) (ch sc : R -> outcome R) (E : R).
Hypotheses (HC : 0 < C) (Hf : rf_lstates f = first :: others) (HA : 0 < rs_AWRI first)
  (HI : is_spin (rf_SPI f)) (Hsort : sorts rm_flagged sort)
  (Hch : forall ls, In ls (rf_lstates f) -> positive (own (own_channel tag) ls ch))
  (Hsc : forall ls, In ls (rf_lstates f) -> positive (own (own_scattering tag) ls sc))
  (HG : forall ls x, In ls (rf_lstates f) -> In x (rs_lines ls) -> 0 <= rl_GG x).
Let A := rs_AWRI first.
Let k := k_old C A.
Let I := rf_SPI f.
Let a ls e := oval (own (own_channel tag) ls ch e).
Let ahat ls := oval (own (own_scattering tag) ls sc E).
Variable phi : rm_lstate -> R.
Hypothesis Hphi : forall ls, In ls (rf_lstates f) -> (rs_L ls <= 4)%nat -> is_phase (rs_L ls) (k E * ahat ls) (phi ls).

Lemma inspect_ratios cR sR ls r :
  ch E = Ok cR -> sc E = Ok sR -> rv_ap r = (if given ls then Some (rs_APL ls) else None) ->
  inspect tag (k E) (k E * cR) (k E * sR) (rv_ap r) = (k E * a ls E, k E * ahat ls).
Proof.
  clear Hch Hsc Hphi. intros Hc Hs ->. unfold a, ahat, own. destruct tag, (given ls) eqn:G; cbn [inspect own_channel own_scattering andb];
    rewrite ?G, ?Hc, ?Hs; reflexivity.
Qed.

Lemma wave_positive e : 0 <= k e.
Proof. apply k_old_nonneg; [exact HC | exact HA]. Qed.

(** One l value of the file *)
Definition rm_part (ls : rm_lstate) (u : triple) : Prop :=
  (rs_L ls <= 4)%nat /\
  (forall x, In x (rs_lines ls) -> 0 <= rl_GN x /\ 0 < P_rm k a ls (Rabs (rl_ER x)) /\ (rl_ER x <> E \/ rl_GG x <> 0)) /\
  t0 u = over_J k I a ls (J_elastic E (P_rm k a ls E) (phi ls)) + rest I phi ls /\
  t1 u = over_J k I a ls (J_capture E (P_rm k a ls E) (phi ls)) /\
  t2 u = over_J k I a ls (J_fission E (P_rm k a ls E) (phi ls)).

Lemma Forall2_left {X Y} (P : X -> Y -> Prop) (Q : X -> Prop) xs ys :
  Forall2 P xs ys -> (forall x y, P x y -> Q x) -> forall x, In x xs -> Q x.
Proof.
  intros F H. induction F as [|x y xs ys Hxy F IH]; intros z [].
  - subst z. eapply H, Hxy.
  - apply IH; assumption.
Qed.

Lemma rm_part_value ls lv u : In ls (rf_lstates f) ->
  0 < k E * a ls E -> 0 < k E * ahat ls ->
  rm_build_lvalue I (neutronWaveNumber C A) ch (own_channel tag) ls = Ok lv ->
  rm_lvalue_call (mkRMValue (rv_ap lv) (sort (rv_resonances lv)) (rv_l lv)) E (k E * a ls E) (k E * ahat ls)
    = Ok (Some u) -> rm_part ls u.
Proof.
  intros Hin Hcr Hsr Hlv Hu. destruct u as [[e c] fi].
  unfold rm_build_lvalue in Hlv. destruct (4 <? rs_L ls)%nat eqn:E4; [discriminate|].
  apply bind_Ok in Hlv as (rs & Ers & Hlv). injection Hlv as <-. cbn [rv_ap rv_resonances rv_l] in Hu.
  destruct (Hsort rs) as [Hp Hasc].
  fold (given ls) in Ers.
  set (rho := fun e0 => if given ls && own_channel tag then Ok (rs_APL ls * neutronWaveNumber C A e0)
    else omap (fun a0 => a0 * neutronWaveNumber C A e0) (ch e0)) in Ers.
  assert (Hw : forall e0, neutronWaveNumber C A e0 = k e0).
  { intros e0. unfold neutronWaveNumber, k, k_old. fold A in HA. field; lra. }
  assert (Hrho : forall e0 y, rho e0 = Ok y -> y = k e0 * a ls e0 /\ 0 <= y).
  { intros e0 y Hy. pose proof (Hch ls Hin e0) as Hpos. pose proof (wave_positive e0) as Hk.
    unfold rho in Hy. unfold a. unfold own in *. destruct (given ls && own_channel tag).
    - injection Hy as <-. specialize (Hpos _ eq_refl). rewrite Hw. cbn [oval]. split; [ring|].
      apply Rmult_le_pos; lra.
    - destruct (ch e0) as [r| | |]; cbn in Hy; try discriminate. injection Hy as <-.
      specialize (Hpos _ eq_refl). rewrite Hw. cbn [oval]. split; [ring|]. apply Rmult_le_pos; lra. }
  assert (Hcap : forall r, In r (sort rs) -> 0 <= rm_capture r).
  { intros r Hr. apply (Permutation_in r (Permutation_sym Hp)) in Hr. apply mapM_Ok in Ers.
    assert (HF : Forall (fun r => 0 <= rm_capture r) rs).
    { pose proof (HG ls) as HG'. clear -Ers HG' Hin.
      assert (HH : forall x, In x (rs_lines ls) -> 0 <= rl_GG x) by (intros x; apply HG'; exact Hin).
      clear HG' Hin. induction Ers as [|x r xs rs H Ers IH]; constructor.
      - unfold rm_build_resonance in H. apply bind_Ok in H as (? & _ & H). apply bind_Ok in H as (? & _ & H).
        injection H as <-. apply HH; left; reflexivity.
      - apply IH. intros y Hy; apply HH; right; exact Hy. }
    rewrite Forall_forall in HF. apply HF, Hr. }
  destruct (lvalue_value (mkRMValue (if given ls then Some (rs_APL ls) else None) (sort rs) (rs_L ls)) E _ _ e c fi Hcr Hsr Hasc Hcap Hu)
    as (Hl & Hfin & phi' & Hphi' & He & Hc & Hfi).
  cbn [rv_resonances rv_l] in *.
  assert (HF2 := mapM_build C A I (fun ls0 => own (own_channel tag) ls0 ch) rho ls (sort rs) E Hrho
    (fun x => HG ls x Hin) rs Ers Hp Hfin).
  assert (Hsame : cis (- (2 * phi ls)) = cis (- (2 * phi'))).
  { rewrite <- (hard_sphere_phase _ _ _ Hphi'), <- (hard_sphere_phase _ _ _ (Hphi ls Hin Hl)). reflexivity. }
  pose proof (fun F HF => over_keys_J C A I HI (fun ls0 => own (own_channel tag) ls0 ch) E ls rs (sort rs) F HF HF2 Hp) as Hover.
  change (P_spec (rs_L ls) (k E * a ls E)) with (P_rm k a ls E) in *.
  assert (Hch4 : forall tb, J_elastic E (P_rm k a ls E) phi' tb = J_elastic E (P_rm k a ls E) (phi ls) tb /\
     J_capture E (P_rm k a ls E) phi' tb = J_capture E (P_rm k a ls E) (phi ls) tb /\
     J_fission E (P_rm k a ls E) phi' tb = J_fission E (P_rm k a ls E) (phi ls) tb).
  { intros tb. destruct (J_phase E (P_rm k a ls E) tb Hsame) as (H1 & H2 & H3 & _). auto. }
  assert (Hov : forall F F', (forall tb, F tb = F' tb) -> over_keys (sort rs) F = over_keys (sort rs) F').
  { intros F F' H. unfold over_keys. apply Rsum_ext. intros x _. rewrite H. reflexivity. }
  unfold rm_part, t0, t1, t2; cbn [fst snd]. split; [exact Hl|]. split.
  { apply (Forall2_left _ _ _ _ HF2). intros x r (_ & _ & _ & H). exact H. }
  split; [|split].
  - rewrite He, (Hov _ (J_elastic E (P_rm k a ls E) (phi ls))) by (intros tb; apply Hch4).
    destruct (Hover (J_elastic E (P_rm k a ls E) (phi ls))) as [-> ->].
    { intros l m Hlm. apply (J_perms E (P_rm k a ls E) (phi ls) Hlm). }
    unfold rest. rewrite Hsame. reflexivity.
  - rewrite Hc, (Hov _ (J_capture E (P_rm k a ls E) (phi ls))) by (intros tb; apply Hch4).
    destruct (Hover (J_capture E (P_rm k a ls E) (phi ls))) as [-> _]; [|reflexivity].
    intros l m Hlm. apply (J_perms E (P_rm k a ls E) (phi ls) Hlm).
  - rewrite Hfi, (Hov _ (J_fission E (P_rm k a ls E) (phi ls))) by (intros tb; apply Hch4).
    destruct (Hover (J_fission E (P_rm k a ls E) (phi ls))) as [-> _]; [|reflexivity].
    intros l m Hlm. apply (J_perms E (P_rm k a ls E) (phi ls) Hlm).
Qed.
End Whole.
