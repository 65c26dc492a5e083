(** What follows for the cross sections: signs, interference, order of the resonances. *)
From Coq Require Import List ZArith Reals Lra Lia Permutation Bool Psatz.
From Verif Require Import Outcome QuantumModel QuantumSpec QuantumProofs SpinFactorModel SpinFactorProofs HardSphereModel
  HardSphereSpec HardSphereProofs KinematicsModel Cplx RMatrixModel ChannelModel BreitWignerModel
  BreitWignerSpec ListFacts BreitWignerProofs BreitWignerSystemProofs LegacyModel LegacyProofs.
Import ListNotations.
Open Scope R_scope.

Lemma Rinv_nonneg x : 0 <= x -> 0 <= / x.
Proof. intros [H|<-]; [apply Rlt_le, Rinv_0_lt_compat; exact H | rewrite Rinv_0; lra]. Qed.
Lemma Rdiv_nonneg x y : 0 <= x -> 0 <= y -> 0 <= x / y.
Proof. intros; apply Rmult_le_pos; [assumption | apply Rinv_nonneg; assumption]. Qed.
Lemma norm2_nonneg z : 0 <= norm2 z.
Proof. unfold norm2. pose proof (Rle_0_sqr (re z)); pose proof (Rle_0_sqr (im z)); unfold Rsqr in *; lra. Qed.
Lemma scattered_nonneg U : 0 <= scattered U.
Proof. apply norm2_nonneg. Qed.
Lemma barns_nonneg k E : 0 <= barns k E.
Proof. unfold barns. apply Rdiv_nonneg; [unfold pi_value; lra | nra]. Qed.

(** * Signs *)
Section Signs.
Variables (k a : R -> R) (E : R) (q : bw_lstate -> R) (I : Z).
Hypotheses (HI : is_spin I) (Hk : forall e, 0 <= k e * a e).

Lemma P_at_nonneg l e : 0 <= P_at k a l e.
Proof. unfold P_at, P_spec. apply Rdiv_nonneg; [apply Hk | apply Rlt_le, amplitude2_pos]. Qed.
Lemma g_of_nonneg x : 0 <= g_of I x.
Proof. apply g_neutron_nonneg; [exact HI | unfold abs_J; lia]. Qed.
Lemma reaction_nonneg ls x w : 0 <= ln_GN x -> 0 <= w -> 0 <= reaction E w (level_of k a E q ls x).
Proof.
  intros Hn Hw. unfold reaction. apply Rdiv_nonneg; [|apply norm2_nonneg]. apply Rmult_le_pos; [|exact Hw].
  cbn [level_of w_n]. apply Rdiv_nonneg; [apply Rmult_le_pos; [exact Hn|]|]; apply P_at_nonneg.
Qed.
Lemma capture_nonneg lss :
  (forall ls x, In ls lss -> In x (ls_lines ls) -> 0 <= ln_GN x /\ 0 <= ln_GG x) ->
  0 <= BW_capture k a E q I lss.
Proof.
  intros H. unfold BW_capture. apply Rmult_le_pos; [apply barns_nonneg|].
  apply Rsum_map_nonneg; intros ls Hls. apply Rsum_map_nonneg; intros x Hx.
  destruct (H ls x Hls Hx) as [H1 H2]. apply Rmult_le_pos; [apply g_of_nonneg|]. apply reaction_nonneg; assumption.
Qed.
Lemma fission_nonneg lss :
  (forall ls x, In ls lss -> In x (ls_lines ls) -> 0 <= ln_GN x /\ 0 <= ln_GF x) ->
  0 <= BW_fission k a E q I lss.
Proof.
  intros H. unfold BW_fission. apply Rmult_le_pos; [apply barns_nonneg|].
  apply Rsum_map_nonneg; intros ls Hls. apply Rsum_map_nonneg; intros x Hx.
  destruct (H ls x Hls Hx) as [H1 H2]. apply Rmult_le_pos; [apply g_of_nonneg|]. apply reaction_nonneg; assumption.
Qed.

Variable ahat : R.
Lemma SL_elastic_nonneg lss : (forall ls, In ls lss -> scattered (U0_of k E ahat ls) = 0) ->
  0 <= SLBW_elastic k a E q ahat I lss.
Proof.
  intros H. unfold SLBW_elastic. apply Rmult_le_pos; [apply barns_nonneg|].
  apply Rsum_map_nonneg; intros ls Hls. unfold SL_elastic. rewrite (H ls Hls), Rmult_0_r, Rplus_0_l.
  apply Rsum_map_nonneg; intros x Hx. apply Rmult_le_pos; [apply g_of_nonneg|].
  pose proof (scattered_nonneg (collision (U0_of k E ahat ls) E [level_of k a E q ls x])). lra.
Qed.

(** What the groups of one l weigh *)
Definition weight (ls : bw_lstate) : R := Rsum (map (g_neutron I) (Js abs_J (ls_lines ls))).

Lemma J_nonneg ls j : In j (Js abs_J (ls_lines ls)) -> (0 <= j)%Z.
Proof.
  unfold Js. intros H. apply nodup_In, in_map_iff in H as (x & <- & _). unfold abs_J; lia.
Qed.
Lemma ML_groups_nonneg ls :
  0 <= Rsum (map (fun j => g_neutron I j * scattered (collision (U0_of k E ahat ls) E
     (map (level_of k a E q ls) (of_J abs_J j (ls_lines ls))))) (Js abs_J (ls_lines ls))).
Proof.
  apply Rsum_map_nonneg. intros j Hj. apply Rmult_le_pos; [|apply scattered_nonneg].
  apply g_neutron_nonneg; [exact HI | apply (J_nonneg ls); exact Hj].
Qed.
Lemma ML_elastic_nonneg lss : (forall ls, In ls lss -> weight ls <= 2 * INR (ls_L ls) + 1) ->
  0 <= MLBW_elastic k a E q ahat I lss.
Proof.
  intros H. unfold MLBW_elastic. apply Rmult_le_pos; [apply barns_nonneg|].
  apply Rsum_map_nonneg; intros ls Hls. unfold ML_elastic. apply Rplus_le_le_0_compat; [apply ML_groups_nonneg|].
  apply Rmult_le_pos; [specialize (H ls Hls); unfold weight in H; lra | apply scattered_nonneg].
Qed.

Definition coupled (ls : bw_lstate) : Prop := forall x, In x (ls_lines ls) ->
  exists s, triangle 1 I s /\ triangle (2 * Z.of_nat (ls_L ls)) s (abs_J x).

Lemma summation_bound l : statisticalFactorSummation I l <= 2 * INR l + 1.
Proof.
  rewrite (summation_Z I l HI). unfold is_spin in HI.
  assert (H8 : 0 < IZR (8 * (I + 1))) by (apply IZR_lt; lia).
  apply Rmult_le_reg_r with (1 := H8). unfold Rdiv. rewrite Rmult_assoc, Rinv_l, Rmult_1_r by lra.
  rewrite INR_IZR_INZ, <- mult_IZR, <- plus_IZR, <- mult_IZR. apply IZR_le. nia.
Qed.
Lemma sub_sum (h : Z -> R) xs ys : (forall y, In y ys -> 0 <= h y) -> NoDup xs -> (forall x, In x xs -> In x ys) ->
  Rsum (map h xs) <= Rsum (map h ys).
Proof.
  revert ys. induction xs as [|x xs IH]; intros ys Hh Hn Hin.
  - cbn [map]. rewrite Rsum_nil. apply Rsum_map_nonneg; exact Hh.
  - destruct (in_split x ys (Hin x (or_introl eq_refl))) as (u & v & ->). inversion Hn as [|? ? Hx Hn']; subst.
    rewrite map_app. cbn [map]. rewrite Rsum_app, !Rsum_cons.
    specialize (IH (u ++ v)). rewrite map_app, Rsum_app in IH.
    assert (Rsum (map h xs) <= Rsum (map h u) + Rsum (map h v)); [|lra]. apply IH; [|exact Hn'|].
    + intros y Hy. apply Hh. apply in_app_or in Hy as [Hy|Hy]; apply in_or_app; [left|right; right]; exact Hy.
    + intros y Hy. assert (y <> x) by (intros ->; contradiction).
      destruct (in_app_or _ _ _ (Hin y (or_intror Hy))) as [H0|[H0|H0]]; apply in_or_app;
        [left; exact H0 | congruence | right; exact H0].
Qed.
Lemma weight_bound ls : coupled ls -> weight ls <= statisticalFactorSummation I (ls_L ls).
Proof.
  intros Hc. unfold weight. rewrite (factor_summation_spec I _ HI). apply sub_sum.
  - intros y Hy. apply distinctJ_in in Hy as (s & _ & H); [|exact HI].
    apply g_neutron_nonneg; [exact HI|]. apply triangle_nonneg in H; exact H.
  - apply NoDup_nodup.
  - intros j Hj. apply nodup_In, in_map_iff in Hj as (x & <- & Hx). apply distinctJ_in; [exact HI|]. apply Hc; exact Hx.
Qed.
Lemma weight_2l1 ls : coupled ls -> weight ls <= 2 * INR (ls_L ls) + 1.
Proof. intros H. eapply Rle_trans; [apply weight_bound; exact H | apply summation_bound]. Qed.
End Signs.

Lemma hard_sphere_is_cis l rho : 0 < rho -> (l <= 4)%nat -> exists phi, hard_sphere_U l rho = cis (- (2 * phi)).
Proof. intros Hr Hl. destruct (phase_code l rho Hr Hl) as (phi & _ & H). exists phi. apply hard_sphere_phase; exact H. Qed.

(** * Interference: the difference of the two formalisms *)
Section Interference.
Variables (k a : R -> R) (E : R) (q : bw_lstate -> R) (ahat : R) (I : Z).

Definition interference_sum (lss : list bw_lstate) : R :=
  barns k E * Rsum (map (fun ls => Rsum (map (fun j => g_neutron I j *
    pair_sum (interference E) (map (level_of k a E q ls) (of_J abs_J j (ls_lines ls))))
    (Js abs_J (ls_lines ls)))) lss).

Lemma by_J {X} (J : X -> Z) (F : X -> R) l :
  Rsum (map (fun j => Rsum (map F (of_J J j l))) (Js J l)) = Rsum (map F l).
Proof.
  unfold Js, of_J.
  assert (G : forall js m, NoDup js -> (forall x, In x m -> In (J x) js) ->
    Rsum (map (fun j => Rsum (map F (filter (fun x => (J x =? j)%Z) m))) js) = Rsum (map F m)).
  { intros js m Hn; induction m as [|x m IH]; intros Hin.
    - cbn [filter map]. clear. rewrite Rsum_nil. induction js; cbn [map]; rewrite ?Rsum_cons, ?Rsum_nil; lra.
    - cbn [map]. rewrite Rsum_cons, <- IH by (intros; apply Hin; right; assumption). clear IH.
      assert (Hx : In (J x) js) by (apply Hin; left; reflexivity). clear Hin.
      induction js as [|j js IH]; [destruct Hx|]. inversion Hn as [|? ? Hj Hn']; subst.
      cbn [map]. rewrite !Rsum_cons. destruct Hx as [->|Hx].
      + cbn [filter]. rewrite Z.eqb_refl. cbn [map]. rewrite Rsum_cons.
        rewrite (Rsum_ext (fun j => Rsum (map F (if (J x =? j)%Z then _ else _)))
           (fun j => Rsum (map F (filter (fun y => (J y =? j)%Z) m)))); [ring|].
        intros j Hj'. destruct (Z.eqb_spec (J x) j); [subst; contradiction | reflexivity].
      + rewrite (IH Hn' Hx). cbn [filter]. destruct (Z.eqb_spec (J x) j); [subst; contradiction | ring]. }
  apply G; [apply NoDup_nodup|]. intros x Hx. apply nodup_In, in_map; exact Hx.
Qed.

Lemma ML_minus_SL lss :
  (forall ls, In ls lss -> exists phi, U0_of k E ahat ls = cis (- (2 * phi))) ->
  (forall ls x, In ls lss -> In x (ls_lines ls) -> norm2 (pole E (level_of k a E q ls x)) <> 0) ->
  MLBW_elastic k a E q ahat I lss = SLBW_elastic k a E q ahat I lss + interference_sum lss.
Proof.
  intros HU HN. unfold MLBW_elastic, SLBW_elastic, interference_sum.
  rewrite <- Rmult_plus_distr_l, <- Rsum_plus. f_equal. apply Rsum_ext. intros ls Hls.
  destruct (HU ls Hls) as (phi & HU1). unfold ML_elastic, SL_elastic. rewrite HU1.
  set (v := level_of k a E q ls).
  rewrite <- (by_J abs_J (fun r => g_of I r * (scattered (collision (cis (- (2 * phi))) E [v r]) - scattered (cis (- (2 * phi)))))).
  rewrite (Rsum_ext (fun j => g_neutron I j * scattered _) (fun j =>
    Rsum (map (fun r => g_of I r * (scattered (collision (cis (- (2 * phi))) E [v r]) - scattered (cis (- (2 * phi)))))
       (of_J abs_J j (ls_lines ls)))
    + (g_neutron I j * pair_sum (interference E) (map v (of_J abs_J j (ls_lines ls)))
    + scattered (cis (- (2 * phi))) * g_neutron I j))).
  - rewrite (Rsum_plus (fun j => Rsum (map (fun r => g_of I r * (scattered (collision (cis (- (2 * phi))) E [v r]) - scattered (cis (- (2 * phi)))))
       (of_J abs_J j (ls_lines ls))))), (Rsum_plus (fun j => g_neutron I j * pair_sum (interference E) _)), Rsum_scale.
    ring.
  - intros j _.
    assert (Hone : Rsum (map (fun r => g_of I r * (scattered (collision (cis (- (2 * phi))) E [v r]) - scattered (cis (- (2 * phi)))))
       (of_J abs_J j (ls_lines ls))) = g_neutron I j * Rsum (map (fun r => scattered (collision (cis (- (2 * phi))) E [v r]) - scattered (cis (- (2 * phi))))
       (of_J abs_J j (ls_lines ls)))).
    { rewrite <- Rsum_scale. apply Rsum_ext. intros x Hx. apply filter_In in Hx as [_ Hx]. apply Z.eqb_eq in Hx.
      unfold g_of. rewrite Hx. reflexivity. }
    rewrite Hone.
    pose proof (scattered_many phi E (map v (of_J abs_J j (ls_lines ls)))) as H. cbn zeta in H.
    rewrite map_map in H. rewrite <- Rmult_plus_distr_l with (r1 := g_neutron I j) || idtac.
    replace (scattered (collision (cis (- (2 * phi))) E (map v (of_J abs_J j (ls_lines ls)))))
      with (scattered (collision (cis (- (2 * phi))) E (map v (of_J abs_J j (ls_lines ls)))) - scattered (cis (- (2 * phi)))
            + scattered (cis (- (2 * phi)))) by ring.
    rewrite H; [ring|]. intros w Hw. apply in_map_iff in Hw as (x & <- & Hx). apply filter_In in Hx as [Hx _].
    apply HN; assumption.
Qed.

Lemma isolated_no_interference lss :
  (forall ls, In ls lss -> NoDup (map abs_J (ls_lines ls))) -> interference_sum lss = 0.
Proof.
  intros H. unfold interference_sum.
  rewrite (Rsum_ext _ (fun _ => 0 * 0)); [rewrite Rsum_scale; ring|]. intros ls Hls. specialize (H ls Hls).
  rewrite (Rsum_ext _ (fun _ => 0 * 0)); [rewrite Rsum_scale; ring|]. intros j _.
  assert (Hl : (length (of_J abs_J j (ls_lines ls)) <= 1)%nat).
  { revert H. unfold of_J. generalize (ls_lines ls). intros l; induction l as [|x l IH]; intros Hn; cbn [filter length map] in *; [lia|].
    inversion Hn as [|? ? Hx Hn']; subst. specialize (IH Hn').
    destruct (Z.eqb_spec (abs_J x) j) as [<-|]; [|exact IH]. cbn [length].
    replace (filter _ l) with (@nil bw_line); [cbn; lia|]. symmetry.
    clear -Hx. induction l as [|y l IH]; [reflexivity|]. cbn [filter map] in *.
    destruct (Z.eqb_spec (abs_J y) (abs_J x)) as [E0|]; [exfalso; apply Hx; left; exact E0|].
    apply IH. intros H; apply Hx; right; exact H. }
  destruct (of_J abs_J j (ls_lines ls)) as [|x [|y r]]; cbn [map pair_sum]; rewrite ?Rsum_nil; try ring.
  cbn [length] in Hl; lia.
Qed.

End Interference.

(** Without a competitive width the energy added for it does not matter *)
Lemma level_of_no_comp k a E q q' ls x : ls_LRX ls = false -> level_of k a E q ls x = level_of k a E q' ls x.
Proof. intros H. unfold level_of. rewrite H. reflexivity. Qed.
Lemma level_of_same_q k a E q q' ls x : ls_LRX ls = false \/ q ls = q' ls -> level_of k a E q ls x = level_of k a E q' ls x.
Proof. intros [H|H]; unfold level_of; [rewrite H | rewrite H]; reflexivity. Qed.

Lemma no_comp k a E q q' ahat I lss : (forall ls, In ls lss -> ls_LRX ls = false \/ q ls = q' ls) ->
  SLBW_elastic k a E q ahat I lss = SLBW_elastic k a E q' ahat I lss /\
  MLBW_elastic k a E q ahat I lss = MLBW_elastic k a E q' ahat I lss /\
  BW_capture k a E q I lss = BW_capture k a E q' I lss /\ BW_fission k a E q I lss = BW_fission k a E q' I lss.
Proof.
  intros H. unfold SLBW_elastic, MLBW_elastic, BW_capture, BW_fission, SL_elastic, ML_elastic, capture_sum, fission_sum.
  repeat split; f_equal; apply Rsum_ext; intros ls Hls; specialize (H ls Hls).
  - f_equal. apply Rsum_ext. intros x _. rewrite (level_of_same_q k a E q q' ls x H). reflexivity.
  - f_equal. apply Rsum_ext. intros j _. do 3 f_equal. apply map_ext. intros x. apply level_of_same_q; exact H.
  - apply Rsum_ext. intros x _. rewrite (level_of_same_q k a E q q' ls x H). reflexivity.
  - apply Rsum_ext. intros x _. rewrite (level_of_same_q k a E q q' ls x H). reflexivity.
Qed.

(** * The widths at the resonance energy *)
Lemma level_at_resonance k a q ls x :
  P_at k a (ls_L ls) (ln_ER x) <> 0 ->
  (ls_LRX ls = true -> P_at k a (ls_L ls) (ln_ER x + q ls) <> 0) ->
  level_of k a (ln_ER x) q ls x =
  Level (ln_ER x) (ln_GN x) (ln_GG x) (ln_GF x)
        (ln_GN x + ln_GG x + ln_GF x + if ls_LRX ls then ln_GX x else 0).
Proof.
  intros HP HQ. unfold level_of. destruct (ls_LRX ls).
  - specialize (HQ eq_refl). f_equal; field; auto.
  - f_equal; field; auto.
Qed.

(** * The order of the resonances in the file *)
Definition same_lines (ls ls' : bw_lstate) : Prop :=
  ls_L ls = ls_L ls' /\ ls_AWRI ls = ls_AWRI ls' /\ ls_LRX ls = ls_LRX ls' /\ ls_QX ls = ls_QX ls' /\
  Permutation (ls_lines ls) (ls_lines ls').
Definition reordered (f f' : bw_file) : Prop :=
  f_SPI f = f_SPI f' /\ f_AP f = f_AP f' /\ Forall2 same_lines (f_lstates f) (f_lstates f').

(** The lists of resonances of two l values are permutations, both in ascending order *)
Definition same_lvalue (lv lv' : bw_lvalue) : Prop :=
  lv_q lv = lv_q lv' /\ lv_l lv = lv_l lv' /\ lv_gsum lv = lv_gsum lv' /\ (lv_l lv <= 4)%nat /\
  Permutation (lv_resonances lv) (lv_resonances lv').

Lemma mlbw_lvalue_perm I lv lv' E cr sr comp : 0 < cr -> 0 < sr ->
  same_lvalue lv lv' -> ascending b_g (lv_resonances lv) -> ascending b_g (lv_resonances lv') ->
  mlbw_lvalue I lv (psiChi E) cr sr comp = mlbw_lvalue I lv' (psiChi E) cr sr comp.
Proof.
  intros Hc Hs (Hq & Hl & Hg & H4 & HP) HA HA'.
  rewrite !mlbw_lvalue_value by (try assumption; lia). rewrite <- Hl, <- Hg.
  cbn zeta. destruct (D I (Z.of_nat (lv_l lv))) as [d| | |]; cbn [bind]; try reflexivity.
  rewrite (forallb_perm _ _ _ HP). rewrite (ml_old_perm _ _ _ _ _ _ _ _ HP).
  unfold capture_sum, fission_sum.
  rewrite (Rsum_perm _ _ (Permutation_map (fun r => b_g r * reaction E (w_c (old_level (P_spec (lv_l lv) cr) (S_spec (lv_l lv) cr) comp r)) _) HP)).
  rewrite (Rsum_perm _ _ (Permutation_map (fun r => b_g r * reaction E (w_f (old_level (P_spec (lv_l lv) cr) (S_spec (lv_l lv) cr) comp r)) _) HP)).
  reflexivity.
Qed.
Lemma slbw_lvalue_perm lv lv' E cr sr comp : 0 < cr -> 0 < sr -> same_lvalue lv lv' ->
  slbw_lvalue lv (psiChi E) cr sr comp = slbw_lvalue lv' (psiChi E) cr sr comp.
Proof.
  intros Hc Hs (Hq & Hl & Hg & H4 & HP).
  rewrite !slbw_lvalue_value by (try assumption; lia). rewrite <- Hl.
  cbn zeta. rewrite (forallb_perm _ _ _ HP).
  unfold SL_elastic, capture_sum, fission_sum.
  rewrite (Rsum_perm _ _ (Permutation_map (fun r => b_g r * (scattered (collision _ E [old_level (P_spec (lv_l lv) cr) (S_spec (lv_l lv) cr) comp r]) - _)) HP)).
  rewrite (Rsum_perm _ _ (Permutation_map (fun r => b_g r * reaction E (w_c (old_level (P_spec (lv_l lv) cr) (S_spec (lv_l lv) cr) comp r)) _) HP)).
  rewrite (Rsum_perm _ _ (Permutation_map (fun r => b_g r * reaction E (w_f (old_level (P_spec (lv_l lv) cr) (S_spec (lv_l lv) cr) comp r)) _) HP)).
  reflexivity.
Qed.

Lemma build_lvalue_perm I rho ls ls' lv : same_lines ls ls' -> bw_build_lvalue I rho ls = Ok lv ->
  exists lv', bw_build_lvalue I rho ls' = Ok lv' /\ same_lvalue lv lv'.
Proof.
  intros (Hl & HA & Hx & HQ & HP) H. unfold bw_build_lvalue in *. rewrite <- Hl, <- HA, <- Hx, <- HQ.
  destruct (Nat.ltb_spec 4 (ls_L ls)); [discriminate|].
  apply bind_Ok in H as (rs & Ers & H). injection H as <-.
  destruct (mapM_perm _ _ _ _ HP Ers) as (rs' & Ers' & HP'). rewrite Ers'. cbn [bind].
  eexists; split; [reflexivity|]. unfold same_lvalue; cbn. auto.
Qed.
Lemma build_lvalues_perm I rho lss lss' lvs : Forall2 same_lines lss lss' ->
  mapM (bw_build_lvalue I rho) lss = Ok lvs ->
  exists lvs', mapM (bw_build_lvalue I rho) lss' = Ok lvs' /\ Forall2 same_lvalue lvs lvs'.
Proof.
  intros F H. apply mapM_Ok in H. revert lss' F. induction H as [|ls lv lss lvs H1 H IH]; intros lss' F.
  - inversion F; subst. exists []. split; [reflexivity | constructor].
  - inversion F as [|? ls' ? lss1 Hs F1]; subst. destruct (build_lvalue_perm I rho ls ls' lv Hs H1) as (lv' & H2 & Hs').
    destruct (IH lss1 F1) as (lvs' & H3 & F2). exists (lv' :: lvs'). split; [|constructor; assumption].
    cbn. rewrite H2. cbn. rewrite H3. reflexivity.
Qed.

Lemma evaluate_perm C lvalue r I ch sc E lvs lvs' : 0 < C -> 0 < r -> positive ch -> positive sc -> E <> 0 ->
  (forall lv lv' cr sr comp, 0 < cr -> 0 < sr -> In lv lvs -> In lv' lvs' -> same_lvalue lv lv' ->
     lvalue lv (psiChi E) cr sr comp = lvalue lv' (psiChi E) cr sr comp) ->
  Forall2 same_lvalue lvs lvs' ->
  bw_evaluate C lvalue (mkSystem lvs r I ch sc) E = bw_evaluate C lvalue (mkSystem lvs' r I ch sc) E.
Proof.
  intros HC Hr Hch Hsc HE Hlv F. unfold bw_evaluate; cbn [s_channel s_scattering s_ratio s_lvalues].
  destruct (ch E) as [ra| | |] eqn:Era; cbn [bind]; try reflexivity.
  destruct (sc E) as [rs| | |] eqn:Ers; cbn [bind]; try reflexivity.
  assert (Hk : 0 < waveNumberOld C r E).
  { unfold waveNumberOld. apply Rmult_lt_0_compat; [nra|]. apply sqrt_lt_R0, Rabs_pos_lt, HE. }
  pose proof (Hch E ra Era) as P1. pose proof (Hsc E rs Ers) as P2.
  set (g := fun lv => do comp <- _; lvalue lv _ _ _ _).
  assert (Hm : mapM g lvs = mapM g lvs').
  { assert (Hlv' : forall lv lv', In lv lvs -> In lv' lvs' -> same_lvalue lv lv' -> g lv = g lv').
    { intros lv lv' Hin Hin' Hs. unfold g. pose proof Hs as (Hq & Hl & _).
      unfold competitiveWidth. rewrite <- Hq, <- Hl.
      set (o := match lv_q lv with Some _ => _ | None => _ end). destruct o as [comp| | |]; cbn [bind]; try reflexivity.
      apply Hlv; try assumption; apply Rmult_lt_0_compat; assumption. }
    clear -F Hlv'. induction F as [|lv lv' lvs lvs' H F IH]; [reflexivity|]. cbn [mapM].
    rewrite (Hlv' lv lv' (or_introl eq_refl) (or_introl eq_refl) H).
    rewrite IH; [reflexivity|]. intros; apply Hlv'; [right; assumption | right; assumption | assumption]. }
  rewrite Hm. reflexivity.
Qed.

Section Order.
Variables (C : R) (sort : list bw_resonance -> list bw_resonance) (f f' : bw_file) (ch sc : R -> outcome R).
Hypotheses (HC : 0 < C) (HA : forall ls, In ls (f_lstates f) -> 0 < ls_AWRI ls)
  (Hch : positive ch) (Hsc : positive sc) (Hff : reordered f f').

Lemma slbw_order s : bw_build C sort false f ch sc = Ok s ->
  exists s', bw_build C sort false f' ch sc = Ok s' /\
  forall E, E <> 0 -> slbw_evaluate C s E = slbw_evaluate C s' E.
Proof.
  destruct Hff as (HI & _ & F). unfold bw_build. rewrite <- HI.
  destruct (f_lstates f) as [|l1 lss] eqn:El; [discriminate|]. inversion F as [|? l1' ? lss' H1 F1 E1 E2]; subst.
  pose proof H1 as (_ & HA1 & _). rewrite <- HA1. intros H. apply bind_Ok in H as (lvs & Elv & H). injection H as <-.
  rewrite E2 in *. destruct (build_lvalues_perm _ _ _ _ _ F Elv) as (lvs' & Elv' & F2). rewrite Elv'. cbn [bind].
  eexists; split; [reflexivity|]. intros E HE. unfold slbw_evaluate. apply evaluate_perm; try assumption.
  - assert (0 < ls_AWRI l1) by (apply HA; left; reflexivity). apply Rdiv_lt_0_compat; lra.
  - intros. apply slbw_lvalue_perm; assumption.
Qed.

Hypothesis Hsort : sorts b_g sort.
Lemma mlbw_order s : bw_build C sort true f ch sc = Ok s ->
  exists s', bw_build C sort true f' ch sc = Ok s' /\
  forall E, E <> 0 -> mlbw_evaluate C s E = mlbw_evaluate C s' E.
Proof.
  destruct Hff as (HI & _ & F). unfold bw_build. rewrite <- HI.
  destruct (f_lstates f) as [|l1 lss] eqn:El; [discriminate|]. inversion F as [|? l1' ? lss' H1 F1 E1 E2]; subst.
  pose proof H1 as (_ & HA1 & _). rewrite <- HA1. intros H. apply bind_Ok in H as (lvs & Elv & H). injection H as <-.
  rewrite E2 in *. destruct (build_lvalues_perm _ _ _ _ _ F Elv) as (lvs' & Elv' & F2). rewrite Elv'. cbn [bind].
  eexists; split; [reflexivity|]. intros E HE. unfold mlbw_evaluate; cbn [s_spin]. apply evaluate_perm; try assumption.
  - assert (0 < ls_AWRI l1) by (apply HA; left; reflexivity). apply Rdiv_lt_0_compat; lra.
  - intros lv lv' cr sr comp Hc Hs Hin Hin' Hsame. unfold order in Hin, Hin'.
    apply in_map_iff in Hin as (w & <- & _). apply in_map_iff in Hin' as (w' & <- & _).
    apply mlbw_lvalue_perm; try assumption; cbn; apply Hsort.
  - clear -F2 Hsort. induction F2 as [|lv lv' lvs lvs' (Hq & Hl & Hg & H4 & HP) F IH]; cbn; constructor; [|exact IH].
    repeat split; cbn; auto.
    eapply perm_trans; [apply Permutation_sym, (proj1 (Hsort _))|]. eapply perm_trans; [exact HP | apply (proj1 (Hsort _))].
Qed.
End Order.

(** * The older interface succeeds with fixed radii *)
Section Total.
Variables (C : R) (sort : list bw_resonance -> list bw_resonance) (f : bw_file) (first : bw_lstate)
  (rest : list bw_lstate) (ra rs : R).
Hypotheses (HC : 0 < C) (Hf : f_lstates f = first :: rest) (HA : 0 < ls_AWRI first)
  (HI : is_spin (f_SPI f)) (Ha : 0 < ra) (Hs : 0 < rs).
Let ch (_ : R) : outcome R := Ok ra.
Let sc (_ : R) : outcome R := Ok rs.
Let A := ls_AWRI first.
Let k := k_old C A.
Let a (e : R) := ra.

Lemma positive_fixed x : 0 < x -> positive (fun _ => Ok x).
Proof. intros H e y E. injection E as <-. exact H. Qed.
Lemma even_fixed x ls : even_radius (fun _ => Ok x) ls.
Proof. intros _ y _. reflexivity. Qed.

Lemma ps_total l e : e <> 0 -> (l <= 4)%nat ->
  penetrationShift (Z.of_nat l) (k e * ra) = Ok (P_at k a l e, S_at k a l e) /\ P_at k a l e <> 0.
Proof.
  intros He Hl. assert (Hp : 0 < k e * ra) by (apply Rmult_lt_0_compat; [apply k_old_pos|]; assumption).
  split; [apply penetrationShift_ok; assumption|].
  unfold P_at, P_spec. apply Rgt_not_eq. apply Rdiv_lt_0_compat; [exact Hp | apply amplitude2_pos].
Qed.
Lemma wave e : neutronWaveNumber C A e = k e.
Proof. unfold neutronWaveNumber, k, k_old. fold A in HA. field. lra. Qed.
Lemma wave_abs e : k (Rabs e) = k e.
Proof. unfold k, k_old. rewrite Rabs_Rabsolu. reflexivity. Qed.

Let rhoB e := omap (fun a => neutronWaveNumber C A e * a) (ch e).
Lemma rhoB_value e : rhoB e = Ok (k e * ra).
Proof. unfold rhoB, ch, omap. cbn. rewrite wave. reflexivity. Qed.

Definition usable (ls : bw_lstate) : Prop := (ls_L ls <= 4)%nat /\
  forall x, In x (ls_lines ls) -> ln_ER x <> 0 /\ (ls_LRX ls = true -> ln_ER x + q_old ls <> 0).

Lemma build_resonance_total ls x : usable ls -> In x (ls_lines ls) ->
  bw_build_resonance (f_SPI f) (ls_L ls) rhoB (if ls_LRX ls then Some (q_old ls) else None) x =
  Ok (makeBW (ln_ER x) (ln_GN x) (ln_GG x) (ln_GF x)
        (if ls_LRX ls then Some (ln_GX x / P_at k a (ls_L ls) (ln_ER x + q_old ls)) else Some 0)
        (P_at k a (ls_L ls) (ln_ER x)) (S_at k a (ls_L ls) (ln_ER x)) (g_old (f_SPI f) (Z.abs (ln_AJ x)))).
Proof.
  intros [Hl H] Hx. destruct (H x Hx) as [H1 H2]. unfold bw_build_resonance. destruct (ls_LRX ls).
  - rewrite !rhoB_value. cbn [bind]. rewrite wave_abs.
    destruct (ps_total (ls_L ls) _ (H2 eq_refl) Hl) as [-> N2]. cbn [bind fst snd].
    destruct (ps_total (ls_L ls) _ H1 Hl) as [-> N1]. cbn [bind fst snd].
    unfold fdiv. destruct (Req_EM_T _ 0); [contradiction | reflexivity].
  - cbn [bind]. rewrite rhoB_value. cbn [bind]. destruct (ps_total (ls_L ls) _ H1 Hl) as [-> N1]. reflexivity.
Qed.

Lemma build_lvalue_total ls : usable ls -> exists lv, bw_build_lvalue (f_SPI f) rhoB ls = Ok lv.
Proof.
  intros Hu. pose proof Hu as [Hl _]. unfold bw_build_lvalue. destruct (Nat.ltb_spec 4 (ls_L ls)); [lia|].
  change (Some (ls_QX ls * (ls_AWRI ls / (ls_AWRI ls + 1)))) with (Some (q_old ls)).
  assert (Hrs : exists rs0, mapM (bw_build_resonance (f_SPI f) (ls_L ls) rhoB (if ls_LRX ls then Some (q_old ls) else None)) (ls_lines ls) = Ok rs0).
  { assert (G : forall x, In x (ls_lines ls) -> exists r, bw_build_resonance (f_SPI f) (ls_L ls) rhoB (if ls_LRX ls then Some (q_old ls) else None) x = Ok r)
      by (intros x Hx; eexists; apply build_resonance_total; assumption).
    clear -G. induction (ls_lines ls) as [|x xs IH]; [eexists; reflexivity|].
    destruct (G x (or_introl eq_refl)) as (r & Hr). destruct IH as (rs0 & Hrs0); [intros y Hy; apply G; right; exact Hy|].
    exists (r :: rs0). cbn. rewrite Hr. cbn. rewrite Hrs0. reflexivity. }
  destruct Hrs as (rs0 & ->). eexists; reflexivity.
Qed.

Lemma build_total ordered : (forall ls, In ls (f_lstates f) -> usable ls) ->
  exists s, bw_build C sort ordered f ch sc = Ok s.
Proof.
  intros Hu. unfold bw_build. rewrite Hf.
  assert (H : exists lvs, mapM (bw_build_lvalue (f_SPI f) rhoB) (f_lstates f) = Ok lvs).
  { assert (G : forall ls, In ls (f_lstates f) -> exists lv, bw_build_lvalue (f_SPI f) rhoB ls = Ok lv)
      by (intros; apply build_lvalue_total, Hu; assumption).
    clear -G. induction (f_lstates f) as [|x xs IH]; [eexists; reflexivity|].
    destruct (G x (or_introl eq_refl)) as (r & Hr). destruct IH as (rs0 & Hrs); [intros y Hy; apply G; right; exact Hy|].
    exists (r :: rs0). cbn. rewrite Hr. cbn. rewrite Hrs. reflexivity. }
  destruct H as (lvs & H). rewrite Hf in H. unfold rhoB, A in H. rewrite H. eexists; reflexivity.
Qed.

Variable E : R.
Hypothesis HE : E <> 0.

Lemma finite_total ls x comp :
  usable ls -> In x (ls_lines ls) -> w_T (level_of k a E q_old ls x) <> 0 ->
  competitiveWidth (makeLvalue [] (ls_L ls) (if ls_LRX ls then Some (q_old ls) else None) (f_SPI f)) E
     (fun e => omap (fun a => k e * a) (ch e)) = Ok comp ->
  forall r, bw_build_resonance (f_SPI f) (ls_L ls) rhoB (if ls_LRX ls then Some (q_old ls) else None) x = Ok r ->
  finite (P_at k a (ls_L ls) E) (S_at k a (ls_L ls) E) comp r = true.
Proof.
  intros Hu Hx HT Hcomp r Hr. pose proof Hu as [Hl H]. destruct (H x Hx) as [H1 H2].
  rewrite build_resonance_total in Hr by assumption. injection Hr as <-.
  destruct (ps_total (ls_L ls) _ H1 Hl) as [_ N1].
  unfold finite. cbn [makeBW b_inverse].
  assert (Hi : fdiv 1 (P_at k a (ls_L ls) (ln_ER x)) = Some (1 / P_at k a (ls_L ls) (ln_ER x))).
  { unfold fdiv. destruct (Req_EM_T _ 0); [contradiction | reflexivity]. }
  unfold competitiveWidth in Hcomp. cbn [makeLvalue lv_q lv_l] in Hcomp.
  destruct (ls_LRX ls) eqn:Elrx.
  - cbn [omap bind ch] in Hcomp. apply bind_Ok in Hcomp as (ps & Eps & Hcomp). injection Hcomp as <-.
    destruct (ps_total (ls_L ls) _ (H2 eq_refl) Hl) as [_ N2].
    cbn [b_competitive makeBW]. rewrite Hi. cbn [has andb]. apply negb_true_iff, Reqb_neq.
    replace (w_T _) with (w_T (level_of k a E q_old ls x)); [exact HT|].
    unfold level_of, old_level. rewrite Elrx. cbn [w_T makeBW b_neutron b_inverse b_capture b_fission b_competitive].
    rewrite Hi. cbn [vopt].
    assert (Hp : fst ps = P_at k a (ls_L ls) (E + q_old ls)).
    { apply (shift_P _ _ _) in Eps; [exact Eps|]. apply Rmult_le_pos; [apply k_old_nonneg; assumption | lra]. }
    rewrite Hp. field; auto.
  - injection Hcomp as <-. rewrite Hi. cbn [has andb]. apply negb_true_iff, Reqb_neq.
    replace (w_T _) with (w_T (level_of k a E q_old ls x)); [exact HT|].
    unfold level_of, old_level. rewrite Elrx. cbn [w_T makeBW b_neutron b_inverse b_capture b_fission b_competitive].
    rewrite Hi. cbn [vopt]. field; auto.
Qed.

Lemma comp_total lv : (lv_l lv <= 4)%nat ->
  (forall q, lv_q lv = Some q -> E + q <> 0) ->
  exists comp, competitiveWidth lv E (fun e => omap (fun a => k e * a) (ch e)) = Ok comp.
Proof.
  intros Hl Hq. unfold competitiveWidth. destruct (lv_q lv) as [q|]; [|eexists; reflexivity].
  cbn [omap bind ch]. destruct (ps_total (lv_l lv) (E + q)) as [-> _]; [apply Hq; reflexivity | exact Hl |].
  eexists; reflexivity.
Qed.

Lemma lvalue_total ls lv comp : usable ls -> bw_build_lvalue (f_SPI f) rhoB ls = Ok lv ->
  competitiveWidth lv E (fun e => omap (fun a => k e * a) (ch e)) = Ok comp ->
  (forall x, In x (ls_lines ls) -> w_T (level_of k a E q_old ls x) <> 0) ->
  lv_l lv = ls_L ls /\
  forallb (finite (P_at k a (ls_L ls) E) (S_at k a (ls_L ls) E) comp) (lv_resonances lv) = true.
Proof.
  intros Hu Hb Hc HT. unfold bw_build_lvalue in Hb. destruct (Nat.ltb_spec 4 (ls_L ls)); [discriminate|].
  change (Some (ls_QX ls * (ls_AWRI ls / (ls_AWRI ls + 1)))) with (Some (q_old ls)) in Hb.
  apply bind_Ok in Hb as (rs0 & Ers & Hb). injection Hb as <-. split; [reflexivity|]. cbn [makeLvalue lv_resonances].
  apply mapM_Ok in Ers. apply forallb_forall. intros r Hr.
  assert (G : exists x, In x (ls_lines ls) /\ bw_build_resonance (f_SPI f) (ls_L ls) rhoB (if ls_LRX ls then Some (q_old ls) else None) x = Ok r).
  { clear -Ers Hr. induction Ers as [|x y xs ys H0 F IH]; [destruct Hr|]. destruct Hr as [<-|Hr].
    - exists x. split; [left; reflexivity | exact H0].
    - destruct (IH Hr) as (z & Hz & H1). exists z. split; [right; exact Hz | exact H1]. }
  destruct G as (x & Hx & Hr'). apply (finite_total ls x comp); try assumption; apply HT; exact Hx.
Qed.

(** Levels whose total width does not vanish; the competitive channel is not exactly at its threshold *)
Definition evaluable : Prop := forall ls, In ls (f_lstates f) -> usable ls /\
  (ls_LRX ls = true -> E + q_old ls <> 0) /\
  forall x, In x (ls_lines ls) -> w_T (level_of k a E q_old ls x) <> 0.

Lemma evaluate_total (lvalue : bw_lvalue -> (R -> R -> R * R) -> R -> R -> (bw_resonance -> option R) -> outcome (option triple))
    (o : bw_lvalue -> bw_lvalue) lvs : evaluable ->
  mapM (bw_build_lvalue (f_SPI f) rhoB) (f_lstates f) = Ok lvs ->
  (forall ls lv comp, In ls (f_lstates f) -> bw_build_lvalue (f_SPI f) rhoB ls = Ok lv ->
     lv_l lv = ls_L ls -> (ls_L ls <= 4)%nat ->
     lv_q (o lv) = lv_q lv /\ lv_l (o lv) = lv_l lv /\
     (forallb (finite (P_at k a (ls_L ls) E) (S_at k a (ls_L ls) E) comp) (lv_resonances lv) = true ->
      exists t, lvalue (o lv) (psiChi E) (ra * k E) (rs * k E) comp = Ok (Some t))) ->
  exists t, bw_evaluate C lvalue (mkSystem (map o lvs) (A / (A + 1)) (f_SPI f) ch sc) E = Ok (Some t).
Proof.
  intros Hev Elvs Hlv. unfold bw_evaluate; cbn [s_channel s_scattering s_ratio s_lvalues ch sc bind].
  change (waveNumberOld C (A / (A + 1))) with k.
  set (g := fun lv => do comp <- competitiveWidth lv E _; _).
  assert (H : exists ts, mapM g (map o lvs) = Ok (map Some ts)).
  { apply mapM_Ok in Elvs.
    assert (G : forall ls lv, In ls (f_lstates f) -> bw_build_lvalue (f_SPI f) rhoB ls = Ok lv -> exists t, g (o lv) = Ok (Some t)).
    { intros ls lv Hin Hb. destruct (Hev ls Hin) as (Hu & Hq & HT).
      assert (Hl : lv_l lv = ls_L ls /\ lv_q lv = if ls_LRX ls then Some (q_old ls) else None).
      { unfold bw_build_lvalue in Hb. destruct (Nat.ltb_spec 4 (ls_L ls)); [discriminate|].
        apply bind_Ok in Hb as (? & _ & Hb). injection Hb as <-. split; reflexivity. }
      destruct Hl as [Hl Hlq]. pose proof Hu as [H4 _].
      destruct (comp_total lv) as (comp & Ecomp).
      { rewrite Hl; exact H4. }
      { intros q0 Eq. rewrite Hlq in Eq. destruct (ls_LRX ls); [injection Eq as <-; apply Hq; reflexivity | discriminate]. }
      destruct (Hlv ls lv comp Hin Hb Hl H4) as (H1 & H2 & H3).
      destruct (lvalue_total ls lv comp Hu Hb Ecomp HT) as [_ Hfin]. destruct (H3 Hfin) as (t & Ht).
      exists t. unfold g. replace (competitiveWidth (o lv)) with (competitiveWidth lv).
      - change (fun e => omap (fun a0 => k e * a0) (Ok ra)) with (fun e => omap (fun a => k e * a) (ch e)).
        rewrite Ecomp. cbn [bind]. exact Ht.
      - unfold competitiveWidth. rewrite H1, H2. reflexivity. }
    clear -Elvs G. induction Elvs as [|ls lv lss lvs H0 F IH]; [exists []; reflexivity|].
    destruct (G ls lv (or_introl eq_refl) H0) as (t & Ht).
    destruct IH as (ts & Hts); [intros l0 v0 Hin; apply G; right; exact Hin|].
    exists (t :: ts). cbn [map mapM]. rewrite Ht. cbn [bind]. rewrite Hts. reflexivity. }
  destruct H as (ts & ->). cbn [bind].
  assert (Hk : 0 < k E) by (apply k_old_pos; assumption).
  unfold fdiv. destruct (Req_EM_T (k E * k E) 0); [nra|].
  rewrite (proj2 (all_finite_Some (map Some ts) ts) eq_refl). eexists; reflexivity.
Qed.

Lemma slbw_total s : evaluable -> bw_build C sort false f ch sc = Ok s ->
  exists t, slbw_evaluate C s E = Ok (Some t).
Proof.
  intros Hev Hb. unfold bw_build in Hb. rewrite Hf in Hb. apply bind_Ok in Hb as (lvs & Elvs & Hb).
  injection Hb as <-. rewrite <- (map_id lvs). rewrite <- Hf in Elvs.
  apply (evaluate_total slbw_lvalue (fun lv => lv)); [exact Hev | exact Elvs |].
  intros ls lv comp Hin Hlv Hl H4. split; [reflexivity|]. split; [reflexivity|]. intros Hfin.
  assert (Pk : 0 < k E) by (apply k_old_pos; assumption).
  rewrite slbw_lvalue_value; [|apply Rmult_lt_0_compat; assumption|apply Rmult_lt_0_compat; assumption|lia].
  cbn zeta. rewrite Hl. rewrite (Rmult_comm ra). unfold P_at, S_at, a in Hfin. rewrite Hfin.
  eexists; reflexivity.
Qed.

Lemma mlbw_total s : sorts b_g sort -> evaluable -> bw_build C sort true f ch sc = Ok s ->
  exists t, mlbw_evaluate C s E = Ok (Some t).
Proof.
  intros Hsort Hev Hb. unfold bw_build in Hb. rewrite Hf in Hb. apply bind_Ok in Hb as (lvs & Elvs & Hb).
  injection Hb as <-. rewrite <- Hf in Elvs. unfold mlbw_evaluate; cbn [s_spin].
  apply (evaluate_total (mlbw_lvalue (f_SPI f)) (fun lv => mkLvalue (sort (lv_resonances lv)) (lv_q lv) (lv_l lv) (lv_gsum lv)));
    [exact Hev | exact Elvs |].
  intros ls lv comp Hin Hlv Hl H4. split; [reflexivity|]. split; [reflexivity|]. intros Hfin.
  assert (Pk : 0 < k E) by (apply k_old_pos; assumption). destruct (Hsort (lv_resonances lv)) as [HP HS].
  rewrite mlbw_lvalue_value; cbn [lv_l lv_resonances lv_gsum lv_q];
    [|apply Rmult_lt_0_compat; assumption|apply Rmult_lt_0_compat; assumption|lia|exact HS].
  rewrite Hl. rewrite (Rmult_comm ra). unfold P_at, S_at, a in Hfin.
  rewrite <- (forallb_perm _ _ _ HP), Hfin.
  destruct (D_domain (f_SPI f) (Z.of_nat (ls_L ls))) as (d & ->); [exact HI | lia|]. eexists; reflexivity.
Qed.
End Total.
