(** Consequences for whole files: radii, conservation, signs and the order of the lines. *)
From Coq Require Import String List ZArith Reals Lra Lia Permutation Bool Psatz FunctionalExtensionality.
From Verif Require Import Outcome QuantumModel QuantumSpec SpinFactorModel SpinFactorProofs HardSphereModel
  HardSphereSpec HardSphereProofs KinematicsModel Cplx RMatrixModel RMatrixSpec ChannelModel BreitWignerModel
  BreitWignerSpec ListFacts BreitWignerProofs BreitWignerSystemProofs KMatrixModel KMatrixSpec KMatrixProofs
  KMatrixMore ReichMooreModel ReichMooreSpec ReichMooreProofs ReichMooreFile.
Import ListNotations.
Open Scope R_scope.

(** * The radii *)
Definition values_of (r : rm_lstate -> R -> outcome R) (ls : rm_lstate) (e : R) : R := oval (r ls e).

Lemma radii_build C sort f first others NRO NAPS table a ahat s :
  rf_lstates f = first :: others -> endf_radii f (rs_AWRI first) NRO NAPS table a ahat ->
  exists tag ch sc, a = (fun ls => own (own_channel tag) ls ch) /\ ahat = (fun ls => own (own_scattering tag) ls sc) /\
    (rm_apply C sort f NRO NAPS table = Ok s <-> rm_build C sort f tag ch sc (own_channel tag) = Ok s).
Proof.
  intros Hf H.
  assert (Hor : (fun (ls : rm_lstate) (_ : R) => Ok (or_ap f ls)) = (fun ls => own true ls (fun _ => Ok (rf_AP f)))).
  { extensionality ls. extensionality e. unfold own, given, or_ap. destruct (Req_EM_T (rs_APL ls) 0); reflexivity. }
  assert (Hno : forall r : R -> outcome R, (fun _ : rm_lstate => r) = (fun ls => own false ls r)).
  { intros r. extensionality ls. extensionality e. unfold own. rewrite andb_false_r. reflexivity. }
  assert (Hok : forall o : outcome rm_system, match o with
    | Throw _ => Throw (RuntimeError "The resonance range does not appear to contain Reich-Moore parameters")
    | o => o end = Ok s <-> o = Ok s) by (intros []; split; intros Q; try discriminate; assumption).
  destruct H as [t|t|t|t|t].
  - exists ScatteringTag, (fun _ => Ok (channelRadius (rs_AWRI first))), (fun _ => Ok (rf_AP f)).
    split; [apply (Hno (fun _ => Ok (channelRadius (rs_AWRI first))))|]. split; [exact Hor|].
    unfold rm_apply. cbn [Z.eqb]. rewrite Hok, Hf. reflexivity.
  - exists Both, (fun _ => Ok (rf_AP f)), (fun _ => Ok (rf_AP f)).
    split; [exact Hor|]. split; [exact Hor|]. unfold rm_apply. cbn [Z.eqb]. rewrite Hok. reflexivity.
  - exists Neither, (fun _ => Ok (channelRadius (rs_AWRI first))), t.
    split; [apply (Hno (fun _ => Ok (channelRadius (rs_AWRI first))))|]. split; [apply Hno|].
    unfold rm_apply. cbn [Z.eqb]. rewrite Hok, Hf. reflexivity.
  - exists Neither, t, t. split; [apply Hno|]. split; [apply Hno|].
    unfold rm_apply. cbn [Z.eqb Pos.eqb]. rewrite Hok. reflexivity.
  - exists ChannelTag, (fun _ => Ok (rf_AP f)), t. split; [exact Hor|]. split; [apply Hno|].
    unfold rm_apply. cbn [Z.eqb Pos.eqb]. rewrite Hok. reflexivity.
Qed.

(** What is asked of a file: the first l value gives the mass ratio, the target spin is one,
    the radii are positive and no capture width is negative. *)
Record rm_input (C : R) (f : rm_file) (A : R) (NRO : bool) (NAPS : Z) (table : option (R -> outcome R))
    (a ahat : rm_lstate -> R -> outcome R) : Prop := mkInput
  { ri_C : 0 < C;
    ri_first : exists first others, rf_lstates f = first :: others /\ rs_AWRI first = A;
    ri_A : 0 < A;
    ri_spin : is_spin (rf_SPI f);
    ri_radii : endf_radii f A NRO NAPS table a ahat;
    ri_channel : forall ls, In ls (rf_lstates f) -> positive (a ls);
    ri_scattering : forall ls, In ls (rf_lstates f) -> positive (ahat ls);
    ri_capture : forall ls x, In ls (rf_lstates f) -> In x (rs_lines ls) -> 0 <= rl_GG x }.

Section Theory.
Variables (C : R) (sort : list rm_resonance -> list rm_resonance) (f : rm_file) (A : R) (NRO : bool) (NAPS : Z)
  (table : option (R -> outcome R)) (a ahat : rm_lstate -> R -> outcome R) (E : R) (s : rm_system) (e c fi : R).
Hypotheses (Hin : rm_input C f A NRO NAPS table a ahat) (Hsort : sorts rm_flagged sort)
  (Hs : rm_apply C sort f NRO NAPS table = Ok s) (He : rm_evaluate C s E = Ok (Some (e, c, fi))).
Let k := k_old C A.
Let I := rf_SPI f.
Let av := values_of a.

Lemma apply_values :
  E <> 0 /\ (forall ls, In ls (rf_lstates f) -> 0 < av ls E /\ 0 < values_of ahat ls E /\ (rs_L ls <= 4)%nat /\
    forall x, In x (rs_lines ls) -> 0 <= rl_GN x /\ 0 < P_rm k av ls (Rabs (rl_ER x)) /\ (rl_ER x <> E \/ rl_GG x <> 0)) /\
  forall phi, (forall ls, In ls (rf_lstates f) -> is_phase (rs_L ls) (k E * values_of ahat ls E) (phi ls)) ->
  e = RM_elastic k E I av phi (rf_lstates f) /\ c = RM_capture k E I av phi (rf_lstates f) /\
  fi = RM_fission k E I av phi (rf_lstates f).
Proof.
  destruct Hin as [HC (first & others & Hf & HA') HA HI Hr Hch Hsc HG]. unfold k. subst A.
  destruct (radii_build C sort f first others NRO NAPS table a ahat s Hf Hr) as (tag & ch & sc & -> & -> & Hb).
  apply Hb in Hs.
  exact (rm_file_values C sort f first others tag ch sc E HC Hf HA HI Hsort Hch Hsc HG s e c fi Hs He).
Qed.

Lemma phases_exist : exists phi, forall ls, In ls (rf_lstates f) ->
  is_phase (rs_L ls) (k E * values_of ahat ls E) (phi ls).
Proof.
  destruct apply_values as (HE & H & _).
  exists (fun ls => match phaseShift (Z.of_nat (rs_L ls)) (k E * values_of ahat ls E) with Ok p => p | _ => 0 end).
  intros ls Hls. destruct (H ls Hls) as (_ & P2 & H4 & _).
  destruct (phaseShift_ok (rs_L ls) (k E * values_of ahat ls E)) as (p & -> & Hp); [|exact H4|exact Hp].
  apply Rmult_lt_0_compat; [|exact P2]. destruct Hin. apply k_old_pos; assumption.
Qed.

Lemma P_positive ls : In ls (rf_lstates f) -> 0 < P_rm k av ls E.
Proof.
  intros Hls. destruct apply_values as (HE & H & _). destruct (H ls Hls) as (P1 & _).
  apply P_spec_pos, Rmult_lt_0_compat; [|exact P1]. destruct Hin. apply k_old_pos; assumption.
Qed.

Lemma g_nonneg j : 0 <= g_neutron I (Z.abs j).
Proof. apply g_neutron_nonneg; [apply Hin | unfold is_spin; lia]. Qed.

Lemma barns_pos : 0 < barns k E.
Proof.
  destruct apply_values as (HE & _). unfold barns, pi_value. destruct Hin.
  assert (0 < k E) by (apply k_old_pos; assumption). apply Rdiv_lt_0_compat; [lra | nra].
Qed.

Lemma over_J_nonneg ls F : (forall tb, 0 <= F tb) -> 0 <= over_J k I av ls F.
Proof.
  intros HF. unfold over_J. apply Rsum_map_nonneg. intros j _.
  apply Rmult_le_pos; [apply g_nonneg | apply HF].
Qed.

Lemma rm_capture_fission : 0 <= c /\ 0 <= fi.
Proof.
  destruct phases_exist as (phi & Hphi). destruct apply_values as (_ & _ & Hv).
  destruct (Hv phi Hphi) as (_ & Ec & Ef). pose proof barns_pos as Hb. rewrite Ec, Ef. split; apply Rmult_le_pos; try lra;
    apply Rsum_map_nonneg; intros ls Hls; apply over_J_nonneg; intros tb.
  - apply J_capture_ge0; [apply P_positive; exact Hls|]. apply RL3_exists, P_positive, Hls.
  - apply J_fission_ge0.
Qed.

Lemma rm_elastic_nonneg : (forall ls, In ls (rf_lstates f) -> accounted I ls <= 2 * INR (rs_L ls) + 1) -> 0 <= e.
Proof.
  intros Hacc. destruct phases_exist as (phi & Hphi). destruct apply_values as (_ & _ & Hv).
  destruct (Hv phi Hphi) as (Ee & _ & _). rewrite Ee. pose proof barns_pos as Hb. apply Rmult_le_pos; [lra|].
  apply Rsum_map_nonneg. intros ls Hls. apply Rplus_le_le_0_compat.
  - apply over_J_nonneg. intros tb. apply J_elastic_ge0.
  - unfold rest. apply Rmult_le_pos; [specialize (Hacc ls Hls); lra|]. unfold scattered, norm2.
    set (z := cx_add _ _). pose proof (Rle_0_sqr (re z)). pose proof (Rle_0_sqr (im z)). unfold Rsqr in *. lra.
Qed.
End Theory.

(** * The optical theorem *)
Lemma scattered_optical phi : scattered (cis (- (2 * phi))) = 2 * (1 - cos (2 * phi)).
Proof. rewrite scattered_hard, cos_2a_sin. ring. Qed.

Lemma over_J_ext k I a ls F G : (forall tb, F tb = G tb) -> over_J k I a ls F = over_J k I a ls G.
Proof. intros H. unfold over_J. apply Rsum_ext. intros j _. rewrite H. reflexivity. Qed.
Lemma over_J_plus k I a ls F G : over_J k I a ls (fun tb => F tb + G tb) = over_J k I a ls F + over_J k I a ls G.
Proof. unfold over_J. rewrite <- Rsum_plus. apply Rsum_ext. intros j _. ring. Qed.

Lemma RM_sum k E I a phi lss :
  RM_elastic k E I a phi lss + RM_capture k E I a phi lss + RM_fission k E I a phi lss = RM_total k E I a phi lss.
Proof.
  unfold RM_elastic, RM_capture, RM_fission, RM_total. rewrite <- !Rmult_plus_distr_l, <- !Rsum_plus. f_equal.
  apply Rsum_ext. intros ls _. unfold rest. rewrite scattered_optical.
  rewrite (over_J_ext k I a ls (J_total E (P_rm k a ls E) (phi ls)) (fun tb =>
    J_elastic E (P_rm k a ls E) (phi ls) tb + J_capture E (P_rm k a ls E) (phi ls) tb
    + J_fission E (P_rm k a ls E) (phi ls) tb)).
  2:{ intros tb. pose proof (J_total_sum E (P_rm k a ls E) (phi ls) tb) as H. exact H. }
  rewrite !over_J_plus. ring.
Qed.

(** * The order of the lines *)
Definition reordered_state (x y : rm_lstate) : Prop :=
  rs_L x = rs_L y /\ rs_AWRI x = rs_AWRI y /\ rs_APL x = rs_APL y /\ Permutation (rs_lines x) (rs_lines y).
Definition reordered_rm (f f' : rm_file) : Prop :=
  rf_SPI f = rf_SPI f' /\ rf_AP f = rf_AP f' /\ Forall2 reordered_state (rf_lstates f) (rf_lstates f').

Lemma lines_of_perm j xs ys : Permutation xs ys -> Permutation (lines_of j xs) (lines_of j ys).
Proof.
  unfold lines_of. induction 1; cbn; [constructor | | | eapply perm_trans; eauto].
  - destruct (_ =? _)%Z; [constructor|]; assumption.
  - destruct (_ =? _)%Z, (_ =? _)%Z; try constructor; apply Permutation_refl.
Qed.

Lemma over_J_reordered k I a a' x y F F' : reordered_state x y -> (forall e, a x e = a' y e) ->
  (forall l m, Permutation l m -> F l = F' m) -> over_J k I a x F = over_J k I a' y F'.
Proof.
  intros (HL & _ & _ & HP) Ha HF. unfold over_J.
  assert (Hr : forall z, reduced_of k a x z = reduced_of k a' y z).
  { intros z. unfold reduced_of, P_rm. rewrite HL, Ha. reflexivity. }
  rewrite (Rsum_perm _ (map (fun j => g_neutron I (Z.abs j) * F (map (reduced_of k a x) (lines_of j (rs_lines x))))
    (signed_J (rs_lines y)))).
  2:{ apply Permutation_map, nodup_perm, Permutation_map, HP. }
  apply Rsum_ext. intros j _. f_equal. apply HF.
  rewrite (map_ext _ _ Hr). apply Permutation_map, lines_of_perm, HP.
Qed.
Lemma accounted_reordered I x y : reordered_state x y -> accounted I x = accounted I y.
Proof.
  intros (_ & _ & _ & HP). unfold accounted. apply Rsum_perm, Permutation_map, nodup_perm, Permutation_map, HP.
Qed.

Lemma radii_own f A NRO NAPS table a ahat x y : endf_radii f A NRO NAPS table a ahat -> rs_APL x = rs_APL y ->
  a x = a y /\ ahat x = ahat y.
Proof. intros H HA. destruct H; unfold or_ap; rewrite ?HA; split; reflexivity. Qed.

Lemma radii_file f f' A NRO NAPS table a ahat : endf_radii f A NRO NAPS table a ahat -> rf_AP f = rf_AP f' ->
  endf_radii f' A NRO NAPS table a ahat.
Proof.
  intros H HA. assert (Hor : or_ap f = or_ap f') by (extensionality ls; unfold or_ap; rewrite HA; reflexivity).
  destruct H; rewrite ?Hor; constructor.
Qed.

Lemma Forall2_In_r {X Y} (P : X -> Y -> Prop) xs ys y : Forall2 P xs ys -> In y ys -> exists x, In x xs /\ P x y.
Proof.
  induction 1 as [|x y0 xs ys H F IH]; intros []; [subst; exists x; split; [left; reflexivity | exact H]|].
  destruct IH as (z & Hz & Hp); [assumption|]. exists z; split; [right; exact Hz | exact Hp].
Qed.

Lemma reordered_input C f f' A NRO NAPS table a ahat :
  rm_input C f A NRO NAPS table a ahat -> reordered_rm f f' -> rm_input C f' A NRO NAPS table a ahat.
Proof.
  intros [HC (first & others & Hf & HA') HA HI Hr Hch Hsc HG] (HS & HP & HF).
  assert (Hback : forall y, In y (rf_lstates f') -> exists x, In x (rf_lstates f) /\ reordered_state x y).
  { intros y Hy. apply (Forall2_In_r _ _ _ _ HF Hy). }
  constructor; try assumption.
  - rewrite Hf in HF. inversion HF as [|? y ? ys (_ & Hw & _) F2 E1 E2]. exists y, ys. split; [reflexivity | congruence].
  - rewrite <- HS. exact HI.
  - eapply radii_file; eassumption.
  - intros y Hy. destruct (Hback y Hy) as (x & Hx & (_ & _ & HAPL & _)).
    destruct (radii_own _ _ _ _ _ _ _ x y Hr HAPL) as [<- _]. apply Hch, Hx.
  - intros y Hy. destruct (Hback y Hy) as (x & Hx & (_ & _ & HAPL & _)).
    destruct (radii_own _ _ _ _ _ _ _ x y Hr HAPL) as [_ <-]. apply Hsc, Hx.
  - intros y z Hy Hz. destruct (Hback y Hy) as (x & Hx & (_ & _ & _ & Hp)).
    apply (HG x z Hx). apply (Permutation_in z (Permutation_sym Hp)), Hz.
Qed.

Lemma reordered_sym f f' : reordered_rm f f' -> reordered_rm f' f.
Proof.
  intros (H1 & H2 & H3). split; [auto|]. split; [auto|]. induction H3 as [|x y xs ys (A1 & A2 & A3 & A4) F IH]; constructor.
  - repeat split; auto using Permutation_sym.
  - exact IH.
Qed.

(** The specification does not see the order. *)
Lemma RM_reordered k E I a phi phi' f f' : Forall2 reordered_state f f' ->
  (forall x y, reordered_state x y -> forall e, a x e = a y e) ->
  Forall2 (fun x y => phi x = phi' y) f f' ->
  RM_elastic k E I a phi f = RM_elastic k E I a phi' f' /\ RM_capture k E I a phi f = RM_capture k E I a phi' f' /\
  RM_fission k E I a phi f = RM_fission k E I a phi' f'.
Proof.
  intros HF Ha Hphi.
  assert (HP : forall x y, reordered_state x y -> P_rm k a x E = P_rm k a y E).
  { intros x y Hxy. unfold P_rm. rewrite (Ha x y Hxy). destruct Hxy as (-> & _). reflexivity. }
  assert (G : Forall2 (fun x y => reordered_state x y /\ phi x = phi' y) f f').
  { clear -HF Hphi. induction HF as [|x y xs ys H F IH]; inversion Hphi; subst; constructor; auto. }
  unfold RM_elastic, RM_capture, RM_fission. repeat split; f_equal.
  - apply Rsum_Forall2 with (P := fun x y => reordered_state x y /\ phi x = phi' y); [exact G|].
    intros x y [Hxy Hp]. f_equal.
    + apply (over_J_reordered k I a a x y _ _ Hxy (Ha x y Hxy)). intros l m Hlm. rewrite (HP x y Hxy), Hp.
      apply (J_perms E (P_rm k a y E) (phi' y) Hlm).
    + unfold rest. rewrite (accounted_reordered I x y Hxy), Hp. destruct Hxy as (-> & _). reflexivity.
  - apply Rsum_Forall2 with (P := fun x y => reordered_state x y /\ phi x = phi' y); [exact G|].
    intros x y [Hxy Hp]. apply (over_J_reordered k I a a x y _ _ Hxy (Ha x y Hxy)). intros l m Hlm. rewrite (HP x y Hxy), Hp.
    apply (J_perms E (P_rm k a y E) (phi' y) Hlm).
  - apply Rsum_Forall2 with (P := fun x y => reordered_state x y /\ phi x = phi' y); [exact G|].
    intros x y [Hxy Hp]. apply (over_J_reordered k I a a x y _ _ Hxy (Ha x y Hxy)). intros l m Hlm. rewrite (HP x y Hxy), Hp.
    apply (J_perms E (P_rm k a y E) (phi' y) Hlm).
Qed.

(** * Success *)
(** [evaluable]: the radii are known where they are needed, and no width or distance vanishes *)
Definition evaluable (f : rm_file) (a ahat : rm_lstate -> R -> outcome R) (E : R) : Prop :=
  E <> 0 /\ forall ls, In ls (rf_lstates f) -> (rs_L ls <= 4)%nat /\
  forall x, In x (rs_lines ls) -> 0 <= rl_GN x /\ rl_ER x <> 0 /\ (exists r, a ls (Rabs (rl_ER x)) = Ok r) /\
    (rl_ER x <> E \/ rl_GG x <> 0).
Definition table_at (table : option (R -> outcome R)) (E : R) : Prop :=
  match table with Some t => exists r, t E = Ok r | None => True end.

Lemma rm_apply_ok C sort f A NRO NAPS table a ahat E :
  rm_input C f A NRO NAPS table a ahat -> sorts rm_flagged sort -> evaluable f a ahat E -> table_at table E ->
  exists s t, rm_apply C sort f NRO NAPS table = Ok s /\ rm_evaluate C s E = Ok (Some t).
Proof.
  intros [HC (first & others & Hf & HA') HA HI Hr Hch Hsc HG] Hsort (HE & Hu) Ht. subst A.
  assert (Hlast : forall tag ch sc, a = (fun ls => own (own_channel tag) ls ch) -> ahat = (fun ls => own (own_scattering tag) ls sc) ->
    (exists r, ch E = Ok r) -> (exists r, sc E = Ok r) -> exists s t, rm_build C sort f tag ch sc (own_channel tag) = Ok s /\
      rm_evaluate C s E = Ok (Some t)).
  { intros tag ch sc -> -> (r1 & H1) (r2 & H2).
    apply (rm_file_ok C sort f first others tag ch sc E HC Hf HA Hsort Hch Hsc HG r1 r2 HE H1 H2).
    intros ls Hls. destruct (Hu ls Hls) as (Hl & Hx). split; assumption. }
  assert (Hor : (fun (ls : rm_lstate) (_ : R) => Ok (or_ap f ls)) = (fun ls => own true ls (fun _ => Ok (rf_AP f)))).
  { extensionality ls. extensionality e. unfold own, given, or_ap. destruct (Req_EM_T (rs_APL ls) 0); reflexivity. }
  assert (Hno : forall r : R -> outcome R, (fun _ : rm_lstate => r) = (fun ls => own false ls r)).
  { intros r. extensionality ls. extensionality e. unfold own. rewrite andb_false_r. reflexivity. }
  unfold rm_apply. destruct Hr as [t|t|t|t|t]; cbn [Z.eqb Pos.eqb]; rewrite ?Hf; cbn [bind].
  - destruct (Hlast ScatteringTag (fun _ => Ok (channelRadius (rs_AWRI first))) (fun _ => Ok (rf_AP f))) as (s & u & Hs & He);
      [apply (Hno (fun _ => Ok (channelRadius (rs_AWRI first)))) | exact Hor | eexists; reflexivity | eexists; reflexivity|].
    cbn [own_channel] in Hs. rewrite Hs. exists s, u; auto.
  - destruct (Hlast Both (fun _ => Ok (rf_AP f)) (fun _ => Ok (rf_AP f))) as (s & u & Hs & He);
      [exact Hor | exact Hor | eexists; reflexivity | eexists; reflexivity|].
    cbn [own_channel] in Hs. rewrite Hs. exists s, u; auto.
  - destruct (Hlast Neither (fun _ => Ok (channelRadius (rs_AWRI first))) t) as (s & u & Hs & He);
      [apply (Hno (fun _ => Ok (channelRadius (rs_AWRI first)))) | apply Hno | eexists; reflexivity | exact Ht|].
    cbn [own_channel] in Hs. rewrite Hs. exists s, u; auto.
  - destruct (Hlast Neither t t) as (s & u & Hs & He); [apply Hno | apply Hno | exact Ht | exact Ht|].
    cbn [own_channel] in Hs. rewrite Hs. exists s, u; auto.
  - destruct (Hlast ChannelTag (fun _ => Ok (rf_AP f)) t) as (s & u & Hs & He); [exact Hor | apply Hno | eexists; reflexivity | exact Ht|].
    cbn [own_channel] in Hs. rewrite Hs. exists s, u; auto.
Qed.

(** ... and only then *)
Lemma rm_apply_only C sort f A NRO NAPS table a ahat E s t :
  rm_input C f A NRO NAPS table a ahat -> sorts rm_flagged sort ->
  rm_apply C sort f NRO NAPS table = Ok s -> rm_evaluate C s E = Ok (Some t) -> evaluable f a ahat E.
Proof.
  intros Hin Hsort Hs He. destruct t as [[e c] fi].
  destruct (apply_values C sort f A NRO NAPS table a ahat E s e c fi Hin Hsort Hs He) as (HE & H & _).
  split; [exact HE|]. intros ls Hls. destruct (H ls Hls) as (_ & _ & Hl & Hx). split; [exact Hl|].
  intros x Hxin. destruct (Hx x Hxin) as (HN & HP & HD). split; [exact HN|].
  assert (Q : 0 <> k_old C A (Rabs (rl_ER x)) * values_of a ls (Rabs (rl_ER x))).
  { intros Q. unfold P_rm in HP. rewrite <- Q in HP. unfold P_spec, Rdiv in HP. rewrite Rmult_0_l in HP. lra. }
  split; [|split; [|exact HD]].
  - intros Hz. apply Q. unfold k_old. rewrite Hz, !Rabs_R0, sqrt_0. ring.
  - destruct (a ls (Rabs (rl_ER x))) as [r| | |] eqn:Er; [exists r; reflexivity|..];
      exfalso; apply Q; unfold values_of; rewrite Er; cbn; ring.
Qed.

(** The table is asked for at the energy of the evaluation. *)
Lemma rm_needs_table C sort f A NRO NAPS table a ahat E s t :
  endf_radii f A NRO NAPS table a ahat -> NRO = true ->
  rm_apply C sort f NRO NAPS table = Ok s -> rm_evaluate C s E = Ok (Some t) -> table_at table E.
Proof.
  intros Hr HN Hs He.
  assert (Hx : forall tag ch sc u, rm_build C sort f tag ch sc u = Ok s -> exists r, sc E = Ok r).
  { intros tag ch sc u Hb. unfold rm_build in Hb. destruct (rf_lstates f); [discriminate|].
    apply bind_Ok in Hb as (lvs & _ & Hb). injection Hb as <-. unfold rm_evaluate in He. cbn [rt_channel rt_scattering] in He.
    apply bind_Ok in He as (r1 & _ & He). apply bind_Ok in He as (r2 & Hr2 & _). exists r2; exact Hr2. }
  assert (Hok : forall o : outcome rm_system, match o with
    | Throw _ => Throw (RuntimeError "The resonance range does not appear to contain Reich-Moore parameters")
    | o => o end = Ok s -> o = Ok s) by (intros [] Q; try discriminate; assumption).
  destruct Hr; try discriminate; unfold rm_apply in Hs; apply Hok in Hs; cbn [Z.eqb Pos.eqb] in Hs; cbn [table_at].
  - apply bind_Ok in Hs as (? & _ & Hs). cbn [bind] in Hs. eapply Hx; exact Hs.
  - cbn [bind] in Hs. eapply Hx; exact Hs.
  - cbn [bind] in Hs. eapply Hx; exact Hs.
Qed.

(** * A reordered file *)
Lemma build_any C sort sort' f f' NRO NAPS table s : reordered_rm f f' ->
  rm_apply C sort f NRO NAPS table = Ok s -> exists s', rm_apply C sort' f' NRO NAPS table = Ok s'.
Proof.
  intros (HS & HP & HF) Hs.
  assert (HB : forall tag ch sc u s0, rm_build C sort f tag ch sc u = Ok s0 -> exists s', rm_build C sort' f' tag ch sc u = Ok s').
  { intros tag ch sc u s0 Hb. unfold rm_build in *. destruct HF as [|x y xs ys Hxy HF]; [discriminate|].
    apply bind_Ok in Hb as (lvs & Elvs & _). rewrite <- HS. destruct Hxy as (H1 & H2 & H3 & H4). rewrite <- H2.
    assert (HF' : Forall2 reordered_state (x :: xs) (y :: ys)) by (constructor; [repeat split; assumption | exact HF]).
    revert lvs Elvs HF'. generalize (x :: xs) (y :: ys). clear. intros l m lvs Elvs HF.
    assert (Hex : exists lvs', mapM (rm_build_lvalue (rf_SPI f) (neutronWaveNumber C (rs_AWRI x)) ch u) m = Ok lvs').
    { revert lvs Elvs. induction HF as [|p q l m (H1 & H2 & H3 & H4) HF IH]; intros lvs Elvs; [exists []; reflexivity|].
      cbn in Elvs. apply bind_Ok in Elvs as (v & Ev & Elvs). apply bind_Ok in Elvs as (vs & Evs & _).
      destruct (IH vs Evs) as (vs' & Evs').
      assert (Hq : exists v', rm_build_lvalue (rf_SPI f) (neutronWaveNumber C (rs_AWRI x)) ch u q = Ok v').
      { unfold rm_build_lvalue in *. rewrite H1, H3 in Ev. destruct (4 <? rs_L q)%nat; [discriminate|].
        apply bind_Ok in Ev as (rs & Ers & _). destruct (mapM_perm _ _ _ _ H4 Ers) as (rs' & -> & _).
        cbn [bind]. eexists; reflexivity. }
      destruct Hq as (v' & Hv'). exists (v' :: vs'). cbn. rewrite Hv', Evs'. reflexivity. }
    destruct Hex as (lvs' & ->). eexists; reflexivity. }
  assert (Hok : forall o : outcome rm_system, match o with
    | Throw _ => Throw (RuntimeError "The resonance range does not appear to contain Reich-Moore parameters")
    | o => o end = Ok s -> o = Ok s) by (intros [] Q; try discriminate; assumption).
  unfold rm_apply in *. apply Hok in Hs.
  assert (Hd : match rf_lstates f' with [] => UB "front() of an empty range" | first :: _ => Ok (fun _ : R => Ok (channelRadius (rs_AWRI first))) end
    = match rf_lstates f with [] => UB "front() of an empty range" | first :: _ => Ok (fun _ : R => Ok (channelRadius (rs_AWRI first))) end).
  { destruct HF as [|x y xs ys (_ & H & _) _]; [reflexivity | rewrite H; reflexivity]. }
  rewrite Hd, <- HP.
  destruct NRO.
  - destruct (NAPS =? 0)%Z.
    { apply bind_Ok in Hs as (d & Ed & Hs). rewrite Ed. apply bind_Ok in Hs as (t & Et & Hs). cbn [bind]. rewrite Et. cbn [bind].
      destruct (HB _ _ _ _ _ Hs) as (s' & ->). eexists; reflexivity. }
    destruct (NAPS =? 1)%Z.
    { apply bind_Ok in Hs as (t & Et & Hs). rewrite Et. cbn [bind]. destruct (HB _ _ _ _ _ Hs) as (s' & ->). eexists; reflexivity. }
    destruct (NAPS =? 2)%Z; [|discriminate].
    apply bind_Ok in Hs as (t & Et & Hs). rewrite Et. cbn [bind]. destruct (HB _ _ _ _ _ Hs) as (s' & ->). eexists; reflexivity.
  - destruct (NAPS =? 0)%Z.
    { apply bind_Ok in Hs as (d & Ed & Hs). rewrite Ed. cbn [bind]. destruct (HB _ _ _ _ _ Hs) as (s' & ->). eexists; reflexivity. }
    destruct (NAPS =? 1)%Z; [|discriminate]. destruct (HB _ _ _ _ _ Hs) as (s' & ->). eexists; reflexivity.
Qed.

Lemma order_one C sort sort' f f' A NRO NAPS table a ahat s s' E t :
  rm_input C f A NRO NAPS table a ahat -> reordered_rm f f' -> sorts rm_flagged sort -> sorts rm_flagged sort' ->
  rm_apply C sort f NRO NAPS table = Ok s -> rm_apply C sort' f' NRO NAPS table = Ok s' ->
  rm_evaluate C s E = Ok (Some t) -> rm_evaluate C s' E = Ok (Some t).
Proof.
  intros Hin Hff Hsort Hsort' Hs Hs' He.
  pose proof (reordered_input _ _ _ _ _ _ _ _ _ Hin Hff) as Hin'.
  pose proof (rm_apply_only _ _ _ _ _ _ _ _ _ _ _ _ Hin Hsort Hs He) as (HE & Hev).
  destruct Hff as (HS & HP & HF).
  assert (Hback : forall y, In y (rf_lstates f') -> exists x, In x (rf_lstates f) /\ reordered_state x y).
  { intros y Hy. apply (Forall2_In_r _ _ _ _ HF Hy). }
  assert (Hr := ri_radii _ _ _ _ _ _ _ _ Hin).
  assert (Hev' : evaluable f' a ahat E).
  { split; [exact HE|]. intros y Hy. destruct (Hback y Hy) as (x & Hx & (H1 & H2 & H3 & H4)).
    destruct (Hev x Hx) as (Hl & Hz). rewrite H1 in Hl. split; [exact Hl|]. intros z Hzy.
    apply (Permutation_in z (Permutation_sym H4)) in Hzy. destruct (radii_own _ _ _ _ _ _ _ x y Hr H3) as [<- _].
    apply Hz, Hzy. }
  assert (Htab : table_at table E \/ NRO = false).
  { destruct NRO; [left|right; reflexivity]. eapply rm_needs_table; [exact Hr | reflexivity | exact Hs | exact He]. }
  assert (Hsucc : exists t', rm_evaluate C s' E = Ok (Some t')).
  { destruct Htab as [Htab|HN].
    - destruct (rm_apply_ok C sort' f' A NRO NAPS table a ahat E Hin' Hsort' Hev' Htab) as (s2 & t' & Hs2 & Ht').
      rewrite Hs' in Hs2. injection Hs2 as <-. exists t'; exact Ht'.
    - subst NRO.
      assert (Hr' := ri_radii _ _ _ _ _ _ _ _ Hin').
      assert (Hin2 : rm_input C f' A false NAPS None a ahat).
      { destruct Hin'. constructor; try assumption. inversion Hr'; subst; constructor. }
      destruct (rm_apply_ok C sort' f' A false NAPS None a ahat E Hin2 Hsort' Hev' Logic.I) as (s2 & t' & Hs2 & Ht').
      assert (s2 = s') as ->.
      { assert (Ok s2 = Ok s') as Q by (rewrite <- Hs2, <- Hs'; inversion Hr'; subst; reflexivity). injection Q as ->; reflexivity. }
      exists t'; exact Ht'. }
  destruct Hsucc as (t' & Ht'). rewrite Ht'. f_equal. f_equal. symmetry.
  destruct t as [[e c] fi], t' as [[e' c'] fi'].
  destruct (apply_values _ _ _ _ _ _ _ _ _ _ _ _ _ _ Hin Hsort Hs He) as (_ & Hpos & Hv).
  destruct (apply_values _ _ _ _ _ _ _ _ _ _ _ _ _ _ Hin' Hsort' Hs' Ht') as (_ & Hpos' & Hv').
  set (phi := fun ls : rm_lstate => match phaseShift (Z.of_nat (rs_L ls)) (k_old C A E * values_of ahat ls E) with Ok p => p | _ => 0 end).
  assert (Hk : 0 < k_old C A E) by (destruct Hin; apply k_old_pos; assumption).
  destruct (Hv phi) as (-> & -> & ->).
  { intros ls Hls. unfold phi. destruct (Hpos ls Hls) as (_ & P2 & H4 & _).
    destruct (phaseShift_ok (rs_L ls) (k_old C A E * values_of ahat ls E)) as (p & -> & Hp); [|exact H4|exact Hp].
    apply Rmult_lt_0_compat; assumption. }
  destruct (Hv' phi) as (-> & -> & ->).
  { intros ls Hls. unfold phi. destruct (Hpos' ls Hls) as (_ & P2 & H4 & _).
    destruct (phaseShift_ok (rs_L ls) (k_old C A E * values_of ahat ls E)) as (p & -> & Hp); [|exact H4|exact Hp].
    apply Rmult_lt_0_compat; assumption. }
  destruct (RM_reordered (k_old C A) E (rf_SPI f) (values_of a) phi phi (rf_lstates f) (rf_lstates f') HF) as (-> & -> & ->).
  - intros x y (_ & _ & H3 & _) e0. unfold values_of. destruct (radii_own _ _ _ _ _ _ _ x y Hr H3) as [-> _]. reflexivity.
  - clear -HF Hr. induction HF as [|x y xs ys (H1 & _ & H3 & _) F IH]; constructor; [|exact IH].
    unfold phi, values_of. destruct (radii_own _ _ _ _ _ _ _ x y Hr H3) as [_ ->]. rewrite H1. reflexivity.
  - rewrite HS. reflexivity.
Qed.
