(** The Reich-Moore cross sections of the two interfaces for the same file. *)
From Coq Require Import String List ZArith Reals Bool Lra Lia Permutation.
From Verif Require Import Outcome QuantumSpec HardSphereModel HardSphereSpec HardSphereProofs KinematicsModel CoulombModel
  Cplx RMatrixModel ChannelModel SpinGroupModel BreitWignerModel BreitWignerSpec BreitWignerSystemProofs ReichMooreModel LegacyModel LegacyProofs ListFacts AssemblyModel
  EndfModel EndfSpec EndfFlagProofs ReichMooreSpec ReichMooreProofs ReichMooreTheory KMatrixModel KMatrixSpec KMatrixMore NewerFacts NewerRMSpec NewerWhole NewerTheorems.
Import ListNotations.
Open Scope R_scope.

Lemma radii_agree f A NRO NAPS table a ahat mn ls r : endf_radii f A NRO NAPS table a ahat -> (NAPS = 0%Z -> mn = 1.00866491582) -> 0 < A ->
  prescribed (or_ap f ls) (A * mn) (if NRO then table else None) (Z.to_nat NAPS) r ->
  (forall e, radius_at (r_P r) e = a ls e) /\ (forall e, radius_at (r_phi r) e = ahat ls e).
Proof.
  intros H Hm HA P.
  assert (D : forall x, mn = 1.00866491582 -> derived_radius (A * mn) x -> x = channelRadius A).
  { intros x -> Hx. rewrite (derived_unique _ x _ Hx (derived_ok (A * 1.00866491582) ltac:(lra))). unfold channelRadius. rewrite (Rmult_comm A). reflexivity. }
  destruct H; cbn in P.
  - destruct P as [(x & Hx & -> & _) ->]. rewrite (D x (Hm eq_refl) Hx). split; reflexivity.
  - destruct P as (-> & _ & ->). split; reflexivity.
  - destruct P as [(x & Hx & -> & _) ->]. rewrite (D x (Hm eq_refl) Hx). split; reflexivity.
  - destruct P as (-> & _ & ->). split; reflexivity.
  - destruct P as (-> & _ & ->). split; reflexivity.
Qed.

Lemma one_of_each (lss : list rm_lstate) ls : NoDup (map rs_L lss) -> In ls lss -> filter (fun x => Nat.eqb (rs_L x) (rs_L ls)) lss = [ls].
Proof.
  induction lss as [|y l IH]; intros N H; [destruct H|]. inversion N as [|? ? N1 N2]; subst. cbn [filter]. destruct H as [->|H].
  - rewrite Nat.eqb_refl. f_equal.
    clear -N1. induction l as [|z l IH]; [reflexivity|]. cbn [filter]. destruct (Nat.eqb_spec (rs_L z) (rs_L ls)) as [Q|Q].
    + exfalso. apply N1. left. exact Q.
    + apply IH. intros H. apply N1. right. exact H.
  - destruct (Nat.eqb_spec (rs_L y) (rs_L ls)) as [Q|Q]; [|apply IH; assumption]. exfalso. apply N1. rewrite Q. apply in_map. exact H.
Qed.
Lemma none_of (lss : list rm_lstate) l : ~ In l (map rs_L lss) -> filter (fun x => Nat.eqb (rs_L x) l) lss = [].
Proof.
  induction lss as [|z m IH]; intros N; [reflexivity|]. cbn [filter]. destruct (Nat.eqb_spec (rs_L z) l) as [Q|Q].
  - exfalso. apply N. left. exact Q.
  - apply IH. intros H. apply N. right. exact H.
Qed.

Section Agreement.
Variables (hbar epsilon0 : R) (cwf : nat -> R -> R -> outcome coulomb) (mn : R) (incident target : string).
Hypotheses (Hh : 0 < hbar) (Hmn : 0 < mn).
Let C := C_new hbar mn.
Variables (sort : list rm_resonance -> list rm_resonance) (f : rm_file) (A : R) (NRO : bool) (NAPS : Z)
  (table : option (R -> outcome R)) (a ahat : rm_lstate -> R -> outcome R) (rad : rm_lstate -> radii) (rad0 : radii) (E : R).
Let nro := if NRO then table else None.
Hypotheses (Hold : rm_input C f A NRO NAPS table a ahat) (Hnew : newer_input mn f A nro (Z.to_nat NAPS) rad rad0).
Hypotheses (Hsort : sorts rm_flagged sort) (Hm : NAPS = 0%Z -> mn = 1.00866491582) (HE : 0 < E).
(** a table is read at a negative energy by the newer code, at its absolute value by the older *)
Hypothesis Hneg : NRO = false \/ forall ls x, In ls (rf_lstates f) -> In x (rs_lines ls) -> 0 <= rl_ER x.
Variables (s : rm_system) (e c fi : R).
Hypotheses (Hs : rm_apply C sort f NRO NAPS table = Ok s) (He : rm_evaluate C s E = Ok (Some (e, c, fi))).
Variables (nlsc : nat) (gs : list group) (objects gs' : list object) (m m' : reaction_map).
Hypotheses (Hmake : makeReichMooreCompoundSystem hbar epsilon0 cwf mn incident target f nlsc nro (Z.to_nat NAPS) = Ok (Some gs))
  (Hobj : map (@projT1 _ _) objects = gs) (Hev : evaluateSystem hbar epsilon0 cwf ShiftFactor objects E m = Ok (Some (gs', m'))).
Let k := k_old C A.
Let I := rf_SPI f.
Let av := values_of a.
Let an (ls : rm_lstate) (x : R) : R := oval (radius_at (r_P (rad ls)) x).
Let kE : reactionID := Elastic incident target.
Let kF : reactionID := Transfer (incident ++ "," ++ target) "fission".
Let kC : reactionID := Transfer (incident ++ "," ++ target) "capture".

Lemma same_radii ls : In ls (rf_lstates f) -> (forall x, an ls x = av ls x) /\ (forall x, radius_at (r_phi (rad ls)) x = ahat ls x).
Proof.
  intros Hls. destruct (ni_rad _ _ _ _ _ _ _ Hnew ls Hls) as (_ & Pr).
  destruct (radii_agree f A NRO NAPS table a ahat mn ls (rad ls) (ri_radii _ _ _ _ _ _ _ _ Hold) Hm (ri_A _ _ _ _ _ _ _ _ Hold) Pr) as [E1 E2].
  split; [|exact E2]. intros x. unfold an, av, values_of. rewrite E1. reflexivity.
Qed.
Lemma at_absolute ls x : In ls (rf_lstates f) -> In x (rs_lines ls) -> av ls (Rabs (rl_ER x)) = av ls (rl_ER x).
Proof.
  intros Hls Hx. destruct Hneg as [N|N].
  - unfold av, values_of. destruct (ri_radii _ _ _ _ _ _ _ _ Hold); try reflexivity; discriminate N.
  - rewrite Rabs_pos_eq; [reflexivity | exact (N ls x Hls Hx)].
Qed.
Lemma signed_pos x : 0 <= x -> signed_sqrt x = sqrt x.
Proof. intros H. unfold signed_sqrt. destruct (Rlt_dec x 0); [lra | reflexivity]. Qed.
Lemma same_reduced ls x : In ls (rf_lstates f) -> In x (rs_lines ls) -> newer_of k an ls x = reduced_of k av ls x.
Proof.
  intros Hls Hx. destruct (apply_values C sort f A NRO NAPS table a ahat E s e c fi Hold Hsort Hs He) as (_ & V & _).
  destruct (V ls Hls) as (_ & _ & _ & W). destruct (W x Hx) as (HG & HP & _). pose proof (ri_capture _ _ _ _ _ _ _ _ Hold ls x Hls Hx) as Hg.
  assert (Q : P_rm k an ls (rl_ER x) = P_rm k av ls (Rabs (rl_ER x))).
  { unfold P_rm. rewrite (proj1 (same_radii ls Hls)), at_absolute by assumption. unfold k, k_old. rewrite Rabs_Rabsolu. reflexivity. }
  unfold newer_of, reduced_of. rewrite Q. fold k in HP. rewrite (signed_pos (rl_GG x / 2)) by lra.
  rewrite (signed_pos (rl_GN x / _)); [reflexivity|]. fold av in HP. apply Rmult_le_pos; [exact HG|]. left. apply Rinv_0_lt_compat. lra.
Qed.
Lemma same_over ls F : In ls (rf_lstates f) -> newer_J k I an ls F = over_J k I av ls F.
Proof.
  intros Hls. unfold newer_J, over_J. apply Rsum_ext. intros j _. f_equal. f_equal. apply map_ext_in. intros x Hx. apply same_reduced; [exact Hls|].
  unfold lines_of in Hx. apply filter_In in Hx. apply Hx.
Qed.
Lemma same_P ls : In ls (rf_lstates f) -> P_rm k an ls E = P_rm k av ls E.
Proof. intros Hls. unfold P_rm. rewrite (proj1 (same_radii ls Hls)). reflexivity. Qed.

Variables (phi : rm_lstate -> R) (phi0 : nat -> R) (extra : list nat).
Hypotheses (Hphi : forall ls, In ls (rf_lstates f) -> is_phase (rs_L ls) (k E * values_of ahat ls E) (phi ls))
  (Hphi0 : forall l, (l < nlsc)%nat -> is_phase l (k E * oval (radius_at (r_phi rad0) E)) (phi0 l))
  (Hextra : Permutation (map rs_L (rf_lstates f) ++ extra) (seq 0 nlsc)).
Let S0 (l : nat) : R := scattered (cis (- (2 * phi0 l))).
Let S (ls : rm_lstate) : R := scattered (cis (- (2 * phi ls))).

Theorem difference : value_of (m' kC) = value_of (m kC) + c /\ value_of (m' kF) = value_of (m kF) + fi /\
  value_of (m' kE) = value_of (m kE) + e + barns k E *
    (Rsum (map (fun ls => (2 * INR (rs_L ls) + 1 - accounted I ls) * (S0 (rs_L ls) - S ls)) (rf_lstates f))
     + Rsum (map (fun l => (2 * INR l + 1) * S0 l) extra)).
Proof.
  destruct (apply_values C sort f A NRO NAPS table a ahat E s e c fi Hold Hsort Hs He) as (_ & _ & V). destruct (V phi Hphi) as (Ve & Vc & Vf).
  destruct (newer_file hbar epsilon0 cwf mn incident target Hh Hmn f A nro (Z.to_nat NAPS) rad rad0 Hnew E HE nlsc gs objects m gs' m' phi phi0 Hmake Hobj Hev) as (N1 & N2 & N3 & _).
  { intros ls Hls. rewrite (proj2 (same_radii ls Hls)). exact (Hphi ls Hls). }
  { exact Hphi0. }
  unfold kE, kF, kC. rewrite N1, N2, N3. rewrite Ve at 1. rewrite Vc at 1. rewrite Vf at 1. fold C k I.
  change (fun (ls : rm_lstate) (x : R) => oval (radius_at (r_P (rad ls)) x)) with an.
  assert (Nd : NoDup (map rs_L (rf_lstates f) ++ extra)) by (apply (Permutation_NoDup (Permutation_sym Hextra)), seq_NoDup).
  assert (Nl : NoDup (map rs_L (rf_lstates f)) /\ forall l, In l extra -> ~ In l (map rs_L (rf_lstates f))).
  { destruct (NewerItems.nodup_app_elim _ _ Nd) as (D1 & _ & D2). split; [exact D1|]. intros l H1 H2. exact (D2 l H2 H1). }
  destruct Nl as [Nl Ne]. fold av.
  split; [|split].
  - f_equal. unfold newer_capture, RM_capture. f_equal. apply Rsum_ext. intros ls Hls. rewrite same_P, same_over by exact Hls. reflexivity.
  - f_equal. unfold newer_fission, RM_fission. f_equal. apply Rsum_ext. intros ls Hls. rewrite same_P, same_over by exact Hls. reflexivity.
  - rewrite Rplus_assoc. f_equal. unfold newer_elastic, RM_elastic. rewrite <- Rmult_plus_distr_l. f_equal.
    rewrite <- (ListFacts.Rsum_perm _ _ (Permutation_map (newer_rest I phi0 (rf_lstates f)) Hextra)), map_app, ListFacts.Rsum_app, <- !Rplus_assoc. f_equal.
    + rewrite map_map, <- !Rsum_plus. apply Rsum_ext. intros ls Hls. rewrite same_P, same_over by exact Hls. unfold newer_rest. rewrite one_of_each by assumption.
      cbn [map]. rewrite Rsum_cons'. unfold rest. fold (S0 (rs_L ls)) (S ls). change (Rsum []) with 0. ring.
    + apply Rsum_ext. intros l Hl. unfold newer_rest. rewrite (none_of _ l (Ne l Hl)). fold (S0 l). cbn [map]. change (Rsum []) with 0. ring.
Qed.

(** The same phase shifts are used for all channels of an l value *)
Definition one_radius : Prop := forall ls, In ls (rf_lstates f) ->
  accounted I ls = 2 * INR (rs_L ls) + 1 \/ NRO = true \/ or_ap f ls = rf_AP f.
Lemma same_rest ls : one_radius -> In ls (rf_lstates f) -> (2 * INR (rs_L ls) + 1 - accounted I ls) * (S0 (rs_L ls) - S ls) = 0.
Proof.
  intros H Hls. destruct (H ls Hls) as [->|Q]; [ring|]. assert (Es : S0 (rs_L ls) = S ls); [|rewrite Es; ring].
  unfold S0, S. f_equal. apply (same_phase (rs_L ls) (k E * values_of ahat ls E)); [|exact (Hphi ls Hls)].
  assert (El : (rs_L ls < nlsc)%nat).
  { assert (In (rs_L ls) (seq 0 nlsc)) as Hi by (apply (Permutation_in _ Hextra), in_or_app; left; apply in_map; exact Hls). apply in_seq in Hi. lia. }
  specialize (Hphi0 _ El). replace (values_of ahat ls E) with (oval (radius_at (r_phi rad0) E)); [exact Hphi0|].
  unfold values_of. rewrite <- (proj2 (same_radii ls Hls)).
  destruct (ni_rad _ _ _ _ _ _ _ Hnew ls Hls) as (_ & P1). destruct (ni_rad0 _ _ _ _ _ _ _ Hnew) as (_ & P2). unfold nro in P1, P2.
  destruct (ri_radii _ _ _ _ _ _ _ _ Hold); cbn in P1, P2; destruct Q as [Q|Q]; try discriminate; try rewrite Q in P1.
  - destruct P1 as [_ ->], P2 as [_ ->]. reflexivity.
  - destruct P1 as (_ & _ & ->), P2 as (_ & _ & ->). reflexivity.
  - destruct P1 as [_ ->], P2 as [_ ->]. reflexivity.
  - destruct P1 as [_ ->], P2 as [_ ->]. reflexivity.
  - destruct P1 as (_ & _ & ->), P2 as (_ & _ & ->). reflexivity.
  - destruct P1 as (_ & _ & ->), P2 as (_ & _ & ->). reflexivity.
  - destruct P1 as (_ & _ & ->), P2 as (_ & _ & ->). reflexivity.
  - destruct P1 as (_ & _ & ->), P2 as (_ & _ & ->). reflexivity.
Qed.
Theorem agreement : one_radius -> extra = [] ->
  value_of (m' kE) = value_of (m kE) + e /\ value_of (m' kC) = value_of (m kC) + c /\ value_of (m' kF) = value_of (m kF) + fi.
Proof.
  intros H0 Hx. destruct difference as (-> & -> & ->). split; [|split; reflexivity]. rewrite Hx. cbn [map]. change (Rsum []) with 0.
  rewrite Rsum_zero by (intros ls Hls; exact (same_rest ls H0 Hls)). ring.
Qed.
End Agreement.
