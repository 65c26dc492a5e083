(** The newer interface on a Reich-Moore file: the sums over the blocks of the file and over
    the channels it does not have. *)
From Coq Require Import String List ZArith Reals Bool Lra Lia Permutation.
From Verif Require Import Outcome QuantumModel QuantumSpec QuantumProofs SpinFactorModel SpinFactorProofs HardSphereModel HardSphereSpec HardSphereProofs KinematicsModel CoulombModel
  Cplx RMatrixModel ChannelModel SpinGroupModel BreitWignerModel BreitWignerSpec BreitWignerProofs BreitWignerSystemProofs ReichMooreModel LegacyModel LegacyProofs UnresolvedModel ListFacts AssemblyModel
  AssemblySpec AssemblyTheorems ReichMooreProofs EndfModel EndfSpec EndfProofs EndfFlagProofs EndfReichMooreProofs EndfTheorems ReichMooreSpec KMatrixSpec KMatrixMore
  NewerItems NewerFacts NewerRMSpec NewerFile.
Import ListNotations.
Open Scope R_scope.

(** ** Lists *)
Lemma Rsum_concat {A} (F : A -> R) ls : Rsum (map F (concat ls)) = Rsum (map (fun l => Rsum (map F l)) ls).
Proof. induction ls as [|l ls IH]; [reflexivity|]. cbn [concat map]. rewrite map_app, ListFacts.Rsum_app, IH. reflexivity. Qed.
Lemma Rsum_zero {A} (F : A -> R) l : (forall x, In x l -> F x = 0) -> Rsum (map F l) = 0.
Proof. intros H. induction l as [|x l IH]; [reflexivity|]. cbn [map]. change (Rsum (F x :: map F l)) with (F x + Rsum (map F l)). rewrite IH, H; [ring | left; reflexivity | intros y Hy; apply H; right; exact Hy]. Qed.
Lemma Rsum_cons' x l : Rsum (x :: l) = x + Rsum l.
Proof. reflexivity. Qed.
Lemma partition_nat {A} (key : A -> nat) (F : A -> R) l n : (forall x, In x l -> (key x < n)%nat) ->
  Rsum (map F l) = Rsum (map (fun k => Rsum (map F (filter (fun x => Nat.eqb (key x) k) l))) (seq 0 n)).
Proof.
  induction l as [|x l IH]; intros H.
  - symmetry. apply Rsum_zero. reflexivity.
  - cbn [map]. rewrite Rsum_cons', IH by (intros y Hy; apply H; right; exact Hy).
    transitivity (Rsum (map (fun k => (if Nat.eqb (key x) k then F x else 0) + Rsum (map F (filter (fun x => Nat.eqb (key x) k) l))) (seq 0 n))).
    + rewrite Rsum_plus. f_equal. assert (Hx : (0 <= key x < 0 + n)%nat) by (specialize (H x (or_introl eq_refl)); lia).
      revert Hx. generalize 0%nat. clear. induction n as [|n IH]; intros s Hs; [lia|]. cbn [seq map]. rewrite Rsum_cons'. destruct (Nat.eqb_spec (key x) s) as [E|N].
      * rewrite Rsum_zero; [ring|]. intros y Hy. apply in_seq in Hy. destruct (Nat.eqb_spec (key x) y); [lia | reflexivity].
      * pose proof (IH (S s) ltac:(lia)). lra.
    + apply Rsum_ext. intros k _. cbn [filter]. destruct (Nat.eqb (key x) k); cbn [map]; [rewrite Rsum_cons'; reflexivity | ring].
Qed.
Lemma grouped_perm {A} (key : A -> Z) (p : Z -> bool) (xs : list A) js : NoDup js -> (forall x, In x xs -> In (key x) js) ->
  Permutation (concat (map (fun j => filter (fun x => Z.eqb (key x) j) xs) (filter p js))) (filter (fun x => p (key x)) xs).
Proof.
  intros N. induction xs as [|x xs IH]; intros H.
  - cbn. clear. induction (filter p js) as [|j l IH]; [constructor | exact IH].
  - assert (IH' := IH (fun y Hy => H y (or_intror Hy))). clear IH. cbn [filter]. specialize (H x (or_introl eq_refl)). destruct (p (key x)) eqn:Px.
    + etransitivity; [|constructor; exact IH']. assert (Hx : In (key x) (filter p js)) by (apply filter_In; auto).
      assert (N' : NoDup (filter p js)) by (apply NoDup_filter; exact N). clear -Hx N'. induction (filter p js) as [|j l IH]; [destruct Hx|].
      inversion N' as [|? ? N1 N2]; subst. cbn [map concat]. destruct (Z.eqb_spec (key x) j) as [E|E].
      * cbn [app]. constructor. apply Permutation_app_head. replace (map (fun j0 => if Z.eqb (key x) j0 then x :: filter (fun x0 => Z.eqb (key x0) j0) xs else filter (fun x0 => Z.eqb (key x0) j0) xs) l)
          with (map (fun j0 => filter (fun x0 => Z.eqb (key x0) j0) xs) l); [reflexivity|].
        apply map_ext_in. intros y Hy. destruct (Z.eqb_spec (key x) y); [congruence | reflexivity].
      * destruct Hx as [Hx|Hx]; [congruence|]. etransitivity; [apply Permutation_app_head; exact (IH Hx N2)|]. symmetry. apply Permutation_middle.
    + etransitivity; [|exact IH']. replace (map (fun j => if Z.eqb (key x) j then x :: filter (fun x0 => Z.eqb (key x0) j) xs else filter (fun x0 => Z.eqb (key x0) j) xs) (filter p js))
        with (map (fun j => filter (fun x0 => Z.eqb (key x0) j) xs) (filter p js)); [reflexivity|].
      apply map_ext_in. intros y Hy. apply filter_In in Hy as [_ Hy]. destruct (Z.eqb_spec (key x) y); [congruence | reflexivity].
Qed.

Section Whole.
Variables (hbar epsilon0 : R) (cwf : nat -> R -> R -> outcome coulomb) (mn : R) (incident target : string).
Hypotheses (Hh : 0 < hbar) (Hmn : 0 < mn).
Let X : string := (incident ++ "," ++ target)%string.
Variables (A : R) (I : Z).
Hypotheses (HA : 0 < A) (HI : is_spin I).
Let k := k_old (C_new hbar mn) A.
Variable (E : R).
Hypothesis HE : 0 < E.

(** ** Values of the channels *)
Lemma elastic_values c rad v : legacy_channel mn incident target A I c rad -> positive (radius_at (r_P rad)) -> positive (radius_at (r_phi rad)) ->
  channelValues hbar epsilon0 cwf ShiftFactor c E = Ok (Some v) ->
  v = Values (P_spec (ql (c_numbers c)) (k E * oval (radius_at (r_P rad) E))) 0 0 (v_phi v) 0 false /\ 0 < v_P v /\
  is_phase (ql (c_numbers c)) (k E * oval (radius_at (r_phi rad) E)) (v_phi v).
Proof.
  intros L HP Hf H. unfold channelValues in H. apply bind_Ok in H as (op & Ep & H). apply bind_Ok in H as (os & Es & H). injection Es as <-. apply bind_Ok in H as (of & Ef & H).
  destruct (channel_P hbar epsilon0 cwf mn Hh Hmn incident target A I HA c rad E op L HP Ep) as (r & p & Er & -> & _ & _ & Hp).
  destruct (channel_phi hbar epsilon0 cwf mn Hh Hmn incident target A I HA c rad E of L Hf ltac:(lra) Ef) as (r' & phi & Er' & -> & Hphi).
  assert (Q : 0 < k E * r).
  { apply Rmult_lt_0_compat; [|exact (HP E r Er)]. apply k_old_pos; [apply C_new_pos; assumption | exact HA | lra]. }
  assert (Et : c_type c = Neutron) by (destruct L as (? & ? & _ & ->); reflexivity).
  assert (Eb : c_boundary c = 0) by (destruct L as (? & ? & _ & ->); reflexivity).
  assert (Ec : channelBelowThreshold c E = false).
  { destruct L as (pr & q & Hpr & ->). unfold channelBelowThreshold. cbn [makeChannel c_incident c_q]. destruct (legacyPair_ok mn Hmn incident target A I HA) as (pr' & Hpr' & _ & Hr & _).
    rewrite Hpr in Hpr'. injection Hpr' as <-. rewrite Hr. unfold belowThreshold. destruct (Rlt_dec _ _) as [B|_]; [|reflexivity]. exfalso.
    assert (0 < A * mn) by (apply Rmult_lt_0_compat; assumption). assert (0 < E * (A * mn / (mn + A * mn))) by (apply Rmult_lt_0_compat; [exact HE | apply Rdiv_lt_0_compat; lra]). lra. }
  unfold channelCoulombShift in H. rewrite Et in H. cbn [calculateCoulombPhaseShift] in H. rewrite Eb, Ec in H. injection H as <-. cbn [v_phi v_P]. rewrite Er, Er'. cbn [oval].
  fold k in Hp, Hphi. rewrite <- Hp. split; [reflexivity|]. split; [|exact Hphi]. rewrite Hp. apply P_spec_pos. exact Q.
Qed.
Lemma fission_vals inc name rad q v : legacyPair mn incident target A I = Ok inc ->
  channelValues hbar epsilon0 cwf ShiftFactor (rm_channel Fission inc "fission" name rad q) E = Ok (Some v) -> v = fission_values.
Proof.
  intros Hi H. unfold channelValues in H. apply bind_Ok in H as (op & Ep & H). apply bind_Ok in H as (os & Es & H). injection Es as <-. apply bind_Ok in H as (of & Ef & H).
  unfold channelPenetrability, channelFunction in Ep. apply bind_Ok in Ep as (r & _ & Ep). cbn in Ep. injection Ep as <-.
  unfold channelPhaseShift, channelFunction in Ef. apply bind_Ok in Ef as (r' & _ & Ef). cbn in Ef. injection Ef as <-.
  assert (Ec : channelBelowThreshold (rm_channel Fission inc "fission" name rad q) E = false).
  { unfold channelBelowThreshold. cbn [rm_channel makeChannel c_incident c_q]. destruct (legacyPair_ok mn Hmn incident target A I HA) as (pr' & Hpr' & _ & Hr & _).
    rewrite Hi in Hpr'. injection Hpr' as <-. rewrite Hr. unfold belowThreshold. destruct (Rlt_dec _ _) as [B|_]; [|reflexivity]. exfalso.
    assert (0 < A * mn) by (apply Rmult_lt_0_compat; assumption). assert (0 < E * (A * mn / (mn + A * mn))) by (apply Rmult_lt_0_compat; [exact HE | apply Rdiv_lt_0_compat; lra]). lra. }
  rewrite Ec in H. cbn in H. injection H as <-. reflexivity.
Qed.
Lemma elastic_factor c rad fc : legacy_channel mn incident target A I c rad -> channelFactor hbar c E = Some fc -> fc = barns k E * g_neutron I (qJ (c_numbers c)).
Proof.
  intros L H. unfold channelFactor in H. rewrite (channel_k hbar mn Hmn incident target A I HA c rad E L) in H. fold k in H.
  destruct (channel_spin mn Hmn incident target A I HA c rad HI L) as (Hs & _). rewrite Hs in H. unfold fdiv in H. fold k in H.
  destruct (Req_EM_T (k E * k E) 0) as [|N]; cbn in H; [discriminate|]. injection H as <-. reflexivity.
Qed.
(** They exist, and only for l up to 4. *)
Lemma elastic_total c rad r r' : legacy_channel mn incident target A I c rad -> radius_at (r_P rad) E = Ok r -> 0 < r -> radius_at (r_phi rad) E = Ok r' -> 0 < r' ->
  (ql (c_numbers c) <= 4)%nat -> exists v, channelValues hbar epsilon0 cwf ShiftFactor c E = Ok (Some v).
Proof.
  intros L Er Hr Er' Hr' Hl.
  assert (Hk : 0 < k E) by (apply k_old_pos; [apply C_new_pos; assumption | exact HA | lra]).
  assert (Et : c_type c = Neutron) by (destruct L as (? & ? & _ & ->); reflexivity).
  assert (E1 : c_radii c = rad) by (destruct L as (? & ? & _ & ->); reflexivity).
  unfold channelValues, channelPenetrability, channelPhaseShift, channelCoulombShift, channelFunction.
  rewrite E1, Et, Er, Er'. cbn [bind]. rewrite (channel_k hbar mn Hmn incident target A I HA c rad E L), (channel_eta hbar epsilon0 mn Hmn incident target A I HA c rad E L).
  cbn [calculatePenetrability calculatePhaseShift calculateCoulombPhaseShift]. fold k. rewrite penetrability_code by (try assumption; apply Rmult_lt_0_compat; assumption).
  destruct (phase_code (ql (c_numbers c)) (k E * r')) as (p & Ep & _); [apply Rmult_lt_0_compat; assumption | exact Hl|].
  unfold omap. rewrite Ep. cbn [bind]. eexists. reflexivity.
Qed.
Lemma elastic_l c rad v : legacy_channel mn incident target A I c rad -> positive (radius_at (r_P rad)) -> channelValues hbar epsilon0 cwf ShiftFactor c E = Ok (Some v) ->
  (ql (c_numbers c) <= 4)%nat.
Proof.
  intros L HP H. unfold channelValues in H. apply bind_Ok in H as (op & Ep & _).
  destruct (channel_P hbar epsilon0 cwf mn Hh Hmn incident target A I HA c rad E op L HP Ep) as (r & p & _ & _ & Hl & _). exact Hl.
Qed.
Lemma fission_total inc name rad q r r' : radius_at (r_P rad) E = Ok r -> radius_at (r_phi rad) E = Ok r' ->
  exists v, channelValues hbar epsilon0 cwf ShiftFactor (rm_channel Fission inc "fission" name rad q) E = Ok (Some v).
Proof.
  intros Er Er'. unfold channelValues, channelPenetrability, channelPhaseShift, channelCoulombShift, channelFunction, rm_channel, makeChannel. cbn [c_radii c_type].
  rewrite Er, Er'. cbn. eexists. reflexivity.
Qed.
Lemma factor_total c rad : legacy_channel mn incident target A I c rad -> exists fc, channelFactor hbar c E = Some fc.
Proof.
  intros L. unfold channelFactor. rewrite (channel_k hbar mn Hmn incident target A I HA c rad E L). fold k.
  assert (Hk : 0 < k E) by (apply k_old_pos; [apply C_new_pos; assumption | exact HA | lra]).
  unfold fdiv. destruct (Req_EM_T (k E * k E) 0); [nra|]. cbn. eexists. reflexivity.
Qed.
End Whole.
