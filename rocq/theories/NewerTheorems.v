(** The cross sections the newer interface computes from a Reich-Moore file. *)
From Coq Require Import String List ZArith Reals Bool Lra Lia Permutation.
From Verif Require Import Outcome QuantumModel QuantumSpec QuantumProofs SpinFactorModel SpinFactorProofs HardSphereModel HardSphereSpec HardSphereProofs KinematicsModel CoulombModel
  Cplx RMatrixModel ChannelModel SpinGroupModel BreitWignerModel BreitWignerSpec BreitWignerProofs BreitWignerSystemProofs ReichMooreModel LegacyModel LegacyProofs UnresolvedModel ListFacts AssemblyModel
  AssemblySpec AssemblyTheorems ReichMooreProofs EndfModel EndfSpec EndfProofs EndfFlagProofs EndfReichMooreProofs EndfTheorems ReichMooreSpec KMatrixSpec KMatrixMore
  NewerItems NewerFacts NewerSuccess NewerRMSpec NewerFile NewerWhole.
Import ListNotations.
Open Scope R_scope.

Lemma prescribed_made ap nro naps awri mn rad rad' : 0 < awri * mn -> prescribed ap (awri * mn) nro naps rad -> makeChannelRadii ap nro naps awri mn = Ok rad' -> rad' = rad.
Proof.
  intros Hm P H. assert (L : legal (match nro with Some _ => true | None => false end) (Z.of_nat naps)).
  { destruct nro as [t|], naps as [|[|[|n]]]; cbn in P |- *; try contradiction; auto; lia. }
  destruct (radii_prescribed ap nro naps awri mn Hm L) as (r & Er & Pr). rewrite Er in H. injection H as <-. exact (prescribed_unique _ _ _ _ _ _ Pr P).
Qed.
Lemma prescribed_positive ap m nro naps rad : 0 < m -> 0 < ap -> (forall t e r, nro = Some t -> t e = Ok r -> 0 < r) -> prescribed ap m nro naps rad ->
  positive (radius_at (r_P rad)) /\ positive (radius_at (r_phi rad)).
Proof.
  intros Hm Ha Ht P. assert (D : forall x, derived_radius m x -> 0 < x).
  { intros x Hx. rewrite (derived_unique m x _ Hx (derived_ok m Hm)). unfold Rpower. pose proof (exp_pos (1 / 3 * ln m)). lra. }
  assert (F : forall x, 0 < x -> positive (radius_at (Fixed x))) by (intros x Hx e r Q; injection Q as <-; exact Hx).
  assert (T : forall t, nro = Some t -> positive (radius_at (Tabulated t))) by (intros t Q e r Hr; exact (Ht t e r Q Hr)).
  destruct nro as [t|], naps as [|[|[|n]]]; cbn in P; try contradiction.
  - destruct P as [(x & Hx & -> & _) ->]. auto.
  - destruct P as (-> & _ & ->). auto.
  - destruct P as (-> & _ & ->). auto.
  - destruct P as [(x & Hx & -> & _) ->]. auto.
  - destruct P as (-> & _ & ->). auto.
Qed.
Lemma same_phase l rho p p' : is_phase l rho p -> is_phase l rho p' -> cis (- (2 * p)) = cis (- (2 * p')).
Proof. intros H H'. rewrite <- (hard_sphere_phase _ _ _ H). exact (hard_sphere_phase _ _ _ H'). Qed.

Lemma perm_js ls : Permutation (js_rm ls) (signed_J (rs_lines ls)).
Proof. apply NoDup_Permutation; [apply su_nodup | apply NoDup_nodup|]. intros x. unfold js_rm, signed_J. rewrite nodup_In, su_in. tauto. Qed.

Section Theorem_.
Variables (hbar epsilon0 : R) (cwf : nat -> R -> R -> outcome coulomb) (mn : R) (incident target : string).
Hypotheses (Hh : 0 < hbar) (Hmn : 0 < mn).
Let X : string := (incident ++ "," ++ target)%string.
Let kE : reactionID := Elastic incident target.
Let kF : reactionID := Transfer X "fission".
Let kC : reactionID := Transfer X "capture".
Variables (f : rm_file) (A : R) (nro : option (R -> outcome R)) (naps : nat) (rad : rm_lstate -> radii) (rad0 : radii).
Hypothesis Hin : newer_input mn f A nro naps rad rad0.
Let HA := ni_A _ _ _ _ _ _ _ Hin.
Let HI := ni_spin _ _ _ _ _ _ _ Hin.
Let k := k_old (C_new hbar mn) A.
Let a (ls : rm_lstate) (e : R) : R := oval (radius_at (r_P (rad ls)) e).
Variables (E : R).
Hypothesis HE : 0 < E.
Let I := rf_SPI f.
Notation b_ok := (b_ok hbar epsilon0 cwf).
Notation bitem := (block_item hbar mn A rad).

Definition empty_item (inc : particlePair) (n : qnum) : item :=
  let c := makeChannel Neutron inc inc (pp_id inc) 0 n rad0 0 in mkItem c [mkChannelData c [] [] false] [] [0%nat].
Lemma empty_ok inc n : item_ok (empty_item inc n).
Proof.
  constructor; cbn.
  - intros d [<-|[]]. reflexivity.
  - intros d [<-|[]]. reflexivity.
  - eexists. eexists. split; reflexivity.
  - split; [eexists; reflexivity|]. split; [reflexivity|]. split; [intros w [<-|[]]; lia | repeat constructor; intros []].
  - intros [|i] d H; [injection H as <-; split; reflexivity | destruct i; discriminate].
  - intros x w [].
  - reflexivity.
Qed.

(** Values, for both kinds of items *)
Let P (i : item) : R := match channelValues hbar epsilon0 cwf ShiftFactor (it_el i) E with Ok (Some v) => v_P v | _ => 0 end.
Let phi' (i : item) : R := match channelValues hbar epsilon0 cwf ShiftFactor (it_el i) E with Ok (Some v) => v_phi v | _ => 0 end.
Let fac (jp : Jpi) : R := barns k E * g_neutron I (fst jp).

Section Items.
Variables (nlsc : nat) (inc0 : particlePair) (required remaining : list qnum) (bss : list (list block)) (ds out : list channel_data).
Hypotheses (Hreq : makeQuantumNumbers 1 I nlsc = Ok required)
  (Hinc : legacyPair mn incident target A I = Ok inc0)
  (Hbss : Forall2 (fun ls bs => map b_j bs = js_rm ls /\ Forall (fun b => b_ok b /\ b_ls b = ls /\
       legacyPair mn incident target (rs_AWRI ls) I = Ok (b_inc b) /\
       makeChannelRadii (if Req_EM_T (rs_APL ls) 0 then rf_AP f else rs_APL ls) nro naps (rs_AWRI ls) mn = Ok (b_rad b)) bs) (rf_lstates f) bss)
  (Hds : ds = concat (map b_ds (concat bss))) (Hret : retrieveAll (map request (concat bss)) required = Ok (map b_n (concat bss), remaining)).
Let bs : list block := concat bss.
Let its : list item := map bitem bs ++ map (empty_item inc0) remaining.
Let all : list channel_data := ds ++ map (fun n => mkChannelData (makeChannel Neutron inc0 inc0 (pp_id inc0) 0 n rad0 0) [] [] false) remaining.

Lemma blocks_in b : In b bs -> exists ls bl, In ls (rf_lstates f) /\ In b bl /\ map b_j bl = js_rm ls /\ b_ls b = ls /\ b_ok b /\ legacyPair mn incident target (rs_AWRI ls) I = Ok (b_inc b) /\
  makeChannelRadii (or_ap f ls) nro naps (rs_AWRI ls) mn = Ok (b_rad b).
Proof.
  intros Hb. unfold bs in Hb. clear -Hbss Hb. pose proof Hbss as G. clear Hbss. induction G as [|ls bl l m [J F] _ IH]; [destruct Hb|]. cbn [concat] in Hb. apply in_app_or in Hb as [Hb|Hb].
  - rewrite Forall_forall in F. destruct (F b Hb) as (B & C & D & G). exists ls, bl. split; [left; reflexivity|]. unfold or_ap. auto 10.
  - destruct (IH Hb) as (ls' & bl' & B & C). exists ls', bl'. split; [right; exact B | exact C].
Qed.
Lemma good b : In b bs -> good_block hbar epsilon0 cwf mn incident target A I rad b /\ In (b_ls b) (rf_lstates f) /\ positive (radius_at (r_phi (rad (b_ls b)))).
Proof.
  intros Hb. destruct (blocks_in b Hb) as (ls & bl & Hls & _ & _ & El & B & Hi & Hr). subst ls. rewrite (ni_AWRI _ _ _ _ _ _ _ Hin _ Hls) in Hi, Hr.
  destruct (ni_rad _ _ _ _ _ _ _ Hin _ Hls) as (Hp & Pr). assert (Hm : 0 < A * mn) by (apply Rmult_lt_0_compat; assumption).
  pose proof (prescribed_made _ _ _ _ _ _ _ Hm Pr Hr) as Er. destruct (prescribed_positive _ _ _ _ _ Hm Hp (ni_table _ _ _ _ _ _ _ Hin) Pr) as [P1 P2].
  split; [|split; [exact Hls | exact P2]]. split; [exact B|]. split; [exact Hi|]. split; [exact Er|]. split; [rewrite Er; exact P1|].
  exact (block_Jpi hbar epsilon0 cwf mn incident target f nlsc nro naps required remaining bss HI Hreq Hbss Hret b Hb).
Qed.
Lemma its_all : concat (map it_ds its) = all.
Proof.
  unfold its, all. rewrite map_app, concat_app, Hds. fold bs. rewrite map_map. f_equal.
  clear. rewrite map_map. induction remaining as [|n l IH]; [reflexivity|]. cbn [map concat it_ds empty_item app]. rewrite <- IH. reflexivity.
Qed.
Lemma its_ok i : In i its -> item_ok i.
Proof.
  unfold its. intros H. apply in_app_or in H as [H|H]; apply in_map_iff in H as (x & <- & Hx); [|apply empty_ok].
  destruct (good x Hx) as (G & _). apply (block_item_ok hbar epsilon0 cwf mn incident target Hh Hmn A I HA rad x G).
Qed.
Lemma its_legacy i : In i its -> exists r, legacy_channel mn incident target A I (it_el i) r /\ positive (radius_at (r_P r)) /\ positive (radius_at (r_phi r)).
Proof.
  unfold its. intros H. apply in_app_or in H as [H|H]; apply in_map_iff in H as (x & <- & Hx).
  - destruct (good x Hx) as (G & _ & P2). exists (b_rad x). split; [exact (elastic_legacy hbar epsilon0 cwf mn incident target A I rad x G)|].
    destruct G as (_ & _ & Er & P1 & _). rewrite Er in *. auto.
  - exists rad0. split; [exists inc0, x; auto|]. assert (Hm : 0 < A * mn) by (apply Rmult_lt_0_compat; assumption). destruct (ni_rad0 _ _ _ _ _ _ _ Hin) as [Hp Pr].
    exact (prescribed_positive _ _ _ _ _ Hm Hp (ni_table _ _ _ _ _ _ _ Hin) Pr).
Qed.
Lemma inc_id c r : legacy_channel mn incident target A I c r -> c_reaction c = kE /\ isIncidentChannel c = true /\ pp_id (c_incident c) = X.
Proof.
  intros (pr & q & Hpr & ->). cbn [makeChannel c_reaction c_incident]. destruct (pair_id mn incident target A I _ Hpr) as (E1 & _ & _ & _).
  destruct (legacyPair_ok mn Hmn incident target A I HA) as (pr' & Hpr' & _ & _ & _ & _ & _ & _ & I1 & I2). rewrite Hpr in Hpr'. injection Hpr' as <-.
  split; [|split; [apply String.eqb_refl | exact E1]]. unfold makeReactionID. destruct (string_dec (pp_id pr) (pp_id pr)) as [_|N]; [|congruence]. unfold kE. rewrite I1, I2. reflexivity.
Qed.
Lemma its_react i j d : In i its -> nth_error (it_D i) j = Some d ->
  c_reaction (cd_channel d) = (match j with O => kE | _ => kF end) /\ isIncidentChannel (cd_channel d) = (match j with O => true | _ => false end) /\
  pp_id (c_incident (cd_channel d)) = X.
Proof.
  intros Hi Hd. destruct (its_legacy i Hi) as (r & L & _). destruct (io_first _ (its_ok i Hi)) as (d0 & fis & ED & Eel). destruct j as [|j].
  - rewrite ED in Hd. injection Hd as <-. rewrite Eel. exact (inc_id _ _ L).
  - unfold its in Hi. apply in_app_or in Hi as [H|H]; apply in_map_iff in H as (x & <- & Hx); [|cbn in Hd; destruct j; discriminate].
    destruct (good x Hx) as (G & _). destruct (block_D hbar epsilon0 cwf mn incident target Hh Hmn A I HA rad x G) as (el & fi & ED' & F). rewrite ED' in Hd. rename F into FF.
    assert (HW : exists w, data_for hbar mn A rad x (S w) d).
    { pose proof (forall2_nth _ _ _ FF (S j) d 0%nat Hd) as Q. destruct (which_facts hbar mn A rad x) as ((w & Ew) & _ & N & _). rewrite Ew in Q, N. cbn [nth] in Q. assert (Hj : (j < length w)%nat).
      { pose proof (forall2_len _ _ _ FF) as Ln. rewrite Ew in Ln. cbn in Ln. apply nth_error_Some in Hd || idtac. assert (Q' : nth_error fi j <> None) by (cbn in Hd; congruence). apply nth_error_Some in Q'. lia. }
      destruct (nth j w 0%nat) as [|u] eqn:Eu; [|exists u; exact Q]. exfalso. inversion N as [|? ? N1 _]; subst. apply N1. rewrite <- Eu. apply nth_In. exact Hj. }
    destruct HW as (w & _ & _ & _ & name & Ec). rewrite Ec. destruct G as (_ & Hpr & _). destruct (pair_id mn incident target A I _ Hpr) as (E1 & _ & _ & _).
    cbn [rm_channel makeChannel c_reaction c_incident]. unfold isIncidentChannel. cbn [c_pair c_incident makeParticlePair pp_id]. rewrite E1.
    assert (NX : X <> "fission"%string) by (apply (X_not incident target); reflexivity).
    split; [|split; [|reflexivity]].
    + unfold makeReactionID, kF. cbn [pp_id makeParticlePair]. rewrite E1. fold X. destruct (string_dec X "fission"); [contradiction | reflexivity].
    + apply String.eqb_neq. intros Q. apply NX. symmetry. change (pp_id (c_incident (rm_channel Fission (b_inc x) "fission" name (b_rad x) (other_numbers (b_ls x) (b_j x))))) with (pp_id (b_inc x)) in Q. rewrite E1 in Q. exact Q.
Qed.
Lemma its_val i j d v : In i its -> nth_error (it_D i) j = Some d -> channelValues hbar epsilon0 cwf ShiftFactor (cd_channel d) E = Ok (Some v) ->
  v = nth (nth j (it_which i) 0%nat) (three_channels (P i) (phi' i)) no_values.
Proof.
  intros Hi Hd Hv. destruct (its_legacy i Hi) as (r & L & P1 & P2). destruct (io_first _ (its_ok i Hi)) as (d0 & fis & ED & Eel). destruct (io_which _ (its_ok i Hi)) as ((w & Ew) & Ln & Lt & N). destruct j as [|j].
  - rewrite ED in Hd. injection Hd as <-. rewrite Eel in Hv. rewrite Ew. cbn [nth three_channels]. unfold P, phi'. rewrite Hv.
    destruct (elastic_values hbar epsilon0 cwf mn incident target Hh Hmn A I HA E HE _ r v L P1 P2 Hv) as (Ev & _). rewrite Ev. reflexivity.
  - assert (Ev : v = fission_values).
    { unfold its in Hi. apply in_app_or in Hi as [H|H]; apply in_map_iff in H as (x & <- & Hx); [|cbn in Hd; destruct j; discriminate].
      destruct (good x Hx) as (G & _). destruct (block_D hbar epsilon0 cwf mn incident target Hh Hmn A I HA rad x G) as (el & fi & ED' & FF). rewrite ED' in Hd.
      pose proof (forall2_nth _ _ _ FF (S j) d 0%nat Hd) as (_ & _ & _ & Q). change (which_of x) with (it_which (bitem x)) in Q. rewrite Ew in Q. cbn [nth] in Q.
      assert (Hj : (j < length w)%nat). { rewrite Ew, ED' in Ln. cbn in Ln. assert (Q' : nth_error fi j <> None) by (cbn in Hd; congruence). apply nth_error_Some in Q'. lia. }
      destruct (nth j w 0%nat) as [|u] eqn:Eu.
      - exfalso. rewrite Ew in N. inversion N as [|? ? N1 _]; subst. apply N1. rewrite <- Eu. apply nth_In. exact Hj.
      - destruct Q as (name & Ec). rewrite Ec in Hv. destruct G as (_ & Hpr & _). exact (fission_vals hbar epsilon0 cwf mn incident target Hmn A I HA E HE _ _ _ _ _ Hpr Hv). }
    rewrite Ev, Ew. cbn [nth]. assert (Hj : (j < length w)%nat). { rewrite Ew, ED in Ln. cbn in Ln. rewrite ED in Hd. cbn in Hd. assert (Q' : nth_error fis j <> None) by congruence. apply nth_error_Some in Q'. lia. }
    assert (Hw : In (nth j w 0%nat) (it_which i)) by (rewrite Ew; right; apply nth_In; exact Hj). specialize (Lt _ Hw).
    destruct (nth j w 0%nat) as [|[|[|u]]] eqn:Eu; try lia; try reflexivity. exfalso. rewrite Ew in N. inversion N as [|? ? N1 _]; subst. apply N1. rewrite <- Eu. apply nth_In. exact Hj.
Qed.
Lemma its_fac i fc : In i its -> channelFactor hbar (it_el i) E = Some fc -> fc = fac (it_Jpi i).
Proof. intros Hi Hf. destruct (its_legacy i Hi) as (r & L & _). exact (elastic_factor hbar mn incident target Hmn A I HA HI E _ r fc L Hf). Qed.

(** *** Different energies *)
Lemma natural_sign l : (if Nat.even l then 1 else -1)%Z = 1%Z <-> Nat.even l = true.
Proof. destruct (Nat.even l); split; intros; try reflexivity; discriminate. Qed.
Lemma block_numbers b : In b bs -> qJ (b_n b) = Z.abs (b_j b) /\ ql (b_n b) = rs_L (b_ls b) /\ qp (b_n b) = (if Nat.even (rs_L (b_ls b)) then 1 else -1)%Z.
Proof.
  intros Hb. destruct (good b Hb) as (([[E1 E2] _] & _ & _ & _ & HJ) & _). split; [exact E2|]. split; [exact E1|]. unfold Jpi_of in HJ. injection HJ as _ Q. exact Q.
Qed.
Lemma its_nodup jp : NoDup (concat (map it_energies (sel its jp))).
Proof.
  assert (Es : concat (map it_energies (sel its jp)) =
    concat (map (fun b => map rl_ER (rows_of (b_ls b) (b_j b))) (filter (fun b => (Z.abs (b_j b) =? fst jp)%Z && ((if Nat.even (rs_L (b_ls b)) then 1 else -1) =? snd jp)%Z) bs))).
  { unfold sel, its. rewrite filter_app, map_app, concat_app. assert (Z0 : forall l, concat (map it_energies (filter (has_Jpi jp) (map (empty_item inc0) l))) = []).
    { induction l as [|n l IH]; [reflexivity|]. cbn [map filter]. destruct (has_Jpi _ _); [cbn [map concat]; rewrite IH; reflexivity | exact IH]. }
    rewrite Z0, app_nil_r. assert (G : forall l, (forall b, In b l -> In b bs) -> concat (map it_energies (filter (has_Jpi jp) (map bitem l))) =
      concat (map (fun b => map rl_ER (rows_of (b_ls b) (b_j b))) (filter (fun b => (Z.abs (b_j b) =? fst jp)%Z && ((if Nat.even (rs_L (b_ls b)) then 1 else -1) =? snd jp)%Z) l))).
    { induction l as [|b l IH]; intros H; [reflexivity|]. cbn [map filter]. specialize (IH (fun x Hx => H x (or_intror Hx))).
      replace (has_Jpi jp (bitem b)) with ((Z.abs (b_j b) =? fst jp)%Z && ((if Nat.even (rs_L (b_ls b)) then 1 else -1) =? snd jp)%Z).
      - destruct (_ && _)%bool; [|exact IH]. cbn [map concat]. rewrite IH. f_equal. unfold it_energies. cbn [block_item it_rows]. rewrite map_map. reflexivity.
      - unfold has_Jpi. cbn [block_item it_el]. change (c_numbers (elasticC b)) with (b_n b). destruct (block_numbers b (H b (or_introl eq_refl))) as (-> & _ & ->). reflexivity. }
    apply G. auto. }
  rewrite Es. clear Es. set (J := fst jp). set (par := snd jp).
  destruct (Z.eq_dec par 1) as [E1|N1]; [|destruct (Z.eq_dec par (-1)) as [E2|N2]].
  3:{ rewrite filter_no; [constructor|]. intros b _. apply andb_false_intro2. apply Z.eqb_neq. destruct (Nat.even _); congruence. }
  1: set (even := true). 2: set (even := false).
  1,2: assert (Hpar : forall l, ((if Nat.even l then 1 else -1) =? par)%Z = Bool.eqb (Nat.even l) even) by (intros l; rewrite ?E1, ?E2; destruct (Nat.even l); reflexivity).
  1,2: refine (Permutation_NoDup _ (ni_separate _ _ _ _ _ _ _ Hin J even)).
  1,2: symmetry; unfold bs, of_wave; clear -Hbss Hpar; pose proof Hbss as G; clear Hbss; induction G as [|ls bl l m [Jb F] _ IH]; [constructor|]; cbn [concat filter].
  1,2: rewrite filter_app, map_app, concat_app.
  1,2: assert (Hl : Permutation (concat (map (fun b => map rl_ER (rows_of (b_ls b) (b_j b))) (filter (fun b => (Z.abs (b_j b) =? J)%Z && ((if Nat.even (rs_L (b_ls b)) then 1 else -1) =? par)%Z) bl)))
      (if Bool.eqb (Nat.even (rs_L ls)) even then map rl_ER (filter (fun x => Z.eqb (Z.abs (rl_AJ x)) J) (rs_lines ls)) else [])).
  1,3: assert (Er : concat (map (fun b => map rl_ER (rows_of (b_ls b) (b_j b))) (filter (fun b => (Z.abs (b_j b) =? J)%Z && ((if Nat.even (rs_L (b_ls b)) then 1 else -1) =? par)%Z) bl)) =
      if Bool.eqb (Nat.even (rs_L ls)) even then map rl_ER (concat (map (fun j => filter (fun x => Z.eqb (rl_AJ x) j) (rs_lines ls)) (filter (fun j => (Z.abs j =? J)%Z) (js_rm ls)))) else []).
  1,3: rewrite <- Jb; clear -F Hpar; induction bl as [|b bl IH]; [destruct (Bool.eqb _ _); reflexivity|]; inversion F as [|? ? (_ & El & _) F']; subst; specialize (IH F'); cbn [filter map];
      rewrite Hpar in *; destruct (Z.abs (b_j b) =? J)%Z; cbn [andb]; destruct (Bool.eqb (Nat.even (rs_L (b_ls b))) even); cbn [map concat]; rewrite ?map_app, ?IH; try exact IH; reflexivity.
  1,2: rewrite Er; destruct (Bool.eqb _ _); [|constructor]; apply Permutation_map; apply (grouped_perm rl_AJ (fun j => (Z.abs j =? J)%Z)); [apply su_nodup | intros x Hx; apply js_rm_In; exists x; auto].
  1,2: etransitivity; [apply Permutation_app; [exact Hl | exact IH]|]; destruct (Bool.eqb _ _); cbn [map concat app]; apply Permutation_refl.
Qed.

(** *** Sums *)
Hypothesis HV : forall i, In i its -> exists v, channelValues hbar epsilon0 cwf ShiftFactor (it_el i) E = Ok (Some v).
Variables (phi : rm_lstate -> R) (phi0 : nat -> R).
Hypothesis Hphi : forall ls, In ls (rf_lstates f) -> is_phase (rs_L ls) (k E * oval (radius_at (r_phi (rad ls)) E)) (phi ls).
Hypothesis Hphi0 : forall l, (l < nlsc)%nat -> is_phase l (k E * oval (radius_at (r_phi rad0) E)) (phi0 l).
Lemma its_P i : In i its -> 0 < P i.
Proof.
  intros Hi. destruct (its_legacy i Hi) as (r & L & P1 & P2). destruct (HV i Hi) as (v & Hv). unfold P. rewrite Hv.
  exact (proj1 (proj2 (elastic_values hbar epsilon0 cwf mn incident target Hh Hmn A I HA E HE _ r v L P1 P2 Hv))).
Qed.
Lemma over_blocks (H : rm_lstate -> Z -> R) : Rsum (map (fun b => H (b_ls b) (b_j b)) bs) =
  Rsum (map (fun ls => Rsum (map (H ls) (signed_J (rs_lines ls)))) (rf_lstates f)).
Proof.
  unfold bs. rewrite Rsum_concat. clear -Hbss. pose proof Hbss as G. clear Hbss. induction G as [|ls bl l m [Jb F] _ IH]; [reflexivity|]. cbn [map]. rewrite !Rsum_cons', IH. f_equal.
  rewrite <- (ListFacts.Rsum_perm _ _ (Permutation_map (H ls) (perm_js ls))), <- Jb, map_map. f_equal. apply map_ext_in. intros b Hb. rewrite Forall_forall in F. destruct (F b Hb) as (_ & -> & _). reflexivity.
Qed.
Section Kind.
Variable F : R -> R -> list resonance -> R.
Hypothesis HF : forall p x y t, cis (- (2 * x)) = cis (- (2 * y)) -> F p x t = F p y t.
Lemma block_sum : Rsum (map (fun i => fac (it_Jpi i) * F (P i) (phi' i) (it_rows i)) (map bitem bs)) =
  barns k E * Rsum (map (fun ls => newer_J k I a ls (F (P_rm k a ls E) (phi ls))) (rf_lstates f)).
Proof.
  rewrite map_map.
  rewrite (Rsum_ext _ (fun b => barns k E * (fun ls j => g_neutron I (Z.abs j) * F (P_rm k a ls E) (phi ls) (map (newer_of k a ls) (lines_of j (rs_lines ls)))) (b_ls b) (b_j b))).
  - rewrite Rsum_scale. f_equal. exact (over_blocks (fun ls j => g_neutron I (Z.abs j) * F (P_rm k a ls E) (phi ls) (map (newer_of k a ls) (lines_of j (rs_lines ls))))).
  - intros b Hb. assert (Hi : In (bitem b) its) by (apply in_or_app; left; apply in_map; exact Hb). destruct (HV _ Hi) as (v & Hv).
    destruct (good b Hb) as (G & Hls & P2). destruct (block_numbers b Hb) as (NJ & NL & _). pose proof (elastic_legacy hbar epsilon0 cwf mn incident target A I rad b G) as L.
    destruct G as (_ & _ & Er & P1 & _). rewrite Er in L, P1.
    destruct (elastic_values hbar epsilon0 cwf mn incident target Hh Hmn A I HA E HE _ _ v L P1 P2 Hv) as (Ev & _ & Hp).
    unfold P, phi'. rewrite Hv. change (c_numbers (elasticC b)) with (b_n b) in Ev, Hp. rewrite NL in Ev, Hp. unfold fac, it_Jpi. cbn [block_item it_el it_rows]. change (c_numbers (elasticC b)) with (b_n b).
    unfold Jpi_of. cbn [fst]. rewrite NJ, Rmult_assoc. f_equal. f_equal. replace (v_P v) with (P_rm k a (b_ls b) E) by (rewrite Ev; reflexivity).
    change (rows_of (b_ls b) (b_j b)) with (lines_of (b_j b) (rs_lines (b_ls b))). apply HF. exact (same_phase _ _ _ _ Hp (Hphi _ Hls)).
Qed.
(** what the channels without resonances give *)
Lemma empty_sum (S : R -> R) : (forall p x, F p x [] = S x) ->
  Rsum (map (fun i => fac (it_Jpi i) * F (P i) (phi' i) (it_rows i)) (map (empty_item inc0) remaining)) =
  barns k E * Rsum (map (fun n => g_neutron I (qJ n) * S (phi0 (ql n))) remaining).
Proof.
  intros HS. rewrite map_map, <- Rsum_scale. apply Rsum_ext. intros n Hn. assert (Hi : In (empty_item inc0 n) its) by (apply in_or_app; right; apply in_map; exact Hn).
  destruct (HV _ Hi) as (v & Hv). destruct (its_legacy _ Hi) as (r & _).
  assert (L : legacy_channel mn incident target A I (it_el (empty_item inc0 n)) rad0) by (exists inc0, n; auto).
  assert (Hm : 0 < A * mn) by (apply Rmult_lt_0_compat; assumption). destruct (ni_rad0 _ _ _ _ _ _ _ Hin) as [Hp0 Pr].
  destruct (prescribed_positive _ _ _ _ _ Hm Hp0 (ni_table _ _ _ _ _ _ _ Hin) Pr) as [P1 P2].
  destruct (elastic_values hbar epsilon0 cwf mn incident target Hh Hmn A I HA E HE _ _ v L P1 P2 Hv) as (_ & _ & Hp).
  unfold P, phi', fac, it_Jpi. rewrite Hv. cbn [empty_item it_el it_rows makeChannel c_numbers Jpi_of fst] in *. rewrite Rmult_assoc. f_equal. f_equal. rewrite <- (HS 0 (phi0 (ql n))), (HS (v_P v) (v_phi v)), <- (HS 0 (v_phi v)).
  apply HF. apply (same_phase _ _ _ _ Hp). apply Hphi0.
  assert (Q : In n required) by (apply (Permutation_in n (Permutation_sym (proj1 (retrieveAll_spec _ _ _ _ Hret)))), in_or_app; right; exact Hn).
  destruct (makeQuantumNumbers_spec 1 I nlsc) as (qs & Eq & _ & Iq); [unfold is_spin; lia | exact HI|]. rewrite Hreq in Eq. injection Eq as <-. apply Iq in Q. exact (proj1 Q).
Qed.
End Kind.
Lemma weight_sum : Rsum (map (fun n => g_neutron I (qJ n) * scattered (cis (- (2 * phi0 (ql n))))) remaining) =
  Rsum (map (newer_rest I phi0 (rf_lstates f)) (seq 0 nlsc)).
Proof.
  destruct (makeQuantumNumbers_spec 1 I nlsc) as (qs & Eq & Nq & Iq); [unfold is_spin; lia | exact HI|]. rewrite Hreq in Eq. injection Eq as <-.
  pose proof (proj1 (retrieveAll_spec _ _ _ _ Hret)) as Perm. fold bs in Perm.
  rewrite (partition_nat ql _ remaining nlsc).
  2:{ intros n Hn. assert (Q : In n required) by (apply (Permutation_in n (Permutation_sym Perm)), in_or_app; right; exact Hn). apply Iq in Q. exact (proj1 Q). }
  apply Rsum_ext. intros l Hl. apply in_seq in Hl. unfold newer_rest.
  assert (G : forall q, statisticalSpinFactor (qJ q) 1 I = g_neutron I (qJ q)).
  { intros q. rewrite factor_alt by (try exact HI; unfold is_spin; lia). unfold g_neutron. rewrite !plus_IZR. reflexivity. }
  pose proof (spin_factor_sum 1 I nlsc l required ltac:(unfold is_spin; lia) HI ltac:(lia) Hreq) as W.
  rewrite (ListFacts.Rsum_perm _ _ (Permutation_map _ (filter_perm (fun q => Nat.eqb (ql q) l) _ _ Perm))) in W. rewrite filter_app, map_app, ListFacts.Rsum_app in W.
  assert (W1 : Rsum (map (fun q => statisticalSpinFactor (qJ q) 1 I) (filter (fun q => Nat.eqb (ql q) l) (map b_n bs))) = Rsum (map (accounted I) (filter (fun ls => Nat.eqb (rs_L ls) l) (rf_lstates f)))).
  { transitivity (Rsum (map (fun b => (if Nat.eqb (rs_L (b_ls b)) l then g_neutron I (Z.abs (b_j b)) else 0)) bs)).
    - assert (Q : forall m, (forall b, In b m -> In b bs) -> Rsum (map (fun q => statisticalSpinFactor (qJ q) 1 I) (filter (fun q => Nat.eqb (ql q) l) (map b_n m))) =
        Rsum (map (fun b => if Nat.eqb (rs_L (b_ls b)) l then g_neutron I (Z.abs (b_j b)) else 0) m)).
      { induction m as [|b m IH]; intros Hm; [reflexivity|]. cbn [map filter]. destruct (block_numbers b (Hm b (or_introl eq_refl))) as (NJ & NL & _). rewrite NL, Rsum_cons'.
        destruct (Nat.eqb (rs_L (b_ls b)) l); cbn [map]; [rewrite Rsum_cons', G, NJ; f_equal | rewrite Rplus_0_l]; apply IH; intros x Hx; apply Hm; right; exact Hx. }
      apply Q. auto.
    - rewrite (over_blocks (fun ls j => if Nat.eqb (rs_L ls) l then g_neutron I (Z.abs j) else 0)). clear. induction (rf_lstates f) as [|ls lss IH]; [reflexivity|]. cbn [map filter]. rewrite Rsum_cons', IH.
      destruct (Nat.eqb (rs_L ls) l) eqn:El; cbn [map]; [rewrite Rsum_cons'; reflexivity|]. rewrite Rsum_zero; [ring | reflexivity]. }
  rewrite W1 in W.
  rewrite (Rsum_ext _ (fun n => scattered (cis (- (2 * phi0 l))) * statisticalSpinFactor (qJ n) 1 I)).
  - rewrite Rsum_scale. replace (2 * INR l + 1) with (Rsum (map (accounted I) (filter (fun ls => (rs_L ls =? l)%nat) (rf_lstates f))) + Rsum (map (fun q => statisticalSpinFactor (qJ q) 1 I) (filter (fun q => Nat.eqb (ql q) l) remaining))) by exact W. ring.
  - intros n Hn. apply filter_In in Hn as [_ Hn]. apply Nat.eqb_eq in Hn. rewrite G, Hn. ring.
Qed.
End Items.

Lemma opened nlsc gs : makeReichMooreCompoundSystem hbar epsilon0 cwf mn incident target f nlsc nro naps = Ok (Some gs) ->
  exists inc required remaining bss ds out, makeQuantumNumbers 1 I nlsc = Ok required /\ legacyPair mn incident target A I = Ok inc /\
    Forall2 (fun ls bs => map b_j bs = js_rm ls /\ Forall (fun b => b_ok b /\ b_ls b = ls /\
       legacyPair mn incident target (rs_AWRI ls) I = Ok (b_inc b) /\
       makeChannelRadii (if Req_EM_T (rs_APL ls) 0 then rf_AP f else rs_APL ls) nro naps (rs_AWRI ls) mn = Ok (b_rad b)) bs) (rf_lstates f) bss /\
    ds = concat (map b_ds (concat bss)) /\ retrieveAll (map request (concat bss)) required = Ok (map b_n (concat bss), remaining) /\
    consolidated (concat (map it_ds (map bitem (concat bss) ++ map (empty_item inc) remaining))) out /\ makeSystemFromData out = Ok gs.
Proof.
  intros H. unfold makeReichMooreCompoundSystem in H. destruct (rf_lstates f) as [|first rest] eqn:Ef; [discriminate|].
  apply bind_Ok in H as (inc & Ei & H). apply bind_Ok in H as (rad1 & Er & H). apply bind_Ok in H as (required & Eq & H). apply bind_Ok in H as ([ods remaining] & Ea & H). cbn [fst snd] in H.
  rewrite empties in H. cbn [bind] in H. destruct ods as [ds|]; [|discriminate]. apply bind_Ok in H as (out & Eo & H).
  destruct (makeSystemFromData out) as [gs1| | |] eqn:Em; try discriminate. cbn in H. injection H as ->.
  assert (HAf : rs_AWRI first = A) by (apply (ni_AWRI _ _ _ _ _ _ _ Hin); rewrite Ef; left; reflexivity). rewrite HAf in Ei, Er.
  assert (Hm : 0 < A * mn) by (apply Rmult_lt_0_compat; assumption).
  pose proof (prescribed_made _ _ _ _ _ _ _ Hm (proj2 (ni_rad0 _ _ _ _ _ _ _ Hin)) Er) as Er'. subst rad1.
  rewrite <- Ef in Ea |- *. destruct (blocks_all _ _ _ _ _ _ _ _ _ _ _ _ _ _ Ea) as (bss & Fb & Ed & Rt).
  set (all := ds ++ map (fun n => mkChannelData (makeChannel Neutron inc inc (pp_id inc) 0 n rad0 0) [] [] false) remaining) in *.
  assert (Cc : forall d, In d all -> consistent d).
  { intros d. exact (whole_consistent hbar epsilon0 cwf mn incident target f nro naps inc rad0 remaining bss ds Fb Ed d). }
  pose proof (consolidate_result all out Cc Eo) as K.
  pose proof (its_all inc remaining bss ds Ed) as Eall. fold all in Eall. rewrite <- Eall in K.
  exists inc, required, remaining, bss, ds, out. repeat (split; [first [exact Eq | exact Ei | exact Fb | exact Ed | exact Rt | exact K] |]). exact Em.
Qed.
Theorem newer_file nlsc gs objects m gs' m' phi phi0 : makeReichMooreCompoundSystem hbar epsilon0 cwf mn incident target f nlsc nro naps = Ok (Some gs) ->
  map (@projT1 _ _) objects = gs -> evaluateSystem hbar epsilon0 cwf ShiftFactor objects E m = Ok (Some (gs', m')) ->
  (forall ls, In ls (rf_lstates f) -> is_phase (rs_L ls) (k E * oval (radius_at (r_phi (rad ls)) E)) (phi ls)) ->
  (forall l, (l < nlsc)%nat -> is_phase l (k E * oval (radius_at (r_phi rad0) E)) (phi0 l)) ->
  value_of (m' kE) = value_of (m kE) + newer_elastic k E I a phi phi0 nlsc (rf_lstates f) /\
  value_of (m' kF) = value_of (m kF) + newer_fission k E I a phi (rf_lstates f) /\
  value_of (m' kC) = value_of (m kC) + newer_capture k E I a phi (rf_lstates f) /\
  (forall r, r <> kE -> r <> kF -> r <> kC -> m' r = m r).
Proof.
  intros H Ho Hev Hphi Hphi0. destruct (opened nlsc gs H) as (inc & required & remaining & bss & ds & out & Eq & Ei & Fb & Ed & Rt & K & Em).
  pose proof (its_ok nlsc inc required remaining bss Eq Fb Rt) as Hok.
  pose proof (system_items Hok K Em Ho Hev) as HV.
  assert (NX : X <> "fission"%string) by (apply (X_not incident target); reflexivity).
  destruct (@newer_plain hbar epsilon0 cwf E _ out X kE kF P phi' fac Hok K (its_nodup nlsc inc required remaining bss Eq Fb Rt)
    (its_react nlsc inc required remaining bss ds Eq Ei Fb Ed Rt) ltac:(discriminate) ltac:(discriminate) ltac:(discriminate)
    (its_P nlsc inc required remaining bss Eq Ei Fb Rt HV) (its_val nlsc inc required remaining bss ds Eq Ei Fb Ed Rt) (its_fac nlsc inc required remaining bss Eq Ei Fb Rt) gs objects m gs' m' Em Ho Hev) as (Q1 & Q2 & Q3 & Q4).
  fold kC in Q3, Q4. rewrite Q1, Q2, Q3, !map_app, !ListFacts.Rsum_app.
  assert (FE : forall p x y t, cis (- (2 * x)) = cis (- (2 * y)) -> J_elastic E p x t = J_elastic E p y t) by (intros p x y t Q; symmetry; apply (J_phase E p t Q)).
  assert (FF : forall p x y t, cis (- (2 * x)) = cis (- (2 * y)) -> J_fission E p x t = J_fission E p y t) by (intros p x y t Q; symmetry; apply (J_phase E p t Q)).
  assert (FC : forall p x y t, cis (- (2 * x)) = cis (- (2 * y)) -> J_capture E p x t = J_capture E p y t) by (intros p x y t Q; symmetry; apply (J_phase E p t Q)).
  rewrite (block_sum nlsc inc required remaining bss Eq Fb Rt HV phi Hphi (J_elastic E) FE), (block_sum nlsc inc required remaining bss Eq Fb Rt HV phi Hphi (J_fission E) FF),
    (block_sum nlsc inc required remaining bss Eq Fb Rt HV phi Hphi (J_capture E) FC).
  rewrite (empty_sum nlsc inc required remaining bss Eq Ei Fb Rt HV phi0 Hphi0 (J_elastic E) FE (fun x => scattered (cis (- (2 * x))))) by (intros p x; apply J_nil).
  rewrite (empty_sum nlsc inc required remaining bss Eq Ei Fb Rt HV phi0 Hphi0 (J_fission E) FF (fun x => 0)) by (intros p x; apply J_nil).
  rewrite (empty_sum nlsc inc required remaining bss Eq Ei Fb Rt HV phi0 Hphi0 (J_capture E) FC (fun x => 0)) by (intros p x; apply J_nil).
  rewrite (weight_sum nlsc required remaining bss Eq Fb Rt phi0).
  rewrite (Rsum_zero (fun n => g_neutron I (qJ n) * 0) remaining) by (intros; ring).
  unfold newer_elastic, newer_fission, newer_capture. rewrite Rmult_plus_distr_l, !Rmult_0_r, !Rplus_0_r. auto.
Qed.

(** *** When the evaluation succeeds *)
Lemma signed_zero x : signed_sqrt (x / 2) <> 0 <-> x <> 0.
Proof.
  unfold signed_sqrt. destruct (Rlt_dec (x / 2) 0) as [H|H].
  - assert (0 < sqrt (- (x / 2))) by (apply sqrt_lt_R0; lra). lra.
  - destruct (Req_EM_T x 0) as [->|N]; [replace (0 / 2) with 0 by field; rewrite sqrt_0; tauto|]. assert (0 < sqrt (x / 2)) by (apply sqrt_lt_R0; lra). lra.
Qed.
Lemma prescribed_at ap m0 r : prescribed ap m0 nro naps r -> (forall t, nro = Some t -> exists x, t E = Ok x) ->
  (exists x, radius_at (r_P r) E = Ok x) /\ exists x, radius_at (r_phi r) E = Ok x.
Proof.
  intros Pr Ht. assert (F : forall x, exists y, radius_at (Fixed x) E = Ok y) by (intros x; eexists; reflexivity).
  assert (T : forall t, nro = Some t -> exists y, radius_at (Tabulated t) E = Ok y) by (intros t Q; exact (Ht t Q)). clear Ht.
  destruct nro as [t|], naps as [|[|[|n]]]; cbn in Pr; try contradiction.
  - destruct Pr as [(x & Hx & -> & _) ->]. auto.
  - destruct Pr as (-> & _ & ->). auto.
  - destruct Pr as (-> & _ & ->). auto.
  - destruct Pr as [(x & Hx & -> & _) ->]. auto.
  - destruct Pr as (-> & _ & ->). auto.
Qed.
Theorem newer_evaluates nlsc gs objects m : makeReichMooreCompoundSystem hbar epsilon0 cwf mn incident target f nlsc nro naps = Ok (Some gs) ->
  map (@projT1 _ _) objects = gs -> (forall t, nro = Some t -> exists r, t E = Ok r) ->
  ((nlsc <= 5)%nat /\ (forall ls x, In ls (rf_lstates f) -> In x (rs_lines ls) -> rl_ER x <> E \/ rl_GG x <> 0)) <->
  exists gs' m', evaluateSystem hbar epsilon0 cwf ShiftFactor objects E m = Ok (Some (gs', m')).
Proof.
  intros H Ho Ht. destruct (opened nlsc gs H) as (inc & required & remaining & bss & ds & out & Eq & Ei & Fb & Ed & Rt & K & Em).
  pose proof (its_ok nlsc inc required remaining bss Eq Fb Rt) as Hok.
  pose proof (its_nodup nlsc inc required remaining bss Eq Fb Rt) as HN.
  destruct (makeQuantumNumbers_spec 1 I nlsc) as (qs & Eq' & _ & Iq); [unfold is_spin; lia | exact HI|]. rewrite Eq in Eq'. injection Eq' as <-.
  pose proof (proj1 (retrieveAll_spec _ _ _ _ Rt)) as Perm.
  assert (Hm : 0 < A * mn) by (apply Rmult_lt_0_compat; assumption).
  assert (Rad0 : (exists x, radius_at (r_P rad0) E = Ok x) /\ exists x, radius_at (r_phi rad0) E = Ok x) by (exact (prescribed_at _ _ _ (proj2 (ni_rad0 _ _ _ _ _ _ _ Hin)) Ht)).
  assert (Pos0 : positive (radius_at (r_P rad0)) /\ positive (radius_at (r_phi rad0))).
  { destruct (ni_rad0 _ _ _ _ _ _ _ Hin) as [Hp Pr]. exact (prescribed_positive _ _ _ _ _ Hm Hp (ni_table _ _ _ _ _ _ _ Hin) Pr). }
  assert (Rads : forall ls, In ls (rf_lstates f) -> ((exists x, radius_at (r_P (rad ls)) E = Ok x) /\ exists x, radius_at (r_phi (rad ls)) E = Ok x) /\
     positive (radius_at (r_P (rad ls))) /\ positive (radius_at (r_phi (rad ls)))).
  { intros ls Hls. destruct (ni_rad _ _ _ _ _ _ _ Hin ls Hls) as [Hp Pr]. split; [exact (prescribed_at _ _ _ Pr Ht) | exact (prescribed_positive _ _ _ _ _ Hm Hp (ni_table _ _ _ _ _ _ _ Hin) Pr)]. }
  pose proof (good nlsc required remaining bss Eq Fb Rt) as Good.
  split.
  - intros (Hl & Hreg).
    assert (Ql : forall q, In q required -> (ql q <= 4)%nat) by (intros q Hq; apply Iq in Hq; pose proof (proj1 Hq); lia).
    apply (@system_succeeds hbar epsilon0 cwf E _ out Hok K HN) with (gs := gs); try assumption.
    + intros i j d Hi Hd. exact (proj1 (proj2 (its_react nlsc inc required remaining bss ds Eq Ei Fb Ed Rt i j d Hi Hd))).
    + intros i j d Hi Hd.
      assert (Hv : exists v, channelValues hbar epsilon0 cwf ShiftFactor (cd_channel d) E = Ok (Some v)).
      { apply in_app_or in Hi as [Hi|Hi]; apply in_map_iff in Hi as (x & <- & Hx).
        - destruct (Good x Hx) as (G & Hls & _). pose proof (elastic_legacy hbar epsilon0 cwf mn incident target A I rad x G) as L.
          destruct (Rads _ Hls) as (((r & Er) & (r' & Er')) & P1 & P2).
          destruct (block_D hbar epsilon0 cwf mn incident target Hh Hmn A I HA rad x G) as (el & fi & ED' & FF). rewrite ED' in Hd.
          pose proof (forall2_nth _ _ _ FF j d 0%nat Hd) as (_ & _ & _ & Q). pose proof G as (_ & _ & Erad & _ & _). rewrite Erad in L.
          destruct (nth j (which_of x) 0%nat) as [|u].
          + rewrite Q. apply (elastic_total hbar epsilon0 cwf mn incident target Hh Hmn A I HA E HE _ _ r r' L Er (P1 E r Er) Er' (P2 E r' Er')).
            change (c_numbers (elasticC x)) with (b_n x). apply Ql. apply (Permutation_in _ (Permutation_sym Perm)), in_or_app. left. apply in_map. exact Hx.
          + destruct Q as (name & Ec). rewrite Ec. rewrite Erad. exact (fission_total hbar epsilon0 cwf E _ _ _ _ r r' Er Er').
        - cbn in Hd. destruct j as [|[|j]]; try discriminate. injection Hd as <-. cbn [cd_channel]. destruct Rad0 as ((r & Er) & (r' & Er')). destruct Pos0 as [P1 P2].
          assert (L : legacy_channel mn incident target A I (makeChannel Neutron inc inc (pp_id inc) 0 x rad0 0) rad0) by (exists inc, x; auto).
          apply (elastic_total hbar epsilon0 cwf mn incident target Hh Hmn A I HA E HE _ _ r r' L Er (P1 E r Er) Er' (P2 E r' Er')).
          cbn [makeChannel c_numbers]. apply Ql. apply (Permutation_in _ (Permutation_sym Perm)), in_or_app. right. exact Hx. }
      destruct Hv as (v & Hv). exists v. split; [exact Hv|].
      pose proof (its_val nlsc inc required remaining bss ds Eq Ei Fb Ed Rt i j d v Hi Hd Hv) as Ev. rewrite Ev.
      assert (HP : 0 <= P i).
      { destruct (its_legacy nlsc inc required remaining bss Eq Ei Fb Rt i Hi) as (r & L & P1 & P2). unfold P.
        destruct (channelValues hbar epsilon0 cwf ShiftFactor (it_el i) E) as [[w|]| | |] eqn:Ew; try lra.
        destruct (elastic_values hbar epsilon0 cwf mn incident target Hh Hmn A I HA E HE _ r w L P1 P2 Ew) as (_ & Q & _). lra. }
      destruct (nth j (it_which i) 0%nat) as [|[|[|u]]]; cbn; try lra. destruct u; cbn; lra.
    + intros i Hi. destruct (its_legacy nlsc inc required remaining bss Eq Ei Fb Rt i Hi) as (r & L & _). exact (factor_total hbar mn incident target Hh Hmn A I HA E HE _ r L).
    + intros i x Hi Hx. apply in_app_or in Hi as [Hi|Hi]; apply in_map_iff in Hi as (y & <- & Hy); [|destruct Hx].
      cbn [block_item it_rows] in Hx. apply in_map_iff in Hx as (z & <- & Hz). destruct (Good y Hy) as (_ & Hls & _).
      cbn [newer_of rs_energy rs_eliminated]. rewrite signed_zero. apply (Hreg (b_ls y) z Hls). unfold rows_of in Hz. apply filter_In in Hz. apply Hz.
  - intros (gs' & m' & Hev). split.
    + pose proof (system_items Hok K Em Ho Hev) as HV. destruct (le_lt_dec nlsc 5) as [|Q]; [assumption|]. exfalso.
      assert (Hq : exists q, In q required /\ ql q = 5%nat).
      { set (s := Z.abs (I - 1)). exists (mkQ 5 s (Z.abs (10 - s)) (-1)). split; [|reflexivity]. apply Iq. unfold spec_number; cbn [ql QuantumModel.qs qJ qp]. pose proof HI as Q0. unfold is_spin, I in Q0. unfold triangle, s, I; cbn [Nat.even]. change (2 * Z.of_nat 5)%Z with 10%Z. repeat split; try lia.
        - destruct (Z.le_gt_cases 1 (rf_SPI f)); [exists (rf_SPI f) | exists 1%Z]; lia.
        - destruct (Z.le_gt_cases (Z.abs (rf_SPI f - 1)) 10); [exists 10%Z | exists (Z.abs (rf_SPI f - 1))]; lia. }
      destruct Hq as (q & Hq & El). apply (Permutation_in _ Perm) in Hq. apply in_app_or in Hq as [Hq|Hq].
      * apply in_map_iff in Hq as (b & <- & Hb). destruct (Good b Hb) as (G & Hls & _). pose proof (elastic_legacy hbar epsilon0 cwf mn incident target A I rad b G) as L. pose proof G as (_ & _ & Erad & P1 & _).
        destruct (HV (bitem b)) as (v & Hv); [apply in_or_app; left; apply in_map; exact Hb|]. pose proof (elastic_l hbar epsilon0 cwf mn incident target Hh Hmn A I HA E _ _ v L P1 Hv) as Z.
        change (c_numbers (elasticC b)) with (b_n b) in Z. lia.
      * destruct (HV (empty_item inc q)) as (v & Hv); [apply in_or_app; right; apply in_map; exact Hq|].
        assert (L : legacy_channel mn incident target A I (makeChannel Neutron inc inc (pp_id inc) 0 q rad0 0) rad0) by (exists inc, q; auto).
        pose proof (elastic_l hbar epsilon0 cwf mn incident target Hh Hmn A I HA E _ _ v L (proj1 Pos0) Hv) as Z. cbn [makeChannel c_numbers] in Z. lia.
    + intros ls x Hls Hx. rewrite <- (signed_zero (rl_GG x)).
      assert (Hb : exists b, In b (concat bss) /\ b_ls b = ls /\ b_j b = rl_AJ x).
      { clear -Fb Hls Hx. pose proof Fb as G. clear Fb. induction G as [|ls' bl l mm [Jb F] _ IH]; [destruct Hls|]. destruct Hls as [->|Hls].
        - assert (Hj : In (rl_AJ x) (map b_j bl)) by (rewrite Jb; apply js_rm_In; exists x; auto). apply in_map_iff in Hj as (b & Ej & Hb). exists b. split; [cbn; apply in_or_app; left; exact Hb|].
          rewrite Forall_forall in F. destruct (F b Hb) as (_ & El & _). auto.
        - destruct (IH Hls) as (b & Hb & Q). exists b. split; [cbn; apply in_or_app; right; exact Hb | exact Q]. }
      destruct Hb as (b & Hb & El & Ej).
      apply (system_regular Hok K HN Em Ho Hev (i := bitem b) (x := newer_of k a ls x)); [apply in_or_app; left; apply in_map; exact Hb|].
      cbn [block_item it_rows]. rewrite El. apply in_map. unfold rows_of. apply filter_In. split; [exact Hx|]. rewrite Ej. apply Z.eqb_refl.
Qed.
End Theorem_.
