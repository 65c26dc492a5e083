(** The cross sections of a Reich-Moore file written in the R-Matrix Limited format. *)
From Coq Require Import String List ZArith Reals Bool Lra Lia Permutation.
From Verif Require Import Outcome QuantumModel QuantumSpec QuantumProofs HardSphereModel HardSphereSpec HardSphereProofs KinematicsModel CoulombModel
  Cplx RMatrixModel ChannelModel SpinGroupModel BreitWignerModel BreitWignerSpec BreitWignerSystemProofs ReichMooreModel LegacyModel LegacyProofs ListFacts AssemblyModel
  AssemblySpec AssemblyTheorems EndfModel EndfSpec EndfProofs EndfFlagProofs EndfReichMooreProofs LimitedProofs LimitedTheorems ReichMooreSpec ReichMooreProofs KMatrixSpec KMatrixMore
  NewerItems NewerFacts NewerSuccess NewerRMSpec NewerFile NewerWhole NewerTheorems ConversionSpec ConversionProofs.
Import ListNotations.
Open Scope R_scope.

(** ** Lists *)
Lemma paired {T U} (Q : U -> T -> Prop) ws ts : Forall2 Q ws ts ->
  exists en : list (T * option U), map fst en = ts /\ map snd en = map Some ws /\ forall x, In x en -> exists w, snd x = Some w /\ In w ws /\ Q w (fst x).
Proof.
  induction 1 as [|w t ws ts H _ (en & E1 & E2 & E3)]; [exists []; repeat split; intros x []|].
  exists ((t, Some w) :: en). cbn [map fst snd]. split; [congruence|]. split; [congruence|].
  intros x [<-|Hx]; [exists w; cbn; auto|]. destruct (E3 x Hx) as (w' & A & B & C). exists w'. split; [exact A|]. split; [right; exact B | exact C].
Qed.
Lemma perm_filter {T} (p : T -> bool) l l' : Permutation l l' -> Permutation (filter p l) (filter p l').
Proof.
  induction 1 as [|x l l' _ IH|x y l|l m n _ IH1 _ IH2]; cbn; [constructor | destruct (p x); [constructor|]; exact IH | | exact (perm_trans IH1 IH2)].
  destruct (p x), (p y); try reflexivity. apply perm_swap.
Qed.
Lemma perm_concat {T} (l l' : list (list T)) : Permutation l l' -> Permutation (concat l) (concat l').
Proof.
  induction 1 as [|x l l' _ IH|x y l|l m n _ IH1 _ IH2]; cbn; [constructor | apply Permutation_app_head; exact IH | | exact (perm_trans IH1 IH2)].
  rewrite !app_assoc. apply Permutation_app_tail, Permutation_app_comm.
Qed.
Lemma parity_same spin par p : parity_of spin par p -> endfParity spin par = p.
Proof. intros H. exact (parity_unique _ _ _ _ (parity_spec _ _) H). Qed.
Lemma wave_in f w : In w (waves f) <-> In (fst w) (rf_lstates f) /\ In (snd w) (signed_J (rs_lines (fst w))).
Proof.
  unfold waves. rewrite in_concat. split.
  - intros (l & Hl & Hw). apply in_map_iff in Hl as (ls & <- & Hls). apply in_map_iff in Hw as (j & <- & Hj). auto.
  - intros [H1 H2]. exists (map (pair (fst w)) (signed_J (rs_lines (fst w)))). split; [exact (in_map (fun ls => map (pair ls) (signed_J (rs_lines ls))) _ _ H1)|].
    destruct w as [ls j]. apply in_map. exact H2.
Qed.
Lemma wave_some f w : In w (waves f) -> wave_lines w <> [].
Proof.
  intros H. apply wave_in in H as [_ H]. unfold signed_J in H. apply nodup_In, in_map_iff in H as (x & E & Hx). intros Q.
  assert (Hin : In x (wave_lines w)) by (unfold wave_lines, lines_of; apply filter_In; split; [exact Hx | apply Z.eqb_eq; exact E]). rewrite Q in Hin. destruct Hin.
Qed.
Lemma over_waves (H : rm_lstate -> Z -> R) f : Rsum (map (fun w => H (fst w) (snd w)) (waves f)) = Rsum (map (fun ls => Rsum (map (H ls) (signed_J (rs_lines ls)))) (rf_lstates f)).
Proof.
  unfold waves. rewrite Rsum_concat, map_map. f_equal. apply map_ext. intros ls. rewrite map_map. reflexivity.
Qed.

Section Theorem_.
Variables (hbar epsilon0 : R) (cwf : nat -> R -> R -> outcome coulomb) (mn elementaryCharge : R) (incident target : string)
  (products : Z -> outcome (string * string)).
Hypotheses (Hh : 0 < hbar) (Hmn : 0 < mn).
Let X : string := (incident ++ "," ++ target)%string.
Let kE : reactionID := Elastic incident target.
Let kF : reactionID := Transfer X "fission".
Let kC : reactionID := Transfer X "capture".
Hypothesis Hcap : forall a b, products 102%Z = Ok (a, b) -> (a ++ "," ++ b)%string <> X.
Variables (f : rm_file) (nlsc : nat) (A : R) (nro : option (R -> outcome R)) (naps : nat) (rad : rm_lstate -> radii) (rad0 : radii) (g : endf_limited).
Hypothesis Hin : newer_input mn f A nro naps rad rad0.
Hypothesis Hcv : converted f nlsc A rad rad0 g.
Let I := rf_SPI f.
Let HA : 0 < A := ni_A _ _ _ _ _ _ _ Hin.
Let HI : is_spin I := ni_spin _ _ _ _ _ _ _ Hin.
Let k := k_old (C_new hbar mn) A.
Let a (ls : rm_lstate) (e : R) : R := oval (radius_at (r_P (rad ls)) e).
Lemma rad_positive ls : In ls (rf_lstates f) -> positive (radius_at (r_P (rad ls))) /\ positive (radius_at (r_phi (rad ls))).
Proof.
  intros H. assert (Hm : 0 < A * mn) by (apply Rmult_lt_0_compat; assumption). destruct (ni_rad _ _ _ _ _ _ _ Hin _ H) as (Hp & Pr).
  exact (prescribed_positive _ _ _ _ _ Hm Hp (ni_table _ _ _ _ _ _ _ Hin) Pr).
Qed.
Lemma rad0_positive : positive (radius_at (r_P rad0)) /\ positive (radius_at (r_phi rad0)).
Proof.
  assert (Hm : 0 < A * mn) by (apply Rmult_lt_0_compat; assumption). destruct (ni_rad0 _ _ _ _ _ _ _ Hin) as (Hp & Pr).
  exact (prescribed_positive _ _ _ _ _ Hm Hp (ni_table _ _ _ _ _ _ _ Hin) Pr).
Qed.

(** ** The items *)
Section Items.
Variables (el cap : endf_pair) (rest : list endf_pair) (pairs : list particlePair) (inc p2 : particlePair) (ps : list particlePair).
Let es := el :: cap :: rest.
Hypotheses (Hpairs : makeParticlePairs mn elementaryCharge incident target products es = Ok pairs)
  (Hel : ep_MT el = 2%Z /\ ep_MA el = 1 /\ ep_MB el = A /\ ep_ZA el = 0 /\ Z.abs (ep_IA el) = 1%Z /\ Z.abs (ep_IB el) = I /\ ep_Q el = 0)
  (Hca : ep_MT cap = 102%Z)
  (Ep : pairs = inc :: p2 :: ps) (I1 : pp_id inc = X) (I2 : p_id (pp_particle inc) = incident) (I3 : p_id (pp_residual inc) = target)
  (I4 : p_charge (pp_particle inc) = 0) (I5 : p_spin (pp_particle inc) = 1%Z) (I6 : p_spin (pp_residual inc) = I)
  (I7 : pp_reduced inc = Some (mn * (A * mn) / (mn + A * mn))) (I8 : pp_ratio inc = Some (A * mn / (mn + A * mn)))
  (N2 : pp_id p2 <> X) (Fr : Forall2 (fun e p => makeEndfPair mn elementaryCharge incident target products e = Ok p) rest ps).
Definition data_at (h : endf_group) : list channel_data :=
  match makeParticleChannelData hbar epsilon0 cwf inc pairs es false h with Ok (Some d) => d | _ => [] end.
Definition first_entry (h : endf_group) : endf_channel := match eg_channels h with c :: _ => c | [] => mkEChannel 0 0 0 0 0 0 end.
Definition elastic_at (h : endf_group) : channel := elastic_of incident target inc h (first_entry h).
Definition item_of (x : endf_group * option wave) : item :=
  match snd x with
  | Some w => wave_item hbar mn incident target A inc rad (fst x) w (first_entry (fst x)) (data_at (fst x))
  | None => mkItem (elastic_at (fst x)) (data_at (fst x)) [] [0%nat]
  end.
Definition good_entry (x : endf_group * option wave) : Prop :=
  makeParticleChannelData hbar epsilon0 cwf inc pairs es false (fst x) = Ok (Some (data_at (fst x))) /\
  match snd x with
  | Some w => In w (waves f) /\ wave_group es (rad (fst w)) w (fst x)
  | None => empty_group rad0 nlsc (fst x)
  end.
Definition radii_at (x : endf_group * option wave) : radii := match snd x with Some w => rad (fst w) | None => rad0 end.
Definition l_at (x : endf_group * option wave) : nat := match snd x with Some w => rs_L (fst w) | None => group_l (fst x) end.
Lemma el_item x : it_el (item_of x) = elastic_at (fst x).
Proof. unfold item_of. destruct (snd x); reflexivity. Qed.
Lemma entry_facts x : good_entry x -> item_ok (item_of x) /\ radii_of (first_entry (fst x)) = radii_at x /\ ec_L (first_entry (fst x)) = l_at x /\
  positive (radius_at (r_P (radii_at x))) /\ positive (radius_at (r_phi (radii_at x))) /\
  (forall j d, nth_error (it_D (item_of x)) (S j) = Some d -> exists p3 q d3, pp_id p3 = "fission"%string /\ 0 <= q /\ ec_BND d3 = 0 /\ cd_channel d = fission_of inc p3 q (fst x) d3).
Proof.
  intros (Hd & G). unfold item_of, radii_at, l_at. destruct (snd x) as [w|].
  - destruct G as (Hw & G). pose proof (proj1 (wave_in f w) Hw) as (Hls & _). destruct (rad_positive _ Hls) as [P1 P2].
    destruct (wave_data hbar epsilon0 cwf mn elementaryCharge incident target products Hh Hmn A I HA HI Hcap el cap rest pairs Hpairs Hel Hca inc p2 ps Ep I1 I2 I3 I4 I5 I6 I7 I8 N2 Fr rad (fst x) w _ G (wave_some f w Hw) P1 Hd) as (c & [E1 E2 E3 E4] & Hc & Ok & Fi).
    assert (Ec : first_entry (fst x) = c) by (unfold first_entry; destruct (eg_channels (fst x)); [discriminate | injection Hc as ->; reflexivity]).
    rewrite Ec. split; [exact Ok|]. split; [symmetry; exact E4|]. split; [exact E2|]. split; [exact P1|]. split; [exact P2|]. exact Fi.
  - destruct rad0_positive as [P1 P2]. destruct G as [Gn Gl (c & d & Hc & [E1 E2 E3 E4] & PD)].
    assert (Ec : first_entry (fst x) = c) by (unfold first_entry; rewrite Hc; reflexivity).
    pose proof (empty_data hbar epsilon0 cwf incident target A I el cap rest pairs Hel Hca inc p2 ps Ep I1 I2 I3 I4 N2 (fst x) c d _ Gn Hc E1 E3 PD Hd) as Ed.
    unfold elastic_at. rewrite Ec, Ed. split; [|split; [symmetry; exact E4|]; split; [exact E2|]; split; [exact P1|]; split; [exact P2|]; intros [|j] y Hy; discriminate].
    constructor; cbn.
    + intros y [<-|[]]. reflexivity.
    + intros y [<-|[]]. reflexivity.
    + eexists. eexists. split; reflexivity.
    + split; [eexists; reflexivity|]. split; [reflexivity|]. split; [intros u [<-|[]]; lia | repeat constructor; intros []].
    + intros [|i] y Hy; [injection Hy as <-; split; reflexivity | destruct i; discriminate].
    + intros y u [].
    + reflexivity.
Qed.
Lemma entry_twin x : good_entry x -> exists d, twins (it_el (item_of x)) d /\ legacy_channel mn incident target A I d (radii_at x).
Proof.
  intros G. rewrite el_item. destruct (elastic_twin mn incident target Hmn A I HA inc I4 I5 I6 I7 I8 (fst x) (first_entry (fst x))) as (d & T & L).
  destruct (entry_facts x G) as (_ & <- & _). exists d. auto.
Qed.
Variables (E : R).
Hypothesis HE : 0 < E.
Let P (i : item) : R := match channelValues hbar epsilon0 cwf ShiftFactor (it_el i) E with Ok (Some v) => v_P v | _ => 0 end.
Let phi' (i : item) : R := match channelValues hbar epsilon0 cwf ShiftFactor (it_el i) E with Ok (Some v) => v_phi v | _ => 0 end.
Let fac (jp : Jpi) : R := barns k E * g_neutron I (fst jp).
Lemma entry_values x v : good_entry x -> channelValues hbar epsilon0 cwf ShiftFactor (it_el (item_of x)) E = Ok (Some v) ->
  v = Values (P_spec (l_at x) (k E * oval (radius_at (r_P (radii_at x)) E))) 0 0 (v_phi v) 0 false /\ 0 < v_P v /\
  is_phase (l_at x) (k E * oval (radius_at (r_phi (radii_at x)) E)) (v_phi v).
Proof.
  intros G H. destruct (entry_twin x G) as (d & T & L). destruct (entry_facts x G) as (_ & _ & El & P1 & P2 & _).
  rewrite (twin_values hbar epsilon0 cwf _ _ _ _ T) in H.
  pose proof (elastic_values hbar epsilon0 cwf mn incident target Hh Hmn A I HA E HE _ _ v L P1 P2 H) as Q. rewrite <- (tw_numbers _ _ T), el_item in Q. unfold elastic_at in Q. cbn [elastic_of makeChannel c_numbers numbers_of ql] in Q. rewrite El in Q. exact Q.
Qed.
Lemma entry_exists x : good_entry x -> (exists r, radius_at (r_P (radii_at x)) E = Ok r) -> (exists r, radius_at (r_phi (radii_at x)) E = Ok r) -> (l_at x <= 4)%nat ->
  exists v, channelValues hbar epsilon0 cwf ShiftFactor (it_el (item_of x)) E = Ok (Some v).
Proof.
  intros G (r & Er) (r' & Er') Hl. destruct (entry_twin x G) as (d & T & L). destruct (entry_facts x G) as (_ & _ & El & P1 & P2 & _).
  rewrite (twin_values hbar epsilon0 cwf _ _ _ _ T). apply (elastic_total hbar epsilon0 cwf mn incident target Hh Hmn A I HA E HE _ _ r r' L Er (P1 E r Er) Er' (P2 E r' Er')).
  rewrite <- (tw_numbers _ _ T), el_item. unfold elastic_at. cbn [elastic_of makeChannel c_numbers numbers_of ql]. rewrite El. exact Hl.
Qed.
Lemma entry_react x j d : good_entry x -> nth_error (it_D (item_of x)) j = Some d ->
  c_reaction (cd_channel d) = (match j with O => kE | _ => kF end) /\ isIncidentChannel (cd_channel d) = (match j with O => true | _ => false end) /\
  pp_id (c_incident (cd_channel d)) = X.
Proof.
  intros G Hd. destruct (entry_facts x G) as (Ok & _ & _ & _ & _ & Fi). destruct j as [|j].
  - destruct (io_first _ Ok) as (d0 & fis & ED & Eel). rewrite ED in Hd. injection Hd as <-. rewrite Eel, el_item. exact (elastic_react incident target inc I1 I2 I3 _ _).
  - destruct (Fi j d Hd) as (p3 & q & d3 & E1 & _ & _ & ->). exact (fission_react incident target inc I1 p3 q _ _ E1).
Qed.
Lemma which_item x : good_entry x -> it_which (item_of x) = [0%nat] \/ it_which (item_of x) = [0%nat; 1%nat].
Proof.
  intros _. unfold item_of. destruct (snd x); [|left; reflexivity]. cbn [wave_item it_which]. destruct (match eg_channels (fst x) with [_; _; _] => true | _ => false end); [right | left]; reflexivity.
Qed.
Lemma entry_val x j d v : good_entry x -> nth_error (it_D (item_of x)) j = Some d -> channelValues hbar epsilon0 cwf ShiftFactor (cd_channel d) E = Ok (Some v) ->
  v = nth (nth j (it_which (item_of x)) 0%nat) (three_channels (P (item_of x)) (phi' (item_of x))) no_values.
Proof.
  intros G Hd Hv. destruct (entry_facts x G) as (Ok & _ & _ & _ & _ & Fi). destruct (io_which _ Ok) as (_ & Ln & _). destruct j as [|j].
  - destruct (io_first _ Ok) as (d0 & fis & ED & Eel). rewrite ED in Hd. injection Hd as <-. rewrite Eel in Hv. destruct (which_item x G) as [-> | ->]; cbn [nth three_channels]; unfold P, phi'; rewrite Hv;
      destruct (entry_values x v G Hv) as (Ev & _); rewrite Ev; reflexivity.
  - destruct (Fi j d Hd) as (p3 & q & d3 & E1 & Q0 & B0 & Ec). rewrite Ec in Hv. rewrite (fission_value hbar epsilon0 cwf mn Hmn A HA inc I8 E p3 q _ d3 v HE Q0 B0 Hv).
    assert (Hj : (S j < length (it_which (item_of x)))%nat) by (rewrite Ln; apply nth_error_Some; congruence).
    destruct (which_item x G) as [W|W]; rewrite W in *; cbn [length] in Hj; [lia|]. destruct j as [|j]; [reflexivity | lia].
Qed.
Lemma entry_fac x fc : good_entry x -> channelFactor hbar (it_el (item_of x)) E = Some fc -> fc = fac (it_Jpi (item_of x)).
Proof.
  intros G H. destruct (entry_twin x G) as (d & T & L). rewrite (twin_factor hbar _ _ _ T) in H.
  rewrite (elastic_factor hbar mn incident target Hmn A I HA HI E _ _ fc L H), <- (tw_numbers _ _ T). reflexivity.
Qed.
Lemma entry_factor x : good_entry x -> exists fc, channelFactor hbar (it_el (item_of x)) E = Some fc.
Proof.
  intros G. destruct (entry_twin x G) as (d & T & L). rewrite (twin_factor hbar _ _ _ T). exact (factor_total hbar mn incident target Hh Hmn A I HA E HE _ _ L).
Qed.
Lemma entry_Jpi x : good_entry x -> it_Jpi (item_of x) = match snd x with
  | Some w => (Z.abs (snd w), (if Nat.even (rs_L (fst w)) then 1 else -1)%Z) | None => (Z.abs (eg_AJ (fst x)), endfParity (eg_AJ (fst x)) (eg_PJ (fst x))) end.
Proof.
  intros (_ & G). unfold it_Jpi. rewrite el_item. unfold elastic_at, Jpi_of. cbn [elastic_of makeChannel c_numbers numbers_of qJ qp]. destruct (snd x) as [w|]; [|reflexivity].
  destruct G as (_ & G). rewrite (wg_J _ _ _ _ G), (parity_same _ _ _ (wg_parity _ _ _ _ G)). reflexivity.
Qed.

(** *** All of them *)
Variables (en en1 : list (endf_group * option wave)) (empty : list endf_group).
Hypotheses (Hen : Permutation (en1 ++ map (fun h => (h, None)) empty) en) (Hg : forall x, In x en -> good_entry x)
  (H1 : map snd en1 = map Some (waves f)).
Hypothesis Hwt : forall l, (l < nlsc)%nat -> Rsum (map (fun h => g_neutron I (Z.abs (eg_AJ h))) (filter (fun h => Nat.eqb (group_l h) l) empty)) =
         2 * INR l + 1 - Rsum (map (accounted I) (filter (fun ls => Nat.eqb (rs_L ls) l) (rf_lstates f))).
Lemma en_nodup jp : NoDup (concat (map it_energies (sel (map item_of en) jp))).
Proof.
  set (keep (x : endf_group * option wave) := has_Jpi jp (item_of x)).
  assert (E0 : sel (map item_of en) jp = map item_of (filter keep en)).
  { unfold sel. clear. induction en as [|x l IH]; [reflexivity|]. cbn [map filter]. unfold keep at 1. destruct (has_Jpi jp (item_of x)); cbn [map]; rewrite IH; reflexivity. }
  rewrite E0, map_map. set (en0 := en1 ++ map (fun h => (h, None)) empty) in *.
  apply (Permutation_NoDup (perm_concat _ _ (Permutation_map (fun x => it_energies (item_of x)) (perm_filter keep _ _ Hen)))).
  assert (G0 : forall x, In x en0 -> good_entry x) by (intros x Hx; apply Hg; exact (Permutation_in _ Hen Hx)).
  set (q (w : wave) := (Z.abs (snd w) =? fst jp)%Z && ((if Nat.even (rs_L (fst w)) then 1 else -1) =? snd jp)%Z).
  assert (Es : concat (map (fun x => it_energies (item_of x)) (filter keep en0)) = concat (map (fun w => map rl_ER (wave_lines w)) (filter q (waves f)))).
  { unfold en0. rewrite filter_app, map_app, concat_app.
    assert (Z0 : forall l, concat (map (fun x => it_energies (item_of x)) (filter keep (map (fun h : endf_group => (h, @None wave)) l))) = []).
    { induction l as [|h l IH]; [reflexivity|]. cbn [map filter]. destruct (keep (h, None)); [cbn [map concat]; rewrite IH; reflexivity | exact IH]. }
    rewrite Z0, app_nil_r. assert (G1 : forall x, In x en1 -> good_entry x) by (intros x Hx; apply G0, in_or_app; left; exact Hx). clear -H1 G1.
    revert H1 G1. generalize (waves f). generalize en1. induction en0 as [|x l IH]; intros [|w ws] H1 G1; try discriminate; [reflexivity|]. injection H1 as Hx H1. cbn [filter].
    specialize (IH ws H1 (fun y Hy => G1 y (or_intror Hy))).
    assert (K : keep x = q w). { unfold keep, has_Jpi. pose proof (entry_Jpi x (G1 x (or_introl eq_refl))) as J. rewrite Hx in J. unfold it_Jpi, Jpi_of in J. injection J as -> ->. reflexivity. }
    rewrite K. destruct (q w); [|exact IH]. cbn [map concat]. rewrite IH. f_equal. unfold it_energies, item_of. rewrite Hx. cbn [wave_item it_rows]. rewrite map_map. reflexivity. }
  rewrite Es. clear Es E0 keep. set (J := fst jp) in *. set (par := snd jp) in *.
  destruct (Z.eq_dec par 1) as [E1|N1]; [|destruct (Z.eq_dec par (-1)) as [E2|N3]].
  3:{ rewrite filter_no; [constructor|]. intros w _. unfold q. apply andb_false_intro2. apply Z.eqb_neq. destruct (Nat.even _); congruence. }
  1: set (even := true). 2: set (even := false).
  1,2: assert (Hpar : forall l, ((if Nat.even l then 1 else -1) =? par)%Z = Bool.eqb (Nat.even l) even) by (intros l; rewrite ?E1, ?E2; destruct (Nat.even l); reflexivity).
  1,2: refine (Permutation_NoDup _ (ni_separate _ _ _ _ _ _ _ Hin J even)).
  1,2: symmetry; unfold waves, of_wave, q; clear -Hpar; induction (rf_lstates f) as [|ls l IH]; [constructor|]; cbn [map concat filter].
  1,2: rewrite filter_app, map_app, concat_app.
  1,2: assert (Hl : Permutation (concat (map (fun w => map rl_ER (wave_lines w)) (filter (fun w : wave => (Z.abs (snd w) =? J)%Z && ((if Nat.even (rs_L (fst w)) then 1 else -1) =? par)%Z) (map (pair ls) (signed_J (rs_lines ls))))))
      (if Bool.eqb (Nat.even (rs_L ls)) even then map rl_ER (filter (fun x => Z.eqb (Z.abs (rl_AJ x)) J) (rs_lines ls)) else [])).
  1,3: assert (Er : forall js, concat (map (fun w => map rl_ER (wave_lines w)) (filter (fun w : wave => (Z.abs (snd w) =? J)%Z && ((if Nat.even (rs_L (fst w)) then 1 else -1) =? par)%Z) (map (pair ls) js))) =
      if Bool.eqb (Nat.even (rs_L ls)) even then map rl_ER (concat (map (fun j => filter (fun x => Z.eqb (rl_AJ x) j) (rs_lines ls)) (filter (fun j => (Z.abs j =? J)%Z) js))) else []).
  1,3: intros js; induction js as [|j js IHj]; [destruct (Bool.eqb _ _); reflexivity|]; cbn [map filter fst snd]; rewrite Hpar in *; destruct (Z.abs j =? J)%Z; cbn [andb]; destruct (Bool.eqb (Nat.even (rs_L ls)) even); cbn [map concat]; rewrite ?map_app, ?IHj; try exact IHj; reflexivity.
  1,2: rewrite Er; destruct (Bool.eqb _ _); [|constructor]; apply Permutation_map; apply (grouped_perm rl_AJ (fun j => (Z.abs j =? J)%Z)); [apply NoDup_nodup | intros x Hx; apply nodup_In; apply in_map; exact Hx].
  1,2: etransitivity; [apply Permutation_app; [exact Hl | exact IH]|]; destruct (Bool.eqb _ _); cbn [map concat app]; apply Permutation_refl.
Qed.

Hypothesis HV : forall x, In x en -> exists v, channelValues hbar epsilon0 cwf ShiftFactor (it_el (item_of x)) E = Ok (Some v).
Variables (phi : rm_lstate -> R) (phi0 : nat -> R).
Hypothesis Hphi : forall ls, In ls (rf_lstates f) -> is_phase (rs_L ls) (k E * oval (radius_at (r_phi (rad ls)) E)) (phi ls).
Hypothesis Hphi0 : forall l, (l < nlsc)%nat -> is_phase l (k E * oval (radius_at (r_phi rad0) E)) (phi0 l).
Lemma en_P x : In x en -> 0 < P (item_of x).
Proof. intros Hx. destruct (HV x Hx) as (v & Hv). unfold P. rewrite Hv. exact (proj1 (proj2 (entry_values x v (Hg x Hx) Hv))). Qed.
Section Kind.
Variables (F : R -> R -> list resonance -> R) (S : R -> R).
Hypothesis HF : forall p x y t, cis (- (2 * x)) = cis (- (2 * y)) -> F p x t = F p y t.
Hypothesis HS : forall p x, F p x [] = S x.
Lemma en_sum : Rsum (map (fun i => fac (it_Jpi i) * F (P i) (phi' i) (it_rows i)) (map item_of en)) =
  barns k E * (Rsum (map (fun ls => newer_J k I a ls (F (P_rm k a ls E) (phi ls))) (rf_lstates f))
    + Rsum (map (fun h => g_neutron I (Z.abs (eg_AJ h)) * S (phi0 (group_l h))) empty)).
Proof.
  rewrite map_map. rewrite <- (ListFacts.Rsum_perm _ _ (Permutation_map _ Hen)), map_app, ListFacts.Rsum_app, Rmult_plus_distr_l. f_equal.
  - set (H ls j := barns k E * (g_neutron I (Z.abs j) * F (P_rm k a ls E) (phi ls) (map (newer_of k a ls) (lines_of j (rs_lines ls))))).
    set (H' (o : option wave) := match o with Some w => H (fst w) (snd w) | None => 0 end).
    assert (Es : Rsum (map (fun x => fac (it_Jpi (item_of x)) * F (P (item_of x)) (phi' (item_of x)) (it_rows (item_of x))) en1) = Rsum (map H' (map snd en1))).
    { rewrite (map_map snd H'). apply Rsum_ext. intros x Hx. assert (Hxe : In x en) by (apply (Permutation_in _ Hen), in_or_app; left; exact Hx).
      assert (Hw : In (snd x) (map Some (waves f))) by (rewrite <- H1; apply in_map; exact Hx). apply in_map_iff in Hw as (w & Ew & Hw). pose proof (proj1 (wave_in f w) Hw) as (Hls & _).
      destruct (HV x Hxe) as (v & Hv). destruct (entry_values x v (Hg x Hxe) Hv) as (Ev & _ & Hp). unfold fac. rewrite (entry_Jpi x (Hg x Hxe)). unfold P, phi'. rewrite Hv.
      unfold l_at, radii_at in Ev, Hp. rewrite <- Ew in *. cbn [fst H']. unfold H. rewrite <- Rmult_assoc. f_equal. unfold item_of. rewrite <- Ew. cbn [wave_item it_rows].
      replace (v_P v) with (P_rm k a (fst w) E) by (rewrite Ev; reflexivity). apply HF. exact (same_phase _ _ _ _ Hp (Hphi _ Hls)). }
    rewrite Es, H1, map_map. change (Rsum (map (fun w => H (fst w) (snd w)) (waves f)) = barns k E * Rsum (map (fun ls => newer_J k I a ls (F (P_rm k a ls E) (phi ls))) (rf_lstates f))).
    rewrite over_waves, <- Rsum_scale. apply Rsum_ext. intros ls _. unfold newer_J, H. apply Rsum_scale.
  - rewrite map_map, <- Rsum_scale. apply Rsum_ext. intros h Hh0. assert (Hxe : In (h, None) en) by (apply (Permutation_in _ Hen), in_or_app; right; exact (in_map (fun h => (h, None)) _ _ Hh0)).
    destruct (HV _ Hxe) as (v & Hv). destruct (entry_values _ v (Hg _ Hxe) Hv) as (Ev & _ & Hp). unfold fac. rewrite (entry_Jpi _ (Hg _ Hxe)). unfold P, phi'. rewrite Hv.
    unfold l_at, radii_at in Hp. cbn [fst snd] in *. rewrite Rmult_assoc. f_equal. f_equal. unfold item_of. cbn [snd it_rows]. rewrite <- (HS (v_P v) (phi0 (group_l h))). apply HF.
    apply (same_phase _ _ _ _ Hp). apply Hphi0. destruct (Hg _ Hxe) as (_ & [_ Gl _]). exact Gl.
Qed.
End Kind.
Lemma empty_weights : Rsum (map (fun h => g_neutron I (Z.abs (eg_AJ h)) * scattered (cis (- (2 * phi0 (group_l h))))) empty) = Rsum (map (newer_rest I phi0 (rf_lstates f)) (seq 0 nlsc)).
Proof.
  rewrite (partition_nat group_l _ empty nlsc).
  2:{ intros h Hh0. assert (Hxe : In (h, None) en) by (apply (Permutation_in _ Hen), in_or_app; right; exact (in_map (fun h => (h, None)) _ _ Hh0)). destruct (Hg _ Hxe) as (_ & [_ Gl _]). exact Gl. }
  apply Rsum_ext. intros l Hl. apply in_seq in Hl. unfold newer_rest. rewrite <- Hwt by lia.
  rewrite (Rsum_ext _ (fun h => scattered (cis (- (2 * phi0 l))) * g_neutron I (Z.abs (eg_AJ h)))).
  - rewrite Rsum_scale. ring.
  - intros h Hh0. apply filter_In in Hh0 as [_ Q]. apply Nat.eqb_eq in Q. rewrite Q. ring.
Qed.
End Items.

(** ** The file *)
Lemma cv_opened gs : makeCompoundSystem hbar epsilon0 cwf mn elementaryCharge incident target products g = Ok (Some gs) ->
  exists el cap rest pairs inc p2 ps out en en1 empty,
    el_pairs g = el :: cap :: rest /\
    makeParticlePairs mn elementaryCharge incident target products (el :: cap :: rest) = Ok pairs /\
    (ep_MT el = 2%Z /\ ep_MA el = 1 /\ ep_MB el = A /\ ep_ZA el = 0 /\ Z.abs (ep_IA el) = 1%Z /\ Z.abs (ep_IB el) = I /\ ep_Q el = 0) /\
    ep_MT cap = 102%Z /\ pairs = inc :: p2 :: ps /\
    (pp_id inc = X /\ p_id (pp_particle inc) = incident /\ p_id (pp_residual inc) = target /\
     p_charge (pp_particle inc) = 0 /\ p_spin (pp_particle inc) = 1%Z /\ p_spin (pp_residual inc) = I /\
     pp_reduced inc = Some (mn * (A * mn) / (mn + A * mn)) /\ pp_ratio inc = Some (A * mn / (mn + A * mn)) /\ pp_id p2 <> X /\
     Forall2 (fun e p => makeEndfPair mn elementaryCharge incident target products e = Ok p) rest ps) /\
    consolidated (concat (map it_ds (map (item_of el cap rest pairs inc) en))) out /\ makeSystemFromData out = Ok gs /\
    Permutation (en1 ++ map (fun h => (h, None)) empty) en /\ (forall x, In x en -> good_entry el cap rest pairs inc x) /\ map snd en1 = map Some (waves f) /\
    (forall l, (l < nlsc)%nat -> Rsum (map (fun h => g_neutron I (Z.abs (eg_AJ h))) (filter (fun h => Nat.eqb (group_l h) l) empty)) =
         2 * INR l + 1 - Rsum (map (accounted I) (filter (fun ls => Nat.eqb (rs_L ls) l) (rf_lstates f)))).
Proof.
  intros H. destruct (cv_pairs _ _ _ _ _ _ Hcv) as (el & cap & rest & Ees & M & MA & MB & ZA & IA & IB & Q & _ & MC).
  destruct (proj1 (steps _ _ _ _ _ _ _ _ _ _) H) as (pairs & inc & ds & out & (Epr & Ei & Fd) & Eo & Es). rewrite Ees in Epr, Ei.
  assert (Hel : ep_MT el = 2%Z /\ ep_MA el = 1 /\ ep_MB el = A /\ ep_ZA el = 0 /\ Z.abs (ep_IA el) = 1%Z /\ Z.abs (ep_IB el) = I /\ ep_Q el = 0) by auto 10.
  destruct (pairs_are mn elementaryCharge incident target products Hmn A I HA Hcap el cap rest pairs Epr Hel MC) as (inc' & p2 & ps & Ep & Facts).
  assert (inc' = inc). { unfold incidentIndex, findParticlePairForReaction in Ei. cbn [map find_index] in Ei. rewrite M, Ep in Ei. cbn in Ei. congruence. } subst inc'.
  rewrite (cv_IFG _ _ _ _ _ _ Hcv), Ees in Fd. cbn [Z.eqb negb] in Fd.
  assert (Ed : ds = map (data_at el cap rest pairs inc) (el_groups g) /\ forall h, In h (el_groups g) -> makeParticleChannelData hbar epsilon0 cwf inc pairs (el :: cap :: rest) false h = Ok (Some (data_at el cap rest pairs inc h))).
  { clear -Fd. induction Fd as [|h d l m Hd _ (IH1 & IH2)]; [split; [reflexivity | intros h []]|]. split; [cbn [map]; rewrite <- IH1; f_equal; unfold data_at; rewrite Hd; reflexivity|].
    intros h' [<-|Hh']; [unfold data_at; rewrite Hd; reflexivity | exact (IH2 h' Hh')]. }
  destruct Ed as [Ed Hd]. destruct (cv_groups _ _ _ _ _ _ Hcv) as (own & empty & Perm & Fo & Fe & Hwt).
  destruct (paired _ _ _ Fo) as (en1 & E1 & E2 & E3).
  assert (Perm' : Permutation (el_groups g) (map fst (en1 ++ map (fun h => (h, @None wave)) empty))).
  { rewrite map_app, E1, map_map. cbn [fst]. rewrite map_id. exact Perm. }
  destruct (Permutation_map_inv fst _ Perm') as (en & Een & Pen).
  assert (Cc : forall d, In d (concat ds) -> consistent d).
  { intros d Hdd. apply in_concat in Hdd as (dh & Hdh & Hdd). rewrite Ed in Hdh. apply in_map_iff in Hdh as (h & <- & Hh0).
    destruct (data_of_group _ _ _ _ _ _ _ _ _ (Hd h Hh0)) as (cs & pr & dss & _ & _ & Edd & F). rewrite Edd in Hdd. apply in_concat in Hdd as (dd & Hdd1 & Hdd2).
    apply In_nth_error in Hdd1 as (i & Hi). clear -F Hi Hdd2. revert i Hi. induction F as [|ci x l m (b & _ & R) _ IH]; intros [|i] Hi; try discriminate; [|exact (IH i Hi)].
    injection Hi as ->. destruct R as [(_ & ->)|(_ & l0 & _ & [(_ & ->)|(_ & d0 & -> & _ & _ & C & _)])].
    - destruct (isIncidentChannel (fst ci)); [destruct Hdd2 as [<-|[]]; reflexivity | destruct Hdd2].
    - destruct (isIncidentChannel (fst ci)); [destruct Hdd2 as [<-|[]]; reflexivity | destruct Hdd2].
    - destruct Hdd2 as [<-|[]]. exact C. }
  exists el, cap, rest, pairs, inc, p2, ps, out, en, en1, empty. split; [exact Ees|]. split; [exact Epr|]. split; [exact Hel|]. split; [exact MC|]. split; [exact Ep|]. split; [exact Facts|].
  split. { rewrite map_map. replace (map (fun x => it_ds (item_of el cap rest pairs inc x)) en) with ds; [exact (consolidate_result _ _ Cc Eo)|].
    rewrite Ed, Een, map_map. apply map_ext. intros x. unfold item_of. destruct (snd x); reflexivity. }
  split; [exact Es|]. split; [exact Pen|]. split; [|split; [exact E2 | exact Hwt]].
  intros x Hx. split; [apply Hd; rewrite Een; apply in_map; exact Hx|]. apply (Permutation_in _ (Permutation_sym Pen)) in Hx. apply in_app_or in Hx as [Hx|Hx].
  - unfold good_entry; destruct (E3 x Hx) as (w & Ew & Hw & G); rewrite Ees in G. assert (Ew1 : @snd endf_group (option wave) x = Some w) by exact Ew. rewrite Ew1. auto.
  - apply in_map_iff in Hx as (h & <- & Hh0). cbn [snd fst]. exact (Fe h Hh0).
Qed.
Theorem limited_file gs objects m gs' m' phi phi0 E : 0 < E -> makeCompoundSystem hbar epsilon0 cwf mn elementaryCharge incident target products g = Ok (Some gs) ->
  map (@projT1 _ _) objects = gs -> evaluateSystem hbar epsilon0 cwf ShiftFactor objects E m = Ok (Some (gs', m')) ->
  (forall ls, In ls (rf_lstates f) -> is_phase (rs_L ls) (k E * oval (radius_at (r_phi (rad ls)) E)) (phi ls)) ->
  (forall l, (l < nlsc)%nat -> is_phase l (k E * oval (radius_at (r_phi rad0) E)) (phi0 l)) ->
  value_of (m' kE) = value_of (m kE) + newer_elastic k E I a phi phi0 nlsc (rf_lstates f) /\
  value_of (m' kF) = value_of (m kF) + newer_fission k E I a phi (rf_lstates f) /\
  value_of (m' kC) = value_of (m kC) + newer_capture k E I a phi (rf_lstates f) /\
  (forall r, r <> kE -> r <> kF -> r <> kC -> m' r = m r).
Proof.
  intros HE H Ho Hev Hphi Hphi0. destruct (cv_opened gs H) as (el & cap & rest & pairs & inc & p2 & ps & out & en & en1 & empty & Ees & Epr & Hel & MC & Ep & (I1 & I2 & I3 & I4 & I5 & I6 & I7 & I8 & N2 & Fr) & K & Em & Pen & Hg & H1 & Hwt).
  set (its := map (item_of el cap rest pairs inc) en) in *.
  assert (Back : forall i, In i its -> exists x, In x en /\ i = item_of el cap rest pairs inc x) by (intros i Hi; apply in_map_iff in Hi as (x & <- & Hx); exists x; auto).
  assert (Hok : forall i, In i its -> item_ok i).
  { intros i Hi. destruct (Back i Hi) as (x & Hx & ->). apply (entry_facts el cap rest pairs inc p2 ps); auto. }
  pose proof (system_items Hok K Em Ho Hev) as HV.
  assert (HV' : forall x, In x en -> exists v, channelValues hbar epsilon0 cwf ShiftFactor (it_el (item_of el cap rest pairs inc x)) E = Ok (Some v)) by (intros x Hx; apply HV; apply in_map; exact Hx).
  assert (NX : X <> "fission"%string) by (apply (X_not incident target); reflexivity).
  set (P (i : item) := match channelValues hbar epsilon0 cwf ShiftFactor (it_el i) E with Ok (Some v) => v_P v | _ => 0 end).
  set (phi' (i : item) := match channelValues hbar epsilon0 cwf ShiftFactor (it_el i) E with Ok (Some v) => v_phi v | _ => 0 end).
  set (fac (jp : Jpi) := barns k E * g_neutron I (fst jp)).
  destruct (@newer_plain hbar epsilon0 cwf E its out X kE kF P phi' fac Hok K) with (gs := gs) (objects := objects) (m := m) (gs' := gs') (m' := m') as (Q1 & Q2 & Q3 & Q4); try assumption; try discriminate.
  { intros jp. apply (en_nodup el cap rest pairs inc en en1 empty Pen Hg H1). }
  { intros i j d Hi Hd. destruct (Back i Hi) as (x & Hx & ->). apply (entry_react el cap rest pairs inc p2 ps) with (x := x) (j := j); auto. }
  { intros i Hi. destruct (Back i Hi) as (x & Hx & ->). apply (en_P el cap rest pairs inc p2 ps) with (en := en); auto. }
  { intros i j d v Hi Hd Hv. destruct (Back i Hi) as (x & Hx & ->). apply (entry_val el cap rest pairs inc p2 ps) with (x := x) (j := j) (d := d); auto. }
  { intros i fc Hi Hf. destruct (Back i Hi) as (x & Hx & ->). apply (entry_fac el cap rest pairs inc p2 ps) with (x := x); auto. }
  fold kC in Q3, Q4.
  assert (FE : forall p x y t, cis (- (2 * x)) = cis (- (2 * y)) -> J_elastic E p x t = J_elastic E p y t) by (intros p x y t Q; symmetry; apply (J_phase E p t Q)).
  assert (FF : forall p x y t, cis (- (2 * x)) = cis (- (2 * y)) -> J_fission E p x t = J_fission E p y t) by (intros p x y t Q; symmetry; apply (J_phase E p t Q)).
  assert (FC : forall p x y t, cis (- (2 * x)) = cis (- (2 * y)) -> J_capture E p x t = J_capture E p y t) by (intros p x y t Q; symmetry; apply (J_phase E p t Q)).
  assert (Sums : forall F S, (forall p x y t, cis (- (2 * x)) = cis (- (2 * y)) -> F p x t = F p y t) -> (forall p x, F p x [] = S x) ->
    Rsum (map (fun i => fac (it_Jpi i) * F (P i) (phi' i) (it_rows i)) its) =
    barns k E * (Rsum (map (fun ls => newer_J k I a ls (F (P_rm k a ls E) (phi ls))) (rf_lstates f)) + Rsum (map (fun h => g_neutron I (Z.abs (eg_AJ h)) * S (phi0 (group_l h))) empty))).
  { intros F S HF HS. apply (en_sum el cap rest pairs inc p2 ps) with (en1 := en1); auto. }
  rewrite Q1, Q2, Q3. rewrite (Sums _ (fun x => scattered (cis (- (2 * x)))) FE), (Sums _ (fun _ => 0) FF), (Sums _ (fun _ => 0) FC) by (intros p x; apply J_nil).
  rewrite (empty_weights el cap rest pairs inc en en1 empty Pen Hg Hwt phi0).
  rewrite (Rsum_zero (fun h => g_neutron I (Z.abs (eg_AJ h)) * 0) empty) by (intros; ring).
  unfold newer_elastic, newer_fission, newer_capture. rewrite !Rplus_0_r. auto.
Qed.
(** It is evaluated, if the l are supported. *)
Theorem limited_evaluates gs objects m E : 0 < E -> makeCompoundSystem hbar epsilon0 cwf mn elementaryCharge incident target products g = Ok (Some gs) ->
  map (@projT1 _ _) objects = gs -> (nlsc <= 5)%nat -> (forall w, In w (waves f) -> (rs_L (fst w) <= 4)%nat) ->
  exists gs' m', evaluateSystem hbar epsilon0 cwf ShiftFactor objects E m = Ok (Some (gs', m')).
Proof.
  intros HE H Ho Hl Hls. destruct (cv_opened gs H) as (el & cap & rest & pairs & inc & p2 & ps & out & en & en1 & empty & Ees & Epr & Hel & MC & Ep & (I1 & I2 & I3 & I4 & I5 & I6 & I7 & I8 & N2 & Fr) & K & Em & Pen & Hg & H1 & Hwt).
  set (its := map (item_of el cap rest pairs inc) en) in *.
  assert (Back : forall i, In i its -> exists x, In x en /\ i = item_of el cap rest pairs inc x) by (intros i Hi; apply in_map_iff in Hi as (x & <- & Hx); exists x; auto).
  assert (Hok : forall i, In i its -> item_ok i).
  { intros i Hi. destruct (Back i Hi) as (x & Hx & ->). apply (entry_facts el cap rest pairs inc p2 ps); auto. }
  assert (HV : forall x, In x en -> exists v, channelValues hbar epsilon0 cwf ShiftFactor (it_el (item_of el cap rest pairs inc x)) E = Ok (Some v)).
  { intros x Hx. destruct (entry_facts el cap rest pairs inc p2 ps Epr Hel MC Ep I1 I2 I3 I4 I5 I6 I7 I8 N2 Fr x (Hg x Hx)) as (_ & Er & _).
    apply (entry_exists el cap rest pairs inc p2 ps) with (x := x); auto; try (rewrite <- Er; eexists; reflexivity).
    destruct (Hg x Hx) as (_ & G). unfold l_at. destruct (snd x) as [w|]; [apply Hls, G | destruct G as [_ Gl _]; lia]. }
  apply (@system_succeeds hbar epsilon0 cwf E its out Hok K) with (gs := gs); try assumption.
  - intros jp. apply (en_nodup el cap rest pairs inc en en1 empty Pen Hg H1).
  - intros i j d Hi Hd. destruct (Back i Hi) as (x & Hx & ->). apply (entry_react el cap rest pairs inc p2 ps) with (x := x) (j := j); auto.
  - intros i j d Hi Hd. destruct (Back i Hi) as (x & Hx & ->).
    assert (Hv : exists v, channelValues hbar epsilon0 cwf ShiftFactor (cd_channel d) E = Ok (Some v)).
    { destruct (entry_facts el cap rest pairs inc p2 ps Epr Hel MC Ep I1 I2 I3 I4 I5 I6 I7 I8 N2 Fr x (Hg x Hx)) as (Ok & _ & _ & _ & _ & Fi). destruct j as [|j].
      - destruct (io_first _ Ok) as (d0 & fis & ED & Eel). rewrite ED in Hd. injection Hd as <-. rewrite Eel. exact (HV x Hx).
      - destruct (Fi j d Hd) as (p3 & q & d3 & _ & _ & _ & ->). apply fission_values_exist. }
    destruct Hv as (v & Hv). exists v. split; [exact Hv|].
    pose proof (entry_val el cap rest pairs inc p2 ps Epr Hel MC Ep I1 I2 I3 I4 I5 I6 I7 I8 N2 Fr E HE x j d v (Hg x Hx) Hd Hv) as Ev. rewrite Ev.
    destruct (HV x Hx) as (v' & Hv'). pose proof (proj1 (proj2 (entry_values el cap rest pairs inc p2 ps Epr Hel MC Ep I1 I2 I3 I4 I5 I6 I7 I8 N2 Fr E HE x v' (Hg x Hx) Hv'))) as Pp.
    rewrite Hv'. destruct (nth j (it_which _) 0%nat) as [|[|[|u]]]; cbn; try lra. destruct u; cbn; lra.
  - intros i Hi. destruct (Back i Hi) as (x & Hx & ->). apply (entry_factor el cap rest pairs inc p2 ps) with (x := x); auto.
  - intros i y Hi Hy. destruct (Back i Hi) as (x & Hx & ->). right. destruct (Hg x Hx) as (_ & G). unfold item_of in Hy. destruct (snd x) as [w|]; [|destruct Hy]. destruct G as (_ & G).
    cbn [wave_item it_rows] in Hy. apply in_map_iff in Hy as (z & <- & Hz). cbn [newer_of rs_eliminated]. apply signed_zero. apply (wg_nonzero _ _ _ _ G z Hz).
Qed.
End Theorem_.
