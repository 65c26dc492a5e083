(** Both interfaces against the ENDF rule for the competitive channel, and a file with an inelastic level. *)
From Coq Require Import String List ZArith Reals Lra Lia Bool Psatz.
From Verif Require Import Outcome QuantumModel QuantumSpec HardSphereModel HardSphereSpec KinematicsModel CoulombModel Cplx RMatrixModel ChannelModel SpinFactorModel SpinFactorProofs
  BreitWignerModel BreitWignerSpec ListFacts BreitWignerProofs BreitWignerSystemProofs LegacyModel LegacyProofs LegacySystemProofs
  BreitWignerTheory BreitWignerTheorems BreitWignerCases BreitWignerWitness CompetitionSpec CompetitionProofs.
Import ListNotations.
Open Scope R_scope.

Section Old.
Variables (C : R) (sort : list bw_resonance -> list bw_resonance) (f : bw_file) (A : R) (ch sc : R -> outcome R) (E e c fi : R) (s : bw_system).
Hypotheses (Hin : input_old C f A ch sc) (HE : 0 < E).
Let k := k_old C A.
Let a x := oval (ch x).
Lemma q_old_0 ls : ls_QX ls = 0 -> q_old ls = 0.
Proof. intros H. unfold q_old. rewrite H. ring. Qed.
Lemma old_single : bw_build C sort false f ch sc = Ok s -> slbw_evaluate C s E = Ok (Some (e, c, fi)) ->
  (forall ls, In ls (f_lstates f) -> no_threshold ls) ->
  e = ENDF_single_elastic k a E (oval (sc E)) (f_SPI f) (f_lstates f) /\ c = ENDF_capture k a E (f_SPI f) (f_lstates f) /\ fi = ENDF_fission k a E (f_SPI f) (f_lstates f).
Proof.
  intros Hb He H. destruct (old_slbw C sort f A ch sc Hin s E e c fi Hb He) as (_ & -> & -> & -> & _).
  destruct (same_all k a E q_old (f_SPI f) (oval (sc E)) (f_lstates f) HE q_old_0 H) as (H1 & _ & H2 & H3). auto.
Qed.
Lemma old_multi : sorts b_g sort -> bw_build C sort true f ch sc = Ok s -> mlbw_evaluate C s E = Ok (Some (e, c, fi)) ->
  (forall ls, In ls (f_lstates f) -> no_threshold ls) ->
  Rabs (e - ENDF_multi_elastic k a E (oval (sc E)) (f_SPI f) (f_lstates f)) <= barns k E * literal_rounding * Rsum (map (fun ls => scattered (U0_of k E (oval (sc E)) ls)) (f_lstates f)) /\
  c = ENDF_capture k a E (f_SPI f) (f_lstates f) /\ fi = ENDF_fission k a E (f_SPI f) (f_lstates f).
Proof.
  intros Hs Hb He H. destruct (old_mlbw C sort f A ch sc Hin s E e c fi Hs Hb He) as (H0 & -> & -> & _).
  destruct (same_all k a E q_old (f_SPI f) (oval (sc E)) (f_lstates f) HE q_old_0 H) as (_ & H1 & H2 & H3). fold k a in H0. rewrite H1 in H0. auto.
Qed.
Lemma old_lower ls x : (bw_build C sort false f ch sc = Ok s /\ slbw_evaluate C s E = Ok (Some (e, c, fi)) \/
    sorts b_g sort /\ bw_build C sort true f ch sc = Ok s /\ mlbw_evaluate C s E = Ok (Some (e, c, fi))) ->
  defined ch -> widths (f_lstates f) -> (forall ls, In ls (f_lstates f) -> ls_LRX ls = true -> closed_at E ls) ->
  In ls (f_lstates f) -> In x (ls_lines ls) -> ls_LRX ls = true -> 0 < ln_GN x -> 0 < ln_GG x -> 0 < ln_GX x -> ln_ER x <> 0 ->
  E + q_old ls <> 0 -> ln_ER x + q_old ls <> 0 -> c < ENDF_capture k a E (f_SPI f) (f_lstates f).
Proof.
  intros He Hd Hw Hc Hls Hx L N G X R0 R1 R2. assert (c = BW_capture k a E q_old (f_SPI f) (f_lstates f)) as ->.
  { destruct He as [[Hb He] | (Hs & Hb & He)]; [apply (old_slbw C sort f A ch sc Hin s E e c fi Hb He) | apply (old_mlbw C sort f A ch sc Hin s E e c fi Hs Hb He)]. }
  destruct Hin as [HC HA _ Hch _ HI _]. apply (interface_lower C A (f_SPI f) ch (f_lstates f) q_old E ls x); assumption.
Qed.
End Old.

Section Legacy.
Variables (hbar epsilon0 : R) (cwf : nat -> R -> R -> outcome coulomb) (mn : R) (incident target : string) (f : bw_file) (A : R)
  (nro : option (R -> outcome R)) (naps : nat) (rad : radii) (n : nat) (E : R) (s : legacy_system) (m m' : legacy_map).
Hypotheses (Hin : input_new hbar mn f A nro naps rad n) (HE : 0 < E)
  (Hb : makeLegacyBreitWigner hbar epsilon0 cwf mn incident target f nro naps = Ok (Some s)).
Let k := k_old (C_new hbar mn) A.
Let a x := oval (radius_at (r_P rad) x).
Let ahat := oval (radius_at (r_phi rad) E).
Lemma q_new_0 ls : ls_QX ls = 0 -> q_new ls = 0.
Proof. intros H. unfold q_new. rewrite H. ring. Qed.
Lemma E_not_0 : E <> 0.
Proof. lra. Qed.
Lemma legacy_single : legacy_evaluate hbar (legacySLBW hbar epsilon0 cwf) s E m = Ok (Some m') ->
  (forall ls, In ls (f_lstates f) -> no_threshold ls) ->
  mval m' (elastic_key incident target) = mval m (elastic_key incident target) + ENDF_single_elastic k a E ahat (f_SPI f) (f_lstates f) /\
  mval m' (capture_key incident target) = mval m (capture_key incident target) + ENDF_capture k a E (f_SPI f) (f_lstates f) /\
  mval m' (fission_key incident target) = mval m (fission_key incident target) + ENDF_fission k a E (f_SPI f) (f_lstates f).
Proof.
  intros He H. destruct (new_slbw hbar epsilon0 cwf mn incident target f A nro naps rad n Hin s E m m' E_not_0 Hb He) as (-> & -> & ->).
  destruct (same_all k a E q_new (f_SPI f) ahat (f_lstates f) HE q_new_0 H) as (H1 & _ & H2 & H3). fold k a ahat. rewrite H1, H2, H3. auto.
Qed.
Lemma legacy_multi : legacy_evaluate hbar (legacyMLBW hbar epsilon0 cwf) s E m = Ok (Some m') ->
  (forall ls, In ls (f_lstates f) -> no_threshold ls) ->
  mval m' (elastic_key incident target) = mval m (elastic_key incident target) + ENDF_multi_elastic k a E ahat (f_SPI f) (f_lstates f) /\
  mval m' (capture_key incident target) = mval m (capture_key incident target) + ENDF_capture k a E (f_SPI f) (f_lstates f) /\
  mval m' (fission_key incident target) = mval m (fission_key incident target) + ENDF_fission k a E (f_SPI f) (f_lstates f).
Proof.
  intros He H. destruct (new_mlbw hbar epsilon0 cwf mn incident target f A nro naps rad n Hin s E m m' E_not_0 Hb He) as (-> & -> & ->).
  destruct (same_all k a E q_new (f_SPI f) ahat (f_lstates f) HE q_new_0 H) as (_ & H1 & H2 & H3). fold k a ahat. rewrite H1, H2, H3. auto.
Qed.
Lemma closed_negative ls : 0 < ls_AWRI ls -> closed_at E ls -> ls_QX ls < 0.
Proof.
  intros HA H. unfold closed_at, q_endf in H. assert (P : 0 < (ls_AWRI ls + 1) / ls_AWRI ls) by (apply Rdiv_lt_0_compat; lra).
  destruct (Rlt_or_le (ls_QX ls) 0) as [l|l]; [exact l|]. pose proof (Rmult_le_pos _ _ l (Rlt_le _ _ P)). lra.
Qed.
Lemma legacy_lower ls x : (legacy_evaluate hbar (legacySLBW hbar epsilon0 cwf) s E m = Ok (Some m') \/ legacy_evaluate hbar (legacyMLBW hbar epsilon0 cwf) s E m = Ok (Some m')) ->
  defined (radius_at (r_P rad)) -> widths (f_lstates f) -> (forall ls, In ls (f_lstates f) -> ls_LRX ls = true -> closed_at E ls) ->
  In ls (f_lstates f) -> In x (ls_lines ls) -> ls_LRX ls = true -> 0 < ln_GN x -> 0 < ln_GG x -> 0 < ln_GX x -> ln_ER x <> 0 -> ln_ER x <> ls_QX ls ->
  mval m' (capture_key incident target) < mval m (capture_key incident target) + ENDF_capture k a E (f_SPI f) (f_lstates f).
Proof.
  intros He Hd Hw Hc Hls Hx L N G X R0 R2.
  assert (mval m' (capture_key incident target) = mval m (capture_key incident target) + BW_capture k a E q_new (f_SPI f) (f_lstates f)) as ->.
  { destruct He as [He | He]; [apply (new_slbw hbar epsilon0 cwf mn incident target f A nro naps rad n Hin s E m m' E_not_0 Hb He) | apply (new_mlbw hbar epsilon0 cwf mn incident target f A nro naps rad n Hin s E m m' E_not_0 Hb He)]. }
  destruct Hin as [Hh Hm HA HI _ Hch _ Haw _ _]. pose proof (closed_negative ls ltac:(rewrite (Haw ls Hls); exact HA) (Hc ls Hls L)) as Q.
  apply Rplus_lt_compat_l. apply (interface_lower (C_new hbar mn) A (f_SPI f) (radius_at (r_P rad)) (f_lstates f) q_new E ls x); try assumption; unfold q_new; try lra.
  apply C_new_pos; assumption.
Qed.
End Legacy.

(** * A level at 16 eV: a resonance at 40 eV, above the threshold of 32 eV, seen from 4 eV *)
Definition level_line : bw_line := mkLine 40 1 1 1 0 1.
Definition level_file : bw_file := one_l 1 1 true (-16) [level_line].
Lemma level_lines : forall x, In x [level_line] -> ln_AJ x = 1%Z /\ ln_ER x <> 0 /\ (true = true -> ln_ER x - -16 <> 0) /\
  0 <= ln_GN x /\ 0 < ln_GG x /\ 0 <= ln_GF x /\ 0 <= ln_GX x.
Proof. intros x [<-|[]]; cbn; repeat split; lra. Qed.
Lemma level_widths : widths (f_lstates level_file).
Proof. intros ls x [<-|[]] [<-|[]]; cbn; repeat split; lra. Qed.
Lemma level_closed ls : In ls (f_lstates level_file) -> ls_LRX ls = true -> closed_at 4 ls.
Proof. intros [<-|[]] _. unfold closed_at, q_endf. cbn. lra. Qed.
Lemma level_legacy epsilon0 cwf : exists s m, input_new 1 2 level_file 1 None 1 (radii1 (Fixed 1)) 0 /\
  makeLegacyBreitWigner 1 epsilon0 cwf 2 "n" "t" level_file None 1 = Ok (Some s) /\ legacy_evaluate 1 (legacySLBW 1 epsilon0 cwf) s 4 (fun _ => None) = Ok (Some m).
Proof.
  pose proof (one_input 1 2 1 1 true (-16) [level_line] ltac:(lra) ltac:(lra) ltac:(lra) ltac:(lra) ltac:(discriminate)) as Hin.
  destruct (one_total 1 epsilon0 cwf 2 "n" "t" 1 1 true (-16) [level_line] ltac:(lra) ltac:(lra) ltac:(lra) ltac:(lra)
    ltac:(discriminate) level_lines 4 ltac:(lra) ltac:(lra) (fun _ => None)) as (s' & Hb' & (m & Hm) & _).
  exists s', m. split; [exact Hin|]. split; [exact Hb' | exact Hm].
Qed.
Lemma level_old sort : sorts b_g sort -> exists s e c fi, input_old (C_new 1 2) level_file 1 (fun _ => Ok 1) (fun _ => Ok 1) /\
  bw_build (C_new 1 2) sort false level_file (fun _ => Ok 1) (fun _ => Ok 1) = Ok s /\ slbw_evaluate (C_new 1 2) s 4 = Ok (Some (e, c, fi)).
Proof.
  intros Hs. assert (Hq : q_old (mkLState 0 1 true (-16) [level_line]) = -8) by (unfold q_old; cbn; field).
  pose proof (one_old_total 1 2 1 1 true (-16) [level_line] ltac:(lra) ltac:(lra) ltac:(lra) ltac:(lra)
    level_lines sort 4 ltac:(lra) ltac:(intros _; rewrite Hq; lra)
    ltac:(intros x [<-|[]] _; rewrite Hq; cbn; lra) Hs) as [(s & [[e c] fi] & Hb & He) _].
  exists s, e, c, fi. split; [apply one_old_input; lra|]. split; [exact Hb | exact He].
Qed.
(** The same with QX = 0 *)
Definition zero_file : bw_file := one_l 1 1 true 0 [level_line].
Lemma zero_lines : forall x, In x [level_line] -> ln_AJ x = 1%Z /\ ln_ER x <> 0 /\ (true = true -> ln_ER x - 0 <> 0) /\
  0 <= ln_GN x /\ 0 < ln_GG x /\ 0 <= ln_GF x /\ 0 <= ln_GX x.
Proof. intros x [<-|[]]; cbn; repeat split; lra. Qed.
Lemma zero_legacy epsilon0 cwf : exists s m, input_new 1 2 zero_file 1 None 1 (radii1 (Fixed 1)) 0 /\
  makeLegacyBreitWigner 1 epsilon0 cwf 2 "n" "t" zero_file None 1 = Ok (Some s) /\ legacy_evaluate 1 (legacySLBW 1 epsilon0 cwf) s 4 (fun _ => None) = Ok (Some m).
Proof.
  pose proof (one_input 1 2 1 1 true 0 [level_line] ltac:(lra) ltac:(lra) ltac:(lra) ltac:(lra) ltac:(discriminate)) as Hin.
  destruct (one_total 1 epsilon0 cwf 2 "n" "t" 1 1 true 0 [level_line] ltac:(lra) ltac:(lra) ltac:(lra) ltac:(lra)
    ltac:(discriminate) zero_lines 4 ltac:(lra) ltac:(lra) (fun _ => None)) as (s' & Hb' & (m & Hm) & _).
  exists s', m. split; [exact Hin|]. split; [exact Hb' | exact Hm].
Qed.
