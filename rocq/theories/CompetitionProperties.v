(** Property C89: the competitive channel of Breit-Wigner files. *)
From Coq Require Import String List ZArith Reals Lra Lia Bool.
From Verif Require Import Outcome QuantumModel QuantumSpec HardSphereModel HardSphereSpec KinematicsModel CoulombModel Cplx RMatrixModel ChannelModel
  SpinFactorModel SpinFactorProofs BreitWignerModel BreitWignerSpec ListFacts BreitWignerProofs BreitWignerSystemProofs LegacyModel LegacyProofs LegacySystemProofs
  BreitWignerTheorems CompetitionSpec CompetitionProofs CompetitionTheorems.
Import ListNotations.
Open Scope R_scope.

(** Without a competitive width, or with QX = 0, the cross sections of both interfaces are those of
    the ENDF rules. *)
Theorem C89_single_old_partial C sort f A ch sc s E e c fi : input_old C f A ch sc -> 0 < E ->
  bw_build C sort false f ch sc = Ok s -> slbw_evaluate C s E = Ok (Some (e, c, fi)) ->
  (forall ls, In ls (f_lstates f) -> no_threshold ls) ->
  let k := k_old C A in let a x := oval (ch x) in
  e = ENDF_single_elastic k a E (oval (sc E)) (f_SPI f) (f_lstates f) /\
  c = ENDF_capture k a E (f_SPI f) (f_lstates f) /\ fi = ENDF_fission k a E (f_SPI f) (f_lstates f).
Proof. intros Hin HE. exact (old_single C sort f A ch sc E e c fi s Hin HE). Qed.
Print Assumptions C89_single_old_partial.

Theorem C89_multi_old_partial C sort f A ch sc s E e c fi : input_old C f A ch sc -> 0 < E -> sorts b_g sort ->
  bw_build C sort true f ch sc = Ok s -> mlbw_evaluate C s E = Ok (Some (e, c, fi)) ->
  (forall ls, In ls (f_lstates f) -> no_threshold ls) ->
  let k := k_old C A in let a x := oval (ch x) in
  Rabs (e - ENDF_multi_elastic k a E (oval (sc E)) (f_SPI f) (f_lstates f))
    <= barns k E * literal_rounding * Rsum (map (fun ls => scattered (U0_of k E (oval (sc E)) ls)) (f_lstates f)) /\
  c = ENDF_capture k a E (f_SPI f) (f_lstates f) /\ fi = ENDF_fission k a E (f_SPI f) (f_lstates f).
Proof. intros Hin HE. exact (old_multi C sort f A ch sc E e c fi s Hin HE). Qed.
Print Assumptions C89_multi_old_partial.

Theorem C89_single_legacy_partial hbar epsilon0 cwf mn incident target f A nro naps rad n s E m m' :
  input_new hbar mn f A nro naps rad n -> 0 < E ->
  makeLegacyBreitWigner hbar epsilon0 cwf mn incident target f nro naps = Ok (Some s) ->
  legacy_evaluate hbar (legacySLBW hbar epsilon0 cwf) s E m = Ok (Some m') ->
  (forall ls, In ls (f_lstates f) -> no_threshold ls) ->
  let k := k_old (C_new hbar mn) A in let a x := oval (radius_at (r_P rad) x) in let ahat := oval (radius_at (r_phi rad) E) in
  mval m' (elastic_key incident target) = mval m (elastic_key incident target) + ENDF_single_elastic k a E ahat (f_SPI f) (f_lstates f) /\
  mval m' (capture_key incident target) = mval m (capture_key incident target) + ENDF_capture k a E (f_SPI f) (f_lstates f) /\
  mval m' (fission_key incident target) = mval m (fission_key incident target) + ENDF_fission k a E (f_SPI f) (f_lstates f).
Proof. intros Hin HE Hb. exact (legacy_single hbar epsilon0 cwf mn incident target f A nro naps rad n E s m m' Hin HE Hb). Qed.
Print Assumptions C89_single_legacy_partial.

Theorem C89_multi_legacy_partial hbar epsilon0 cwf mn incident target f A nro naps rad n s E m m' :
  input_new hbar mn f A nro naps rad n -> 0 < E ->
  makeLegacyBreitWigner hbar epsilon0 cwf mn incident target f nro naps = Ok (Some s) ->
  legacy_evaluate hbar (legacyMLBW hbar epsilon0 cwf) s E m = Ok (Some m') ->
  (forall ls, In ls (f_lstates f) -> no_threshold ls) ->
  let k := k_old (C_new hbar mn) A in let a x := oval (radius_at (r_P rad) x) in let ahat := oval (radius_at (r_phi rad) E) in
  mval m' (elastic_key incident target) = mval m (elastic_key incident target) + ENDF_multi_elastic k a E ahat (f_SPI f) (f_lstates f) /\
  mval m' (capture_key incident target) = mval m (capture_key incident target) + ENDF_capture k a E (f_SPI f) (f_lstates f) /\
  mval m' (fission_key incident target) = mval m (fission_key incident target) + ENDF_fission k a E (f_SPI f) (f_lstates f).
Proof. intros Hin HE Hb. exact (legacy_multi hbar epsilon0 cwf mn incident target f A nro naps rad n E s m m' Hin HE Hb). Qed.
Print Assumptions C89_multi_legacy_partial.

(** Below the threshold of the competitive reaction both interfaces still count its width: the capture
    cross section is always too small (in the older interface except at one energy). *)
Theorem C89_below_threshold_old C sort f A ch sc s E e c fi ls x : input_old C f A ch sc -> 0 < E ->
  (bw_build C sort false f ch sc = Ok s /\ slbw_evaluate C s E = Ok (Some (e, c, fi)) \/
   sorts b_g sort /\ bw_build C sort true f ch sc = Ok s /\ mlbw_evaluate C s E = Ok (Some (e, c, fi))) ->
  defined ch -> widths (f_lstates f) -> (forall ls, In ls (f_lstates f) -> ls_LRX ls = true -> closed_at E ls) ->
  In ls (f_lstates f) -> In x (ls_lines ls) -> ls_LRX ls = true -> 0 < ln_GN x -> 0 < ln_GG x -> 0 < ln_GX x -> ln_ER x <> 0 ->
  E + q_old ls <> 0 -> ln_ER x + q_old ls <> 0 ->
  c < ENDF_capture (k_old C A) (fun x => oval (ch x)) E (f_SPI f) (f_lstates f).
Proof. intros Hin HE. exact (old_lower C sort f A ch sc E e c fi s Hin HE ls x). Qed.
Print Assumptions C89_below_threshold_old.

Theorem C89_below_threshold_legacy hbar epsilon0 cwf mn incident target f A nro naps rad n s E m m' ls x :
  input_new hbar mn f A nro naps rad n -> 0 < E ->
  makeLegacyBreitWigner hbar epsilon0 cwf mn incident target f nro naps = Ok (Some s) ->
  (legacy_evaluate hbar (legacySLBW hbar epsilon0 cwf) s E m = Ok (Some m') \/ legacy_evaluate hbar (legacyMLBW hbar epsilon0 cwf) s E m = Ok (Some m')) ->
  defined (radius_at (r_P rad)) -> widths (f_lstates f) -> (forall ls, In ls (f_lstates f) -> ls_LRX ls = true -> closed_at E ls) ->
  In ls (f_lstates f) -> In x (ls_lines ls) -> ls_LRX ls = true -> 0 < ln_GN x -> 0 < ln_GG x -> 0 < ln_GX x -> ln_ER x <> 0 -> ln_ER x <> ls_QX ls ->
  mval m' (capture_key incident target) < mval m (capture_key incident target) +
    ENDF_capture (k_old (C_new hbar mn) A) (fun x => oval (radius_at (r_P rad) x)) E (f_SPI f) (f_lstates f).
Proof. intros Hin HE Hb. exact (legacy_lower hbar epsilon0 cwf mn incident target f A nro naps rad n E s m m' Hin HE Hb ls x). Qed.
Print Assumptions C89_below_threshold_legacy.

(** A file with a resonance at 40 eV that may excite a level at 16 eV, seen from 4 eV *)
Theorem C89_old_refuted sort : sorts b_g sort -> exists C f A ch sc s E e c fi, input_old C f A ch sc /\ 0 < E /\
  bw_build C sort false f ch sc = Ok s /\ slbw_evaluate C s E = Ok (Some (e, c, fi)) /\
  c <> ENDF_capture (k_old C A) (fun x => oval (ch x)) E (f_SPI f) (f_lstates f).
Proof.
  intros Hs. destruct (level_old sort Hs) as (s & e & c & fi & Hin & Hb & He).
  exists (C_new 1 2), level_file, 1, (fun _ => Ok 1), (fun _ => Ok 1), s, 4, e, c, fi. split; [exact Hin|]. split; [lra|]. split; [exact Hb|]. split; [exact He|].
  apply Rlt_not_eq. apply (C89_below_threshold_old (C_new 1 2) sort level_file 1 (fun _ => Ok 1) (fun _ => Ok 1) s 4 e c fi (mkLState 0 1 true (-16) [level_line]) level_line Hin ltac:(lra));
    try (left; split; assumption); try exact level_widths; try exact level_closed; try (left; reflexivity); try reflexivity; try (cbn; lra).
  - intros e'. eexists. reflexivity.
  - unfold q_old; cbn; lra.
  - unfold q_old; cbn; lra.
Qed.
Print Assumptions C89_old_refuted.

Theorem C89_legacy_refuted epsilon0 cwf : exists hbar mn f A rad s E m, input_new hbar mn f A None 1 rad 0 /\ 0 < E /\
  makeLegacyBreitWigner hbar epsilon0 cwf mn "n" "t" f None 1 = Ok (Some s) /\ legacy_evaluate hbar (legacySLBW hbar epsilon0 cwf) s E (fun _ => None) = Ok (Some m) /\
  mval m (capture_key "n" "t") <> ENDF_capture (k_old (C_new hbar mn) A) (fun x => oval (radius_at (r_P rad) x)) E (f_SPI f) (f_lstates f).
Proof.
  destruct (level_legacy epsilon0 cwf) as (s & m & Hin & Hb & He).
  exists 1, 2, level_file, 1, (radii1 (Fixed 1)), s, 4, m. split; [exact Hin|]. split; [lra|]. split; [exact Hb|]. split; [exact He|].
  apply Rlt_not_eq. pose proof (C89_below_threshold_legacy 1 epsilon0 cwf 2 "n" "t" level_file 1 None 1 (radii1 (Fixed 1)) 0 s 4 (fun _ => None) m (mkLState 0 1 true (-16) [level_line]) level_line Hin ltac:(lra) Hb (or_introl He)) as H.
  rewrite <- (Rplus_0_l (ENDF_capture _ _ _ _ _)). apply H; try exact level_widths; try exact level_closed; try (left; reflexivity); try reflexivity; try (cbn; lra).
  intros e'. eexists. reflexivity.
Qed.
Print Assumptions C89_legacy_refuted.

(** The same file with QX = 0 *)
Example C89_case epsilon0 cwf : exists s m, makeLegacyBreitWigner 1 epsilon0 cwf 2 "n" "t" zero_file None 1 = Ok (Some s) /\
  legacy_evaluate 1 (legacySLBW 1 epsilon0 cwf) s 4 (fun _ => None) = Ok (Some m) /\
  mval m (capture_key "n" "t") = 0 + ENDF_capture (k_old (C_new 1 2) 1) (fun _ => 1) 4 0 (f_lstates zero_file).
Proof.
  destruct (zero_legacy epsilon0 cwf) as (s & m & Hin & Hb & He). exists s, m. split; [exact Hb|]. split; [exact He|].
  apply (C89_single_legacy_partial 1 epsilon0 cwf 2 "n" "t" zero_file 1 None 1 (radii1 (Fixed 1)) 0 s 4 (fun _ => None) m Hin ltac:(lra) Hb He).
  intros ls [<-|[]]. right; left; reflexivity.
Qed.
