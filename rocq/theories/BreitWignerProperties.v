(** Breit-Wigner resonances in both interfaces: C37 to C40, C42 and C54.
    hbar, epsilon0, the neutron mass, the Coulomb wave functions and the tabulated radius are
    arbitrary throughout; the sort of the older interface is any function that sorts. *)
From Coq Require Import String List ZArith Reals Lra Lia Permutation Bool.
From Verif Require Import Outcome QuantumModel QuantumSpec SpinFactorModel SpinFactorProofs HardSphereModel HardSphereSpec
  KinematicsModel CoulombModel Cplx RMatrixModel ChannelModel BreitWignerModel BreitWignerSpec ListFacts
  BreitWignerProofs BreitWignerSystemProofs LegacyModel LegacyProofs LegacySystemProofs BreitWignerTheory
  BreitWignerTheorems BreitWignerCases BreitWignerWitness.
Import ListNotations.
Open Scope R_scope.

(** * C37: the single-level formula *)
(** The three cross sections are those of the collision matrix with one level at a time ... *)
Theorem C37_slbw_old C sort f A ch sc s E e c fi : input_old C f A ch sc ->
  bw_build C sort false f ch sc = Ok s -> slbw_evaluate C s E = Ok (Some (e, c, fi)) ->
  let k := k_old C A in let a x := oval (ch x) in
  e = SLBW_elastic k a E q_old (oval (sc E)) (f_SPI f) (f_lstates f) /\
  c = BW_capture k a E q_old (f_SPI f) (f_lstates f) /\
  fi = BW_fission k a E q_old (f_SPI f) (f_lstates f).
Proof. intros Hin Hb He. destruct (old_slbw C sort f A ch sc Hin s E e c fi Hb He) as (_ & H1 & H2 & H3 & _). auto. Qed.
Print Assumptions C37_slbw_old.

Theorem C37_slbw_legacy hbar epsilon0 cwf mn incident target f A nro naps rad n s E m m' :
  input_new hbar mn f A nro naps rad n -> E <> 0 ->
  makeLegacyBreitWigner hbar epsilon0 cwf mn incident target f nro naps = Ok (Some s) ->
  legacy_evaluate hbar (legacySLBW hbar epsilon0 cwf) s E m = Ok (Some m') ->
  let k := k_old (C_new hbar mn) A in let a x := oval (radius_at (r_P rad) x) in
  let ahat := oval (radius_at (r_phi rad) E) in
  mval m' (elastic_key incident target) = mval m (elastic_key incident target)
     + SLBW_elastic k a E q_new ahat (f_SPI f) (f_lstates f) /\
  mval m' (capture_key incident target) = mval m (capture_key incident target)
     + BW_capture k a E q_new (f_SPI f) (f_lstates f) /\
  mval m' (fission_key incident target) = mval m (fission_key incident target)
     + BW_fission k a E q_new (f_SPI f) (f_lstates f).
Proof. intros Hin HE. exact (new_slbw hbar epsilon0 cwf mn incident target f A nro naps rad n Hin s E m m' HE). Qed.
Print Assumptions C37_slbw_legacy.

(** ... so capture and fission are not negative, and neither is elastic where the potential
    scattering of every l vanishes *)
Theorem C37_signs_old C sort f A ch sc s E e c fi : input_old C f A ch sc -> positive_widths (f_lstates f) ->
  bw_build C sort false f ch sc = Ok s -> slbw_evaluate C s E = Ok (Some (e, c, fi)) ->
  0 <= c /\ 0 <= fi /\
  ((forall ls, In ls (f_lstates f) -> scattered (U0_of (k_old C A) E (oval (sc E)) ls) = 0) -> 0 <= e).
Proof. intros Hin. exact (old_slbw_signs C sort f A ch sc Hin s E e c fi). Qed.
Print Assumptions C37_signs_old.

Theorem C37_signs_legacy hbar epsilon0 cwf mn incident target f A nro naps rad n s E m m' :
  input_new hbar mn f A nro naps rad n -> E <> 0 -> positive_widths (f_lstates f) ->
  makeLegacyBreitWigner hbar epsilon0 cwf mn incident target f nro naps = Ok (Some s) ->
  legacy_evaluate hbar (legacySLBW hbar epsilon0 cwf) s E m = Ok (Some m') ->
  mval m (capture_key incident target) <= mval m' (capture_key incident target) /\
  mval m (fission_key incident target) <= mval m' (fission_key incident target) /\
  ((forall ls, In ls (f_lstates f) ->
      scattered (U0_of (k_old (C_new hbar mn) A) E (oval (radius_at (r_phi rad) E)) ls) = 0) ->
   mval m (elastic_key incident target) <= mval m' (elastic_key incident target)).
Proof. intros Hin. exact (new_slbw_signs hbar epsilon0 cwf mn incident target f A nro naps rad n Hin s E m m'). Qed.
Print Assumptions C37_signs_legacy.

(** The elastic cross section of two overlapping levels of positive width can be negative *)
Theorem C37_elastic_negative_old sort : sorts b_g sort -> exists C f ch sc s E e c fi,
  input_old C f 1 ch sc /\ positive_widths (f_lstates f) /\
  bw_build C sort false f ch sc = Ok s /\ slbw_evaluate C s E = Ok (Some (e, c, fi)) /\ e < 0.
Proof.
  intros Hs. destruct (elastic_negative_old sort Hs) as (s & e & c & fi & Hb & He & Hn).
  exists 2, neg_file, (fun _ => Ok (PI / 4)), (fun _ => Ok (PI / 4)), s, 1, e, c, fi.
  split; [rewrite <- C_2; apply one_old_input; try lra; apply PI4_pos|].
  split; [|auto]. intros ls x [<-|[]] [<-|[<-|[]]]; cbn; repeat split; lra.
Qed.
Print Assumptions C37_elastic_negative_old.

Theorem C37_elastic_negative_legacy epsilon0 cwf : exists hbar mn f rad s E m,
  input_new hbar mn f 1 None 1 rad 0 /\ positive_widths (f_lstates f) /\
  makeLegacyBreitWigner hbar epsilon0 cwf mn "n" "t" f None 1 = Ok (Some s) /\
  legacy_evaluate hbar (legacySLBW hbar epsilon0 cwf) s E (fun _ => None) = Ok (Some m) /\
  mval m (elastic_key "n" "t") < 0.
Proof.
  destruct (elastic_negative_new epsilon0 cwf) as (s & m & Hb & Hm & Hn).
  exists 1, 2, neg_file, (radii1 (Fixed (PI / 4))), s, 1, m.
  split; [apply one_input; try lra; [apply PI4_pos | discriminate]|].
  split; [|auto]. intros ls x [<-|[]] [<-|[<-|[]]]; cbn; repeat split; lra.
Qed.
Print Assumptions C37_elastic_negative_legacy.

(** * C38: the multi-level formula *)
Theorem C38_mlbw_legacy hbar epsilon0 cwf mn incident target f A nro naps rad n s E m m' :
  input_new hbar mn f A nro naps rad n -> E <> 0 ->
  makeLegacyBreitWigner hbar epsilon0 cwf mn incident target f nro naps = Ok (Some s) ->
  legacy_evaluate hbar (legacyMLBW hbar epsilon0 cwf) s E m = Ok (Some m') ->
  let k := k_old (C_new hbar mn) A in let a x := oval (radius_at (r_P rad) x) in
  let ahat := oval (radius_at (r_phi rad) E) in
  mval m' (elastic_key incident target) = mval m (elastic_key incident target)
     + MLBW_elastic k a E q_new ahat (f_SPI f) (f_lstates f) /\
  mval m' (capture_key incident target) = mval m (capture_key incident target)
     + BW_capture k a E q_new (f_SPI f) (f_lstates f) /\
  mval m' (fission_key incident target) = mval m (fission_key incident target)
     + BW_fission k a E q_new (f_SPI f) (f_lstates f).
Proof. intros Hin HE. exact (new_mlbw hbar epsilon0 cwf mn incident target f A nro naps rad n Hin s E m m' HE). Qed.
Print Assumptions C38_mlbw_legacy.

(** The older interface replaces 2l+1 minus the sum of the statistical factors by a rounded
    literal for I = 1, 5/2 and 3 *)
Theorem C38_mlbw_old C sort f A ch sc s E e c fi : input_old C f A ch sc -> sorts b_g sort ->
  bw_build C sort true f ch sc = Ok s -> mlbw_evaluate C s E = Ok (Some (e, c, fi)) ->
  let k := k_old C A in let a x := oval (ch x) in let ahat := oval (sc E) in
  Rabs (e - MLBW_elastic k a E q_old ahat (f_SPI f) (f_lstates f))
    <= barns k E * literal_rounding * Rsum (map (fun ls => scattered (U0_of k E ahat ls)) (f_lstates f)) /\
  c = BW_capture k a E q_old (f_SPI f) (f_lstates f) /\
  fi = BW_fission k a E q_old (f_SPI f) (f_lstates f).
Proof.
  intros Hin Hs Hb He. destruct (old_mlbw C sort f A ch sc Hin s E e c fi Hs Hb He) as (H1 & H2 & H3 & _). auto.
Qed.
Print Assumptions C38_mlbw_old.

(** The elastic cross section is not negative, whatever the widths; the legacy interface only
    builds a system for (l, J) that can be formed, so no hypothesis on J is needed *)
Theorem C38_elastic_nonneg_legacy hbar epsilon0 cwf mn incident target f A nro naps rad n s E m m' :
  input_new hbar mn f A nro naps rad n -> E <> 0 ->
  makeLegacyBreitWigner hbar epsilon0 cwf mn incident target f nro naps = Ok (Some s) ->
  legacy_evaluate hbar (legacyMLBW hbar epsilon0 cwf) s E m = Ok (Some m') ->
  mval m (elastic_key incident target) <= mval m' (elastic_key incident target) /\
  (positive_widths (f_lstates f) ->
   mval m (capture_key incident target) <= mval m' (capture_key incident target) /\
   mval m (fission_key incident target) <= mval m' (fission_key incident target)).
Proof. intros Hin. exact (new_mlbw_signs hbar epsilon0 cwf mn incident target f A nro naps rad n Hin s E m m'). Qed.
Print Assumptions C38_elastic_nonneg_legacy.

Theorem C38_elastic_nonneg_old C sort f A ch sc s E e c fi : input_old C f A ch sc -> sorts b_g sort ->
  bw_build C sort true f ch sc = Ok s -> mlbw_evaluate C s E = Ok (Some (e, c, fi)) ->
  (positive_widths (f_lstates f) -> 0 <= c /\ 0 <= fi) /\
  ((forall ls, In ls (f_lstates f) -> coupled (f_SPI f) ls) -> 0 <= e).
Proof. intros Hin. exact (old_mlbw_signs C sort f A ch sc Hin s E e c fi). Qed.
Print Assumptions C38_elastic_nonneg_old.

(** The file of C37 can be evaluated with the multi-level formula in both interfaces *)
Example C38_case epsilon0 cwf : (exists s m,
    input_new 1 2 neg_file 1 None 1 (radii1 (Fixed (PI / 4))) 0 /\
    makeLegacyBreitWigner 1 epsilon0 cwf 2 "n" "t" neg_file None 1 = Ok (Some s) /\
    legacy_evaluate 1 (legacyMLBW 1 epsilon0 cwf) s 1 (fun _ => None) = Ok (Some m)) /\
  (exists s t, input_old (C_new 1 2) neg_file 1 (fun _ => Ok (PI / 4)) (fun _ => Ok (PI / 4)) /\
    (forall ls, In ls (f_lstates neg_file) -> coupled (f_SPI neg_file) ls) /\
    bw_build (C_new 1 2) (insertion_sort b_g) true neg_file (fun _ => Ok (PI / 4)) (fun _ => Ok (PI / 4)) = Ok s /\
    mlbw_evaluate (C_new 1 2) s 1 = Ok (Some t)).
Proof.
  split.
  - destruct (one_total 1 epsilon0 cwf 2 "n" "t" (PI / 4) 1 false 0 [neg_line; neg_line] ltac:(lra) ltac:(lra) PI4_pos ltac:(lra)
      ltac:(discriminate) neg_lines 1 ltac:(lra) ltac:(lra) (fun _ => None)) as (s & Hb & _ & (m & Hm)).
    exists s, m. split; [apply one_input; try lra; [apply PI4_pos | discriminate]|]. auto.
  - destruct (one_old_total 1 2 (PI / 4) 1 false 0 [neg_line; neg_line] ltac:(lra) ltac:(lra) PI4_pos ltac:(lra)
      neg_lines (insertion_sort b_g) 1 ltac:(lra) ltac:(discriminate) ltac:(discriminate) (insertion_sorts b_g))
      as [_ (s & t & Hb & He)].
    exists s, t. split; [apply one_old_input; try lra; apply PI4_pos|]. split; [|auto].
    intros ls [<-|[]] x [<-|[<-|[]]]; exists 1%Z; split; (split; [cbn; lia | exists 1%Z; reflexivity]).
Qed.

(** * C39: the two formulas differ by the interference of the levels of equal l and J *)
Theorem C39_interference_legacy hbar epsilon0 cwf mn incident target f A nro naps rad n s E m m1 m2 :
  input_new hbar mn f A nro naps rad n -> E <> 0 ->
  makeLegacyBreitWigner hbar epsilon0 cwf mn incident target f nro naps = Ok (Some s) ->
  legacy_evaluate hbar (legacySLBW hbar epsilon0 cwf) s E m = Ok (Some m1) ->
  legacy_evaluate hbar (legacyMLBW hbar epsilon0 cwf) s E m = Ok (Some m2) ->
  mval m2 (capture_key incident target) = mval m1 (capture_key incident target) /\
  mval m2 (fission_key incident target) = mval m1 (fission_key incident target) /\
  mval m2 (elastic_key incident target) = mval m1 (elastic_key incident target)
    + interference_sum (k_old (C_new hbar mn) A) (fun x => oval (radius_at (r_P rad) x)) E q_new
        (f_SPI f) (f_lstates f).
Proof. intros Hin. exact (new_interference hbar epsilon0 cwf mn incident target f A nro naps rad n Hin s E m m1 m2). Qed.
Print Assumptions C39_interference_legacy.

Theorem C39_isolated_legacy hbar epsilon0 cwf mn incident target f A nro naps rad n s E m m1 m2 :
  input_new hbar mn f A nro naps rad n -> E <> 0 ->
  makeLegacyBreitWigner hbar epsilon0 cwf mn incident target f nro naps = Ok (Some s) ->
  (forall ls, In ls (f_lstates f) -> NoDup (map abs_J (ls_lines ls))) ->
  legacy_evaluate hbar (legacySLBW hbar epsilon0 cwf) s E m = Ok (Some m1) ->
  legacy_evaluate hbar (legacyMLBW hbar epsilon0 cwf) s E m = Ok (Some m2) ->
  mval m2 (capture_key incident target) = mval m1 (capture_key incident target) /\
  mval m2 (fission_key incident target) = mval m1 (fission_key incident target) /\
  mval m2 (elastic_key incident target) = mval m1 (elastic_key incident target).
Proof. intros Hin. exact (new_isolated hbar epsilon0 cwf mn incident target f A nro naps rad n Hin s E m m1 m2). Qed.
Print Assumptions C39_isolated_legacy.

(** In the older interface up to the rounded literals *)
Theorem C39_interference_old C sort f A ch sc s s' E e c fi e' c' fi' : input_old C f A ch sc -> sorts b_g sort ->
  bw_build C sort true f ch sc = Ok s -> mlbw_evaluate C s E = Ok (Some (e, c, fi)) ->
  bw_build C sort false f ch sc = Ok s' -> slbw_evaluate C s' E = Ok (Some (e', c', fi')) ->
  c = c' /\ fi = fi' /\
  Rabs (e - (e' + interference_sum (k_old C A) (fun x => oval (ch x)) E q_old (f_SPI f) (f_lstates f)))
    <= barns (k_old C A) E * literal_rounding
       * Rsum (map (fun ls => scattered (U0_of (k_old C A) E (oval (sc E)) ls)) (f_lstates f)).
Proof. intros Hin. exact (old_interference C sort f A ch sc Hin s s' E e c fi e' c' fi'). Qed.
Print Assumptions C39_interference_old.

Theorem C39_isolated_old C sort f A ch sc s s' E e c fi e' c' fi' : input_old C f A ch sc -> sorts b_g sort ->
  (forall ls, In ls (f_lstates f) -> NoDup (map abs_J (ls_lines ls))) ->
  bw_build C sort true f ch sc = Ok s -> mlbw_evaluate C s E = Ok (Some (e, c, fi)) ->
  bw_build C sort false f ch sc = Ok s' -> slbw_evaluate C s' E = Ok (Some (e', c', fi')) ->
  c = c' /\ fi = fi' /\
  Rabs (e - e') <= barns (k_old C A) E * literal_rounding
       * Rsum (map (fun ls => scattered (U0_of (k_old C A) E (oval (sc E)) ls)) (f_lstates f)).
Proof. intros Hin. exact (old_isolated C sort f A ch sc Hin s s' E e c fi e' c' fi'). Qed.
Print Assumptions C39_isolated_old.

Definition single_file : bw_file := one_l 1 1 false 0 [neg_line].
Lemma single_lines : forall x, In x [neg_line] -> ln_AJ x = 1%Z /\ ln_ER x <> 0 /\ (false = true -> ln_ER x - 0 <> 0) /\
  0 <= ln_GN x /\ 0 < ln_GG x /\ 0 <= ln_GF x /\ 0 <= ln_GX x.
Proof. intros x [<-|[]]; cbn; repeat split; try lra; discriminate. Qed.

Example C39_case epsilon0 cwf : (forall ls, In ls (f_lstates single_file) -> NoDup (map abs_J (ls_lines ls))) /\
  (exists s m1 m2, input_new 1 2 single_file 1 None 1 (radii1 (Fixed 1)) 0 /\
    makeLegacyBreitWigner 1 epsilon0 cwf 2 "n" "t" single_file None 1 = Ok (Some s) /\
    legacy_evaluate 1 (legacySLBW 1 epsilon0 cwf) s 1 (fun _ => None) = Ok (Some m1) /\
    legacy_evaluate 1 (legacyMLBW 1 epsilon0 cwf) s 1 (fun _ => None) = Ok (Some m2)) /\
  (exists s t s' t', input_old (C_new 1 2) single_file 1 (fun _ => Ok 1) (fun _ => Ok 1) /\
    bw_build (C_new 1 2) (insertion_sort b_g) true single_file (fun _ => Ok 1) (fun _ => Ok 1) = Ok s /\
    mlbw_evaluate (C_new 1 2) s 1 = Ok (Some t) /\
    bw_build (C_new 1 2) (insertion_sort b_g) false single_file (fun _ => Ok 1) (fun _ => Ok 1) = Ok s' /\
    slbw_evaluate (C_new 1 2) s' 1 = Ok (Some t')).
Proof.
  split; [|split].
  - intros ls [<-|[]]. cbn. constructor; [intros [] | constructor].
  - destruct (one_total 1 epsilon0 cwf 2 "n" "t" 1 1 false 0 [neg_line] ltac:(lra) ltac:(lra) ltac:(lra) ltac:(lra)
      ltac:(discriminate) single_lines 1 ltac:(lra) ltac:(lra) (fun _ => None)) as (s & Hb & (m1 & H1) & (m2 & H2)).
    exists s, m1, m2. split; [apply one_input; try lra; discriminate|]. auto.
  - destruct (one_old_total 1 2 1 1 false 0 [neg_line] ltac:(lra) ltac:(lra) ltac:(lra) ltac:(lra)
      single_lines (insertion_sort b_g) 1 ltac:(lra) ltac:(discriminate) ltac:(discriminate) (insertion_sorts b_g))
      as [(s' & t' & Hb' & He') (s & t & Hb & He)].
    exists s, t, s', t'. split; [apply one_old_input; lra|]. auto.
Qed.

(** * C40: the older and the legacy interface *)
(** Equal results when there is no competitive width, or one without a Q value; the constant of
    the older interface has to be the one made of the neutron mass and hbar of the newer, and
    for NAPS = 0 the neutron mass the literal of the older *)
Theorem C40_slbw_agree hbar epsilon0 cwf mn incident target sort f A (NRO : bool) NAPS table rad n s s' E e c fi m m' :
  input_new hbar mn f A (if NRO then table else None) (Z.to_nat NAPS) rad n ->
  (NAPS = 0%Z -> mn = 1.00866491582) ->
  (forall ls, In ls (f_lstates f) -> ls_LRX ls = false \/ ls_QX ls = 0 /\ even_radius (radius_at (r_P rad)) ls) ->
  bw_apply (C_new hbar mn) sort false f NRO NAPS table = Ok s -> slbw_evaluate (C_new hbar mn) s E = Ok (Some (e, c, fi)) ->
  makeLegacyBreitWigner hbar epsilon0 cwf mn incident target f (if NRO then table else None) (Z.to_nat NAPS) = Ok (Some s') ->
  legacy_evaluate hbar (legacySLBW hbar epsilon0 cwf) s' E m = Ok (Some m') ->
  mval m' (elastic_key incident target) = mval m (elastic_key incident target) + e /\
  mval m' (capture_key incident target) = mval m (capture_key incident target) + c /\
  mval m' (fission_key incident target) = mval m (fission_key incident target) + fi.
Proof.
  intros Hin H0 Hx. exact (slbw_agree hbar epsilon0 cwf mn incident target sort f A NRO NAPS table rad n Hin H0 Hx s s' E e c fi m m').
Qed.
Print Assumptions C40_slbw_agree.

Theorem C40_mlbw_agree hbar epsilon0 cwf mn incident target sort f A (NRO : bool) NAPS table rad n s s' E e c fi m m' :
  input_new hbar mn f A (if NRO then table else None) (Z.to_nat NAPS) rad n ->
  (NAPS = 0%Z -> mn = 1.00866491582) ->
  (forall ls, In ls (f_lstates f) -> ls_LRX ls = false \/ ls_QX ls = 0 /\ even_radius (radius_at (r_P rad)) ls) ->
  sorts b_g sort ->
  bw_apply (C_new hbar mn) sort true f NRO NAPS table = Ok s -> mlbw_evaluate (C_new hbar mn) s E = Ok (Some (e, c, fi)) ->
  makeLegacyBreitWigner hbar epsilon0 cwf mn incident target f (if NRO then table else None) (Z.to_nat NAPS) = Ok (Some s') ->
  legacy_evaluate hbar (legacyMLBW hbar epsilon0 cwf) s' E m = Ok (Some m') ->
  Rabs (mval m' (elastic_key incident target) - (mval m (elastic_key incident target) + e))
    <= barns (k_old (C_new hbar mn) A) E * literal_rounding *
       Rsum (map (fun ls => scattered (U0_of (k_old (C_new hbar mn) A) E (oval (radius_at (r_phi rad) E)) ls)) (f_lstates f)) /\
  mval m' (capture_key incident target) = mval m (capture_key incident target) + c /\
  mval m' (fission_key incident target) = mval m (fission_key incident target) + fi.
Proof.
  intros Hin H0 Hx. exact (mlbw_agree hbar epsilon0 cwf mn incident target sort f A NRO NAPS table rad n Hin H0 Hx s s' E e c fi m m').
Qed.
Print Assumptions C40_mlbw_agree.

Example C40_case epsilon0 cwf : exists s t s' m',
  input_new 1 2 single_file 1 None 1 (radii1 (Fixed 1)) 0 /\
  bw_apply (C_new 1 2) (insertion_sort b_g) true single_file false 1 None = Ok s /\
  mlbw_evaluate (C_new 1 2) s 1 = Ok (Some t) /\
  makeLegacyBreitWigner 1 epsilon0 cwf 2 "n" "t" single_file None 1 = Ok (Some s') /\
  legacy_evaluate 1 (legacyMLBW 1 epsilon0 cwf) s' 1 (fun _ => None) = Ok (Some m').
Proof.
  destruct (C39_case epsilon0 cwf) as (_ & (s' & _ & m2 & Hin & Hb' & _ & H2) & (s & t & _ & _ & _ & Hb & He & _)).
  exists s, t, s', m2. split; [exact Hin|]. split; [|auto].
  unfold bw_apply. change (f_AP single_file) with 1. cbn [Z.eqb Pos.eqb]. rewrite Hb. reflexivity.
Qed.

(** With a competitive width the interfaces disagree *)
Theorem C40_competitive_refuted epsilon0 cwf sort : sorts b_g sort -> exists f s s' e c fi m',
  input_new 1 2 f 1 None 1 (radii1 (Fixed 1)) 0 /\
  bw_apply (C_new 1 2) sort false f false 1 None = Ok s /\ slbw_evaluate (C_new 1 2) s 4 = Ok (Some (e, c, fi)) /\
  makeLegacyBreitWigner 1 epsilon0 cwf 2 "n" "t" f None 1 = Ok (Some s') /\
  legacy_evaluate 1 (legacySLBW 1 epsilon0 cwf) s' 4 (fun _ => None) = Ok (Some m') /\
  mval m' (capture_key "n" "t") <> c.
Proof. exact (competitive_differs epsilon0 cwf sort). Qed.
Print Assumptions C40_competitive_refuted.

(** * C42: the order of the resonances of an l value in the file *)
(** The groups that are formed after sorting: nothing is lost, all members of a group share
    their statistical factor and no two groups do *)
Theorem C42_groups sort rs : sorts b_g sort ->
  let groups := map (fun g => fst g :: snd g) (group_by b_g (sort rs)) in
  Permutation (concat groups) rs /\
  (forall g r r', In g groups -> In r g -> In r' g -> b_g r = b_g r') /\
  (forall i j g h r r', nth_error groups i = Some g -> nth_error groups j = Some h ->
     In r g -> In r' h -> b_g r = b_g r' -> i = j).
Proof. exact (groups_by_factor sort rs). Qed.
Print Assumptions C42_groups.

(** A reordered file gives the same system up to the order, and the same cross sections at
    every energy.  C38_mlbw_old says that the resonances that share |J| interfere. *)
Theorem C42_mlbw_order C sort f f' ch sc s : sorts b_g sort ->
  0 < C -> (forall ls, In ls (f_lstates f) -> 0 < ls_AWRI ls) ->
  positive ch -> positive sc -> reordered f f' ->
  bw_build C sort true f ch sc = Ok s ->
  exists s', bw_build C sort true f' ch sc = Ok s' /\
  forall E, E <> 0 -> mlbw_evaluate C s E = mlbw_evaluate C s' E.
Proof. intros Hs HC HA Hch Hsc Hff. exact (mlbw_order C sort f f' ch sc HC HA Hch Hsc Hff Hs s). Qed.
Print Assumptions C42_mlbw_order.

Theorem C42_slbw_order C sort f f' ch sc s :
  0 < C -> (forall ls, In ls (f_lstates f) -> 0 < ls_AWRI ls) ->
  positive ch -> positive sc -> reordered f f' ->
  bw_build C sort false f ch sc = Ok s ->
  exists s', bw_build C sort false f' ch sc = Ok s' /\
  forall E, E <> 0 -> slbw_evaluate C s E = slbw_evaluate C s' E.
Proof. intros HC HA Hch Hsc Hff. exact (slbw_order C sort f f' ch sc HC HA Hch Hsc Hff s). Qed.
Print Assumptions C42_slbw_order.

Theorem C42_legacy_order hbar epsilon0 cwf mn incident target f f' A nro naps rad n s s' E m m1 m1' m2 m2' :
  input_new hbar mn f A nro naps rad n -> reordered f f' -> E <> 0 ->
  makeLegacyBreitWigner hbar epsilon0 cwf mn incident target f nro naps = Ok (Some s) ->
  makeLegacyBreitWigner hbar epsilon0 cwf mn incident target f' nro naps = Ok (Some s') ->
  legacy_evaluate hbar (legacySLBW hbar epsilon0 cwf) s E m = Ok (Some m1) ->
  legacy_evaluate hbar (legacySLBW hbar epsilon0 cwf) s' E m = Ok (Some m1') ->
  legacy_evaluate hbar (legacyMLBW hbar epsilon0 cwf) s E m = Ok (Some m2) ->
  legacy_evaluate hbar (legacyMLBW hbar epsilon0 cwf) s' E m = Ok (Some m2') ->
  forall key, In key [elastic_key incident target; capture_key incident target; fission_key incident target] ->
  mval m1 key = mval m1' key /\ mval m2 key = mval m2' key.
Proof.
  intros Hin Hff. exact (legacy_order hbar epsilon0 cwf mn incident target f f' A nro naps rad n Hin Hff s s' E m m1 m1' m2 m2').
Qed.
Print Assumptions C42_legacy_order.

Example C42_case : let f := one_l 1 1 false 0 [neg_line; comp_line] in
  reordered f (one_l 1 1 false 0 [comp_line; neg_line]) /\
  exists s, bw_build 2 (insertion_sort b_g) true f (fun _ => Ok 1) (fun _ => Ok 1) = Ok s.
Proof.
  split.
  - split; [reflexivity|]. split; [reflexivity|]. constructor; [|constructor].
    repeat split. apply perm_swap.
  - destruct (one_old_total 1 2 1 1 false 0 [neg_line; comp_line] ltac:(lra) ltac:(lra) ltac:(lra) ltac:(lra)
      ltac:(intros x [<-|[<-|[]]]; cbn; repeat split; try lra; discriminate)
      (insertion_sort b_g) 1 ltac:(lra) ltac:(discriminate) ltac:(discriminate) (insertion_sorts b_g)) as [_ (s & t & Hb & _)].
    rewrite C_2 in Hb. exists s. exact Hb.
Qed.

(** * C54: the widths at the resonance energy *)
Theorem C54_legacy_widths energy elastic capture fission competition P Q S : P <> 0 -> Q <> 0 ->
  let r := makeLegacyResonance energy elastic capture fission competition P Q S in
  legacyElasticAt r P = Some elastic /\ legacyCompetitionAt r Q = Some competition /\
  q_capture r = capture /\ q_fission r = fission /\
  legacyTotalAt r P Q = Some (elastic + capture + fission + competition) /\
  legacyTotal r = elastic + capture + fission + competition /\
  energyPrime r S = Some energy.
Proof. exact (legacy_at_resonance energy elastic capture fission competition P Q S). Qed.
Print Assumptions C54_legacy_widths.

(** From the file: the level that enters the cross sections (C37, C38) at E = ER *)
Theorem C54_level_at_resonance k a q ls x :
  P_at k a (ls_L ls) (ln_ER x) <> 0 ->
  (ls_LRX ls = true -> P_at k a (ls_L ls) (ln_ER x + q ls) <> 0) ->
  level_of k a (ln_ER x) q ls x =
  Level (ln_ER x) (ln_GN x) (ln_GG x) (ln_GF x)
        (ln_GN x + ln_GG x + ln_GF x + if ls_LRX ls then ln_GX x else 0).
Proof. exact (level_at_resonance k a q ls x). Qed.
Print Assumptions C54_level_at_resonance.

(** A resonance at zero energy, or a competitive threshold at the resonance energy, has no
    such widths: the quotients are not finite *)
Theorem C54_zero_penetrability energy elastic capture fission competition Q S P :
  legacyElasticAt (makeLegacyResonance energy elastic capture fission competition 0 Q S) P = None /\
  legacyCompetitionAt (makeLegacyResonance energy elastic capture fission competition P 0 S) Q = None.
Proof. unfold legacyElasticAt, legacyCompetitionAt, makeLegacyResonance, fdiv; cbn.
  destruct (Req_EM_T 0 0); [split; reflexivity | lra]. Qed.
Print Assumptions C54_zero_penetrability.

(** The older interface at E = ER: whatever the line shape, it is called with the energy ER and
    the total width, and the neutron width over the total width is returned *)
Theorem C54_old_widths ER GN GG GF GX P Q S g w kernel : P <> 0 -> Q <> 0 ->
  let r := makeBW ER GN GG GF (fdiv GX Q) P S g in
  let T := GN + GG + GF + GX in
  T <> 0 -> b_competitive r = Some w ->
  bw_common r P S (w * Q) kernel =
  Some (fst (kernel ER (1 / T)), snd (kernel ER (1 / T)), GN / T, 1 / T).
Proof. exact (old_at_resonance ER GN GG GF GX P Q S g w kernel). Qed.
Print Assumptions C54_old_widths.

Example C54_case : let k := k_old 2 1 in
  P_at k (fun _ => 1) (ls_L comp_ls) (ln_ER comp_line) <> 0 /\
  (ls_LRX comp_ls = true -> P_at k (fun _ => 1) (ls_L comp_ls) (ln_ER comp_line + q_old comp_ls) <> 0).
Proof.
  unfold P_at, q_old; cbn. split; [|intros _]; rewrite P_spec_l0, k_1; apply Rgt_not_eq, Rmult_gt_0_compat; try lra;
    apply sqrt_lt_R0, Rabs_pos_lt; lra.
Qed.
