(** The older Reich-Moore interface: C42 (its part), C43 and C44.
    The neutron constant and the tabulated radius are arbitrary; the sort is any function that
    sorts.  [rm_input] lists what is asked of a file, and [values_of a ls e] is the radius. *)
From Coq Require Import String List ZArith Reals Lra Lia Permutation Bool.
From mathcomp Require Import fintype.
From Verif Require Import Outcome QuantumSpec HardSphereSpec KinematicsModel Cplx RMatrixModel RMatrixSpec ChannelModel
  BreitWignerModel BreitWignerSpec ListFacts BreitWignerSystemProofs KMatrixModel KMatrixSpec KMatrixProofs
  KMatrixMore ReichMooreModel ReichMooreSpec ReichMooreProofs ReichMooreFile ReichMooreWeights ReichMooreTheory ReichMooreCases.
Import ListNotations.
Open Scope R_scope.

(** * C44: the 3x3 K matrix and R_L *)
(** One J: the older evaluation and the newer evaluation of the same resonances *)
Theorem C44_two_interfaces E P phi front rs t e f g (s : cache 3) : 0 < P ->
  (forall r, In r rs -> 0 <= rm_capture r) ->
  rm_Jgroup E (sqrt P) phi front rs = Some (t, e, f, g) ->
  exists s' A f1 f2, rl_call ShiftFactor E (map reduced rs) (three_channels P phi) s = Some (s', A) /\
    crossSections g (three_channels P phi) A ord0 = [e; f1; f2; t - e - f] /\ f = f1 + f2.
Proof. exact (@two_interfaces E P phi front rs t e f g s). Qed.
Print Assumptions C44_two_interfaces.
(** ... which succeeds ... *)
Theorem C44_finite E P phi front rs : 0 < P ->
  (forall r, In r rs -> 0 <= rm_capture r) -> (forall r, In r rs -> finite3 E r) ->
  rm_Jgroup E (sqrt P) phi front rs <> None.
Proof. exact (@Jgroup_finite E P phi front rs). Qed.
Print Assumptions C44_finite.
(** ... and the reduced widths it uses are sqrt( Gamma / 2P ). *)
Theorem C44_reduced_widths C A I ar rho ls x r E : 
  (forall e y, rho e = Ok y -> y = k_old C A e * oval (ar ls e) /\ 0 <= y) ->
  rm_build_resonance I (rs_L ls) rho x = Ok r -> finite3 E r ->
  reduced r = reduced_of (k_old C A) (fun ls e => oval (ar ls e)) ls x.
Proof. intros Hr Hb Hf. exact (proj1 (proj2 (proj2 (resonance_value C A I ar rho ls x r E Hr Hb Hf)))). Qed.
Print Assumptions C44_reduced_widths.

Example C44_case front : let rs := [makeRM 3 1 1 1 (-1) 2 1; makeRM 7 2 0 0 1 2 1] in
  0 < 2 /\ (forall r, In r rs -> 0 <= rm_capture r) /\ (forall r, In r rs -> finite3 1 r) /\
  rm_Jgroup 1 (sqrt 2) 0 front rs <> None.
Proof.
  intros rs.
  assert (H1 : forall r, In r rs -> 0 <= rm_capture r) by (intros r [<-|[<-|[]]]; cbn; lra).
  assert (Hs : 0 < sqrt 2) by (apply sqrt_lt_R0; lra).
  assert (H2 : forall r, In r rs -> finite3 1 r).
  { intros r [<-|[<-|[]]]; unfold finite3, makeRM, fsqrt, frecip, den3;
      cbn [rm_rootNeutron rm_inverseRoot rm_energy rm_capture];
      repeat match goal with |- context [Rlt_dec ?a 0] => destruct (Rlt_dec a 0); [lra|] end;
      cbn [ssrbool.is_left]; (destruct (Req_EM_T (sqrt 2) 0); [lra|]); cbn [ssrbool.is_left];
      repeat split; try discriminate; lra. }
  split; [lra|]. split; [exact H1|]. split; [exact H2|]. apply C44_finite; [lra | exact H1 | exact H2].
Qed.

(** A whole file: the three cross sections are those of the collision matrix, with any phase
    shifts that are those of the hard sphere. *)
Theorem C44_file C sort f A NRO NAPS table a ahat E s e c fi phi :
  rm_input C f A NRO NAPS table a ahat -> sorts rm_flagged sort ->
  rm_apply C sort f NRO NAPS table = Ok s -> rm_evaluate C s E = Ok (Some (e, c, fi)) ->
  (forall ls, In ls (rf_lstates f) -> is_phase (rs_L ls) (k_old C A E * values_of ahat ls E) (phi ls)) ->
  e = RM_elastic (k_old C A) E (rf_SPI f) (values_of a) phi (rf_lstates f) /\
  c = RM_capture (k_old C A) E (rf_SPI f) (values_of a) phi (rf_lstates f) /\
  fi = RM_fission (k_old C A) E (rf_SPI f) (values_of a) phi (rf_lstates f).
Proof.
  intros Hin Hsort Hs He Hphi.
  exact (proj2 (proj2 (apply_values C sort f A NRO NAPS table a ahat E s e c fi Hin Hsort Hs He)) phi Hphi).
Qed.
Print Assumptions C44_file.
Theorem C44_phases C sort f A NRO NAPS table a ahat E s e c fi :
  rm_input C f A NRO NAPS table a ahat -> sorts rm_flagged sort ->
  rm_apply C sort f NRO NAPS table = Ok s -> rm_evaluate C s E = Ok (Some (e, c, fi)) ->
  exists phi, forall ls, In ls (rf_lstates f) -> is_phase (rs_L ls) (k_old C A E * values_of ahat ls E) (phi ls).
Proof. exact (phases_exist C sort f A NRO NAPS table a ahat E s e c fi). Qed.
Print Assumptions C44_phases.
(** The evaluation succeeds exactly when no width is negative, no resonance is at zero and none
    at the energy without capture. *)
Theorem C44_succeeds C sort f A NRO NAPS table a ahat E :
  rm_input C f A NRO NAPS table a ahat -> sorts rm_flagged sort -> table_at table E ->
  (evaluable f a ahat E <->
   exists s t, rm_apply C sort f NRO NAPS table = Ok s /\ rm_evaluate C s E = Ok (Some t)).
Proof.
  intros Hin Hsort Ht. split.
  - intros Hev. exact (rm_apply_ok C sort f A NRO NAPS table a ahat E Hin Hsort Hev Ht).
  - intros (s & t & Hs & He). exact (rm_apply_only C sort f A NRO NAPS table a ahat E s t Hin Hsort Hs He).
Qed.
Print Assumptions C44_succeeds.
Example C44_file_case : rm_input 1 (a_file 1 1 fissile) 1 false 1 None a_radius a_radius /\
  exists s e c fi, rm_apply 1 (insertion_sort rm_flagged) (a_file 1 1 fissile) false 1 None = Ok s /\
    rm_evaluate 1 s 1 = Ok (Some (e, c, fi)).
Proof.
  assert (Hin : rm_input 1 (a_file 1 1 fissile) 1 false 1 None a_radius a_radius)
    by (apply a_input; [lia | exact fissile_GG]).
  split; [exact Hin|].
  destruct (rm_apply_ok 1 (insertion_sort rm_flagged) _ 1 false 1 None _ _ 1 Hin (insertion_sorts rm_flagged)
    (a_evaluable 1 1 fissile 1 ltac:(lia) ltac:(lra) fissile_fine) Logic.I) as (s & [[e c] fi] & Hs & He).
  exists s, e, c, fi. split; assumption.
Qed.

(** * C43: conservation and signs *)
Theorem C43_conserved C sort f A NRO NAPS table a ahat E s e c fi phi :
  rm_input C f A NRO NAPS table a ahat -> sorts rm_flagged sort ->
  rm_apply C sort f NRO NAPS table = Ok s -> rm_evaluate C s E = Ok (Some (e, c, fi)) ->
  (forall ls, In ls (rf_lstates f) -> is_phase (rs_L ls) (k_old C A E * values_of ahat ls E) (phi ls)) ->
  e + c + fi = RM_total (k_old C A) E (rf_SPI f) (values_of a) phi (rf_lstates f).
Proof.
  intros Hin Hsort Hs He Hphi.
  destruct (C44_file C sort f A NRO NAPS table a ahat E s e c fi phi Hin Hsort Hs He Hphi) as (-> & -> & ->).
  apply RM_sum.
Qed.
Print Assumptions C43_conserved.
Theorem C43_capture_fission C sort f A NRO NAPS table a ahat E s e c fi :
  rm_input C f A NRO NAPS table a ahat -> sorts rm_flagged sort ->
  rm_apply C sort f NRO NAPS table = Ok s -> rm_evaluate C s E = Ok (Some (e, c, fi)) -> 0 <= c /\ 0 <= fi.
Proof. exact (rm_capture_fission C sort f A NRO NAPS table a ahat E s e c fi). Qed.
Print Assumptions C43_capture_fission.
(** The elastic cross section, for J that the spins couple to *)
Theorem C43_elastic C sort f A NRO NAPS table a ahat E s e c fi :
  rm_input C f A NRO NAPS table a ahat -> sorts rm_flagged sort ->
  rm_apply C sort f NRO NAPS table = Ok s -> rm_evaluate C s E = Ok (Some (e, c, fi)) ->
  (forall ls, In ls (rf_lstates f) -> admissible (rf_SPI f) (rs_L ls) (signed_J (rs_lines ls))) -> 0 <= e.
Proof.
  intros Hin Hsort Hs He Had. apply (rm_elastic_nonneg C sort f A NRO NAPS table a ahat E s e c fi Hin Hsort Hs He).
  intros ls Hls. apply admissible_weights; [apply Hin | apply Had; exact Hls].
Qed.
Print Assumptions C43_elastic.
Example C43_case : forall ls, In ls (rf_lstates (a_file 1 1 fissile)) ->
  admissible (rf_SPI (a_file 1 1 fissile)) (rs_L ls) (signed_J (rs_lines ls)).
Proof. intros ls [<-|[]]. exact fissile_admissible. Qed.

(** For other J it can be negative: nothing checks the J of the file. *)
Theorem C43_elastic_refuted : exists C f NRO NAPS table a ahat sort s E e c fi,
  rm_input C f 1 NRO NAPS table a ahat /\ sorts rm_flagged sort /\
  rm_apply C sort f NRO NAPS table = Ok s /\ rm_evaluate C s E = Ok (Some (e, c, fi)) /\ e < 0.
Proof.
  destruct (doubled_negative (insertion_sort rm_flagged) (insertion_sorts rm_flagged)) as (s & e & c & fi & H1 & H2 & H3).
  exists 1, (a_file 0 0 doubled_lines), false, 1%Z, None, a_radius, a_radius, (insertion_sort rm_flagged), s, 4, e, c, fi.
  split; [apply a_input; [lia | exact doubled_GG]|]. split; [apply insertion_sorts|]. auto.
Qed.
Print Assumptions C43_elastic_refuted.

(** The expansion for small arguments is never used when the capture widths are not negative;
    its condition reads the sum K_nn of the resonances. *)
Theorem C43_expansion E P phi rs K b : 
  (forall r, In r rs -> 0 <= rm_capture r) ->
  rm_sum rs E (sqrt P) zero3 false = Some (K, b) -> expands K phi = false.
Proof. intros Hc. exact (@no_expansion E P phi rs Hc K b). Qed.
Print Assumptions C43_expansion.
Example C43_expansion_case : exists K b, rm_sum [makeRM 3 1 1 0 0 1 1] 1 (sqrt 1) zero3 false = Some (K, b).
Proof.
  apply rm_sum_finite. intros r [<-|[]]. unfold finite3, makeRM, fsqrt, frecip, den3.
  cbn [rm_rootNeutron rm_inverseRoot rm_energy rm_capture]. destruct (Rlt_dec 1 0); [lra|]. cbn [ssrbool.is_left].
  rewrite sqrt_1. destruct (Req_EM_T 1 0); [lra|]. cbn [ssrbool.is_left]. repeat split; try discriminate; lra.
Qed.

(** * C42: the order of the lines *)
Theorem C42_reich_moore_order C sort sort' f f' A NRO NAPS table a ahat s :
  rm_input C f A NRO NAPS table a ahat -> reordered_rm f f' ->
  sorts rm_flagged sort -> sorts rm_flagged sort' ->
  rm_apply C sort f NRO NAPS table = Ok s ->
  (exists s', rm_apply C sort' f' NRO NAPS table = Ok s') /\
  forall s', rm_apply C sort' f' NRO NAPS table = Ok s' ->
  forall E t, rm_evaluate C s E = Ok (Some t) <-> rm_evaluate C s' E = Ok (Some t).
Proof.
  intros Hin Hff Hs Hs' Ha. split; [exact (build_any C sort sort' f f' NRO NAPS table s Hff Ha)|].
  intros s' Ha' E t. split; intros He.
  - exact (order_one C sort sort' f f' A NRO NAPS table a ahat s s' E t Hin Hff Hs Hs' Ha Ha' He).
  - exact (order_one C sort' sort f' f A NRO NAPS table a ahat s' s E t (reordered_input _ _ _ _ _ _ _ _ _ Hin Hff)
      (reordered_sym _ _ Hff) Hs' Hs Ha' Ha He).
Qed.
Print Assumptions C42_reich_moore_order.
Example C42_reich_moore_case : reordered_rm (a_file 1 1 fissile) (a_file 1 1 (rev fissile)).
Proof.
  split; [reflexivity|]. split; [reflexivity|]. constructor; [|constructor]. repeat split. apply Permutation_rev.
Qed.
