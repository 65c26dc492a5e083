(** Unresolved spin groups and compound systems against the average collision function. *)
From Coq Require Import String List ZArith Reals Lra Lia Permutation Bool Psatz Sorted.
From Coquelicot Require Import Rcomplements.
From Verif Require Import Outcome QuantumModel QuantumSpec QuantumProofs SpinFactorModel SpinFactorProofs
  HardSphereModel HardSphereSpec HardSphereProofs KinematicsModel CoulombModel Cplx RMatrixModel ChannelModel
  BreitWignerModel LegacyModel BreitWignerSpec ListFacts BreitWignerProofs BreitWignerSystemProofs LegacyProofs
  LegacySystemProofs ReichMooreProofs UnresolvedModel UnresolvedSpec UnresolvedProofs.
Import ListNotations.
Open Scope R_scope.

(** * Interpolation *)
Lemma linlin_interpolated pts x y : StronglySorted (fun p q => fst p < fst q) pts ->
  linlin pts x = Ok (Some y) -> interpolated pts x y.
Proof.
  induction pts as [|[x0 y0] r IH]; intros S H; [discriminate|]. cbn [linlin] in H.
  destruct r as [|[x1 y1] r]; [discriminate|]. apply StronglySorted_inv in S as [S HS].
  apply Forall_inv in HS as L. cbn in L.
  destruct (Rlt_dec x x0) as [|G]; [discriminate|]. destruct (Rle_dec x x1) as [L1|G1].
  - apply (f_equal (fun o => match o with Ok z => z | _ => None end)) in H. cbv beta iota in H.
    unfold fdiv in H. destruct (Req_EM_T (x1 - x0) 0); [lra|]. apply Some_inj in H. subst y.
    exists [], x0, y0, x1, y1, r. split; [reflexivity|]. split; [lra|]. split; [exact L|]. field. lra.
  - destruct (IH S H) as (l & a & b & c & d & r' & E & B). exists ((x0, y0) :: l), a, b, c, d, r'.
    split; [rewrite E; reflexivity | exact B].
Qed.
(** Strictly increasing points and one value *)
Lemma interpolated_unique pts x y z : StronglySorted (fun p q => fst p < fst q) pts ->
  interpolated pts x y -> interpolated pts x z -> y = z.
Proof.
  induction pts as [|p pts IH]; intros S (l & x0 & y0 & x1 & y1 & r & E & B & L & H)
    (l' & x0' & y0' & x1' & y1' & r' & E' & B' & L' & H'); [destruct l; discriminate|].
  apply StronglySorted_inv in S as [S HS].
  assert (HL : forall q m, pts = m ++ q -> forall s, In s q -> fst p < fst s).
  { intros q m Eq s Hs. rewrite Forall_forall in HS. apply HS. rewrite Eq. apply in_or_app; right; exact Hs. }
  destruct l as [|p0 l], l' as [|p0' l'].
  - cbn in E, E'. rewrite E in E'. injection E' as <- <- <- <- <-.
    assert (y - y0 = z - y0) by (apply (Rmult_eq_reg_l (x1 - x0)); lra). lra.
  - cbn in E, E'. injection E as -> ->. injection E' as <- E'.
    destruct l' as [|p1 l'].
    + cbn in E'. injection E' as <- <- ->. assert (x = x1) by lra. subst x.
      assert (y = y1) by (apply (Rmult_eq_reg_l (x1 - x0)); lra).
      assert (z = y1) by (apply (Rmult_eq_reg_l (x1' - x1)); lra). congruence.
    + cbn in E'. injection E' as <- E'.
      apply StronglySorted_inv in S as [S HS2]. rewrite Forall_forall in HS2.
      assert (x1 < x0') by (apply (HS2 (x0', y0')); rewrite E'; apply in_or_app; right; left; reflexivity). lra.
  - cbn in E, E'. injection E' as -> ->. injection E as <- E.
    destruct l as [|p1 l].
    + cbn in E. injection E as <- <- ->. assert (x = x1') by lra. subst x.
      assert (z = y1') by (apply (Rmult_eq_reg_l (x1' - x0')); lra).
      assert (y = y1') by (apply (Rmult_eq_reg_l (x1 - x1')); lra). congruence.
    + cbn in E. injection E as <- E.
      apply StronglySorted_inv in S as [S HS2]. rewrite Forall_forall in HS2.
      assert (x1' < x0) by (apply (HS2 (x0, y0)); rewrite E; apply in_or_app; right; left; reflexivity). lra.
  - cbn in E, E'. injection E as <- E. injection E' as <- E'.
    apply IH; [exact S| |].
    + exists l, x0, y0, x1, y1, r. auto.
    + exists l', x0', y0', x1', y1', r'. auto.
Qed.
Lemma interpolated_between pts x y (P : R -> Prop) : (forall a b t, P a -> P b -> 0 <= t <= 1 -> P (a + t * (b - a))) ->
  (forall p, In p pts -> P (snd p)) -> interpolated pts x y -> P y.
Proof.
  intros HP Hin (l & x0 & y0 & x1 & y1 & r & -> & B & L & H).
  replace y with (y0 + (x - x0) / (x1 - x0) * (y1 - y0)).
  - apply HP.
    + apply (Hin (x0, y0)). apply in_or_app; right; left; reflexivity.
    + apply (Hin (x1, y1)). apply in_or_app; right; right; left; reflexivity.
    + split; [apply Rdiv_le_0_compat; lra|]. apply (Rmult_le_reg_r (x1 - x0)); [lra|]. unfold Rdiv.
      rewrite Rmult_assoc, Rinv_l by lra. lra.
  - apply (Rmult_eq_reg_l (x1 - x0)); [|lra]. field_simplify; [|lra]. lra.
Qed.
Lemma interpolated_nonneg pts x y : (forall p, In p pts -> 0 <= snd p) -> interpolated pts x y -> 0 <= y.
Proof.
  intros H. apply (interpolated_between pts x y (fun z => 0 <= z)); [|exact H]. intros; nra.
Qed.
Lemma interpolated_pos pts x y : (forall p, In p pts -> 0 < snd p) -> interpolated pts x y -> 0 < y.
Proof.
  intros H. apply (interpolated_between pts x y (fun z => 0 < z)); [|exact H]. intros a b t Ha Hb Ht.
  destruct (Rle_lt_or_eq_dec t 1 (proj2 Ht)) as [? | ->]; [nra | lra].
Qed.
Lemma interpolated_zero pts x y : (forall p, In p pts -> snd p = 0) -> interpolated pts x y -> y = 0.
Proof.
  intros H. apply (interpolated_between pts x y (fun z => z = 0)); [|exact H]. intros; subst; ring.
Qed.

(** * Conservation in the specification *)
Lemma spec_conserved pi v U0 M :
  v_Gn v * I_elastic (v_Gn v) (v_Gg v) (v_Gf v) (v_Gx v) (chi2_rule (v_n v)) (width_rule (v_Gf v) (v_f v)) (width_rule (v_Gx v) (v_x v))
  + v_Gg v * I_capture (v_Gn v) (v_Gg v) (v_Gf v) (v_Gx v) (chi2_rule (v_n v)) (width_rule (v_Gf v) (v_f v)) (width_rule (v_Gx v) (v_x v))
  + v_Gf v * I_fission (v_Gn v) (v_Gg v) (v_Gf v) (v_Gx v) (chi2_rule (v_n v)) (width_rule (v_Gf v) (v_f v)) (width_rule (v_Gx v) (v_x v))
  + v_Gx v * I_competition (v_Gn v) (v_Gg v) (v_Gf v) (v_Gx v) (chi2_rule (v_n v)) (width_rule (v_Gf v) (v_f v)) (width_rule (v_Gx v) (v_x v))
  = M ->
  U_elastic pi v U0 + U_capture pi v + U_fission pi v + U_competition pi v
  = optical_total (average_collision pi U0 (v_Gn v / v_D v)) - optical_total U0 + formation pi v * (M - 1).
Proof.
  intros H. unfold U_elastic, U_capture, U_fission, U_competition, optical_total, average_collision.
  assert (HU : forall x, re (cx_mul U0 (rcx x)) = re U0 * x) by (intros x; destruct U0; cbn; ring).
  rewrite <- H, HU. unfold formation, Rdiv. ring.
Qed.

Lemma rule_total_bound v : (1 <= v_n v <= 4)%nat -> (v_Gf v <> 0 -> (1 <= v_f v <= 4)%nat) ->
  (v_Gx v <> 0 -> (1 <= v_x v <= 4)%nat) -> Rabs (rule_total v - 1) <= 1.7e-3.
Proof.
  intros H1 H2 H3. unfold rule_total. fold (mean (chi2_rule (v_n v))) (norm (width_rule (v_Gf v) (v_f v)))
    (norm (width_rule (v_Gx v) (v_x v))).
  assert (Hw : forall G n, (G <> 0 -> (1 <= n <= 4)%nat) -> Rabs (norm (width_rule G n) - 1) <= 2.4e-4).
  { intros G n H. unfold width_rule. destruct (Req_EM_T G 0) as [Hz|Hz].
    - rewrite norm_constant. replace (1 - 1) with 0 by ring. rewrite Rabs_R0. lra.
    - apply chi2_norm, H, Hz. }
  pose proof (chi2_mean _ H1) as M1. pose proof (Hw _ _ H2) as M2. pose proof (Hw _ _ H3) as M3.
  revert M1 M2 M3. generalize (mean (chi2_rule (v_n v))) (norm (width_rule (v_Gf v) (v_f v))) (norm (width_rule (v_Gx v) (v_x v))).
  intros a b c. intros A1 A2 A3. apply Rabs_le_between in A1, A2, A3. apply Rabs_le.
  assert (0.9995 <= b * c <= 1.0005) by nra.
  assert (1 - 4.9e-4 <= b * c <= 1 + 4.9e-4) by nra. revert H0. generalize (b * c). intros d Hd.
  rewrite Rmult_assoc. nra.
Qed.

Section System.
Variables (hbar epsilon0 : R) (cwf : nat -> R -> R -> outcome coulomb) (mn : R).
Hypotheses (Hh : 0 < hbar) (Hmn : 0 < mn).
Variables (incident target : string) (A : R) (I : Z) (rad : radii) (E : R).
Hypotheses (HA : 0 < A) (HI : is_spin I) (HE : E <> 0).
Let ch := radius_at (r_P rad).
Let sc := radius_at (r_phi rad).
Hypotheses (Hch : positive ch) (Hsc : positive sc).
Let k := k_old (C_new hbar mn) A.
Let a := oval (ch E).
Let ahat := oval (sc E).
Let lchannel c := legacy_channel mn incident target A I c rad.
Let U0 l := hard_sphere_U l (k E * ahat).
Let g := g_neutron I.

(** The parameters of a table at the energy E *)
Definition well_formed (u : unresolved_group) : Prop :=
  StronglySorted (fun x y => ur_energy x < ur_energy y) (ut_resonances (ug_table u)) /\
  (d_fission (ut_degrees (ug_table u)) = 0%nat -> forall r, In r (ut_resonances (ug_table u)) -> ur_fission r = 0) /\
  (d_competition (ut_degrees (ug_table u)) = 0%nat -> forall r, In r (ut_resonances (ug_table u)) -> ur_competition r = 0).
Definition parameters_of (u : unresolved_group) (v : averages) : Prop :=
  let t := ug_table u in let d := ut_degrees t in let q := c_numbers (ug_channel u) in
  v_l v = ql q /\ v_J v = qJ q /\
  interpolated (column_table ur_spacing t) E (v_D v) /\
  (exists gn, interpolated (column_table ur_elastic t) E gn /\
     v_Gn v = gn * sqrt E * (INR (v_n v) * P_spec (v_l v) (k E * a) / (k E * a))) /\
  interpolated (column_table ur_capture t) E (v_Gg v) /\
  interpolated (column_table ur_fission t) E (v_Gf v) /\
  interpolated (column_table ur_competition t) E (v_Gx v) /\
  v_n v = d_elastic d /\ v_f v = d_fission d /\ v_x v = d_competition d.

Lemma column_sorted f t : StronglySorted (fun x y => ur_energy x < ur_energy y) (ut_resonances t) ->
  StronglySorted (fun p q => fst p < fst q) (column_table f t).
Proof.
  unfold column_table. induction 1 as [|x l S IH F]; cbn [map]; constructor; [exact IH|].
  rewrite Forall_forall in *. intros p Hp. apply in_map_iff in Hp as (y & <- & Hy). cbn. apply F, Hy.
Qed.

Lemma table_value t o : StronglySorted (fun x y => ur_energy x < ur_energy y) (ut_resonances t) ->
  unresolvedAt t E = Ok (Some o) ->
  interpolated (column_table ur_spacing t) E (ur_spacing o) /\ interpolated (column_table ur_elastic t) E (ur_elastic o) /\
  interpolated (column_table ur_capture t) E (ur_capture o) /\ interpolated (column_table ur_fission t) E (ur_fission o) /\
  interpolated (column_table ur_competition t) E (ur_competition o).
Proof.
  intros S H. unfold unresolvedAt in H.
  apply bind_Ok in H as (od & H1 & H). apply bind_Ok in H as (oe & H2 & H). apply bind_Ok in H as (oc & H3 & H).
  apply bind_Ok in H as (oF & H4 & H). apply bind_Ok in H as (ox & H5 & H).
  apply (f_equal (fun o => match o with Ok z => z | _ => None end)) in H. cbv beta iota in H.
  destruct od as [d|]; [|discriminate]. destruct oe as [e|]; [|discriminate]. destruct oc as [c|]; [|discriminate].
  destruct oF as [f|]; [|discriminate]. destruct ox as [x|]; [|discriminate]. apply Some_inj in H; subst o.
  cbn [ur_spacing ur_elastic ur_capture ur_fission ur_competition].
  repeat split; apply linlin_interpolated; try assumption; apply column_sorted; assumption.
Qed.

Lemma in_column f t p : In p (column_table f t) -> exists r, In r (ut_resonances t) /\ p = (ur_energy r, f r).
Proof. intros H. apply in_map_iff in H as (r & <- & Hr). exists r. auto. Qed.

Definition ekey := elastic_key incident target.
Definition ckey := capture_key incident target.
Definition fkey := fission_key incident target.

Lemma group_value u m m' : lchannel (ug_channel u) -> well_formed u ->
  in_unsigned (d_elastic (ut_degrees (ug_table u))) -> in_unsigned (d_fission (ut_degrees (ug_table u))) ->
  in_unsigned (d_competition (ut_degrees (ug_table u))) ->
  unresolved_evaluate hbar epsilon0 cwf u E m = Ok (Some m') ->
  0 < E /\ exists v, parameters_of u v /\ v_D v <> 0 /\
  (1 <= v_n v <= 4)%nat /\ (v_Gf v <> 0 -> (1 <= v_f v <= 4)%nat) /\ (v_Gx v <> 0 -> (1 <= v_x v <= 4)%nat) /\
  mval m' ekey = mval m ekey + barns k E * (g (v_J v) * U_elastic pi_value v (U0 (v_l v))) /\
  mval m' ckey = mval m ckey + barns k E * (g (v_J v) * U_capture pi_value v) /\
  mval m' fkey = mval m fkey + barns k E * (g (v_J v) * U_fission pi_value v) /\
  U_elastic pi_value v (U0 (v_l v)) + U_capture pi_value v + U_fission pi_value v + U_competition pi_value v
  = optical_total (average_collision pi_value (U0 (v_l v)) (v_Gn v / v_D v)) - optical_total (U0 (v_l v))
    + formation pi_value v * (rule_total v - 1) /\
  (0 <= v_Gn v -> 0 <= v_Gg v -> 0 <= v_Gf v -> 0 <= v_Gx v -> 0 < v_D v ->
     0 <= U_capture pi_value v /\ 0 <= U_fission pi_value v /\ 0 <= U_competition pi_value v).
Proof.
  intros Hc (HS & HF & HX) U1 U2 U3 H. unfold unresolved_evaluate in H. cbv zeta in H.
  set (t := ug_table u) in *. set (c := ug_channel u) in *. set (d := ut_degrees t) in *.
  apply bind_Ok in H as (op & Hp & H). apply bind_Ok in H as (ophi & Hphi & H).
  apply bind_Ok in H as (r & Hr & H). apply bind_Ok in H as (opar & Hpar & H).
  destruct (channel_spin mn Hmn incident target A I HA c rad HI Hc) as (Hg & Hrad & Hkey).
  rewrite Hrad in Hr. fold ch in Hr.
  rewrite (channel_k hbar mn Hmn incident target A I HA c rad E Hc) in H. fold k in H.
  assert (Pk : 0 < k E) by (apply k_old_pos; [apply C_new_pos|..]; assumption).
  destruct (channel_P hbar epsilon0 cwf mn Hh Hmn incident target A I HA c rad E _ Hc Hch Hp)
    as (r' & pe & Er & -> & Hl & _ & HP).
  destruct (channel_phi hbar epsilon0 cwf mn Hh Hmn incident target A I HA c rad E _ Hc Hsc HE Hphi)
    as (ra & phi & Era & -> & Hph). fold k in HP, Hph. fold ch in Er. fold sc in Era.
  assert (r' = r) by congruence. subst r'.
  assert (Pr : 0 < r) by (apply (Hch E r Hr)). assert (Pra : 0 < ra) by (apply (Hsc E ra Era)).
  unfold fdiv at 1 in H. destruct (Req_EM_T (k E * k E) 0); [nra|].
  destruct opar as [p|]; [|unfold bind in H; destruct (entry _ _ _); discriminate].
  destruct (table_value t p HS Hpar) as (I1 & I2 & I3 & I4 & I5).
  unfold unresolvedWidths in H. unfold fdiv at 1 in H. destruct (Req_EM_T (k E * r) 0); [nra|].
  unfold fsqrt in H. destruct (Rlt_dec E 0) as [|NE]; [unfold bind in H; destruct (entry _ _ _); discriminate|].
  set (w := mkData _ _ _ _) in H.
  apply bind_Ok in H as (oi & Hi & H). apply (f_equal (fun o => match o with Ok z => z | _ => None end)) in H. cbv beta iota in H.
  destruct oi as [i|]; [|discriminate].
  unfold unresolvedElastic, unresolvedReaction, fdiv in H. destruct (Req_EM_T (ur_spacing p) 0) as [|ND]; [discriminate|].
  cbv beta iota zeta in H. apply Some_inj in H. rewrite !Hkey in H.
  fold (elastic_key incident target) (capture_key incident target) (fission_key incident target) in H. fold ekey ckey fkey in H.
  assert (Hb : (1 <= d_elastic d <= 4)%nat /\ (d_fission w <> 0 -> (d_fission d <= 4)%nat) /\ (d_competition w <> 0 -> (d_competition d <= 4)%nat)).
  { assert (NU : ~ is_ub (calculateFluctuationIntegrals w d)) by (rewrite Hi; intros [? ?]; discriminate).
    destruct (le_lt_dec 1 (d_elastic d)), (le_lt_dec (d_elastic d) 4), (le_lt_dec (d_fission d) 4),
      (le_lt_dec (d_competition d) 4), (Req_EM_T (d_fission w) 0), (Req_EM_T (d_competition w) 0);
      try (split; [lia|]; split; intros; try contradiction; lia);
      exfalso; apply NU, integrals_bounds; try assumption; intros (B1 & B2 & B3); try lia; try (specialize (B2 ltac:(assumption)); lia);
      try (specialize (B3 ltac:(assumption)); lia). }
  destruct Hb as (B1 & B2 & B3).
  assert (Gf0 : d_fission d = 0%nat -> ur_fission p = 0).
  { intros Z0. apply (interpolated_zero _ E _) with (2 := I4). intros q Hq. apply in_column in Hq as (s & Hs & ->). apply HF; assumption. }
  assert (Gx0 : d_competition d = 0%nat -> ur_competition p = 0).
  { intros Z0. apply (interpolated_zero _ E _) with (2 := I5). intros q Hq. apply in_column in Hq as (s & Hs & ->). apply HX; assumption. }
  assert (PE : 0 < E) by lra. split; [exact PE|].
  set (v := Averages (ql (c_numbers c)) (qJ (c_numbers c)) (ur_spacing p) (d_elastic w) (d_capture w) (d_fission w)
     (d_competition w) (d_elastic d) (d_fission d) (d_competition d)).
  assert (Hf4 : nonzero (d_fission w) = true -> (d_fission d <= 4)%nat).
  { intros Hz. apply B2. intros Hz0. apply nonzero_0 in Hz0. congruence. }
  assert (Hx4 : nonzero (d_competition w) = true -> (d_competition d <= 4)%nat).
  { intros Hz. apply B3. intros Hz0. apply nonzero_0 in Hz0. congruence. }
  assert (Rf : rule_of (nonzero (d_fission w)) (d_fission d) = width_rule (d_fission w) (d_fission d)).
  { unfold rule_of, width_rule, nonzero. destruct (Req_EM_T (d_fission w) 0) as [Hz|Hz]; [reflexivity|].
    destruct (d_fission d) eqn:Ed; [exfalso; apply Hz, Gf0; reflexivity | reflexivity]. }
  assert (Rx : rule_of (nonzero (d_competition w)) (d_competition d) = width_rule (d_competition w) (d_competition d)).
  { unfold rule_of, width_rule, nonzero. destruct (Req_EM_T (d_competition w) 0) as [Hz|Hz]; [reflexivity|].
    destruct (d_competition d) eqn:Ed; [exfalso; apply Hz, Gx0; reflexivity | reflexivity]. }
  destruct (integrals_value w d B1 Hf4 Hx4) as [[_ E0]|[_ (i' & E0 & W1 & W2 & W3 & W4)]]; [congruence|].
  rewrite Hi in E0. apply (f_equal (fun o => match o with Ok z => z | _ => None end)) in E0. cbv beta iota in E0.
  apply Some_inj in E0. subst i'.
  pose proof (integrals_conserved w d B1 Hf4 Hx4 i Hi) as HC.
  rewrite Rf, Rx in W1, W2, W3, W4, HC.
  assert (HUre : re (U0 (ql (c_numbers c))) = 1 - 2 * (sin phi * sin phi)).
  { unfold U0, ahat. rewrite Era. cbn [oval]. rewrite (hard_sphere_phase _ _ _ Hph). unfold cis; cbn [re].
    rewrite cos_neg, cos_2a_sin. ring. }
  destruct (keys_distinct incident target) as (D1 & D2 & D3). fold ekey ckey fkey in D1, D2, D3.
  assert (Wf : d_fission w * d_fission i = v_Gf v * I_fission (v_Gn v) (v_Gg v) (v_Gf v) (v_Gx v) (chi2_rule (v_n v))
     (width_rule (v_Gf v) (v_f v)) (width_rule (v_Gx v) (v_x v))).
  { rewrite W3. cbn [v_Gn v_Gg v_Gf v_Gx v_n v_f v_x v]. unfold nonzero. destruct (Req_EM_T (d_fission w) 0) as [Hz|Hz]; [rewrite Hz; ring | reflexivity]. }
  assert (Wx : d_competition w * d_competition i = v_Gx v * I_competition (v_Gn v) (v_Gg v) (v_Gf v) (v_Gx v) (chi2_rule (v_n v))
     (width_rule (v_Gf v) (v_f v)) (width_rule (v_Gx v) (v_x v))).
  { rewrite W4. cbn [v_Gn v_Gg v_Gf v_Gx v_n v_f v_x v]. unfold nonzero. destruct (Req_EM_T (d_competition w) 0) as [Hz|Hz]; [rewrite Hz; ring | reflexivity]. }
  exists v. split; [|split; [exact ND|split; [exact B1|split; [|split]]]].
  - unfold parameters_of. cbv zeta. fold t d c. cbn [v_l v_J v_D v_Gn v_Gg v_Gf v_Gx v_n v_f v_x v].
    unfold w; cbn [d_elastic d_capture d_fission d_competition].
    repeat (split; [reflexivity || assumption|]).
    split.
    { exists (ur_elastic p). split; [assumption|]. unfold a. rewrite Hr. cbn [oval]. rewrite HP. reflexivity. }
    repeat (split; [reflexivity || assumption|]). reflexivity.
  - intros Hz. split; [|apply B2; exact Hz]. cbn [v_f v]. destruct (d_fission d) eqn:Ed; [|lia].
    exfalso. apply Hz. apply Gf0; reflexivity.
  - intros Hz. split; [|apply B3; exact Hz]. cbn [v_x v]. destruct (d_competition d) eqn:Ed; [|lia].
    exfalso. apply Hz. apply Gx0; reflexivity.
  - assert (Pkk : k E * k E <> 0) by assumption.
    assert (HE1 : mval m' ekey = mval m ekey + barns k E * (g (v_J v) * U_elastic pi_value v (U0 (v_l v)))).
    { assert (HX1 : mval m' ekey = mval m ekey + 2 * pi_value * pi_value / (k E * k E) *
        (spinFactor c / ur_spacing p * (d_elastic w * (d_elastic w * d_elastic i - 2 * (sin phi * sin phi))))).
      { subst m'. destruct (nonzero (d_fission w)).
        - rewrite mval_other by assumption. rewrite mval_other by assumption. apply mval_at.
        - rewrite mval_other by assumption. apply mval_at. }
      rewrite HX1. f_equal. rewrite Hg, W1. unfold U_elastic, barns, formation, g.
      cbn [v_l v_J v_D v_Gn v_Gg v_Gf v_Gx v_n v_f v_x v]. rewrite HUre. field. split; [exact ND | nra]. }
    assert (HE2 : mval m' ckey = mval m ckey + barns k E * (g (v_J v) * U_capture pi_value v)).
    { assert (HX1 : mval m' ckey = mval m ckey + 2 * pi_value * pi_value / (k E * k E) * spinFactor c / ur_spacing p *
        (d_elastic w * d_capture w * d_capture i)).
      { subst m'. destruct (nonzero (d_fission w)).
        - rewrite mval_other by assumption. rewrite mval_at. rewrite mval_other by (apply not_eq_sym; assumption). reflexivity.
        - rewrite mval_at. rewrite mval_other by (apply not_eq_sym; assumption). reflexivity. }
      rewrite HX1. f_equal. rewrite Hg, W2. unfold U_capture, barns, formation, g.
      cbn [v_l v_J v_D v_Gn v_Gg v_Gf v_Gx v_n v_f v_x v]. field. split; [exact ND | nra]. }
    assert (HE3 : mval m' fkey = mval m fkey + barns k E * (g (v_J v) * U_fission pi_value v)).
    { assert (HX1 : mval m' fkey = mval m fkey + 2 * pi_value * pi_value / (k E * k E) * spinFactor c / ur_spacing p *
        (d_elastic w * (d_fission w * d_fission i))).
      { subst m'. destruct (nonzero (d_fission w)) eqn:Hz.
        - rewrite mval_at. rewrite mval_other by (apply not_eq_sym; assumption).
          rewrite mval_other by (apply not_eq_sym; assumption). rewrite (Rmult_assoc (d_elastic w)). reflexivity.
        - apply nonzero_0 in Hz. rewrite Hz.
          rewrite mval_other by (apply not_eq_sym; assumption). rewrite mval_other by (apply not_eq_sym; assumption). ring. }
      rewrite HX1. f_equal. rewrite Hg, Wf. unfold U_fission, barns, formation, g.
      cbn [v_l v_J v_D v_Gn v_Gg v_Gf v_Gx v_n v_f v_x v]. field. split; [exact ND | nra]. }
    split; [exact HE1|]. split; [exact HE2|]. split; [exact HE3|]. split.
    + apply spec_conserved. rewrite <- Wf, <- Wx. cbn [v_Gn v_Gg v_Gf v_Gx v_n v_f v_x v].
      rewrite <- W1, <- W2. exact HC.
    + intros N1 N2 N3 N4 ND'. destruct (integrals_nonneg w d B1 Hf4 Hx4 i N1 N2 N3 N4 Hi) as (Q1 & Q2 & Q3 & Q4).
      assert (HFo : 0 <= formation pi_value v).
      { unfold formation. apply Rdiv_le_0_compat; [|exact ND']. apply Rmult_le_pos; [unfold pi_value; lra | exact N1]. }
      unfold U_capture, U_fission, U_competition. rewrite <- Wf, <- Wx. cbn [v_Gn v_Gg v_Gf v_Gx v_n v_f v_x v].
      rewrite <- W2. repeat split; apply Rmult_le_pos; try assumption; apply Rmult_le_pos; assumption.
Qed.
End System.
