(** The error of the fluctuation integrals of the code, and of the unresolved cross sections. *)
From Coq Require Import List ZArith Reals Lra Lia Bool Sorted String.
From Coquelicot Require Import Coquelicot.
From Verif Require Import Outcome QuantumModel QuantumSpec KinematicsModel RMatrixModel ChannelModel
  BreitWignerModel BreitWignerSpec LegacyModel ListFacts HardSphereSpec Cplx ReichMooreProofs BreitWignerProofs BreitWignerSystemProofs LegacyProofs LegacySystemProofs UnresolvedModel UnresolvedSpec
  UnresolvedProofs UnresolvedSystemProofs UnresolvedTheorems.
From Verif Require Import FluctuationSpec ImproperProofs ChiSquareProofs RuleErrorProofs FluctuationProofs FluctuationTheorems.
Import ListNotations.
Open Scope R_scope.

Lemma average3_scal c r1 r2 r3 f : average3 r1 r2 r3 (fun x y z => c * f x y z) = c * average3 r1 r2 r3 f.
Proof.
  unfold average3. rewrite <- average_scal. apply average_ext. intros p _. rewrite <- average_scal. apply average_ext. intros q _. apply average_scal.
Qed.
Lemma average3_ext r1 r2 r3 f g : (forall x y z, f x y z = g x y z) -> average3 r1 r2 r3 f = average3 r1 r2 r3 g.
Proof. intros H. unfold average3. apply average_ext. intros p _. apply average_ext. intros q _. apply average_ext. intros t _. apply H. Qed.
Lemma weighted Gn Gg Gf Gx rn rf rx :
  Gn * I_elastic Gn Gg Gf Gx rn rf rx = average3 rn rf rx (fun x y z => x * (x * Gn) / total Gn Gg Gf Gx x y z) /\
  Gg * I_capture Gn Gg Gf Gx rn rf rx = average3 rn rf rx (fun x y z => x * Gg / total Gn Gg Gf Gx x y z) /\
  Gf * I_fission Gn Gg Gf Gx rn rf rx = average3 rn rf rx (fun x y z => x * (y * Gf) / total Gn Gg Gf Gx x y z) /\
  Gx * I_competition Gn Gg Gf Gx rn rf rx = average3 rn rf rx (fun x y z => x * (z * Gx) / total Gn Gg Gf Gx x y z).
Proof.
  unfold I_elastic, I_capture, I_fission, I_competition. rewrite <- !average3_scal.
  repeat split; apply average3_ext; intros x y z; unfold total_width, total, Rdiv; ring.
Qed.
Lemma width_rule_max G n : (if Req_EM_T G 0 then constant_rule else chi2_rule (Nat.max 1 n)) = width_rule G (Nat.max 1 n).
Proof. reflexivity. Qed.

Lemma exact_exists Gn Gg Gf Gx dn df dx : 0 < Gn -> 0 <= Gg -> 0 <= Gf -> 0 <= Gx -> (1 <= dn <= 4)%nat -> (1 <= df)%nat -> (1 <= dx)%nat ->
  (Gf <> 0 -> (df <= 4)%nat) -> (Gx <> 0 -> (dx <= 4)%nat) ->
  let rn := chi2_rule dn in let rf := width_rule Gf df in let rx := width_rule Gx dx in let a := allowed_error Gf Gx dn df dx in
  exists e c f x, exact Gn Gg Gf Gx dn df dx e c f x /\ e + c + f + x = 1 /\
    Rabs (Gn * I_elastic Gn Gg Gf Gx rn rf rx - e) <= a /\ Rabs (Gg * I_capture Gn Gg Gf Gx rn rf rx - c) <= a /\
    Rabs (Gf * I_fission Gn Gg Gf Gx rn rf rx - f) <= a /\ Rabs (Gx * I_competition Gn Gg Gf Gx rn rf rx - x) <= a.
Proof.
  intros H1 H2 H3 H4 H5 H6 H7 H8 H9 rn rf rx a. destruct (weighted Gn Gg Gf Gx rn rf rx) as (W1 & W2 & W3 & W4). rewrite W1, W2, W3, W4.
  destruct (elastic_result Gn Gg Gf Gx dn df dx H1 H2 H3 H4 H5 H6 H7 H8 H9) as (e & E1 & _ & E2).
  destruct (capture_result Gn Gg Gf Gx dn df dx H1 H2 H3 H4 H5 H6 H7 H8 H9) as (c & C1 & _ & C2).
  destruct (fission_result Gn Gg Gf Gx dn df dx H1 H2 H3 H4 H5 H6 H7 H8 H9) as (f & F1 & _ & F2).
  destruct (competition_result Gn Gg Gf Gx dn df dx H1 H2 H3 H4 H5 H6 H7 H8 H9) as (x & X1 & _ & X2).
  exists e, c, f, x. split; [exact (Logic.conj E1 (Logic.conj C1 (Logic.conj F1 X1)))|]. split; [apply (exact_sum Gn Gg Gf Gx dn df dx); first [exact E1 | exact C1 | exact F1 | exact X1 | assumption]|].
  split; [exact E2|]. split; [exact C2|]. split; [exact F2 | exact X2].
Qed.
Lemma exact_unique Gn Gg Gf Gx dn df dx e c f x e' c' f' x' : (1 <= dn)%nat -> (1 <= df)%nat -> (1 <= dx)%nat ->
  exact Gn Gg Gf Gx dn df dx e c f x -> exact Gn Gg Gf Gx dn df dx e' c' f' x' -> e = e' /\ c = c' /\ f = f' /\ x = x'.
Proof.
  intros H1 H2 H3 (E & C & F & X) (E' & C' & F' & X'). pose proof (mean_averaging dn H1) as A1. pose proof (mean_of_averaging Gf df H2) as A2. pose proof (mean_of_averaging Gx dx H3) as A3.
  repeat split; eapply (mean3_unique _ _ _ A1 A2 A3); eassumption.
Qed.
Lemma integrals_accurate w d : (1 <= d_elastic d <= 4)%nat -> (d_fission w <> 0 -> (d_fission d <= 4)%nat) -> (d_competition w <> 0 -> (d_competition d <= 4)%nat) ->
  0 < d_elastic w -> 0 <= d_capture w -> 0 <= d_fission w -> 0 <= d_competition w ->
  let df := Nat.max 1 (d_fission d) in let dx := Nat.max 1 (d_competition d) in
  let a := allowed_error (d_fission w) (d_competition w) (d_elastic d) df dx in
  exists i e c f x, calculateFluctuationIntegrals w d = Ok (Some i) /\
    exact (d_elastic w) (d_capture w) (d_fission w) (d_competition w) (d_elastic d) df dx e c f x /\ e + c + f + x = 1 /\
    Rabs (d_elastic w * d_elastic i - e) <= a /\ Rabs (d_capture w * d_capture i - c) <= a /\
    Rabs (d_fission w * d_fission i - f) <= a /\ Rabs (d_competition w * d_competition i - x) <= a.
Proof.
  intros H1 H2 H3 P1 P2 P3 P4 df dx a.
  assert (H2' : d_fission w <> 0 -> (df <= 4)%nat) by (intros N; specialize (H2 N); unfold df; lia). assert (H3' : d_competition w <> 0 -> (dx <= 4)%nat) by (intros N; specialize (H3 N); unfold dx; lia).
  destruct (exact_exists _ _ _ _ (d_elastic d) df dx P1 P2 P3 P4 H1 ltac:(unfold df; lia) ltac:(unfold dx; lia) H2' H3') as (e & c & f & x & EX & S & B1 & B2 & B3 & B4).
  assert (N2 : nonzero (d_fission w) = true -> (d_fission d <= 4)%nat). { intros N. apply H2. intros Z. apply nonzero_0 in Z. rewrite Z in N. discriminate. }
  assert (N3 : nonzero (d_competition w) = true -> (d_competition d <= 4)%nat). { intros N. apply H3. intros Z. apply nonzero_0 in Z. rewrite Z in N. discriminate. }
  destruct (integrals_value_spec w d H1 N2 N3) as [(V & _) | (_ & i & Hi & V1 & V2 & V3 & V3' & V4 & V4')].
  - exfalso. destruct V as (p & q & r & Hp & Hq & Hr & Z). rewrite !width_rule_max in *. fold df dx in Hq, Hr.
    assert (Kf : d_fission w <> 0 -> (1 <= df <= 4)%nat) by (intros N; specialize (H2' N); unfold df in *; lia).
    assert (Kx : d_competition w <> 0 -> (1 <= dx <= 4)%nat) by (intros N; specialize (H3' N); unfold dx in *; lia).
    pose proof (nodes_positive _ H1 p Hp) as (_ & Pp). pose proof (width_nodes _ _ Kf q Hq) as (_ & Pq). pose proof (width_nodes _ _ Kx r Hr) as (_ & Pr).
    unfold total_width in Z. pose proof (Rmult_lt_0_compat _ _ Pp P1). pose proof (Rmult_le_pos _ _ (Rlt_le _ _ Pq) P3). pose proof (Rmult_le_pos _ _ (Rlt_le _ _ Pr) P4). lra.
  - exists i, e, c, f, x. rewrite !width_rule_max in *. fold df dx in V1, V2, V3, V4. split; [exact Hi|]. split; [exact EX|]. split; [exact S|]. rewrite V1, V2. split; [exact B1|]. split; [exact B2|]. split.
    + match type of B3 with Rabs (?t - _) <= _ => replace (d_fission w * d_fission i) with t; [exact B3|] end.
      destruct (Req_dec (d_fission w) 0) as [Z | N]; [rewrite (V3' Z), Z; ring | rewrite (V3 N); reflexivity].
    + match type of B4 with Rabs (?t - _) <= _ => replace (d_competition w * d_competition i) with t; [exact B4|] end.
      destruct (Req_dec (d_competition w) 0) as [Z | N]; [rewrite (V4' Z), Z; ring | rewrite (V4 N); reflexivity].
Qed.

(** ** The cross sections *)
Lemma sum_near {X} (f g a : X -> R) l : (forall x, In x l -> Rabs (f x - g x) <= a x) -> Rabs (Rsum (map f l) - Rsum (map g l)) <= Rsum (map a l).
Proof.
  induction l as [|x l IH]; intros H; [cbn; rewrite Rminus_0_r, Rabs_R0; lra|]. cbn [map]. rewrite !Rsum_cons.
  replace (f x + Rsum (map f l) - (g x + Rsum (map g l))) with ((f x - g x) + (Rsum (map f l) - Rsum (map g l))) by ring.
  eapply Rle_trans; [apply Rabs_triang|]. pose proof (H x (or_introl eq_refl)). specialize (IH (fun y Hy => H y (or_intror Hy))). lra.
Qed.
Lemma parameters_positive hbar mn A rad E u v : 0 < hbar -> 0 < mn -> 0 < A -> 0 < E ->
  positive (radius_at (r_P rad)) -> (exists r, radius_at (r_P rad) E = Ok r) -> parameters_of hbar mn A rad E u v -> (1 <= v_n v)%nat ->
  (forall r, In r (ut_resonances (ug_table u)) -> 0 < ur_elastic r) -> 0 < v_Gn v.
Proof.
  intros Hh Hmn HA HE Hch [r Hr] (_ & _ & _ & (gn & P4 & P5) & _) Hn Hpos.
  assert (Pk : 0 < k_old (C_new hbar mn) A E) by (apply k_old_pos; [apply C_new_pos|..]; try assumption; lra).
  assert (Pr : 0 < r) by (apply (Hch E r Hr)). rewrite P5, Hr. cbn [oval]. apply Rmult_lt_0_compat; [apply Rmult_lt_0_compat; [|apply sqrt_lt_R0, HE]|].
  - apply (interpolated_pos _ E _) with (2 := P4). intros p Hp. apply in_column in Hp as (y & Hy & ->). apply Hpos, Hy.
  - apply Rdiv_lt_0_compat; [|apply Rmult_lt_0_compat; assumption]. apply Rmult_lt_0_compat; [apply lt_0_INR; lia | apply P_spec_pos, Rmult_lt_0_compat; assumption].
Qed.
Lemma group_accurate v : 0 < v_Gn v -> 0 <= v_Gg v -> 0 <= v_Gf v -> 0 <= v_Gx v -> 0 < v_D v -> (1 <= v_n v <= 4)%nat -> (v_Gf v <> 0 -> (1 <= v_f v <= 4)%nat) -> (v_Gx v <> 0 -> (1 <= v_x v <= 4)%nat) ->
  exists t, with_exact v t /\ forall U0, let F := formation pi_value v in 0 < F /\
    Rabs (U_elastic pi_value v U0 - F * (part_elastic t - (1 - re U0))) <= F * group_error v /\
    Rabs (U_capture pi_value v - F * part_capture t) <= F * group_error v /\ Rabs (U_fission pi_value v - F * part_fission t) <= F * group_error v.
Proof.
  intros H1 H2 H3 H4 HD Hn Hf Hx.
  assert (Kf : v_Gf v <> 0 -> (Nat.max 1 (v_f v) <= 4)%nat) by (intros N; specialize (Hf N); lia). assert (Kx : v_Gx v <> 0 -> (Nat.max 1 (v_x v) <= 4)%nat) by (intros N; specialize (Hx N); lia).
  destruct (exact_exists _ _ _ _ (v_n v) (Nat.max 1 (v_f v)) (Nat.max 1 (v_x v)) H1 H2 H3 H4 Hn ltac:(lia) ltac:(lia) Kf Kx) as (e & c & f & x & EX & _ & B1 & B2 & B3 & _).
  exists (e, c, f, x). split; [exact EX|]. intros U0 F.
  assert (PF : 0 < F). { unfold F, formation. apply Rdiv_lt_0_compat; [|exact HD]. apply Rmult_lt_0_compat; [unfold pi_value; lra | exact H1]. }
  assert (Wf : width_rule (v_Gf v) (Nat.max 1 (v_f v)) = width_rule (v_Gf v) (v_f v)). { unfold width_rule. destruct (Req_EM_T (v_Gf v) 0) as [|N]; [reflexivity|]. specialize (Hf N). f_equal. lia. }
  assert (Wx : width_rule (v_Gx v) (Nat.max 1 (v_x v)) = width_rule (v_Gx v) (v_x v)). { unfold width_rule. destruct (Req_EM_T (v_Gx v) 0) as [|N]; [reflexivity|]. specialize (Hx N). f_equal. lia. }
  rewrite Wf, Wx in B1, B2, B3. unfold U_elastic, U_capture, U_fission, part_elastic, part_capture, part_fission, group_error. cbv zeta. fold F.
  split; [exact PF|]. split; [|split].
  - match goal with |- Rabs ?t <= _ => replace t with (F * (v_Gn v * I_elastic (v_Gn v) (v_Gg v) (v_Gf v) (v_Gx v) (chi2_rule (v_n v)) (width_rule (v_Gf v) (v_f v)) (width_rule (v_Gx v) (v_x v)) - e)) by ring end.
    rewrite Rabs_mult, (Rabs_right F) by lra. apply Rmult_le_compat_l; [lra | exact B1].
  - rewrite <- Rmult_minus_distr_l, Rabs_mult, (Rabs_right F) by lra. apply Rmult_le_compat_l; [lra | exact B2].
  - rewrite <- Rmult_minus_distr_l, Rabs_mult, (Rabs_right F) by lra. apply Rmult_le_compat_l; [lra | exact B3].
Qed.
Theorem system_accurate hbar epsilon0 cwf mn incident target A I rad E s m m' :
  0 < hbar -> 0 < mn -> 0 < A -> is_spin I -> 0 < E ->
  positive (radius_at (r_P rad)) -> positive (radius_at (r_phi rad)) -> (exists r, radius_at (r_P rad) E = Ok r) ->
  (forall u, In u (uy_groups s) -> legacy_channel mn incident target A I (ug_channel u) rad /\ well_formed u /\ degrees_in u /\
     (0 <= qJ (c_numbers (ug_channel u)))%Z /\
     (forall r, In r (ut_resonances (ug_table u)) -> 0 < ur_spacing r /\ 0 < ur_elastic r /\ 0 <= ur_capture r /\
        0 <= ur_fission r /\ 0 <= ur_competition r)) ->
  unresolved_system_evaluate hbar epsilon0 cwf s E m = Ok (Some m') ->
  let k := k_old (C_new hbar mn) A in let rho := k E * oval (radius_at (r_phi rad) E) in let U0 l := hard_sphere_U l rho in
  let g := g_neutron I in let F := formation pi_value in
  exists vts, Forall2 (fun u vt => parameters_of hbar mn A rad E u (fst vt) /\ with_exact (fst vt) (snd vt)) (uy_groups s) vts /\
    let error := barns k E * Rsum (map (fun vt => g (v_J (fst vt)) * (F (fst vt) * group_error (fst vt))) vts) in
    Rabs (mval m' (elastic_key incident target) - (mval m (elastic_key incident target) + barns k E *
      (Rsum (map (fun vt => g (v_J (fst vt)) * (F (fst vt) * (part_elastic (snd vt) - (1 - re (U0 (v_l (fst vt))))))) vts)
       + Rsum (map (fun l => (2 * INR l + 1) * optical_total (U0 l)) (seq 0 (S (uy_lmax s))))))) <= error /\
    Rabs (mval m' (capture_key incident target) - (mval m (capture_key incident target) + barns k E *
      Rsum (map (fun vt => g (v_J (fst vt)) * (F (fst vt) * part_capture (snd vt))) vts))) <= error /\
    Rabs (mval m' (fission_key incident target) - (mval m (fission_key incident target) + barns k E *
      Rsum (map (fun vt => g (v_J (fst vt)) * (F (fst vt) * part_fission (snd vt))) vts))) <= error.
Proof.
  intros Hh Hmn HA HI HE Hch Hsc Hr Hgs H k rho U0 g F.
  destruct (system_value hbar epsilon0 cwf mn Hh Hmn incident target A I rad E HA HI Hch Hsc s m m') as (vs & P & S & E1 & E2 & E3);
    [intros u Hu; destruct (Hgs u Hu) as (? & ? & ? & _); auto | exact H|].
  fold k in E1, E2, E3. fold rho in E1. unfold ekey, ckey, fkey in E1, E2, E3.
  assert (V : exists vts, map fst vts = vs /\ Forall2 (fun u vt => parameters_of hbar mn A rad E u (fst vt) /\ with_exact (fst vt) (snd vt)) (uy_groups s) vts /\
     forall vt, In vt vts -> 0 <= g (v_J (fst vt)) /\ forall U, 0 < F (fst vt) /\
       Rabs (U_elastic pi_value (fst vt) U - F (fst vt) * (part_elastic (snd vt) - (1 - re U))) <= F (fst vt) * group_error (fst vt) /\
       Rabs (U_capture pi_value (fst vt) - F (fst vt) * part_capture (snd vt)) <= F (fst vt) * group_error (fst vt) /\
       Rabs (U_fission pi_value (fst vt) - F (fst vt) * part_fission (snd vt)) <= F (fst vt) * group_error (fst vt)).
  { clear E1 E2 E3 H. induction P as [|u v us vs Puv P IH]; [exists []; split; [reflexivity|]; split; [constructor | intros vt []]|].
    inversion S as [|? ? S1 S2]; subst. destruct IH as (vts & M & F2 & Q); [intros u' Hu'; apply Hgs; right; exact Hu' | exact S2|].
    destruct (Hgs u (or_introl eq_refl)) as (_ & _ & _ & HJ & Hpos). destruct S1 as (_ & D1 & D2 & D3 & _).
    assert (Hpos' : forall r, In r (ut_resonances (ug_table u)) -> 0 < ur_spacing r /\ 0 <= ur_elastic r /\ 0 <= ur_capture r /\ 0 <= ur_fission r /\ 0 <= ur_competition r).
    { intros r Hrr. destruct (Hpos r Hrr) as (? & ? & ? & ? & ?). repeat split; lra. }
    destruct (parameters_nonneg _ _ _ _ _ _ _ Hh Hmn HA HE Hch Hr Puv Hpos') as (_ & N2 & N3 & N4 & N5).
    pose proof (parameters_positive _ _ _ _ _ _ _ Hh Hmn HA HE Hch Hr Puv ltac:(lia) (fun r Hrr => proj1 (proj2 (Hpos r Hrr)))) as N1.
    destruct (group_accurate v N1 N2 N3 N4 N5 D1 D2 D3) as (t & T1 & T2). exists ((v, t) :: vts). split; [cbn; rewrite M; reflexivity|]. split; [constructor; [split; assumption | exact F2]|].
    intros vt [<- | Hvt]; [|apply Q, Hvt]. cbn [fst snd]. split; [|exact T2]. apply g_neutron_nonneg; [exact HI|]. destruct Puv as (_ & -> & _). exact HJ. }
  destruct V as (vts & M & F2 & Q). exists vts. split; [exact F2|]. intros error.
  assert (B : 0 <= barns k E).
  { unfold barns. assert (Pk : 0 < k_old (C_new hbar mn) A E) by (apply k_old_pos; [apply C_new_pos|..]; try assumption; lra).
    apply Rdiv_le_0_compat; [unfold pi_value; lra | unfold k; nra]. }
  assert (W : forall (f h : averages * (R * R * R * R) -> R), (forall vt, In vt vts -> Rabs (f vt - h vt) <= F (fst vt) * group_error (fst vt)) ->
    barns k E * Rabs (Rsum (map (fun vt => g (v_J (fst vt)) * f vt) vts) - Rsum (map (fun vt => g (v_J (fst vt)) * h vt) vts)) <= error).
  { intros f h Hfh. unfold error. apply Rmult_le_compat_l; [exact B|]. apply sum_near. intros vt Hvt. destruct (Q vt Hvt) as (Pg & _).
    rewrite <- Rmult_minus_distr_l, Rabs_mult, (Rabs_right (g (v_J (fst vt)))) by lra. apply Rmult_le_compat_l; [exact Pg | apply Hfh, Hvt]. }
  rewrite E1, E2, E3, <- M, !map_map. split; [|split].
  - eapply Rle_trans; [|apply (W (fun vt => U_elastic pi_value (fst vt) (U0 (v_l (fst vt)))) (fun vt => F (fst vt) * (part_elastic (snd vt) - (1 - re (U0 (v_l (fst vt)))))))].
    + match goal with |- _ <= barns k E * Rabs ?t => replace (barns k E * Rabs t) with (Rabs (barns k E * t)) by (rewrite Rabs_mult, (Rabs_right (barns k E)) by lra; reflexivity) end. right. f_equal. unfold g, U0. ring.
    + intros vt Hvt. apply (Q vt Hvt).
  - eapply Rle_trans; [|apply (W (fun vt => U_capture pi_value (fst vt)) (fun vt => F (fst vt) * part_capture (snd vt)))].
    + match goal with |- _ <= barns k E * Rabs ?t => replace (barns k E * Rabs t) with (Rabs (barns k E * t)) by (rewrite Rabs_mult, (Rabs_right (barns k E)) by lra; reflexivity) end. right. f_equal. unfold g. ring.
    + intros vt Hvt. apply (Q vt Hvt). exact (U0 O).
  - eapply Rle_trans; [|apply (W (fun vt => U_fission pi_value (fst vt)) (fun vt => F (fst vt) * part_fission (snd vt)))].
    + match goal with |- _ <= barns k E * Rabs ?t => replace (barns k E * Rabs t) with (Rabs (barns k E * t)) by (rewrite Rabs_mult, (Rabs_right (barns k E)) by lra; reflexivity) end. right. f_equal. unfold g. ring.
    + intros vt Hvt. apply (Q vt Hvt). exact (U0 O).
Qed.

Lemma rules_accurate n s : (1 <= n <= 4)%nat -> 0 < s -> exists v w,
  mean n (fun y => s / (y + s)) v /\ Rabs (average (chi2_rule n) (fun y => s / (y + s)) - v) <= other_error n /\
  mean n (fun y => y * y / (y + s)) w /\ Rabs (average (chi2_rule n) (fun y => y * y / (y + s)) - w) <= own_error n.
Proof.
  intros Hn Hs. assert (H1 : (1 <= n)%nat) by lia.
  destruct (mean_exists n H1 _ (ratio_admissible s Hs)) as (v & Hv). destruct (square_mean n Hn s Hs) as (w & Hw).
  exists v, w. split; [exact Hv|]. split.
  - pose proof (proj1 (node_close n s v Hn Hs Hv)) as B. unfold node_rule in B. eapply Rle_trans; [exact B|].
    assert (0 <= other_error n) by (destruct n as [|[|[|[|[|]]]]]; cbn; lra). lra.
  - split; [exact Hw|]. pose proof (proj1 (own_close n Hn s w Hs Hw)) as B. unfold own_rule in B. eapply Rle_trans; [exact B|].
    unfold own_tolerance. assert (0 <= own_error n) by (destruct n as [|[|[|[|[|]]]]]; cbn; lra). lra.
Qed.
