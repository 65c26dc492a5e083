(** The older Breit-Wigner interface against the collision matrix, from ENDF parameters. *)
From Coq Require Import List ZArith Reals Lra Lia Permutation Bool Psatz.
From Verif Require Import Outcome QuantumModel QuantumSpec SpinFactorModel SpinFactorProofs HardSphereModel
  HardSphereSpec HardSphereProofs KinematicsModel Cplx RMatrixModel ChannelModel BreitWignerModel
  BreitWignerSpec ListFacts BreitWignerProofs.
Import ListNotations.
Open Scope R_scope.

Definition oval (o : outcome R) : R := match o with Ok a => a | _ => 0 end.
(** A radius is positive wherever it is defined *)
Definition positive (ch : R -> outcome R) : Prop := forall e a, ch e = Ok a -> 0 < a.
(** The wave number of a neutron on a target of mass ratio [A] *)
Definition k_old (C A e : R) : R := C * (A / (A + 1)) * sqrt (Rabs e).
(** The energy that the older interface adds for the competitive channel *)
Definition q_old (ls : bw_lstate) : R := ls_QX ls * (ls_AWRI ls / (ls_AWRI ls + 1)).

Lemma k_old_nonneg C A e : 0 < C -> 0 < A -> 0 <= k_old C A e.
Proof.
  intros HC HA. unfold k_old. apply Rmult_le_pos; [|apply sqrt_pos].
  apply Rmult_le_pos; [lra|]. apply Rlt_le, Rdiv_lt_0_compat; lra.
Qed.
Lemma k_old_pos C A e : 0 < C -> 0 < A -> e <> 0 -> 0 < k_old C A e.
Proof.
  intros HC HA He. unfold k_old. apply Rmult_lt_0_compat.
  - apply Rmult_lt_0_compat; [exact HC|]. apply Rdiv_lt_0_compat; lra.
  - apply sqrt_lt_R0, Rabs_pos_lt, He.
Qed.

Lemma shift_P l rho ps : 0 <= rho -> penetrationShift (Z.of_nat l) rho = Ok ps -> fst ps = P_spec l rho.
Proof.
  intros Hr H. pose proof (penetrationShift_l _ _ _ H) as Hl.
  destruct (Rle_lt_or_eq_dec 0 rho Hr) as [Hp|<-].
  - rewrite penetrationShift_ok in H by assumption. injection H as <-. reflexivity.
  - unfold P_spec. unfold Rdiv. rewrite Rmult_0_l.
    unfold penetrationShift in H. destruct (Rlt_dec 0 0); [lra|].
    destruct l as [|[|[|[|[|l]]]]]; [..|lia]; cbn in H; injection H as <-; cbn [fst]; unfold Rdiv; ring.
Qed.
Lemma shift_S l rho ps : 0 < rho -> penetrationShift (Z.of_nat l) rho = Ok ps -> snd ps = S_spec l rho.
Proof.
  intros Hr H. pose proof (penetrationShift_l _ _ _ H) as Hl.
  rewrite penetrationShift_ok in H by assumption. injection H as <-. reflexivity.
Qed.
Lemma P_spec_0 l : P_spec l 0 = 0.
Proof. unfold P_spec, Rdiv; ring. Qed.

Lemma g_old_spec I J : is_spin I -> g_old I J = g_neutron I J.
Proof.
  unfold is_spin; intros HI. apply IZR_le in HI. unfold g_old, g_neutron, spin_value.
  field. lra.
Qed.
Lemma g_neutron_inj I J K : is_spin I -> g_neutron I J = g_neutron I K -> J = K.
Proof.
  unfold is_spin; intros HI H. apply IZR_le in HI. unfold g_neutron in H.
  apply eq_IZR. apply Rmult_eq_compat_r with (r := 2 * (IZR I + 1)) in H.
  unfold Rdiv in H. rewrite !Rmult_assoc, !Rinv_l in H by lra. lra.
Qed.
Lemma g_neutron_nonneg I J : is_spin I -> (0 <= J)%Z -> 0 <= g_neutron I J.
Proof.
  unfold is_spin; intros HI HJ. apply IZR_le in HI, HJ. unfold g_neutron.
  apply Rmult_le_pos; [lra|]. apply Rlt_le, Rinv_0_lt_compat; lra.
Qed.

Section File.
Variables (C : R) (f : bw_file) (A : R).
Variables (ch : R -> outcome R).
Let a (e : R) : R := oval (ch e).
Let k : R -> R := k_old C A.
Variables (HC : 0 < C) (HA : 0 < A) (Hch : positive ch).
Let I := f_SPI f.
Variable HI : is_spin I.

Definition rho_of (rho : R -> outcome R) : Prop :=
  forall e x, rho e = Ok x -> 0 <= x /\ x = k e * a e /\ (e <> 0 -> 0 < x).

Lemma rho_build : rho_of (fun e => omap (fun a => neutronWaveNumber C A e * a) (ch e)).
Proof.
  intros e x H. unfold omap in H. apply bind_Ok in H as (r & E & H). injection H as <-.
  pose proof (Hch e r E) as Hr.
  replace (neutronWaveNumber C A e) with (k e) by (unfold neutronWaveNumber, k, k_old; field; lra).
  repeat split.
  - apply Rmult_le_pos; [apply k_old_nonneg; assumption | lra].
  - unfold a; rewrite E; reflexivity.
  - intros He. apply Rmult_lt_0_compat; [apply k_old_pos; assumption | assumption].
Qed.
Lemma rho_evaluate : rho_of (fun e => omap (fun a => waveNumberOld C (A / (A + 1)) e * a) (ch e)).
Proof.
  intros e x H. apply rho_build. cbv beta. rewrite <- H. 
  unfold waveNumberOld, neutronWaveNumber. destruct (ch e); cbn; try reflexivity. f_equal. field; lra.
Qed.

(** Radii at the energies of the bound levels with a competitive width *)
Definition even_radius (ls : bw_lstate) : Prop :=
  ls_LRX ls = true -> forall x, In x (ls_lines ls) -> ch (Rabs (ln_ER x)) = ch (ln_ER x).

(** A resonance of the older interface at an energy *)
Lemma resonance_level rho rho' ls lv E comp x r :
  rho_of rho -> (forall e, rho (Rabs e) = omap (fun a => k e * a) (ch (Rabs e))) ->
  rho_of rho' -> E <> 0 ->
  lv_q lv = (if ls_LRX ls then Some (q_old ls) else None) -> lv_l lv = ls_L ls ->
  competitiveWidth lv E rho' = Ok comp ->
  (ls_LRX ls = true -> ch (Rabs (ln_ER x)) = ch (ln_ER x)) ->
  bw_build_resonance I (ls_L ls) rho (if ls_LRX ls then Some (q_old ls) else None) x = Ok r ->
  finite (P_at k a (ls_L ls) E) (S_at k a (ls_L ls) E) comp r = true ->
  b_g r = g_of I x /\
  old_level (P_at k a (ls_L ls) E) (S_at k a (ls_L ls) E) comp r = level_of k a E q_old ls x.
Proof.
  intros Hrho Heven Hrho' HE Hq Hl Hcomp Hx Hr Hf.
  unfold finite in Hf. apply andb_true_iff in Hf as [Hf _]. apply andb_true_iff in Hf as [Hi Hc].
  unfold bw_build_resonance in Hr. apply bind_Ok in Hr as (cw & Ecw & Hr).
  apply bind_Ok in Hr as (rho0 & Er0 & Hr). apply bind_Ok in Hr as ([P0 S0] & Eps & Hr).
  injection Hr as <-. cbn [makeBW b_inverse] in *.
  cbn [fst snd] in *.
  assert (K0 : 0 <= rho0 /\ rho0 = k (ln_ER x) * a (ln_ER x)).
  { destruct (ls_LRX ls) eqn:Elrx.
    - rewrite Heven in Er0. unfold omap in Er0. apply bind_Ok in Er0 as (r0 & E0 & Er0).
      injection Er0 as <-. pose proof (Hch _ _ E0) as Hp. split.
      + apply Rmult_le_pos; [apply k_old_nonneg; assumption | lra].
      + rewrite (Hx eq_refl) in E0. unfold a; rewrite E0; reflexivity.
    - destruct (Hrho _ _ Er0) as (H1 & H2 & _). auto. }
  destruct K0 as [Hp0 Hv0].
  assert (EP0 : P0 = P_at k a (ls_L ls) (ln_ER x)).
  { pose proof (shift_P _ _ _ Hp0 Eps) as H. cbn in H. rewrite H, Hv0. reflexivity. }
  assert (NP0 : P0 <> 0).
  { intros Z. rewrite Z in Hi. unfold makeBW, fdiv, has in Hi; cbn in Hi.
    destruct (Req_EM_T 0 0) in Hi; [discriminate | lra]. }
  assert (Hp0' : 0 < rho0).
  { destruct (Rle_lt_or_eq_dec 0 rho0 Hp0) as [H|H]; [exact H|]. exfalso. apply NP0.
    pose proof (shift_P _ _ _ Hp0 Eps) as H'. cbn in H'. rewrite H', <- H. apply P_spec_0. }
  assert (ES0 : S0 = S_at k a (ls_L ls) (ln_ER x)).
  { pose proof (shift_S _ _ _ Hp0' Eps) as H. cbn in H. rewrite H, Hv0. reflexivity. }
  split; [unfold g_of, abs_J; apply g_old_spec; exact HI|].
  assert (Einv : b_inverse (makeBW (ln_ER x) (ln_GN x) (ln_GG x) (ln_GF x) cw P0 S0 (g_old I (Z.abs (ln_AJ x))))
                 = Some (1 / P0)).
  { cbn. unfold fdiv. destruct (Req_EM_T P0 0); [contradiction | reflexivity]. }
  assert (Ecomp : vopt (comp (makeBW (ln_ER x) (ln_GN x) (ln_GG x) (ln_GF x) cw P0 S0 (g_old I (Z.abs (ln_AJ x)))))
     = if ls_LRX ls then ln_GX x * P_at k a (ls_L ls) (E + q_old ls) / P_at k a (ls_L ls) (ln_ER x + q_old ls)
       else 0).
  { unfold competitiveWidth in Hcomp. rewrite Hq, Hl in Hcomp. destruct (ls_LRX ls) eqn:Elrx.
    - apply bind_Ok in Hcomp as (r1 & Er1 & Hcomp). apply bind_Ok in Hcomp as (ps1 & Eps1 & Hcomp).
      injection Hcomp as <-. apply bind_Ok in Ecw as (r2 & Er2 & Ecw). apply bind_Ok in Ecw as (ps2 & Eps2 & Ecw).
      injection Ecw as <-. destruct (Hrho' _ _ Er1) as (H1 & V1 & _). destruct (Hrho _ _ Er2) as (H2 & V2 & _).
      pose proof (shift_P _ _ _ H1 Eps1) as Q1. pose proof (shift_P _ _ _ H2 Eps2) as Q2.
      cbn [b_competitive makeBW] in *. unfold fdiv in *. 
      destruct (Req_EM_T (fst ps2) 0) as [Z|NZ]; [cbn in Hc; discriminate|].
      cbn [vopt]. rewrite Q1, Q2, V1, V2. unfold P_at. 
      rewrite Q2, V2 in NZ. field. exact NZ.
    - injection Hcomp as <-. reflexivity. }
  unfold old_level, level_of. rewrite Einv, Ecomp. cbn [vopt makeBW b_neutron b_energy b_shift b_capture b_fission].
  rewrite <- EP0, <- ES0. f_equal; field; exact NP0.
Qed.

Lemma lvalue_levels rho rho' ls lv E comp :
  rho_of rho -> (forall e, rho (Rabs e) = omap (fun a => k e * a) (ch (Rabs e))) ->
  rho_of rho' -> E <> 0 -> even_radius ls ->
  bw_build_lvalue I rho ls = Ok lv -> competitiveWidth lv E rho' = Ok comp ->
  forallb (finite (P_at k a (ls_L ls) E) (S_at k a (ls_L ls) E) comp) (lv_resonances lv) = true ->
  (ls_L ls <= 4)%nat /\ lv_l lv = ls_L ls /\ lv_gsum lv = statisticalFactorSummation I (ls_L ls) /\
  Forall2 (fun x r => b_g r = g_of I x /\
     old_level (P_at k a (ls_L ls) E) (S_at k a (ls_L ls) E) comp r = level_of k a E q_old ls x)
    (ls_lines ls) (lv_resonances lv).
Proof.
  intros Hrho Heven Hrho' HE Hx Hb Hcomp Hf. unfold bw_build_lvalue in Hb.
  destruct (4 <? ls_L ls)%nat eqn:E4; [discriminate|]. apply Nat.ltb_ge in E4.
  apply bind_Ok in Hb as (rs & Ers & Hb). injection Hb as Hb.
  assert (Hq : lv_q lv = if ls_LRX ls then Some (q_old ls) else None) by (rewrite <- Hb; reflexivity).
  assert (Hl : lv_l lv = ls_L ls) by (rewrite <- Hb; reflexivity).
  assert (Hr : lv_resonances lv = rs) by (rewrite <- Hb; reflexivity).
  split; [exact E4|]. split; [exact Hl|]. split; [rewrite <- Hb; reflexivity|].
  rewrite Hr in Hf |- *. apply mapM_Ok in Ers. rewrite forallb_forall in Hf.
  assert (Hin : forall x, In x (ls_lines ls) -> ls_LRX ls = true -> ch (Rabs (ln_ER x)) = ch (ln_ER x))
    by (intros; apply Hx; assumption).
  clear Hb Hr. induction Ers as [|x r xs rs E0 F IH]; constructor.
  - apply (resonance_level rho rho' ls lv E comp x r); try assumption;
      [apply Hin; left; reflexivity | apply Hf; left; reflexivity].
  - apply IH; [intros y Hy; apply Hf; right; exact Hy | intros y Hy; apply Hin; right; exact Hy].
Qed.
End File.

(** * The evaluation as a sum over the l values *)
Lemma evaluate_sum C lvalue s E t : bw_evaluate C lvalue s E = Ok (Some t) ->
  let k := waveNumberOld C (s_ratio s) in
  exists ra rs ts, s_channel s E = Ok ra /\ s_scattering s E = Ok rs /\ k E * k E <> 0 /\
    Forall2 (fun lv u => exists comp,
      competitiveWidth lv E (fun e => omap (fun a => k e * a) (s_channel s e)) = Ok comp /\
      lvalue lv (psiChi E) (ra * k E) (rs * k E) comp = Ok (Some u)) (s_lvalues s) ts /\
    let c := 4 * pi_value / (k E * k E) in
    t = (c * Rsum (map t0 ts), c * Rsum (map t1 ts), c * Rsum (map t2 ts)).
Proof.
  intros H k. unfold bw_evaluate in H.
  apply bind_Ok in H as (ra & Era & H). apply bind_Ok in H as (rs & Ers & H).
  apply bind_Ok in H as (xs & Exs & H). injection H as H. fold k in H, Exs.
  unfold fdiv in H. destruct (Req_EM_T (k E * k E) 0) as [Z|NZ]; [discriminate|].
  destruct (all_finite xs) as [ts|] eqn:Ets; [|discriminate]. apply all_finite_Some in Ets.
  rewrite taccumulate_sum in H. cbn [tmul] in H. injection H as <-.
  exists ra, rs, ts. split; [exact Era|]. split; [exact Ers|]. split; [exact NZ|]. split.
  - apply mapM_Ok in Exs. rewrite Ets in Exs. clear Ets.
    revert ts Exs. generalize (s_lvalues s). intros lvs; induction lvs as [|lv lvs IH]; intros ts F.
    + inversion F as [Q|]; subst. symmetry in H. apply map_eq_nil in H as ->. constructor.
    + destruct ts as [|u ts]; [inversion F|]. cbn in F. inversion F as [|? ? ? ? E1 F1]; subst.
      constructor; [|apply IH; exact F1].
      apply bind_Ok in E1 as (comp & Ec & E1). exists comp; auto.
  - apply eq3; ring.
Qed.

Lemma Forall2_flip {A B} (P : A -> B -> Prop) l m : Forall2 P l m -> Forall2 (fun b a => P a b) m l.
Proof. induction 1; constructor; auto. Qed.

(** Sums over resonances as sums over the lines *)
Lemma SL_lines {X Y} l U0 E (g : X -> R) (v : X -> level) (g' : Y -> R) (v' : Y -> level) xs ys :
  Forall2 (fun x y => g' y = g x /\ v' y = v x) xs ys ->
  SL_elastic l U0 E g' v' ys = SL_elastic l U0 E g v xs /\
  capture_sum E g' v' ys = capture_sum E g v xs /\ fission_sum E g' v' ys = fission_sum E g v xs.
Proof.
  intros F. unfold SL_elastic, capture_sum, fission_sum.
  repeat split; [f_equal|..]; apply Rsum_Forall2 with (P := fun y x => g' y = g x /\ v' y = v x);
    try (apply Forall2_flip; exact F); intros y x [-> ->]; reflexivity.
Qed.

Lemma keyed_lines {X} (g : X -> R) (v : X -> level) (v' : bw_resonance -> level) xs ys x :
  Forall2 (fun x y => b_g y = g x /\ v' y = v x) xs ys ->
  map v' (keyed b_g x ys) = map v (keyed g x xs) /\ map b_g ys = map g xs.
Proof.
  intros F; induction F as [|a b l m [Hg Hv] F [IH1 IH2]]; [split; reflexivity|].
  rewrite !keyed_cons, Hg. cbn [map]. split; [|rewrite Hg, IH2; reflexivity].
  destruct (Reqb (g a) x); cbn [map]; rewrite ?Hv, IH1; reflexivity.
Qed.

Lemma ml_old_perm l d gsum U0 E v rs rs' : Permutation rs rs' ->
  ml_old l d gsum U0 E v rs = ml_old l d gsum U0 E v rs'.
Proof.
  intros P. unfold ml_old. f_equal.
  rewrite (Rsum_perm _ _ (Permutation_map _ (nodup_perm Req_EM_T _ _ (Permutation_map b_g P)))).
  apply Rsum_ext. intros x _. do 3 f_equal. apply collision_perm, Permutation_map, keyed_perm, P.
Qed.

Lemma ml_old_lines {X} l d gsum U0 E I (J : X -> Z) (v : X -> level) v' xs ys : is_spin I ->
  Forall2 (fun x y => b_g y = g_neutron I (J x) /\ v' y = v x) xs ys ->
  ml_old l d gsum U0 E v' ys =
  ML_elastic l U0 E v I J xs + (d - (2 * INR l + 1 - gsum)) * scattered U0.
Proof.
  intros HI F. unfold ml_old, ML_elastic, Js.
  destruct (keyed_lines (fun x => g_neutron I (J x)) v v' xs ys 0 F) as [_ ->].
  rewrite (Rsum_ext _ (fun x => x * (scattered (collision U0 E (map v (keyed (fun x => g_neutron I (J x)) x xs)))
             - scattered U0))).
  2:{ intros x _. destruct (keyed_lines (fun x => g_neutron I (J x)) v v' xs ys x F) as [-> _]. reflexivity. }
  rewrite (nodup_inj_sum J (g_neutron I)).
  2:{ intros x y _ _. apply g_neutron_inj; exact HI. }
  rewrite (Rsum_ext _ (fun j => g_neutron I j * scattered (collision U0 E (map v (of_J J j xs)))
             - scattered U0 * g_neutron I j)).
  2:{ intros j _. replace (keyed (fun x => g_neutron I (J x)) (g_neutron I j) xs) with (of_J J j xs); [ring|].
      unfold of_J, keyed. apply filter_ext. intros x.
      destruct (Z.eqb_spec (J x) j) as [->|N]; [rewrite Reqb_refl; reflexivity|].
      rewrite Reqb_neq; [reflexivity|]. intros H; apply N, (g_neutron_inj I); assumption. }
  rewrite Rsum_minus, Rsum_scale. ring.
Qed.

(** * The two formalisms *)
Lemma Forall2_chain {A B C D} (P : A -> B -> Prop) (o : B -> C) (Q : C -> D -> Prop) l m n :
  Forall2 P l m -> Forall2 Q (map o m) n -> Forall2 (fun x z => exists y, P x y /\ Q (o y) z) l n.
Proof.
  intros F; revert n; induction F as [|x y l m HP F IH]; intros n G; inversion G; subst; constructor; eauto.
Qed.
Lemma Forall2_In_l {A B} (P Q : A -> B -> Prop) l m :
  Forall2 P l m -> (forall a b, In a l -> P a b -> Q a b) -> Forall2 Q l m.
Proof.
  induction 1 as [|a b l m H F IH]; intros HQ; constructor.
  - apply HQ; [left; reflexivity | exact H].
  - apply IH. intros a' b' Hin; apply HQ; right; exact Hin.
Qed.

Lemma finite_levels {X} P S comp (v : X -> level) (gx : X -> R) xs ys :
  Forall2 (fun x r => b_g r = gx x /\ old_level P S comp r = v x) xs ys ->
  forallb (finite P S comp) ys = true -> forall x, In x xs -> w_T (v x) <> 0.
Proof.
  intros F H. induction F as [|x y xs ys [_ Hv] F IH]; intros z Hz; [destruct Hz|].
  cbn [forallb] in H. apply andb_true_iff in H as [H1 H2]. destruct Hz as [->|Hz]; [|apply IH; assumption].
  rewrite <- Hv. unfold finite in H1. apply andb_true_iff in H1 as [_ H1]. unfold Reqb in H1.
  destruct (Req_EM_T (w_T (old_level P S comp y)) 0); [discriminate | assumption].
Qed.

Section Formalisms.
Variables (C : R) (sort : list bw_resonance -> list bw_resonance) (f : bw_file)
  (first : bw_lstate) (rest : list bw_lstate) (ch sc : R -> outcome R) (E : R).
Hypotheses (HC : 0 < C) (Hf : f_lstates f = first :: rest) (HA : 0 < ls_AWRI first)
  (Hch : positive ch) (Hsc : positive sc) (HI : is_spin (f_SPI f))
  (Heven : forall ls, In ls (f_lstates f) -> even_radius ch ls).
Let A := ls_AWRI first.
Let k := k_old C A.
Let a e := oval (ch e).
Let ahat := oval (sc E).
Let I := f_SPI f.
Let rhoB e := omap (fun a => neutronWaveNumber C A e * a) (ch e).

Lemma rhoB_even e : rhoB (Rabs e) = omap (fun a => k e * a) (ch (Rabs e)).
Proof.
  unfold rhoB, neutronWaveNumber, k, k_old. rewrite Rabs_Rabsolu.
  destruct (ch (Rabs e)); cbn; try reflexivity. f_equal. fold A in HA. field; lra.
Qed.

Lemma wave_old e : waveNumberOld C (A / (A + 1)) e = k e.
Proof. reflexivity. Qed.

(** What one l value contributes, with [o] the ordering of its resonances *)
Definition part (X : bw_lstate -> R -> Prop) (ls : bw_lstate) (u : triple) : Prop :=
  let v := level_of k a E q_old ls in
  (forall x, In x (ls_lines ls) -> w_T (v x) <> 0) /\ X ls (4 * t0 u) /\ 4 * t1 u = capture_sum E (g_of I) v (ls_lines ls)
  /\ 4 * t2 u = fission_sum E (g_of I) v (ls_lines ls).

Lemma evaluate_parts ordered s lvalue t (X : bw_lstate -> R -> Prop) :
  bw_build C sort ordered f ch sc = Ok s ->
  bw_evaluate C lvalue s E = Ok (Some t) ->
  (forall ls lv comp u, In ls (f_lstates f) -> E <> 0 ->
     let ra := a E * k E in let rs := ahat * k E in 0 < ra -> 0 < rs ->
     bw_build_lvalue I rhoB ls = Ok lv ->
     competitiveWidth lv E (fun e => omap (fun a => k e * a) (ch e)) = Ok comp ->
     lvalue (if ordered then mkLvalue (sort (lv_resonances lv)) (lv_q lv) (lv_l lv) (lv_gsum lv) else lv)
            (psiChi E) ra rs comp = Ok (Some u) -> part X ls u) ->
  0 < a E /\ 0 < ahat /\ E <> 0 /\
  (forall ls x, In ls (f_lstates f) -> In x (ls_lines ls) -> w_T (level_of k a E q_old ls x) <> 0) /\
  exists us, Forall2 X (f_lstates f) us /\
  t = (barns k E * Rsum us, BW_capture k a E q_old I (f_lstates f), BW_fission k a E q_old I (f_lstates f)).
Proof.
  intros Hb He HX. unfold bw_build in Hb. rewrite Hf in Hb. 
  apply bind_Ok in Hb as (lvs & Elvs & Hb). injection Hb as <-.
  change (mapM (bw_build_lvalue I rhoB) (first :: rest) = Ok lvs) in Elvs. rewrite <- Hf in Elvs.
  destruct (evaluate_sum C lvalue _ E t He) as (ra & rs & ts & Era & Ers & NZ & F & ->).
  cbn [s_channel s_scattering s_ratio s_lvalues] in *.
  fold A in NZ, F |- *. rewrite !wave_old in *.
  assert (HE : E <> 0).
  { intros ->. apply NZ. unfold k, k_old. rewrite Rabs_R0, sqrt_0. ring. }
  assert (Ea : a E = ra) by (unfold a; rewrite Era; reflexivity).
  assert (Eh : ahat = rs) by (unfold ahat; rewrite Ers; reflexivity).
  assert (Pa : 0 < a E) by (rewrite Ea; apply (Hch E); exact Era).
  assert (Ph : 0 < ahat) by (rewrite Eh; apply (Hsc E); exact Ers).
  assert (Pk : 0 < k E) by (apply k_old_pos; assumption).
  split; [exact Pa|]. split; [exact Ph|]. split; [exact HE|].
  apply mapM_Ok in Elvs.
  assert (G : Forall2 (part X) (f_lstates f) ts).
  { set (o := fun lv => if ordered then mkLvalue (sort (lv_resonances lv)) (lv_q lv) (lv_l lv) (lv_gsum lv) else lv).
    assert (F' : Forall2 (fun lv u => exists comp,
       competitiveWidth lv E (fun e => omap (fun a => k e * a) (ch e)) = Ok comp /\
       lvalue lv (psiChi E) (ra * k E) (rs * k E) comp = Ok (Some u)) (map o lvs) ts).
    { unfold o. destruct ordered; [exact F|]. rewrite map_id. exact F. }
    pose proof (Forall2_chain _ o _ _ _ _ Elvs F') as G.
    eapply Forall2_In_l; [exact G|]. intros ls u Hin (lv & Hlv & comp & Hcomp & Hu).
    apply (HX ls lv comp u Hin HE); [apply Rmult_lt_0_compat; assumption
      | apply Rmult_lt_0_compat; assumption | exact Hlv | |].
    - rewrite <- Hcomp. unfold o; destruct ordered; reflexivity.
    - rewrite Ea, Eh. exact Hu. }
  split.
  { clear -G. induction G as [|ls u lss us [H _] G IH]; intros l0 x Hin Hx.
    - destruct Hin.
    - destruct Hin as [Hin|Hin].
      + rewrite <- Hin in *; apply H; exact Hx.
      + apply (IH l0 x); assumption. }
  exists (map (fun u => 4 * t0 u) ts). split.
  - clear -G. induction G as [|ls u lss us [_ [H _]] G IH]; constructor; auto.
  - assert (H4 : forall h : triple -> R, 4 * pi_value / (k E * k E) * Rsum (map h ts)
        = barns k E * Rsum (map (fun u => 4 * h u) ts)).
    { intros h. rewrite Rsum_scale. unfold barns. field. nra. }
    rewrite !H4. apply eq3; [reflexivity|..]; unfold BW_capture, BW_fission; f_equal; symmetry;
      apply Rsum_Forall2 with (P := part X); try exact G; intros ls u (_ & _ & H1 & H2); symmetry; assumption.
Qed.

Theorem slbw_file s e c fi :
  bw_build C sort false f ch sc = Ok s -> slbw_evaluate C s E = Ok (Some (e, c, fi)) ->
  E <> 0 /\ e = SLBW_elastic k a E q_old ahat I (f_lstates f) /\
  c = BW_capture k a E q_old I (f_lstates f) /\ fi = BW_fission k a E q_old I (f_lstates f) /\
  (forall ls x, In ls (f_lstates f) -> In x (ls_lines ls) -> w_T (level_of k a E q_old ls x) <> 0).
Proof.
  intros Hb He.
  destruct (evaluate_parts false s slbw_lvalue (e, c, fi)
    (fun ls y => y = SL_elastic (ls_L ls) (U0_of k E ahat ls) E (g_of I) (level_of k a E q_old ls) (ls_lines ls))
    Hb He) as (_ & _ & HE & HT & us & F & Ht).
  - intros ls lv comp u Hin HE ra rs Hra Hrs Hlv Hcomp Hu.
    assert (Hl : lv_l lv = ls_L ls /\ (ls_L ls <= 4)%nat).
    { unfold bw_build_lvalue in Hlv. destruct (4 <? ls_L ls)%nat eqn:E4; [discriminate|].
      apply Nat.ltb_ge in E4. apply bind_Ok in Hlv as (? & _ & H). injection H as <-. auto. }
    destruct Hl as [Hl Hl4].
    rewrite slbw_lvalue_value in Hu by (rewrite ?Hl; assumption). injection Hu as Hu.
    rewrite Hl in Hu. unfold ra, rs in Hu. rewrite (Rmult_comm (a E)), (Rmult_comm ahat) in Hu.
    change (P_spec (ls_L ls) (k E * a E)) with (P_at k a (ls_L ls) E) in Hu.
    change (S_spec (ls_L ls) (k E * a E)) with (S_at k a (ls_L ls) E) in Hu.
    destruct (forallb _ _) eqn:Hfin; [|discriminate]. injection Hu as <-.
    destruct (lvalue_levels C f A ch HC HA Hch HI rhoB (fun e => omap (fun a => k e * a) (ch e)) ls lv E comp)
      as (_ & _ & _ & F2); try assumption.
    + apply rho_build; assumption.
    + apply rhoB_even.
    + exact (rho_evaluate C A ch HC HA Hch).
    + apply Heven; exact Hin.
    + destruct (SL_lines (ls_L ls) (U0_of k E ahat ls) E (g_of I) (level_of k a E q_old ls) b_g
        (old_level (P_at k a (ls_L ls) E) (S_at k a (ls_L ls) E) comp) _ _ F2) as (H1 & H2 & H3).
      unfold part, t0, t1, t2; cbn [fst snd]. fold I in H2, H3.
      change (hard_sphere_U (ls_L ls) (k E * ahat)) with (U0_of k E ahat ls). rewrite H1, H2, H3.
      split; [eapply finite_levels; eassumption|]. repeat split; field.
  - injection Ht as -> -> ->. split; [exact HE|]. split; [|auto]. unfold SLBW_elastic. f_equal. symmetry.
    rewrite <- (map_id us).
    eapply Rsum_Forall2; [exact F|]. intros ls y H; symmetry; exact H.
Qed.

Lemma D_rounding l d : (l <= 4)%nat -> D I (Z.of_nat l) = Ok d ->
  Rabs (d - (2 * INR l + 1 - statisticalFactorSummation I l)) <= literal_rounding.
Proof.
  intros Hl Hd. unfold is_spin in HI. fold I in HI.
  destruct (Z_lt_le_dec 7 I) as [H|H].
  - destruct (D_large I (Z.of_nat l) H) as [H1 H2]; [lia|]. rewrite Hd in H1. injection H1 as ->.
    rewrite Nat2Z.id in H2. rewrite <- INR_IZR_INZ in *.
    replace (_ - _) with 0 by lra. rewrite Rabs_R0. unfold literal_rounding. lra.
  - destruct (D_small I (Z.of_nat l)) as (d' & H1 & H2); [lia|lia|]. rewrite Hd in H1. injection H1 as <-.
    rewrite Nat2Z.id in H2. rewrite <- INR_IZR_INZ in H2. exact H2.
Qed.

Hypothesis Hsort : sorts b_g sort.

(** One l value of the multi-level formalism with the deviation of the table *)
Lemma mlbw_file_parts s t :
  bw_build C sort true f ch sc = Ok s -> mlbw_evaluate C s E = Ok (Some t) ->
  0 < a E /\ 0 < ahat /\ E <> 0 /\
  (forall ls x, In ls (f_lstates f) -> In x (ls_lines ls) -> w_T (level_of k a E q_old ls x) <> 0) /\
  exists us, Forall2 (fun ls y => exists d, (ls_L ls <= 4)%nat /\ D I (Z.of_nat (ls_L ls)) = Ok d /\
    y = ML_elastic (ls_L ls) (U0_of k E ahat ls) E (level_of k a E q_old ls) I abs_J (ls_lines ls)
        + (d - (2 * INR (ls_L ls) + 1 - statisticalFactorSummation I (ls_L ls))) * scattered (U0_of k E ahat ls))
    (f_lstates f) us /\
  t = (barns k E * Rsum us, BW_capture k a E q_old I (f_lstates f), BW_fission k a E q_old I (f_lstates f)).
Proof.
  intros Hb He. unfold mlbw_evaluate in He.
  assert (Hspin : s_spin s = I).
  { unfold bw_build in Hb. rewrite Hf in Hb. apply bind_Ok in Hb as (? & _ & H). injection H as <-. reflexivity. }
  rewrite Hspin in He.
  apply (evaluate_parts true s (mlbw_lvalue I) t _ Hb He).
  intros ls lv comp u Hin HE ra rs Hra Hrs Hlv Hcomp Hu.
  assert (Hl : lv_l lv = ls_L ls /\ (ls_L ls <= 4)%nat).
  { unfold bw_build_lvalue in Hlv. destruct (4 <? ls_L ls)%nat eqn:E4; [discriminate|].
    apply Nat.ltb_ge in E4. apply bind_Ok in Hlv as (? & _ & H). injection H as <-. auto. }
  destruct Hl as [Hl Hl4]. destruct (Hsort (lv_resonances lv)) as [Hperm Hasc].
  rewrite mlbw_lvalue_value in Hu by (cbn [lv_l lv_resonances]; rewrite ?Hl; assumption).
  cbn [lv_l lv_resonances lv_gsum] in Hu. apply bind_Ok in Hu as (d & Hd & Hu). injection Hu as Hu.
  rewrite Hl in Hu, Hd. unfold ra, rs in Hu. rewrite (Rmult_comm (a E)), (Rmult_comm ahat) in Hu.
  change (P_spec (ls_L ls) (k E * a E)) with (P_at k a (ls_L ls) E) in Hu.
  change (S_spec (ls_L ls) (k E * a E)) with (S_at k a (ls_L ls) E) in Hu.
  rewrite <- (forallb_perm _ _ _ Hperm) in Hu.
  destruct (forallb _ _) eqn:Hfin; [|discriminate]. injection Hu as <-.
  destruct (lvalue_levels C f A ch HC HA Hch HI rhoB (fun e => omap (fun a => k e * a) (ch e)) ls lv E comp)
    as (_ & _ & Hgs & F2); try assumption.
  - apply rho_build; assumption.
  - apply rhoB_even.
  - exact (rho_evaluate C A ch HC HA Hch).
  - apply Heven; exact Hin.
  - set (v := old_level (P_at k a (ls_L ls) E) (S_at k a (ls_L ls) E) comp) in *.
    destruct (SL_lines (ls_L ls) (U0_of k E ahat ls) E (g_of I) (level_of k a E q_old ls) b_g v _ _ F2)
      as (_ & H2 & H3). fold I in H2, H3.
    change (hard_sphere_U (ls_L ls) (k E * ahat)) with (U0_of k E ahat ls).
    rewrite <- (ml_old_perm _ _ _ _ _ _ _ _ Hperm).
    rewrite (ml_old_lines (ls_L ls) d (lv_gsum lv) (U0_of k E ahat ls) E I abs_J (level_of k a E q_old ls) v _ _ HI F2).
    unfold part, t0, t1, t2; cbn [fst snd].
    assert (Hcs : capture_sum E b_g v (sort (lv_resonances lv)) = capture_sum E b_g v (lv_resonances lv)).
    { apply Rsum_perm, Permutation_map, Permutation_sym; exact Hperm. }
    assert (Hfs : fission_sum E b_g v (sort (lv_resonances lv)) = fission_sum E b_g v (lv_resonances lv)).
    { apply Rsum_perm, Permutation_map, Permutation_sym; exact Hperm. }
    rewrite Hcs, Hfs, H2, H3, Hgs. split; [eapply finite_levels; eassumption|]. split; [|split; field].
    exists d. split; [exact Hl4|]. split; [exact Hd|]. fold I. field.
Qed.

Theorem mlbw_file s e c fi :
  bw_build C sort true f ch sc = Ok s -> mlbw_evaluate C s E = Ok (Some (e, c, fi)) ->
  Rabs (e - MLBW_elastic k a E q_old ahat I (f_lstates f))
    <= barns k E * literal_rounding * Rsum (map (fun ls => scattered (U0_of k E ahat ls)) (f_lstates f)) /\
  c = BW_capture k a E q_old I (f_lstates f) /\ fi = BW_fission k a E q_old I (f_lstates f) /\
  (forall ls x, In ls (f_lstates f) -> In x (ls_lines ls) -> w_T (level_of k a E q_old ls x) <> 0).
Proof.
  intros Hb He. destruct (mlbw_file_parts s _ Hb He) as (_ & _ & HE & HT & us & F & Ht).
  injection Ht as -> -> ->. split; [|auto]. unfold MLBW_elastic. rewrite Rmult_assoc.
  rewrite <- Rmult_minus_distr_l, Rabs_mult.
  assert (Pk : 0 < k E) by (apply k_old_pos; assumption).
  assert (Pb : 0 <= barns k E).
  { unfold barns. apply Rmult_le_pos; [unfold pi_value; lra|]. apply Rlt_le, Rinv_0_lt_compat; nra. }
  rewrite (Rabs_right (barns k E)) by lra. apply Rmult_le_compat_l; [exact Pb|].
  clear Hb He Hf Heven HT. induction F as [|ls y lss us (d & Hl & Hd & ->) F IH]; cbn [map]; rewrite ?Rsum_cons, ?Rsum_nil.
  - replace (0 - 0) with 0 by ring. rewrite Rabs_R0. lra.
  - set (ML := ML_elastic _ _ _ _ _ _ _) in *. set (T := Rsum (map _ lss)) in *.
    set (U := Rsum us) in *.
    match goal with |- Rabs (ML + ?x * ?s + U - (ML + ?T')) <= _ =>
      replace (ML + x * s + U - (ML + T')) with (x * s + (U - T')) by ring end.
    eapply Rle_trans; [apply Rabs_triang|].
    rewrite Rabs_mult.
    assert (Hs : 0 <= scattered (U0_of k E ahat ls)).
    { unfold scattered, norm2. pose proof (Rle_0_sqr (re (cx_add cx_one (cx_opp (U0_of k E ahat ls))))).
      pose proof (Rle_0_sqr (im (cx_add cx_one (cx_opp (U0_of k E ahat ls))))). unfold Rsqr in *. lra. }
    rewrite (Rabs_right (scattered _)) by lra.
    pose proof (D_rounding _ d Hl Hd) as HD.
    apply Rmult_le_compat_r with (r := scattered (U0_of k E ahat ls)) in HD; [|exact Hs].
    rewrite Rmult_plus_distr_l. apply Rplus_le_compat; [exact HD | exact IH].
Qed.
End Formalisms.
