(** The cross sections of the unresolved range are continuous functions of the energy. *)
From Coq Require Import String List ZArith Reals Lra Lia Bool Sorted.
From Coquelicot Require Import Coquelicot.
From Verif Require Import Outcome QuantumModel QuantumSpec SpinFactorModel HardSphereModel KinematicsModel CoulombModel RMatrixModel ChannelModel BreitWignerModel ListFacts LegacyModel LegacyProofs
  UnresolvedModel UnresolvedSpec UnresolvedProofs UnresolvedTheorems JumpSpec JumpProofs JumpSystem JumpLegacy JumpTheorems OpeningProofs JumpUnresolvedSpec.
Import ListNotations.
Open Scope R_scope.

(** Interpolation *)
Notation points f rs := (map (fun r => (ur_energy r, f r)) rs).
Lemma line_ok (f : unresolved_resonance -> R) r s rest e : ur_energy r <= e -> e <= ur_energy s -> ur_energy r < ur_energy s ->
  linlin (points f (r :: s :: rest)) e = Ok (Some (f r + (f s - f r) / (ur_energy s - ur_energy r) * (e - ur_energy r))).
Proof.
  intros A B C. cbn [map linlin]. destruct (Rlt_dec e (ur_energy r)); [lra|]. destruct (Rle_dec e (ur_energy s)); [|lra]. unfold fdiv. destruct (Req_EM_T (ur_energy s - ur_energy r) 0); [lra | reflexivity].
Qed.
Lemma line_next (f : unresolved_resonance -> R) r s rest e : ur_energy r < ur_energy s -> ur_energy s < e -> linlin (points f (r :: s :: rest)) e = linlin (points f (s :: rest)) e.
Proof. intros A B. cbn [map linlin]. destruct (Rlt_dec e (ur_energy r)); [lra|]. destruct (Rle_dec e (ur_energy s)); [lra | reflexivity]. Qed.
Lemma lin_smooth (f : unresolved_resonance -> R) rs E : StronglySorted (fun x y => ur_energy x < ur_energy y) rs -> (exists r, In r rs /\ ur_energy r < E) -> (exists r, In r rs /\ E < ur_energy r) ->
  exists g, continuity_pt g E /\ locally E (fun e => linlin (points f rs) e = Ok (Some (g e))).
Proof.
  induction rs as [|r rs IH]; intros S (a & A & LA) (b & B & LB); [destruct A|]. apply StronglySorted_inv in S as [S F]. rewrite Forall_forall in F.
  assert (X0 : ur_energy r < E) by (destruct A as [->|A]; [exact LA | specialize (F a A); lra]). destruct B as [->|B]; [lra|].
  destruct rs as [|s rest]; [destruct B|]. pose proof (F s (or_introl eq_refl)) as X1. apply StronglySorted_inv in S as S'. destruct S' as [_ F']. rewrite Forall_forall in F'.
  destruct (Rtotal_order E (ur_energy s)) as [C|[C|C]].
  - exists (fun e => f r + (f s - f r) / (ur_energy s - ur_energy r) * (e - ur_energy r)). split; [auto 20 with cont|].
    pose proof (filter_and _ _ (open_gt (ur_energy r) E X0) (open_lt (ur_energy s) E C)) as L. revert L. apply filter_imp. intros e [P Q]. apply line_ok; lra.
  - destruct B as [->|B]; [lra|]. destruct rest as [|t rest]; [destruct B|]. pose proof (F' t (or_introl eq_refl)) as X2.
    set (s0 := (f s - f r) / (ur_energy s - ur_energy r)). set (s1 := (f t - f s) / (ur_energy t - ur_energy s)). set (x := ur_energy s) in *.
    exists (fun e => f s + s0 * (((e - x) - Rabs (e - x)) * (1 / 2)) + s1 * (((e - x) + Rabs (e - x)) * (1 / 2))). split; [auto 20 with cont|].
    assert (Q0 : E < ur_energy t) by lra. pose proof (filter_and _ _ (open_gt (ur_energy r) E X0) (open_lt (ur_energy t) E Q0)) as L. revert L. apply filter_imp. intros e [P Q].
    destruct (Rle_dec e x) as [D|D].
    + rewrite line_ok by (fold x; lra). fold x. fold s0. do 2 f_equal. rewrite Rabs_left1 by lra. replace (f r) with (f s - s0 * (x - ur_energy r)) by (unfold s0; field; lra). lra.
    + rewrite line_next by (fold x; lra). rewrite line_ok by (fold x; lra). fold x. fold s1. do 2 f_equal. rewrite Rabs_pos_eq by lra. lra.
  - destruct (IH S) as (g & Cg & Lg); [exists s; split; [left; reflexivity | exact C] | exists b; split; assumption|]. exists g. split; [exact Cg|].
    pose proof (filter_and _ _ (open_gt (ur_energy s) E C) Lg) as L. revert L. apply filter_imp. intros e [P Q]. rewrite line_next by lra. exact Q.
Qed.
Lemma lin_zero (f : unresolved_resonance -> R) rs e y : (forall r, In r rs -> f r = 0) -> linlin (points f rs) e = Ok (Some y) -> y = 0.
Proof.
  induction rs as [|r [|s rs] IH]; intros H; [discriminate | discriminate |]. cbn [map linlin]. destruct (Rlt_dec e (ur_energy r)); [discriminate|].
  destruct (Rle_dec e (ur_energy s)); [|intros K; apply IH; [intros q Q; apply H; right; exact Q | exact K]].
  rewrite (H r (or_introl eq_refl)), (H s (or_intror (or_introl eq_refl))). unfold fdiv. destruct (Req_EM_T _ 0); [discriminate|]. intros K. injection K as <-. field. assumption.
Qed.

(** The fluctuation integrals around an energy where they are finite *)
Lemma locally_all {X} (l : list X) (P : X -> R -> Prop) E : (forall x, In x l -> locally E (P x)) -> locally E (fun e => forall x, In x l -> P x e).
Proof.
  induction l as [|x l IH]; intros H; [apply everywhere; intros e x []|]. pose proof (filter_and _ _ (H x (or_introl eq_refl)) (IH (fun y Y => H y (or_intror Y)))) as L. revert L. apply filter_imp.
  intros e [A B] y [<-|Y]; [exact A | exact (B y Y)].
Qed.
Lemma integrals_near d gn gg gf gx E i : (1 <= d_elastic d <= 4)%nat -> (d_fission d <= 4)%nat -> (d_competition d <= 4)%nat ->
  continuity_pt gn E -> continuity_pt gg E -> continuity_pt gf E -> continuity_pt gx E ->
  locally E (fun e => gf e = 0 <-> gf E = 0) -> locally E (fun e => gx e = 0 <-> gx E = 0) ->
  calculateFluctuationIntegrals (mkData (gn E) (gg E) (gf E) (gx E)) d = Ok (Some i) ->
  exists ie ic f x, continuity_pt ie E /\ continuity_pt ic E /\ continuity_pt f E /\
    locally E (fun e => calculateFluctuationIntegrals (mkData (gn e) (gg e) (gf e) (gx e)) d = Ok (Some (mkData (ie e) (ic e) (f e) (x e)))).
Proof.
  intros H1 H2 H3 Cn Cg Cf Cx LF LX V.
  assert (Spec : forall e, _) by (intros e; exact (integrals_value_spec (mkData (gn e) (gg e) (gf e) (gx e)) d H1 (fun _ => H2) (fun _ => H3))). cbv zeta in Spec. cbn [d_elastic d_capture d_fission d_competition] in Spec.
  set (rn := chi2_rule (d_elastic d)) in *.
  set (rf := if Req_EM_T (gf E) 0 then constant_rule else chi2_rule (Nat.max 1 (d_fission d))). set (rx := if Req_EM_T (gx E) 0 then constant_rule else chi2_rule (Nat.max 1 (d_competition d))).
  destruct (Spec E) as [(_ & N)|(N0 & _)]; [rewrite N in V; discriminate|]. fold rf rx in N0.
  assert (T : forall a b c, In a rn -> In b rf -> In c rx -> continuity_pt (fun e => total_width (gn e) (gg e) (gf e) (gx e) (snd a) (snd b) (snd c)) E /\ total_width (gn E) (gg E) (gf E) (gx E) (snd a) (snd b) (snd c) <> 0).
  { intros a b c A B C. split; [unfold total_width; auto 20 with cont | intros Z; apply N0; exists a, b, c; auto]. }
  assert (LT : locally E (fun e => forall a, In a rn -> forall b, In b rf -> forall c, In c rx -> total_width (gn e) (gg e) (gf e) (gx e) (snd a) (snd b) (snd c) <> 0)).
  { apply (locally_all rn (fun a e => forall b, In b rf -> forall c, In c rx -> total_width (gn e) (gg e) (gf e) (gx e) (snd a) (snd b) (snd c) <> 0)). intros a A.
    apply (locally_all rf (fun b e => forall c, In c rx -> total_width (gn e) (gg e) (gf e) (gx e) (snd a) (snd b) (snd c) <> 0)). intros b B.
    apply (locally_all rx (fun c e => total_width (gn e) (gg e) (gf e) (gx e) (snd a) (snd b) (snd c) <> 0)). intros c C. destruct (T a b c A B C) as [T1 T2]. exact (near_not_zero _ E T1 T2). }
  assert (CI : forall u : R -> R -> R -> R, continuity_pt (fun e => average3 rn rf rx (fun a b c => u a b c / total_width (gn e) (gg e) (gf e) (gx e) a b c)) E).
  { intros u. apply (average3_continuous rn rf rx (fun e a b c => u a b c / total_width (gn e) (gg e) (gf e) (gx e) a b c)). intros a b c A B C. destruct (T a b c A B C) as [T1 T2]. apply c_div; [apply c_const | exact T1 | exact T2]. }
  exists (fun e => I_elastic (gn e) (gg e) (gf e) (gx e) rn rf rx), (fun e => I_capture (gn e) (gg e) (gf e) (gx e) rn rf rx),
    (fun e => if Req_EM_T (gf E) 0 then 0 else I_fission (gn e) (gg e) (gf e) (gx e) rn rf rx), (fun e => if Req_EM_T (gx E) 0 then 0 else I_competition (gn e) (gg e) (gf e) (gx e) rn rf rx).
  split; [exact (CI (fun a b c => a * a))|]. split; [exact (CI (fun a b c => a))|]. split; [destruct (Req_EM_T (gf E) 0); [apply c_const | exact (CI (fun a b c => a * b))]|].
  pose proof (filter_and _ _ LT (filter_and _ _ LF LX)) as L. revert L. apply filter_imp. intros e (LT1 & LF1 & LX1).
  assert (EF : (if Req_EM_T (gf e) 0 then constant_rule else chi2_rule (Nat.max 1 (d_fission d))) = rf) by (unfold rf; destruct (Req_EM_T (gf e) 0), (Req_EM_T (gf E) 0); tauto).
  assert (EX : (if Req_EM_T (gx e) 0 then constant_rule else chi2_rule (Nat.max 1 (d_competition d))) = rx) by (unfold rx; destruct (Req_EM_T (gx e) 0), (Req_EM_T (gx E) 0); tauto).
  specialize (Spec e). rewrite EF, EX in Spec. destruct Spec as [((a & b & c & A & B & C & Z) & _)|(_ & j & Hj & J1 & J2 & J3 & J3' & J4 & J4')]; [contradiction (LT1 a A b B c C Z)|].
  rewrite Hj. do 2 f_equal. destruct j as [j1 j2 j3 j4]. cbn [d_elastic d_capture d_fission d_competition] in *.
  assert (K3 : j3 = if Req_EM_T (gf E) 0 then 0 else I_fission (gn e) (gg e) (gf e) (gx e) rn rf rx) by (destruct (Req_EM_T (gf E) 0) as [Q|Q]; [apply J3', LF1, Q | apply J3; intros Y; apply Q, LF1, Y]).
  assert (K4 : j4 = if Req_EM_T (gx E) 0 then 0 else I_competition (gn e) (gg e) (gf e) (gx e) rn rf rx) by (destruct (Req_EM_T (gx E) 0) as [Q|Q]; [apply J4', LX1, Q | apply J4; intros Y; apply Q, LX1, Y]).
  rewrite <- J1, <- J2, <- K3, <- K4. reflexivity.
Qed.

Lemma mapM_in {X Y} (f : X -> outcome Y) l ys : mapM f l = Ok ys -> forall y, In y ys -> exists x, In x l /\ f x = Ok y.
Proof.
  revert ys. induction l as [|x l IH]; intros ys H y I; cbn [mapM] in H; [injection H as <-; destruct I|]. apply bind_Ok in H as (z & Z & H). apply bind_Ok in H as (zs & ZS & H). injection H as <-.
  destruct I as [<-|I]; [exists x; split; [left; reflexivity | exact Z]|]. destruct (IH zs ZS y I) as (x' & X' & K). exists x'. split; [right; exact X' | exact K].
Qed.
Lemma degree_positive w d i : (d_elastic d <= 4)%nat -> calculateFluctuationIntegrals w d = Ok (Some i) -> (1 <= d_elastic d <= 4)%nat.
Proof.
  intros H V. split; [|exact H]. destruct (d_elastic d) as [|n] eqn:D; [|lia]. exfalso. unfold calculateFluctuationIntegrals in V. rewrite D in V. destruct (nonzero (d_fission w)), (nonzero (d_competition w)); discriminate.
Qed.

Section Evaluate.
Variables (hbar epsilon0 : R) (cwf : nat -> R -> R -> outcome coulomb).
Lemma group_adds u E m m' : 0 < E -> settled_group u E -> unresolved_evaluate hbar epsilon0 cwf u E m = Ok (Some m') -> adds (unresolved_evaluate hbar epsilon0 cwf u) E.
Proof.
  intros HE (N1 & N2 & SP & SF & D0 & D2 & D3 & SS & LO & UP & KF & KX) V. set (c := ug_channel u) in *. set (t := ug_table u) in *. assert (N : neutral c) by (split; assumption).
  destruct (lin_smooth ur_spacing _ E SS LO UP) as (gd & Cd & Ld). destruct (lin_smooth ur_elastic _ E SS LO UP) as (ge & Ce & Le). destruct (lin_smooth ur_capture _ E SS LO UP) as (gc & Cc & Lc).
  destruct (lin_smooth ur_fission _ E SS LO UP) as (gf & Cf & Lf). destruct (lin_smooth ur_competition _ E SS LO UP) as (gx & Cx & Lx).
  assert (LU : locally E (fun e => unresolvedAt t e = Ok (Some (mkUnresolved e (gd e) (ge e) (gc e) (gf e) (gx e))))).
  { pose proof (filter_and _ _ Ld (filter_and _ _ Le (filter_and _ _ Lc (filter_and _ _ Lf Lx)))) as L. revert L. apply filter_imp. intros e (A1 & A2 & A3 & A4 & A5). unfold unresolvedAt, column_table. rewrite A1, A2, A3, A4, A5. reflexivity. }
  pose proof (near_at _ _ LU) as U0. cbv beta in U0.
  assert (LF : locally E (fun e => gf e = 0 <-> gf E = 0)).
  { destruct KF as [Z|Z]; [|generalize (near_not_zero gf E Cf (Z _ U0)); apply filter_imp; intros e Q; specialize (Z _ U0); cbn in Z; tauto].
    pose proof (lin_zero ur_fission _ E _ Z (near_at _ _ Lf)) as Z0. revert Lf. apply filter_imp. intros e Q. pose proof (lin_zero ur_fission _ e _ Z Q). tauto. }
  assert (LX : locally E (fun e => gx e = 0 <-> gx E = 0)).
  { destruct KX as [Z|Z]; [|generalize (near_not_zero gx E Cx (Z _ U0)); apply filter_imp; intros e Q; specialize (Z _ U0); cbn in Z; tauto].
    pose proof (lin_zero ur_competition _ E _ Z (near_at _ _ Lx)) as Z0. revert Lx. apply filter_imp. intros e Q. pose proof (lin_zero ur_competition _ e _ Z Q). tauto. }
  unfold unresolved_evaluate in V. fold c t in V. apply bind_Ok in V as (op & HP & V). apply bind_Ok in V as (ophi & HF & V). apply bind_Ok in V as (a0 & HA & V). rewrite U0 in V. cbn [bind] in V.
  destruct (channelWaveNumber hbar c E) as [k|] eqn:K; [|apply bind_Ok in V as (? & _ & V); discriminate]. destruct op as [P0|]; [|apply bind_Ok in V as (? & _ & V); discriminate]. destruct ophi as [phi|]; [|apply bind_Ok in V as (? & _ & V); discriminate].
  destruct (channel_wave hbar c E k K) as (w & Cw & Hw & <-). destruct (channel_P hbar epsilon0 cwf c E P0 N SP HP) as (P & CP & LP). destruct (channel_phase hbar epsilon0 cwf c E phi N SF HF) as (A & B & CA & _ & LA).
  destruct (settled_smooth _ _ SP) as (a & Ca & La). pose proof (near_at _ _ La) as A1. cbv beta in A1. rewrite HA in A1. injection A1 as ->. pose proof (near_at _ _ LP) as P1. cbv beta in P1. rewrite HP in P1. injection P1 as ->.
  destruct (fdiv (2 * pi_value * pi_value) (w E * w E)) as [fac|] eqn:FD; [|apply bind_Ok in V as (? & _ & V); discriminate]. pose proof (fdiv_some _ _ _ FD) as NW.
  unfold unresolvedWidths in V. destruct (fdiv (INR (d_elastic (ut_degrees t)) * P E) (w E * a E)) as [vl|] eqn:VL; [|apply bind_Ok in V as (? & _ & V); discriminate]. pose proof (fdiv_some _ _ _ VL) as NA. rewrite (fdiv_ok _ _ NA) in VL. injection VL as <-.
  unfold fsqrt in V. destruct (Rlt_dec E 0); [lra|]. cbn [ur_elastic ur_capture ur_fission ur_competition ur_spacing] in V. apply bind_Ok in V as (oi & I0 & V). injection V as V. destruct oi as [i|]; [|discriminate].
  destruct (unresolvedElastic _ _ _ _ _ _) as [x0|] eqn:E0 in V; [|discriminate]. unfold unresolvedElastic in E0. destruct (fdiv (spinFactor c) (gd E)) eqn:SD in E0; [|discriminate]. pose proof (fdiv_some _ _ _ SD) as ND.
  pose proof (degree_positive _ _ _ D0 I0) as D1. set (de := INR (d_elastic (ut_degrees t))) in *. assert (Cs : continuity_pt sqrt E) by (apply continuity_pt_sqrt; lra). assert (CW : continuity_pt w E) by apply Cw.
  assert (Cwa : continuity_pt (fun e => w e * a e) E) by auto with cont. assert (Cww : continuity_pt (fun e => w e * w e) E) by auto with cont.
  set (gn := fun e => ge e * sqrt e * (de * P e / (w e * a e))). assert (Cn : continuity_pt gn E) by (unfold gn; apply c_mult; [apply c_mult; assumption | apply c_div; auto with cont]).
  destruct (integrals_near (ut_degrees t) gn gc gf gx E i D1 D2 D3 Cn Cc Cf Cx LF LX I0) as (ie & ic & jf & jx & C1 & C2 & C3 & LI).
  set (fe := fun e => 2 * pi_value * pi_value / (w e * w e)). assert (Cfe : continuity_pt fe E) by (unfold fe; apply c_div; auto with cont).
  set (g0 := spinFactor c) in *.
  set (xe := fun e => fe e * (g0 / gd e * (gn e * (gn e * ie e - 2 * A e)))). set (xc := fun e => fe e * g0 / gd e * (gn e * gc e * ic e)). set (xf := fun e => fe e * g0 / gd e * (gn e * gf e * jf e)).
  assert (Cxe : continuity_pt xe E) by (unfold xe; apply c_mult; [exact Cfe | apply c_mult; [apply c_div; auto with cont | auto 20 with cont]]).
  assert (Cxc : continuity_pt xc E) by (unfold xc; apply c_mult; [apply c_div; auto with cont | auto 20 with cont]).
  assert (Cxf : continuity_pt xf E) by (unfold xf; apply c_mult; [apply c_div; auto with cont | auto 20 with cont]).
  exists (fun key e => (if legacy_key_eqb key (legacyKey c "elastic") then xe e else 0) + (if legacy_key_eqb key (legacyKey c "capture") then xc e else 0) + (if legacy_key_eqb key (legacyKey c "fission") then xf e else 0)). split.
  - intros key. repeat apply c_plus; match goal with |- continuity_pt (fun e => if ?b then _ else _) _ => destruct b end; auto with cont.
  - pose proof (filter_and _ _ (filter_and _ _ LP LA) (filter_and _ _ (filter_and _ _ La LU) (filter_and _ _ (filter_and _ _ LI (open_gt 0 E HE)) (filter_and _ _ (near_not_zero _ E Cww NW) (filter_and _ _ (near_not_zero _ E Cwa NA) (near_not_zero _ E Cd ND)))))) as L.
    revert L. apply filter_imp. intros e ((Q1 & phi1 & Q2 & Q3 & _) & (Q4 & Q5) & (Q6 & Q7) & Q8 & Q9 & Q10) m1.
    unfold unresolved_evaluate. fold c t. rewrite Q1, Q2. cbn [bind]. rewrite Q4. cbn [bind]. rewrite Q5. cbn [bind]. rewrite Hw, (fdiv_ok _ _ Q8). unfold unresolvedWidths. fold de. rewrite (fdiv_ok _ _ Q9). unfold fsqrt. destruct (Rlt_dec e 0); [lra|].
    cbn [ur_elastic ur_capture ur_fission ur_competition ur_spacing]. fold (gn e). rewrite Q6. cbn [bind]. unfold unresolvedElastic, unresolvedReaction. rewrite !(fdiv_ok _ _ Q10). cbn [d_elastic d_capture d_fission d_competition].
    eexists. split; [reflexivity|]. fold g0. rewrite Q3. fold (fe e). fold (xe e). fold (xc e). fold (xf e). intros key.
    destruct (nonzero (gf e)) eqn:Z.
    + rewrite !mval_accumulate. ring.
    + apply nonzero_0 in Z. assert (xf e = 0) as -> by (unfold xf; rewrite Z; unfold Rdiv; ring). rewrite !mval_accumulate. destruct (legacy_key_eqb key (legacyKey c "fission")); ring.
Qed.
Lemma ufold_adds gs E : (forall g m m', In g gs -> unresolved_evaluate hbar epsilon0 cwf g E m = Ok (Some m') -> adds (unresolved_evaluate hbar epsilon0 cwf g) E) -> forall m m',
  foldM (fun om g => match om with None => Ok None | Some m => unresolved_evaluate hbar epsilon0 cwf g E m end) gs (Some m) = Ok (Some m') ->
  adds (fun e m => foldM (fun om g => match om with None => Ok None | Some m => unresolved_evaluate hbar epsilon0 cwf g e m end) gs (Some m)) E.
Proof.
  intros H. induction gs as [|g gs IH]; intros m m' F.
  - exists (fun _ _ => 0). split; [intros key; apply c_const|]. apply everywhere. intros e m1. exists m1. split; [reflexivity | intros key; ring].
  - cbn [foldM] in F. apply bind_Ok in F as (o & O & F). destruct o as [m1|].
    + destruct (H g m m1 (or_introl eq_refl) O) as (d1 & C1 & L1). destruct (IH (fun g m m' G => H g m m' (or_intror G)) m1 m' F) as (d2 & C2 & L2).
      exists (fun key e => d1 key e + d2 key e). split; [intros key; apply c_plus; auto|]. pose proof (filter_and _ _ L1 L2) as L. revert L. apply filter_imp. intros e [K1 K2] m2.
      destruct (K1 m2) as (m3 & M3 & D3). destruct (K2 m3) as (m4 & M4 & D4). exists m4. split; [cbn [foldM]; rewrite M3; exact M4 | intros key; rewrite D4, D3; ring].
    + exfalso. clear - F. induction gs as [|x gs IH]; [discriminate | exact (IH F)].
Qed.
Theorem unresolved_no_jump s E m m' : 0 < E -> (forall u, In u (uy_groups s) -> settled_group u E) -> unresolved_system_evaluate hbar epsilon0 cwf s E m = Ok (Some m') ->
  no_jump_map (fun e => unresolved_system_evaluate hbar epsilon0 cwf s e m) E.
Proof.
  intros HE HS V. apply (adds_no_jump (unresolved_system_evaluate hbar epsilon0 cwf s)). unfold unresolved_system_evaluate in V. apply bind_Ok in V as (om & F & V). destruct (uy_groups s) as [|g gs] eqn:G; [discriminate|].
  destruct (channelWaveNumber hbar (ug_channel g) E) as [k|] eqn:K; [|discriminate]. apply bind_Ok in V as (a0 & A0 & V). apply bind_Ok in V as (v & P & V). injection V as V. destruct om as [m0|]; [|discriminate].
  destruct (fdiv _ _) as [x|] eqn:D in V; [|discriminate]. pose proof (fdiv_some _ _ _ D) as N. destruct (channel_wave hbar _ E k K) as (w & Cw & Hw & <-).
  destruct (HS g (or_introl eq_refl)) as (_ & _ & _ & SF & _). destruct (settled_smooth _ _ SF) as (a & Ca & La). pose proof (near_at _ _ La) as A1. cbv beta in A1. rewrite A0 in A1. injection A1 as ->.
  assert (Cr : continuity_pt (fun e => w e * a e) E) by (apply c_mult; [apply Cw | exact Ca]).
  destruct (potential_smooth (fun e => w e * a e) (S (uy_lmax s)) 0 (fun _ => 0) E v Cr (c_const 0 E) P) as (y & Cy & Hy).
  destruct (ufold_adds (g :: gs) E (fun h m1 m2 I Q => group_adds h E m1 m2 HE (HS h I) Q) m m0 F) as (d & Cd & Ld). assert (C2 : continuity_pt (fun e => w e * w e) E) by (apply c_mult; apply Cw).
  exists (fun key e => d key e + (if legacy_key_eqb key (legacyKey (ug_channel g) "elastic") then 4 * pi_value / (w e * w e) * y e else 0)). split.
  - intros key. apply c_plus; [apply Cd|]. destruct (legacy_key_eqb key _); [|apply c_const]. apply c_mult; [apply c_div; auto with cont | exact Cy].
  - pose proof (filter_and _ _ La (filter_and _ _ Ld (near_not_zero (fun e => w e * w e) E C2 N))) as L. revert L. apply filter_imp. intros e (K1 & K2 & K3) m1. destruct (K2 m1) as (m2 & M2 & D2).
    unfold unresolved_system_evaluate. rewrite G. rewrite M2. cbn [bind]. rewrite Hw, K1. cbn [bind]. cbv beta in Hy. rewrite Hy. cbn [bind]. rewrite (fdiv_ok _ _ K3). eexists. split; [reflexivity|]. intros key. rewrite mval_accumulate, D2. ring.
Qed.

(** What the groups of a file are *)
Lemma file_channels mn incident target spin ap nro naps grid lower upper uls s : steady_radii nro ->
  makeLegacyUnresolvedSystem mn incident target spin ap nro naps grid lower upper uls = Ok s ->
  forall u E, In u (uy_groups s) -> inside (ug_table u) E -> settled_group u E.
Proof.
  intros S H u E U IN. unfold makeLegacyUnresolvedSystem in H. destruct uls as [|first uls]; [discriminate|]. apply bind_Ok in H as (pr & P & H). apply bind_Ok in H as (rad & R0 & H). apply bind_Ok in H as (gs & M & H).
  unfold makeUnresolvedSystem in H. apply bind_Ok in H as (? & _ & H). injection H as <-. cbn [uy_groups] in U. apply in_concat in U as (l & L & U).
  destruct (mapM_in _ _ _ M l L) as (ul & _ & K). destruct (mapM_in _ _ _ K u U) as (j & _ & J). apply bind_Ok in J as (t & T & J). injection J as <-.
  destruct (radii_steady _ _ _ _ _ _ S R0) as (R1 & _ & R3). destruct (table_degrees _ _ _ T) as (D1 & _ & D3 & D4).
  split; [reflexivity|]. split; [exact (pair_neutral _ _ _ _ _ _ P)|]. split; [apply R1|]. split; [apply R3|]. split; [exact D1|]. split; [exact D3|]. split; [exact D4 | exact IN].
Qed.
Theorem file_no_jump mn incident target spin ap nro naps grid lower upper uls s E m m' : steady_radii nro ->
  makeLegacyUnresolvedSystem mn incident target spin ap nro naps grid lower upper uls = Ok s -> 0 < E -> (forall u, In u (uy_groups s) -> inside (ug_table u) E) ->
  unresolved_system_evaluate hbar epsilon0 cwf s E m = Ok (Some m') -> no_jump_map (fun e => unresolved_system_evaluate hbar epsilon0 cwf s e m) E.
Proof. intros S H HE IN V. apply (unresolved_no_jump s E m m' HE); [|exact V]. intros u U. exact (file_channels _ _ _ _ _ _ _ _ _ _ _ s S H u E U (IN u U)). Qed.
End Evaluate.

(** The case of C46 *)
Lemma case_inside s : case_system = Ok s -> forall u, In u (uy_groups s) -> inside (ug_table u) 2.
Proof.
  intros H u U. unfold case_system, makeLegacyUnresolvedSystem, case_file in H. apply bind_Ok in H as (pr & P & H). apply bind_Ok in H as (rad & R0 & H). apply bind_Ok in H as (gs & M & H).
  unfold makeUnresolvedSystem in H. apply bind_Ok in H as (? & _ & H). injection H as <-. cbn [uy_groups] in U. apply in_concat in U as (l & L & U).
  destruct (mapM_in _ _ _ M l L) as (ul & UL & K). destruct (mapM_in _ _ _ K u U) as (j & IJ & J). apply bind_Ok in J as (t & T & J). injection J as <-.
  assert (Q : exists k n, (1 <= n <= 4)%nat /\ j = case_j k n) by (destruct UL as [<-|[<-|[]]]; [destruct IJ as [<-|[]] | destruct IJ as [<-|[<-|[]]]]; eexists; eexists; (split; [|reflexivity]); lia).
  destruct Q as (k & n & Hn & ->). rewrite (case_table k n _ eq_refl Hn) in T. injection T as <-. cbn [ug_table].
  split; [repeat constructor; cbn; lra|]. split; [eexists; split; [left; reflexivity|]; cbn; lra|]. split; [eexists; split; [right; left; reflexivity|]; cbn; lra|]. split.
  - right. intros p H. unfold unresolvedAt, column_table in H. cbn [ut_resonances] in H. rewrite !line_ok in H by (cbn; lra). cbn in H. injection H as <-. cbn. lra.
  - left. intros r [<-|[<-|[]]]; reflexivity.
Qed.
