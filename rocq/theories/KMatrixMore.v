(** The R_L picture of one J does not depend on the phase convention nor on the order of the
    resonances, and it is what the newer code computes. *)
From Coq Require Import Reals Lra Permutation.
From mathcomp Require Import all_ssreflect all_algebra.
From Verif Require Import Cplx RMatrixModel RMatrixSpec RMatrixProofs RMatrixCodeProofs RMatrixObservableProofs
  KMatrixModel KMatrixSpec KMatrixProofs.
Set Implicit Arguments.
Unset Strict Implicit.
Unset Printing Implicit Defensive.
Import GRing.Theory.
Local Open Scope ring_scope.

Lemma RL3_phi E P phi phi' table : RL3 E P phi' table = RL3 E P phi table.
Proof.
  have HR : R_spec 3 E table (three_channels P phi') = R_spec 3 E table (three_channels P phi).
    apply/matrixP => i j; rewrite !mxE; apply: eq_bigr => r _.
    by case: (ord3 i) => [->|[->|->]]; case: (ord3 j) => [->|[->|->]].
  have HL : L_spec 3 ShiftFactor (three_channels P phi') = L_spec 3 ShiftFactor (three_channels P phi).
    congr (diag_mx _); apply/matrixP => i j; rewrite !mxE.
    by case: (ord3 j) => [->|[->|->]].
  by rewrite /RL3 HR HL.
Qed.

Lemma omega3 P phi (i : 'I_3) : omega (three_channels P phi) i = if i == o0 then cis (- phi)%re else 1.
Proof.
  by case: (ord3 i) => [->|[->|->]]; rewrite /omega /=; [congr cis; ring | rewrite Rminus_0_r cis0 ..].
Qed.
Lemma T3_phi P phi phi' A : T_spec (three_channels P phi') A = T_spec (three_channels P phi) A :> 'M[cx]_3.
Proof.
  congr (_ *m _ *m _); congr (diag_mx _); apply/matrixP => i j; rewrite !mxE;
  by case: (ord3 j) => [->|[->|->]].
Qed.

Section Phase.
Variables (E P phi phi' : R) (table : seq resonance).
Hypothesis same : cis (- (2 * phi))%re = cis (- (2 * phi'))%re.
Let s := cis (phi - phi')%re.
Lemma s_cis : cis (- phi')%re = s * cis (- phi)%re.
Proof. by rewrite -cisD; congr cis; ring. Qed.
Lemma s_sq : s * s = 1.
Proof.
  rewrite -cisD; have -> : (phi - phi' + (phi - phi') = (2 * phi) + - (2 * phi'))%re by ring.
  by rewrite cisD -same -cisD Rplus_opp_r cis0.
Qed.
Lemma U3_00 : U3 E P phi' table o0 o0 = U3 E P phi table o0 o0.
Proof.
  rewrite /U3 !U_entry (RL3_phi E P phi phi') (T3_phi P phi phi') !omega3 /= s_cis.
  move: (_ + _) => x; move: (cis _) => c; have -> : s * c * x * (s * c) = (s * s) * (c * x * c).
    by apply: cx_ext; rewrite !cxE; ring.
  by rewrite s_sq mul1r.
Qed.
Lemma U3_0j j : norm2 (U3 E P phi' table o0 j) = norm2 (U3 E P phi table o0 j).
Proof.
  case: (altP (j =P o0)) => [->|Hj]; first by rewrite U3_00.
  rewrite /U3 !U_entry (RL3_phi E P phi phi') (T3_phi P phi phi') !omega3 (negbTE Hj) /=.
  by rewrite !norm2M !norm2_cis.
Qed.
Lemma J_phase : J_elastic E P phi' table = J_elastic E P phi table /\
  J_capture E P phi' table = J_capture E P phi table /\
  J_fission E P phi' table = J_fission E P phi table /\ J_total E P phi' table = J_total E P phi table.
Proof.
  rewrite /J_elastic /J_capture /J_fission /J_total !ord0_o0 U3_00 !U3_0j; repeat split.
  by congr (1 - _)%re; apply: eq_bigr => j _; rewrite U3_0j.
Qed.
End Phase.

Lemma big_Permutation (F : resonance -> cx) l m : Permutation l m -> \sum_(r <- l) F r = \sum_(r <- m) F r.
Proof.
  elim=> [|x l' m' _ IH|x y l'|l' m' n _ IH1 _ IH2] //.
  - by rewrite !big_cons IH.
  - by rewrite !big_cons addrCA.
  - by rewrite IH1.
Qed.
Lemma J_perm E P phi l m : Permutation l m -> U3 E P phi l = U3 E P phi m.
Proof.
  move=> H; have HR : R_spec 3 E l (three_channels P phi) = R_spec 3 E m (three_channels P phi).
    by apply/matrixP => i j; rewrite !mxE; apply: big_Permutation.
  by rewrite /U3 /RL3 HR.
Qed.
Lemma J_perms E P phi l m : Permutation l m ->
  J_elastic E P phi l = J_elastic E P phi m /\ J_capture E P phi l = J_capture E P phi m /\
  J_fission E P phi l = J_fission E P phi m /\ J_total E P phi l = J_total E P phi m.
Proof. by move=> H; rewrite /J_elastic /J_capture /J_fission /J_total (J_perm E P phi H). Qed.

(** R_L exists away from resonances without width. *)
Lemma RL3_exists E P phi table : (0 < P)%re -> is_RL ShiftFactor E table (three_channels P phi) (RL3 E P phi table).
Proof.
  move=> HP; have Hu := spec_unit E table (physical3 phi HP).
  by split=> //; rewrite /RL3 mulKVmx.
Qed.

(** The newer code on the same resonances and channel values *)
Lemma newer_code E P phi table (s : cache 3) : (0 < P)%re -> sized 3 table -> regular E table ->
  exists s' A, rl_call ShiftFactor E table (three_channels P phi) s = Some (s', A) /\
    exists f1 f2, forall factor, crossSections factor (three_channels P phi) A ord0 =
      [:: (factor * J_elastic E P phi table)%re; (factor * f1)%re; (factor * f2)%re;
          (factor * J_capture E P phi table)%re] /\
      (f1 + f2 = J_fission E P phi table)%re.
Proof.
  move=> HP sz reg; have [s' [A [E1 [rl _]]]] := rl_call_ok s sz (physical3 phi HP) reg.
  exists s', A; split=> //.
  have HA : A = RL3 E P phi table.
    by have [Hu HA'] := rl; rewrite -[LHS](mulKmx Hu) HA'.
  rewrite {}HA in rl *.
  exists (norm2 (U3 E P phi table o0 o1)), (norm2 (U3 E P phi table o0 o2)) => factor; split; last first.
    by rewrite /J_fission inord1_o1 inord2_o2 ord0_o0.
  rewrite /crossSections (sigma_code rl) (capture_code rl) -/(U3 E P phi table) -/(J_capture E P phi table).
  rewrite !enum_ordSl enum_ord0 /=.
  have -> : lift ord0 (ord0 : 'I_2) = o1 by apply: val_inj.
  have -> : lift ord0 (lift (ord0 : 'I_2) (ord0 : 'I_1)) = o2 by apply: val_inj.
  rewrite /= /J_elastic !sub0r !norm2N cis0 !ord0_o0; congr [:: _; _; _; _].
Qed.

Lemma J_total_sum E P phi table :
  (J_total E P phi table = J_elastic E P phi table + J_capture E P phi table + J_fission E P phi table)%re.
Proof.
  rewrite /J_total /J_elastic /J_capture /J_fission ord0_o0 inord1_o1 inord2_o2 sum3.
  rewrite /norm2 !cxE; ring.
Qed.

(** Without fission widths one channel remains: U = exp(-2i phi) (1 + iPR) / (1 - iPR). *)
Section Single.
Variables (E P phi : R) (table : seq resonance).
Hypothesis HP : (0 < P)%re.
Hypothesis H0 : forall r, List.In r table -> nth 0%re (rs_widths r) 1 = 0%re /\ nth 0%re (rs_widths r) 2 = 0%re.
Let vs := three_channels P phi.
Let r00 : cx := \sum_(r <- table) rcx (nth 0%re (rs_widths r) 0 * nth 0%re (rs_widths r) 0)%re / denominator E r.

Lemma big_In (F G : resonance -> cx) (l : seq resonance) : (forall r, List.In r l -> F r = G r) ->
  \sum_(r <- l) F r = \sum_(r <- l) G r.
Proof.
  elim: l => [|r l IH] H; first by rewrite !big_nil.
  rewrite !big_cons (H r (or_introl (erefl _))) IH // => x Hx; apply: H; by right.
Qed.
Lemma rcx0 : rcx 0%re = 0.
Proof. by []. Qed.
Lemma R_single : R_spec 3 E table vs = r00 *: delta_mx o0 o0.
Proof.
  apply/matrixP => i j; rewrite !mxE.
  case: (ord3 i) => [->|Hi]; last first.
    have -> : (i == o0) = false by case: Hi => ->.
    rewrite /= mulr0; apply: etrans (big_In (G := fun _ => 0) _) _; last by rewrite big1.
    move=> r Hr; have [A1 A2] := H0 Hr; rewrite /open_width /width.
    by case: Hi => -> /=; rewrite ?A1 ?A2 /isclosed /val_of /= Rmult_0_l rcx0 mul0r.
  rewrite eqxx; case: (ord3 j) => [->|Hj]; last first.
    have -> : (j == o0) = false by case: Hj => ->.
    rewrite /= mulr0; apply: etrans (big_In (G := fun _ => 0) _) _; last by rewrite big1.
    move=> r Hr; have [A1 A2] := H0 Hr; rewrite /open_width /width.
    by case: Hj => -> /=; rewrite ?A1 ?A2 /isclosed /val_of /= Rmult_0_r rcx0 mul0r.
  by rewrite eqxx mulr1.
Qed.
Lemma L_single : (r00 *: delta_mx o0 o0) *m L_spec 3 ShiftFactor vs = (r00 * Cx 0%re P) *: delta_mx o0 o0.
Proof.
  rewrite /L_spec mul_mx_diag; apply/matrixP => i j; rewrite !mxE.
  case: (altP (j =P o0)) => [->|_]; last by rewrite andbF !mulr0 mul0r.
  by rewrite andbT; case: (i == o0); rewrite ?mulr1 ?mulr0 ?mul0r.
Qed.
Lemma single_unit : 1 - r00 * Cx 0%re P != 0.
Proof.
  have := spec_unit E table (physical3 phi HP); rewrite -/vs R_single L_single.
  move: (r00 * _) => x; apply: contraTneq => Hx.
  have -> : x = 1 by rewrite -[x]addr0 -Hx addrC subrK.
  apply/negP => Hu; have := congr1 (fun M : 'M[cx]_3 => M o0 o0) (mulKmx Hu (delta_mx o0 o0)).
  rewrite scale1r mulmxBl mul1mx mul_delta_mx subrr mulmx0 !mxE eqxx /=.
  by move/eqP; rewrite eq_sym oner_eq0.
Qed.
Lemma RL_single : RL3 E P phi table = (r00 / (1 - r00 * Cx 0%re P)) *: delta_mx o0 o0.
Proof.
  have Hu := spec_unit E table (physical3 phi HP).
  rewrite /RL3 -[RHS](mulKmx Hu); congr (_ *m _).
  rewrite -/vs R_single L_single -scalemxAr mulmxBl mul1mx -scalemxAl mul_delta_mx.
  have := single_unit; move: (r00 * _) => x Hx.
  have H (D : 'M[cx]_3) : D - x *: D = (1 - x) *: D by rewrite scalerBl scale1r.
  rewrite H scalerA; congr (_ *: _).
  by rewrite divfK.
Qed.
Lemma U_single : U3 E P phi table ord0 ord0 =
  cis (- (2 * phi))%re * (1 + (ci + ci) * (rcx P * (r00 / (1 - r00 * Cx 0%re P)))).
Proof.
  rewrite ord0_o0 /U3 U_entry T_entry RL_single omega3 eqxx /=.
  have -> : cis (- (2 * phi))%re = cis (- phi)%re * cis (- phi)%re.
    by rewrite -cisD; congr cis; ring.
  rewrite !mxE !eqxx /= mulr1; move: (_ / _) => x; rewrite /sqrtP /=.
  have -> : rcx P = rcx (sqrt P) * rcx (sqrt P).
    by apply: cx_ext; rewrite !cxE /=; rewrite ?sqrt_sqrt; lra.
  by move: (cis _) (rcx _) => a b; apply: cx_ext; rewrite !cxE /=; ring.
Qed.
Lemma J_elastic_single : J_elastic E P phi table =
  norm2 (1 - cis (- (2 * phi))%re * (1 + (ci + ci) * (rcx P * (r00 / (1 - r00 * Cx 0%re P))))).
Proof. by rewrite /J_elastic U_single. Qed.
End Single.

(** One level without eliminated width, where it cancels the hard-sphere scattering *)
Lemma transparent E P phi Er w : (0 < P)%re -> Er <> E -> cos phi <> 0%re ->
  (P * (w * w) / (Er - E) = sin phi / cos phi)%re ->
  J_elastic E P phi [:: Resonance Er [:: w; 0%re; 0%re] 0%re] = 0%re.
Proof.
  move=> HP HE Hc Ht; rewrite J_elastic_single //; last by move=> r [<-|[]].
  rewrite big_seq1 /denominator /=.
  set t := (w * w / (Er - E))%re.
  have -> : rcx (w * w)%re / Cx (Er - E)%re (- (0 * 0))%re = rcx t.
    have Hd : (Er - E)%re <> 0%re by lra.
    rewrite /t; apply: cx_ext; rewrite /GRing.mul /= /GRing.inv /= /norm2 /=; field; nra.
  have HPt : (P * t = sin phi / cos phi)%re by rewrite -Ht /t; field; lra.
  have E1 : 1 - rcx t * Cx 0%re P = Cx 1%re (- (P * t))%re by apply: cx_ext; rewrite !cxE /=; ring.
  rewrite E1.
  have -> : 1 + (ci + ci) * (rcx P * (rcx t / Cx 1%re (- (P * t))%re)) =
     Cx 1%re (P * t)%re / Cx 1%re (- (P * t))%re.
    have -> : rcx P * (rcx t / Cx 1%re (- (P * t))%re) = rcx (P * t)%re / Cx 1%re (- (P * t))%re.
      by rewrite mulrA; congr (_ / _); apply: cx_ext; rewrite !cxE /=; ring.
    move: (P * t)%re => p.
    have Hn : (1 + p * p <> 0)%re by nra.
    apply: cx_ext; rewrite /GRing.mul /GRing.add /GRing.one /GRing.inv /= /norm2 /=; field; nra.
  rewrite HPt; have -> : Cx 1%re (sin phi / cos phi)%re / Cx 1%re (- (sin phi / cos phi))%re = cis (2 * phi)%re.
    have H1 := sin2_cos2 phi; rewrite /Rsqr in H1.
    have -> : cis (2 * phi)%re = Cx (cos phi * cos phi - sin phi * sin phi)%re (2 * (sin phi * cos phi))%re.
      by rewrite /cis cos_2a sin_2a; congr Cx; ring.
    have Hq : (cos phi * cos phi = 1 - sin phi * sin phi)%re by lra.
    apply: cx_ext; rewrite /GRing.mul /GRing.inv /= /norm2 /=.
      transitivity ((cos phi * cos phi - sin phi * sin phi) / (cos phi * cos phi + sin phi * sin phi))%re.
        by field; split=> //; nra.
      by rewrite Rplus_comm H1; field.
    transitivity (2 * (sin phi * cos phi) / (cos phi * cos phi + sin phi * sin phi))%re.
      by field; split=> //; nra.
    by rewrite Rplus_comm H1; field.
  rewrite -cisD Rplus_opp_l cis0 subrr /norm2 !cxE /=; ring.
Qed.

(** The older evaluation of one J against the newer evaluation of the same resonances *)
Lemma two_interfaces E P phi front rs t e f g (s : cache 3) : (0 < P)%re ->
  (forall r, List.In r rs -> (0 <= rm_capture r)%re) ->
  rm_Jgroup E (sqrt P) phi front rs = Some (t, e, f, g) ->
  exists s' A f1 f2, rl_call ShiftFactor E (List.map reduced rs) (three_channels P phi) s = Some (s', A) /\
    crossSections g (three_channels P phi) A ord0 = [:: e; f1; f2; (t - e - f)%re] /\ f = (f1 + f2)%re.
Proof.
  move=> HP Hc HJ; have [HF [Hg [Ht [He Hf]]]] := Jgroup_value HP Hc HJ.
  have sz : sized 3 (List.map reduced rs) by move=> r /List.in_map_iff [x [<- _]].
  have reg : regular E (List.map reduced rs).
    move=> r /List.in_map_iff [x [<- Hx]] /=; have [_ [_ Hd]] := HF _ Hx; have H0 := Hc _ Hx.
    case: (Req_EM_T (rm_energy x) E) => [He'|]; [right => Hz | by left].
    have H2 : (rm_capture x / 2 = 0)%re by apply: sqrt_eq_0 => //; lra.
    apply: Hd; rewrite /den3 He'; have -> : rm_capture x = 0%re by lra. by ring.
  have [s' [A [E1 [f1 [f2 H]]]]] := newer_code phi s HP sz reg.
  exists s', A, (g * f1)%re, (g * f2)%re; split=> //; have [-> H2] := H g; split.
    congr [:: _; _; _; _]; first by rewrite He Hg.
    rewrite Ht He Hf J_total_sum Hg; ring.
  by rewrite Hf -H2 Hg; ring.
Qed.
