(** The 3x3 K matrix evaluation is the R_L evaluation. *)
From Coq Require Import Reals Lra.
From mathcomp Require Import all_ssreflect all_algebra.
From Verif Require Import Cplx RMatrixModel RMatrixSpec RMatrixProofs RMatrixCodeProofs RMatrixObservableProofs
  KMatrixModel KMatrixSpec.
Set Implicit Arguments.
Unset Strict Implicit.
Unset Printing Implicit Defensive.
Import GRing.Theory.
Local Open Scope ring_scope.

(** * What the resonances add up to *)
Definition oget (o : option R) : R := odflt 0%re o.
Definition width3 (rp : R) (r : rm_resonance) (i : nat) : R :=
  match i with
  | 0 => (oget (rm_rootNeutron r) * oget (rm_inverseRoot r) * rp)%re
  | 1 => rm_rootA r
  | 2 => rm_rootB r
  | _ => 0%re
  end.
Definition den3 (E : R) (r : rm_resonance) : R :=
  (4 * ((rm_energy r - E) * (rm_energy r - E)) + rm_capture r * rm_capture r)%re.
Definition factor3 (E : R) (r : rm_resonance) : cx :=
  Cx (rm_capture r * / den3 E r)%re (-2 * (rm_energy r - E) * / den3 E r)%re.
Definition finite3 (E : R) (r : rm_resonance) : Prop :=
  rm_rootNeutron r <> None /\ rm_inverseRoot r <> None /\ den3 E r <> 0%re.
Definition fissile (r : rm_resonance) : Prop := rm_rootA r <> 0%re \/ rm_rootB r <> 0%re.

Lemma frecip_some x y : frecip x = Some y -> x <> 0%re /\ y = (/ x)%re.
Proof. by rewrite /frecip; case: Req_EM_T => // H [<-]. Qed.

(** the entries the code keeps up to date *)
Lemma add_at_same K i j z : add_at K i j z i j = K i j + z.
Proof. by rewrite /add_at !eqxx. Qed.

Lemma rm_call_value r E rp K K' b : rm_call r E rp K = Some (K', b) ->
  finite3 E r /\ (b <-> fissile r) /\
  (forall i j : nat, (i <= j)%N -> (j < 3)%N ->
     K' i j = K i j + rcx (width3 rp r i * width3 rp r j)%re * factor3 E r).
Proof.
  rewrite /rm_call /finite3 /width3.
  case En: (rm_rootNeutron r) => [n|] //; case Ei: (rm_inverseRoot r) => [v|] //.
  case Ed: (frecip _) => [d|] //; have [Hd Ed'] := frecip_some Ed; rewrite {}Ed'.
  rewrite /factor3 -/(den3 E r) /=.
  case: Req_EM_T => Ha; first case: Req_EM_T => Hb.
  - case=> <- <-; split=> //; split.
      by split=> // [[]].
    move=> [|[|[|i]]] [|[|[|j]]] //= _ _; rewrite /add_at /= ?Ha ?Hb;
      by apply: cx_ext; rewrite !cxE /=; ring.
  - case=> <- <-; split=> //; split; first by split=> // _; right.
    move=> [|[|[|i]]] [|[|[|j]]] //= _ _; rewrite /add_at /=;
      by congr (_ + _); apply: cx_ext; rewrite !cxE /=; ring.
  - case=> <- <-; split=> //; split; first by split=> // _; left.
    move=> [|[|[|i]]] [|[|[|j]]] //= _ _; rewrite /add_at /=;
      by congr (_ + _); apply: cx_ext; rewrite !cxE /=; ring.
Qed.

Lemma rm_sum_value rs E rp : forall K h K' b, rm_sum rs E rp K h = Some (K', b) ->
  (forall r, List.In r rs -> finite3 E r) /\
  (b <-> h \/ exists r, List.In r rs /\ fissile r) /\
  (forall i j : nat, (i <= j)%N -> (j < 3)%N ->
     K' i j = K i j + \sum_(r <- rs) rcx (width3 rp r i * width3 rp r j)%re * factor3 E r).
Proof.
  elim: rs => [|r rs IH] K h K' b /=.
    case=> <- <-; split=> //; split.
      by split=> [|[//|[r [[]]]]]; left.
    by move=> i j _ _; rewrite big_nil addr0.
  case Ec: (rm_call _ _ _ _) => [[K1 b1]|] // /IH [H1 [H2 H3]].
  have [F [Hb Hk]] := rm_call_value Ec.
  split; first by move=> r' [<-|/H1].
  split.
    rewrite H2; split.
      case=> [/orP [Hh|Hb1]|[r' [Hi Hf]]]; first by left.
        by right; exists r; split; [left|apply/Hb].
      by right; exists r'; split; [right|].
    case=> [->|[r' [[<-|Hi] Hf]]]; first by left.
      by left; apply/orP; right; apply/Hb.
    by right; exists r'.
  by move=> i j Hi Hj; rewrite H3 // Hk // big_cons addrA.
Qed.

(** * The reduced widths *)
Definition reduced (r : rm_resonance) : resonance :=
  Resonance (rm_energy r)
    [:: (oget (rm_rootNeutron r) * oget (rm_inverseRoot r) / sqrt 2)%re; (rm_rootA r / sqrt 2)%re;
        (rm_rootB r / sqrt 2)%re]
    (sqrt (rm_capture r / 2))%re.

Lemma sqrt2_pos : (0 < sqrt 2)%re.
Proof. apply: sqrt_lt_R0; lra. Qed.

Section Group.
Variables (E P phi : R) (rs : seq rm_resonance).
Hypothesis HP : (0 < P)%re.
Hypothesis Hc : forall r, List.In r rs -> (0 <= rm_capture r)%re.
Hypothesis Hf : forall r, List.In r rs -> den3 E r <> 0%re.
Let rp := sqrt P.
Let vs := three_channels P phi.
Let table := List.map reduced rs.
Let Rs := R_spec 3 E table vs.
Let Ls := L_spec 3 ShiftFactor vs.
Let D : 'M[cx]_3 := sqrtP_mx 3 vs.

Definition Kmx : 'M[cx]_3 :=
  \matrix_(i, j) \sum_(r <- rs) rcx (width3 rp r i * width3 rp r j)%re * factor3 E r.

Lemma ord3 (i : 'I_3) : i = o0 \/ i = o1 \/ i = o2.
Proof. by case: i => [[|[|[|]]]] // Hi; [left|right; left|right; right]; apply: val_inj. Qed.

Lemma rp_pos : (0 < rp)%re. Proof. exact: sqrt_lt_R0. Qed.

Lemma sqrtP_val (i : 'I_3) : sqrtP vs i = (if i == o0 then rp else 1)%re.
Proof. by case: (ord3 i) => [->|[->|->]]; rewrite /sqrtP /= ?sqrt_1. Qed.

Lemma factor_pole r : (0 <= rm_capture r)%re -> den3 E r <> 0%re ->
  factor3 E r = - (ci * rcx (/ 2)%re) / denominator E (reduced r).
Proof.
  move=> Hcap Hd; rewrite /denominator /=.
  have Es : (sqrt (rm_capture r / 2) * sqrt (rm_capture r / 2) = rm_capture r / 2)%re
    by apply: sqrt_sqrt; lra.
  rewrite Es /factor3 /GRing.inv /= /cx_inv /norm2 /=.
  have Hd2 : ((rm_energy r - E) * (rm_energy r - E) + - (rm_capture r / 2) * - (rm_capture r / 2) = den3 E r / 4)%re.
    by rewrite /den3; field.
  by apply: cx_ext; rewrite !cxE /= Hd2 /den3; field; rewrite -/(den3 E r).
Qed.

Lemma K_value : Kmx = - (ci *: (D *m Rs *m D)).
Proof.
  have HX i j : (D *m Rs *m D) i j = rcx (sqrtP vs i) * Rs i j * rcx (sqrtP vs j).
    by rewrite /D -(T_entry vs Rs i j).
  move: (D *m Rs *m D) HX => X HX.
  apply/matrixP => i j; rewrite !mxE HX.
  rewrite /Rs /R_spec mxE mulr_sumr mulr_suml mulr_sumr -sumrN /table.
  rewrite (big_map reduced xpredT) /=.
  elim: rs Hc Hf => [|r l IH] Hc' Hf'; first by rewrite !big_nil.
  rewrite !big_cons IH; [|by move=> x Hx; apply: Hc'; right|by move=> x Hx; apply: Hf'; right].
  congr (_ + _); rewrite factor_pole; [|by apply: Hc'; left|by apply: Hf'; left].
  move: (denominator _ _)^-1 => d.
  have Hi (k : 'I_3) : width3 rp r k = (sqrt 2 * (sqrtP vs k * open_width vs (reduced r) k))%re.
    have H2 := sqrt2_pos.
    rewrite sqrtP_val /open_width /isclosed /RMatrixSpec.width.
    by case: (ord3 k) => [->|[->|->]] /=; field; lra.
  rewrite !Hi.
  have H2 : (sqrt 2 * sqrt 2 = 2)%re by apply: sqrt_sqrt; lra.
  set a := sqrtP vs i; set b := sqrtP vs j; set x := open_width vs _ i; set y := open_width vs _ j.
  have -> : (sqrt 2 * (a * x) * (sqrt 2 * (b * y)) = 2 * (a * x * (b * y)))%re
    by rewrite -[in RHS]H2; ring.
  by apply: cx_ext; rewrite !cxE /=; field.
Qed.

Lemma D_unit : D \in unitmx.
Proof.
  rewrite unitmxE /D /sqrtP_mx det_diag unitfE.
  rewrite prodf_seq_neq0; apply/allP => i _; apply/implyP => _; rewrite mxE.
  apply/eqP => [[]] H; have := sqrtP_val i; rewrite /sqrtP -/(val_of vs i) H.
  have := rp_pos; by case: (i == o0); lra.
Qed.

Lemma L_value : Ls = ci *: (D *m D).
Proof.
  apply/matrixP => i j; rewrite /Ls /L_spec /D /sqrtP_mx mulmx_diag.
  rewrite !mxE; case: (i == j); last by rewrite !mulr0n mulr0.
  rewrite !mulr1n; have := sqrtP_val i; rewrite /sqrtP -/(val_of vs i) => H.
  have Hv : v_P (val_of vs i) = (sqrt (v_P (val_of vs i)) * sqrt (v_P (val_of vs i)))%re.
    rewrite sqrt_sqrt //; case: (ord3 i) => [->|[->|->]] /=; rewrite /val_of /=; lra.
  by apply: cx_ext; rewrite !cxE /=; [ring | rewrite {1}Hv; ring].
Qed.

(** 1 + K = D (1 - RL) D^-1 *)
Lemma K_similar : 1%:M + Kmx = D *m (1%:M - Rs *m Ls) *m invmx D.
Proof.
  rewrite K_value L_value mulmxBr mulmxBl mulmx1 mulmxV ?D_unit //; congr (_ - _).
  by rewrite -!scalemxAr -!scalemxAl !mulmxA -(mulmxA _ D (invmx D)) mulmxV ?D_unit // mulmx1.
Qed.

Lemma physical3 : physical 3 ShiftFactor vs.
Proof.
  move=> i; split; last by right; right.
  by case: (ord3 i) => [->|[->|->]]; rewrite /val_of /=; lra.
Qed.
Lemma RL_unit : 1%:M - Rs *m Ls \in unitmx.
Proof. exact: (spec_unit _ _ physical3). Qed.
Lemma K_unit : 1%:M + Kmx \in unitmx.
Proof. by rewrite K_similar !unitmx_mul RL_unit D_unit unitmx_inv D_unit. Qed.

Lemma RL3_is : is_RL ShiftFactor E table vs (RL3 E P phi table).
Proof. by split; [exact: RL_unit | rewrite /RL3 mulKVmx ?RL_unit]. Qed.

(** 2 (1 + K)^-1 - 1 = 1 + 2i P^1/2 R_L P^1/2 *)
Lemma K_inverse : rcx 2%re *: invmx (1%:M + Kmx) - 1%:M =
  1%:M + (ci + ci) *: T_spec vs (RL3 E P phi table).
Proof.
  have [_] := RL3_is; rewrite -/Rs -/Ls; move: (RL3 _ _ _ _) => A HA.
  have H : (1%:M + Kmx) *m (1%:M + ci *: (D *m A *m D)) = 1%:M.
    rewrite K_similar mulmxDr mulmx1 -{1}K_similar K_value.
    rewrite -scalemxAr !mulmxA -(mulmxA _ (invmx D) D) mulVmx ?D_unit // mulmx1.
    by rewrite -(mulmxA D (1%:M - _)) HA subrK.
  have HI : invmx (1%:M + Kmx) = 1%:M + ci *: (D *m A *m D).
    by rewrite -[RHS](mulKmx K_unit) H mulmx1.
  rewrite HI; apply/matrixP => i j; rewrite /T_spec -/D.
  move: (D *m A *m D) => X; rewrite !mxE; set d := (i == j)%:R; set x := X i j.
  have Hd : d = 1 \/ d = 0 by rewrite /d; case: (i == j); [left|right].
  by case: Hd => ->; apply: cx_ext; rewrite !cxE /=; ring.
Qed.

Lemma omega_val (i : 'I_3) : omega vs i = if i == o0 then cis (- phi)%re else 1.
Proof.
  by case: (ord3 i) => [->|[->|->]]; rewrite /omega /=; [congr cis; ring | rewrite Rminus_0_r cis0 ..].
Qed.

Let Uold : 'M[cx]_3 :=
  Cx (cos (2 * phi))%re (- sin (2 * phi))%re *: (rcx 2%re *: invmx (1%:M + Kmx) - 1%:M).

Lemma cis_m2 : Cx (cos (2 * phi))%re (- sin (2 * phi))%re = cis (- phi)%re * cis (- phi)%re.
Proof.
  rewrite -cisD /cis; have -> : (- phi + - phi = - (2 * phi))%re by ring.
  by rewrite cos_neg sin_neg.
Qed.

Lemma old_entry (c x : cx) (T : 'M[cx]_3) i j : (c *: (1%:M + x *: T)) i j = c * ((i == j)%:R + x * T i j).
Proof. by rewrite !mxE. Qed.
Lemma U_old00 : Uold o0 o0 = U3 E P phi table o0 o0.
Proof.
  rewrite /Uold K_inverse /U3 U_entry -/vs omega_val /= cis_m2 old_entry /=.
  move: (cis _) (T_spec _ _ _ _) => c x; by apply: cx_ext; rewrite !cxE /=; ring.
Qed.
Lemma U_old0j j : j != o0 -> norm2 (Uold o0 j) = norm2 (U3 E P phi table o0 j).
Proof.
  move=> Hj; rewrite /Uold K_inverse /U3 U_entry -/vs !omega_val /= cis_m2.
  have Hj' : (o0 == j) = false by rewrite eq_sym; apply/negbTE.
  rewrite (negbTE Hj) old_entry Hj' [false%:R]/(0 : cx) !add0r.
  by rewrite !norm2M !norm2_cis ?norm21; ring.
Qed.
End Group.

Lemma cabs_sq z : (cabs z * cabs z = norm2 z)%re.
Proof. exact: (sqrt_sqrt _ (norm2_ge0 z)). Qed.
Lemma cabs_mul z : cabs (z * z) = norm2 z.
Proof. by rewrite /cabs norm2M; apply: sqrt_square; apply: norm2_ge0. Qed.

Lemma ord0_o0 : (ord0 : 'I_3) = o0. Proof. exact: val_inj. Qed.
Lemma inord1_o1 : (inord 1 : 'I_3) = o1. Proof. by apply: val_inj; rewrite /= inordK. Qed.
Lemma inord2_o2 : (inord 2 : 'I_3) = o2. Proof. by apply: val_inj; rewrite /= inordK. Qed.
Lemma sum3 (F : 'I_3 -> R) : \big[Rplus/0%re]_j F j = (F o0 + F o1 + F o2)%re.
Proof.
  rewrite !big_ord_recl big_ord0.
  have -> : ord0 = o0 by apply: val_inj.
  have -> : lift o0 (ord0 : 'I_2) = o1 by apply: val_inj.
  have -> : lift o0 (lift (ord0 : 'I_2) (ord0 : 'I_1)) = o2 by apply: val_inj.
  ring.
Qed.

Lemma inv_corner (M : 'M[cx]_3) : (forall i j, (i != o0) || (j != o0) -> M i j = 0) ->
  1%:M + M \in unitmx -> forall j, (1 + M o0 o0) * invmx (1%:M + M) o0 j = (o0 == j)%:R.
Proof.
  move=> K0 Hu j; have := congr1 (fun M : 'M_3 => M o0 j) (mulmxV Hu).
  move: (invmx _) => V; rewrite !mxE (bigD1 o0) //= big1 ?addr0.
    by rewrite !mxE.
  by move=> k Hk; rewrite !mxE K0 ?Hk ?orbT // eq_sym (negbTE Hk) addr0 mul0r.
Qed.

(** * The group *)
Section Solve.
Variables (E P phi : R) (front : rm_resonance) (rs : seq rm_resonance).
Hypothesis HP : (0 < P)%re.
Hypothesis Hc : forall r, List.In r rs -> (0 <= rm_capture r)%re.
Let table := List.map reduced rs.
Let g := Rabs (rm_flagged front).

Lemma copy_value K b : rm_sum rs E (sqrt P) zero3 false = Some (K, b) ->
  to_matrix (copy_lower K) = Kmx E P rs.
Proof.
  move=> /rm_sum_value [_ [_ HK]]; apply/matrixP => i j; rewrite !mxE /copy_lower.
  case: leqP => Hij.
    rewrite HK ?ltn_ord // /zero3 add0r; apply: eq_bigr => r _.
    by rewrite Rmult_comm.
  by rewrite HK ?ltn_ord // ?(ltnW Hij) // /zero3 add0r.
Qed.

Lemma re_K00 K b : rm_sum rs E (sqrt P) zero3 false = Some (K, b) -> (0 <= re (K 0%N 0%N))%re.
Proof.
  move=> /rm_sum_value [HF [_ HK]]; rewrite HK // /zero3 add0r re_sum.
  elim: rs Hc HF {HK} => [|r l IH] Hc' HF; first by rewrite big_nil; lra.
  rewrite big_cons; apply: Rplus_le_le_0_compat; last first.
    by apply: IH => x Hx; [apply: Hc'|apply: HF]; right.
  have [_ [_ Hd]] := HF r (or_introl (erefl r)); have Hcr := Hc' r (or_introl (erefl r)).
  have Hp : (0 < den3 E r)%re.
    have : (0 <= den3 E r)%re by rewrite /den3; have := Rle_0_sqr (rm_energy r - E); rewrite /Rsqr; nra.
    by lra.
  rewrite reM /=; have Hi := Rinv_0_lt_compat _ Hp.
  have Hq : (0 <= rm_capture r * / den3 E r)%re by apply: Rmult_le_pos; lra.
  have := Rle_0_sqr (oget (rm_rootNeutron r) * oget (rm_inverseRoot r) * sqrt P); rewrite /Rsqr => Hw.
  by have := Rmult_le_pos _ _ Hw Hq; lra.
Qed.

(** The expansion is never used. *)
Lemma no_expansion K b : rm_sum rs E (sqrt P) zero3 false = Some (K, b) -> expands K phi = false.
Proof.
  move=> /re_K00 H; rewrite /expands; case: Rlt_dec => // Hn; exfalso; apply: Hn.
  rewrite reD re1 Rabs_pos_eq; lra.
Qed.

Lemma Jgroup_value t e f g' : rm_Jgroup E (sqrt P) phi front rs = Some (t, e, f, g') ->
  (forall r, List.In r rs -> finite3 E r) /\ g' = g /\
  t = (g * J_total E P phi table)%re /\ e = (g * J_elastic E P phi table)%re /\
  f = (g * J_fission E P phi table)%re.
Proof.
  rewrite /rm_Jgroup; case Es: (rm_sum _ _ _ _ _) => [[K b]|] //.
  have [HF [Hb HK]] := rm_sum_value Es.
  have Hd r : List.In r rs -> den3 E r <> 0%re by move=> /HF [_ [_ H]].
  have HM := copy_value Es.
  have U00 := U_old00 phi HP Hc Hd. have U0j := U_old0j phi HP Hc Hd.
  move=> H; split=> //; move: H; rewrite /J_total /J_elastic /J_fission ord0_o0 inord1_o1 inord2_o2 -/table.
  case: b Es Hb => Es Hb.
    rewrite /solveRmatrix HM (K_unit phi HP Hc Hd) => [[<- <- <- <-]].
    rewrite !cabs_sq !cabs_mul U00 (U0j o1) // (U0j o2) // -/table -/g; repeat split; ring.
  have Hz r : List.In r rs -> rm_rootA r = 0%re /\ rm_rootB r = 0%re.
    move=> Hr; have [_ Hb'] := Hb; split.
      case: (Req_EM_T (rm_rootA r) 0%re) => // Hn; suff: false by [].
      by apply: Hb'; right; exists r; split=> //; left.
    case: (Req_EM_T (rm_rootB r) 0%re) => // Hn; suff: false by [].
    by apply: Hb'; right; exists r; split=> //; right.
  have K0 (i j : 'I_3) : (i != o0) || (j != o0) -> Kmx E P rs i j = 0.
    move=> Hij; rewrite mxE; elim: (rs) Hz => [|r l IH] Hz'; first by rewrite big_nil.
    rewrite big_cons IH; last by move=> x Hx; apply: Hz'; right.
    have [Ha Hb2] := Hz' r (or_introl (erefl r)).
    suff -> : (width3 (sqrt P) r i * width3 (sqrt P) r j = 0)%re by rewrite rcx0 mul0r addr0.
    by case: (ord3 i) Hij => [->|[->|->]]; case: (ord3 j) => [->|[->|->]] //= _; rewrite ?Ha ?Hb2; ring.
  have Hu := K_unit phi HP Hc Hd.
  have K00 : K 0%N 0%N = Kmx E P rs o0 o0 by rewrite -HM mxE /copy_lower.
  set z := 1 + Kmx E P rs o0 o0.
  have Hinv := inv_corner K0 Hu; rewrite -/z in Hinv.
  have Hz0 : z != 0.
    by apply/eqP => H0; have := Hinv o0; rewrite H0 mul0r => /eqP; rewrite eq_sym oner_eq0.
  have HV00 : invmx (1%:M + Kmx E P rs) o0 o0 = z^-1.
    by have := Hinv o0; rewrite eqxx => H1; rewrite -[LHS](mulKf Hz0) H1 mulr1.
  have HV0j j : j != o0 -> invmx (1%:M + Kmx E P rs) o0 j = 0.
    move=> Hj; have := Hinv j; rewrite eq_sym (negbTE Hj) => /eqP; rewrite mulf_eq0 (negbTE Hz0) /=.
    by move/eqP.
  have Hf j : j != o0 -> norm2 (U3 E P phi table o0 j) = 0%re.
    move=> Hj; rewrite -U0j //.
    have Ho : (o0 == j) = false by rewrite eq_sym; apply/negbTE.
    by rewrite !mxE HV0j // Ho /norm2 !cxE /=; ring.
  rewrite !Hf // -U00.
  rewrite /solveRfunction (no_expansion Es) K00 -/z.
  case Ed: (frecip _) => [d|] //; have [Hd0 ->] := frecip_some Ed.
  have Hn : re (z * conj z) = norm2 z by rewrite /norm2 reM /=; ring.
  rewrite Hn in Hd0 *.
  have Hu00 : (Cx (cos (2 * phi))%re (- sin (2 * phi))%re *:
      (rcx 2%re *: invmx (1%:M + Kmx E P rs) - 1%:M)) o0 o0 =
      Cx (cos (2 * phi) * (2 * (re z * / norm2 z) - 1) + 2 * (- im z * / norm2 z) * sin (2 * phi))%re
         (- sin (2 * phi) * (2 * (re z * / norm2 z) - 1) + 2 * (- im z * / norm2 z) * cos (2 * phi))%re.
    rewrite !mxE HV00 eqxx.
    have -> : z^-1 = Cx (re z * / norm2 z)%re (- im z * / norm2 z)%re by [].
    by apply: cx_ext; rewrite !cxE /=; ring.
  rewrite Hu00; move: (Cx _ _) => u; case=> <- <- <- <-.
  by rewrite -/g; repeat split; rewrite ?reM ?cxE /norm2 /= ?cxE /=; ring.
Qed.

Lemma J_sum : (J_total E P phi table = J_elastic E P phi table + J_capture E P phi table + J_fission E P phi table)%re.
Proof.
  rewrite /J_total /J_elastic /J_capture /J_fission ord0_o0 inord1_o1 inord2_o2 sum3.
  rewrite /norm2 !cxE; ring.
Qed.
End Solve.

(** What the theory of R_L gives, for any table of reduced widths *)
Lemma J_capture_ge0 E P phi table : (0 < P)%re -> is_RL ShiftFactor E table (three_channels P phi) (RL3 E P phi table) ->
  (0 <= J_capture E P phi table)%re.
Proof.
  move=> HP rl; have := capture_ge0 rl (fun i => proj1 (physical3 phi HP i)) ord0; by rewrite (capture_code rl).
Qed.
Lemma J_elastic_ge0 E P phi table : (0 <= J_elastic E P phi table)%re.
Proof. exact: norm2_ge0. Qed.
Lemma J_fission_ge0 E P phi table : (0 <= J_fission E P phi table)%re.
Proof. by apply: Rplus_le_le_0_compat; exact: norm2_ge0. Qed.

(** Finite inputs give a finite result. *)
Lemma rm_call_finite r E rp K : finite3 E r -> exists K' b, rm_call r E rp K = Some (K', b).
Proof.
  rewrite /finite3 /rm_call => [[H1 [H2 H3]]].
  case: (rm_rootNeutron r) H1 => // n _; case: (rm_inverseRoot r) H2 => // v _.
  rewrite /frecip -/(den3 E r); case: (Req_EM_T (den3 E r) 0%re) => //= _.
  by case: Req_EM_T => ? /=; [case: Req_EM_T => ? /=|]; eexists; eexists.
Qed.
Lemma rm_sum_finite rs E rp : (forall r, List.In r rs -> finite3 E r) ->
  forall K h, exists K' b, rm_sum rs E rp K h = Some (K', b).
Proof.
  elim: rs => [|r l IH] H K h /=; first by exists K, h.
  have [K' [b ->]] := rm_call_finite rp K (H r (or_introl (erefl r))).
  by apply: IH => x Hx; apply: H; right.
Qed.
Lemma Jgroup_finite E P phi front rs : (0 < P)%re ->
  (forall r, List.In r rs -> (0 <= rm_capture r)%re) -> (forall r, List.In r rs -> finite3 E r) ->
  rm_Jgroup E (sqrt P) phi front rs <> None.
Proof.
  move=> HP Hc HF; rewrite /rm_Jgroup.
  have [K [b Es]] := rm_sum_finite (sqrt P) HF zero3 false; rewrite Es.
  have Hd r : List.In r rs -> den3 E r <> 0%re by move=> /HF [_ [_ H]].
  case: b Es => Es.
    by rewrite /solveRmatrix (copy_value Es) (K_unit phi HP Hc Hd).
  rewrite /solveRfunction; have := re_K00 Hc Es; set k := K _ _ => Hk.
  have Hn : re ((1 + k) * conj (1 + k)) <> 0%re.
    rewrite reM /=; have := Rle_0_sqr (0 + im k); rewrite /Rsqr; nra.
  rewrite /frecip; case: Req_EM_T => //= ?; by case: expands.
Qed.
