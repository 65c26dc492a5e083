(** Continuity of the T matrix: closed channels can be kept in the R matrix as long as their
    penetrability and L element are set to zero. *)
From Coq Require Import Reals Lra.
From mathcomp Require Import all_ssreflect all_algebra.
From Verif Require Import Cplx RMatrixModel RMatrixSpec RMatrixProofs RMatrixCodeProofs ContinuityProofs.
Set Implicit Arguments.
Unset Strict Implicit.
Unset Printing Implicit Defensive.
Import GRing.Theory.
Local Open Scope ring_scope.

Definition effP (v : values) : R := if v_closed v then 0%re else v_P v.
Definition effL (b : boundary_option) (v : values) : cx := if v_closed v then 0 else lvalue b v.
Definition eff (v : values) : values :=
  if v_closed v then Values 0%re (v_B v) (v_B v) (v_phi v) (v_w v) false else v.
Lemma eff_open v : v_closed (eff v) = false.
Proof. by rewrite /eff; case E: (v_closed v). Qed.
Lemma lvalue_eff b v : lvalue b (eff v) = effL b v.
Proof. by rewrite /eff /effL; case: (v_closed v) => //; case: b => //=; apply: cx_ext => /=; ring. Qed.

Section Masked.
Variables (n : nat) (D R0 Lf S : 'M[cx]_n).
Hypotheses (DD : D *m D = D) (DL : D *m Lf = Lf *m D) (DS : D *m S = S *m D).
Lemma masked (A A0 : 'M[cx]_n) :
  let R := D *m R0 *m D in
  1%:M - R *m Lf \in unitmx -> (1%:M - R *m Lf) *m A = R -> (1%:M - R0 *m (D *m Lf)) *m A0 = R0 ->
  S *m A *m S = (D *m S) *m A0 *m (D *m S).
Proof.
  move=> R u eA eA0.
  have DR : D *m R = R by rewrite /R !mulmxA DD.
  have RD : R *m D = R by rewrite /R -!mulmxA DD.
  have k : A = D *m A0 *m D.
    have e : (1%:M - R *m Lf) *m (D *m A0 *m D) = R.
      have RLD : R *m Lf *m D = R *m Lf by rewrite -mulmxA -DL mulmxA RD.
      have h : A0 - R0 *m (D *m Lf) *m A0 = R0 by rewrite -[RHS]eA0 mulmxBl mul1mx.
      rewrite mulmxBl mul1mx !mulmxA RLD /R -[in RHS]h mulmxBr mulmxBl; congr (_ - _).
      by rewrite !mulmxA.
    by rewrite -[LHS](mulKmx u) -[RHS](mulKmx u) eA e.
  by rewrite k !mulmxA -DS.
Qed.
End Masked.

Section Cont.
Variables (n : nat) (b : boundary_option) (table : seq resonance) (x a : R).
Variable vs : R -> seq values.
Let near (e : R) : Prop := (Rabs (e - x) < a)%re.
Hypothesis a0 : (0 < a)%re.
Hypothesis szv : forall e, near e -> size (vs e) = n.
Hypothesis reg : forall e, near e -> regular e table.
Let v e (i : 'I_n) := val_of (vs e) i.
Hypothesis ok : forall e i, near e -> (0 <= v_P (v e i))%re /\ (v_closed (v e i) \/ (0 < v_P (v e i))%re \/ lvalue b (v e i) = 0).
Hypothesis contP : forall i, continuity_pt (fun e => effP (v e i)) x.
Hypothesis contL : forall i, ccont (fun e => effL b (v e i)) x.

Let tm e : 'M[cx]_n := 1%:M - R_spec n e table (vs e) *m L_spec n b (vs e).
Let tm0 e : 'M[cx]_n := 1%:M - R_spec n e table (map eff (vs e)) *m L_spec n b (map eff (vs e)).
Let v0 e i : near e -> val_of (map eff (vs e)) i = eff (v e i).
Proof. by move=> H; rewrite /v /val_of (nth_map no_values) // szv. Qed.

Lemma near_unit e : near e -> tm e \in unitmx.
Proof.
  move=> H; rewrite /tm R_spec_core L_spec_core; apply: Tm_unit; first exact: t_im.
  - by move=> i; have [P0 _] := ok i H; move: P0; rewrite /lvalue; case: (b).
  - move=> i; have [P0 [h|[h|h]]] := ok i H.
    + by left=> k; rewrite /open_width /isclosed -/(v e i) h.
    + by right; left; move: h; rewrite /lvalue; case: (b).
    + by right; right.
Qed.
Lemma near_unit0 e : near e -> tm0 e \in unitmx.
Proof.
  move=> H; rewrite /tm0 R_spec_core L_spec_core; apply: Tm_unit; first exact: t_im.
  - move=> i; rewrite v0 // lvalue_eff /effL; have [P0 _] := ok i H.
    by case: (v_closed _) => /=; [lra | move: P0; rewrite /lvalue; case: (b)].
  - move=> i; rewrite v0 // lvalue_eff /effL; have [P0 [h|[h|h]]] := ok i H.
    + by right; right; rewrite h.
    + by right; case: (v_closed _); [right | left; move: h; rewrite /lvalue; case: (b)].
    + by right; right; rewrite h; case: (v_closed _).
Qed.

Definition RL_at e : 'M[cx]_n := invmx (tm e) *m R_spec n e table (vs e).
Lemma RL_at_is e : near e -> is_RL b e table (vs e) (RL_at e).
Proof. by move=> /near_unit u; split=> //; rewrite mulKVmx. Qed.
Let A0 e : 'M[cx]_n := invmx (tm0 e) *m R_spec n e table (map eff (vs e)).
Lemma T_masked e : near e -> T_spec (vs e) (RL_at e) = T_spec (map eff (vs e)) (A0 e).
Proof.
  move=> H.
  set D : 'M[cx]_n := diag_mx (\row_i (if v_closed (v e i) then 0 else 1)).
  have ER : R_spec n e table (vs e) = D *m R_spec n e table (map eff (vs e)) *m D.
    apply/matrixP => i j; rewrite /D mul_diag_mx mul_mx_diag !mxE /open_width /isclosed -/(v e i) -/(v e j) !v0 // !eff_open.
    case: (v_closed (v e i)); first by rewrite !mul0r big1 // => r _; rewrite Rmult_0_l rcx0 mul0r.
    case: (v_closed (v e j)); first by rewrite mulr0 big1 // => r _; rewrite Rmult_0_r rcx0 mul0r.
    by rewrite mul1r mulr1.
  have dE (d : 'rV[cx]_n) : D *m diag_mx d = diag_mx (\row_i ((if v_closed (v e i) then 0 else 1) * d 0 i)).
    by apply/matrixP => i j; rewrite mul_diag_mx !mxE; case: eqP => [->|_]; rewrite ?mulr1n ?mulr0n ?mulr0.
  have Dd (d : 'rV[cx]_n) : D *m diag_mx d = diag_mx d *m D by exact: diag_mxC.
  have EL : L_spec n b (map eff (vs e)) = D *m L_spec n b (vs e).
    have lE w : Cx (if b is Constant then v_S w - v_B w else 0)%re (v_P w) = lvalue b w by case: (b).
    rewrite dE; congr diag_mx; apply/rowP => i; rewrite !mxE v0 // !lE lvalue_eff /effL -/(v e i).
    by case: (v_closed (v e i)); rewrite ?mul0r ?mul1r.
  have ES : @sqrtP_mx n (map eff (vs e)) = D *m @sqrtP_mx n (vs e).
    rewrite dE; congr diag_mx; apply/rowP => i; rewrite !mxE v0 // -/(v e i) /eff.
    by case: (v_closed (v e i)); rewrite ?mul0r ?mul1r //= sqrt_0 rcx0.
  rewrite /T_spec ES; apply: (@masked n D (R_spec n e table (map eff (vs e))) (L_spec n b (vs e))).
  - rewrite dE; congr diag_mx; apply/rowP => i; rewrite !mxE; by case: (v_closed _); rewrite ?mul0r ?mul1r.
  - exact: Dd.
  - exact: Dd.
  - by rewrite -ER; exact: near_unit.
  - by rewrite -ER mulKVmx //; exact: near_unit.
  - by rewrite -EL mulKVmx //; exact: near_unit0.
Qed.

Let near_x : near x.
Proof. by rewrite /near Rminus_diag_eq // Rabs_R0. Qed.
Lemma cont_sqrt f : continuity_pt f x -> (0 <= f x)%re -> continuity_pt (fun e => sqrt (f e)) x.
Proof. by move=> H H0; apply: cont_comp => //; exact: continuity_pt_sqrt. Qed.

Lemma T_cont : mcont (fun e => T_spec (vs e) (RL_at e)) x.
Proof.
  move=> i j; apply: (@ccont_near (fun e => T_spec (map eff (vs e)) (A0 e) i j) _ x a a0).
    by move=> e He; rewrite T_masked.
  have cR : mcont (fun e => R_spec n e table (map eff (vs e))) x.
    move=> p q; apply: (@ccont_near (fun e => \sum_(k < size table) rcx (width (nth (Resonance 0%re [::] 0%re) table k) p * width (nth (Resonance 0%re [::] 0%re) table k) q)%re / denominator e (nth (Resonance 0%re [::] 0%re) table k)) _ x a a0).
      move=> e He; rewrite mxE (big_nth (Resonance 0%re [::] 0%re)) big_mkord; apply: eq_bigr => k _.
      by rewrite /open_width /isclosed !v0 // !eff_open.
    apply: ccont_sum => k _; apply: ccont_mul; first exact: ccont_const.
    have kin : List.In (nth (Resonance 0%re [::] 0%re) table k) table.
      have := ltn_ord k; move: (nat_of_ord k) => m.
      by elim: (table) m => //= r l IH [|m] lt; [left | right; apply: IH].
    apply: ccont_inv.
    + apply: ccont_Cx; last exact: cont_const.
      by apply: cont_sub; [exact: cont_const | exact: cont_id].
    + by case; have := reg near_x kin => -[h|h] /= h1 h2; [apply: h; lra | nra].
  have cL : mcont (fun e => L_spec n b (map eff (vs e))) x.
    move=> p q; apply: (@ccont_near (fun e => effL b (v e p) *+ (p == q)) _ x a a0).
      move=> e He; rewrite mxE mxE v0 // -lvalue_eff; congr (_ *+ _).
      by rewrite /lvalue; case: (b).
    by case: (p == q); [exact: contL | exact: ccont_const].
  have cS : mcont (fun e => @sqrtP_mx n (map eff (vs e))) x.
    move=> p q; apply: (@ccont_near (fun e => rcx (sqrt (effP (v e p))) *+ (p == q)) _ x a a0).
      by move=> e He; rewrite mxE mxE v0 // /eff /effP; case: (v_closed _).
    case: (p == q); last exact: ccont_const.
    apply: ccont_rcx; apply: cont_sqrt; first exact: contP.
    by rewrite /effP; have [h _] := ok p near_x; case: (v_closed _) => //; lra.
  have cT : mcont tm0 x by apply: mcont_sub; [exact: mcont_const | exact: mcont_mul].
  have cA : mcont A0 x by apply: mcont_mul => //; apply: (mcont_inv cT a0) => e; exact: near_unit0.
  by move: i j; apply: mcont_mul => //; apply: mcont_mul.
Qed.
End Cont.
