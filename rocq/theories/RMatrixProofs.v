From Coq Require Import Reals Lra.
From mathcomp Require Import all_ssreflect all_algebra.
From Verif Require Import Cplx RMatrixModel RMatrixSpec.
Set Implicit Arguments.
Unset Strict Implicit.
Unset Printing Implicit Defensive.
Import GRing.Theory.
Local Open Scope ring_scope.

(** * Abstract part: R = sum t g g^T, L diagonal *)
Section Core.
Variables (n m : nat).
Variables (t : 'I_m -> cx) (g : 'I_m -> 'I_n -> R) (l : 'I_n -> cx).
Definition gv (k : 'I_m) : 'cV[cx]_n := \col_i rcx (g k i).
Definition Rm : 'M[cx]_n := \sum_k t k *: (gv k *m (gv k)^T).
Definition Lm : 'M[cx]_n := diag_mx (\row_i l i).

Lemma dagM p q r (A : 'M[cx]_(p, q)) (B : 'M[cx]_(q, r)) : dag (A *m B) = dag B *m dag A.
Proof. by rewrite /dag trmx_mul map_mxM. Qed.
Lemma dagD p q (A B : 'M[cx]_(p, q)) : dag (A + B) = dag A + dag B.
Proof. by rewrite /dag linearD /= map_mxD. Qed.
Lemma dagB p q (A B : 'M[cx]_(p, q)) : dag (A - B) = dag A - dag B.
Proof. by rewrite /dag linearB /= map_mxB. Qed.
Lemma dag1 : dag (1%:M : 'M[cx]_n) = 1%:M.
Proof. by rewrite /dag trmx1 map_mx1. Qed.
Lemma dagE p q (A : 'M[cx]_(p, q)) i j : dag A i j = conj (A j i).
Proof. by rewrite !mxE. Qed.

Lemma Rm_sym : Rm^T = Rm.
Proof.
  rewrite /Rm linear_sum /=; apply: eq_bigr => k _.
  by rewrite linearZ /= trmx_mul trmxK.
Qed.
Lemma Lm_sym : Lm^T = Lm.
Proof. exact: tr_diag_mx. Qed.

Definition Tm : 'M[cx]_n := 1%:M - Rm *m Lm.
Lemma Rm_swap : Tm *m Rm = Rm *m Tm^T.
Proof.
  rewrite /Tm linearB /= trmx1 trmx_mul Rm_sym Lm_sym.
  by rewrite mulmxBl mul1mx mulmxBr mulmx1 mulmxA.
Qed.

Section Unit.
Hypothesis unit : Tm \in unitmx.
Definition Am : 'M[cx]_n := invmx Tm *m Rm.
Lemma Am_sym : Am^T = Am.
Proof.
  rewrite /Am trmx_mul Rm_sym trmx_inv.
  have ut : Tm^T \in unitmx by rewrite unitmx_tr.
  have : Rm *m invmx Tm^T = invmx Tm *m (Tm *m Rm) *m invmx Tm^T by rewrite mulKmx.
  by rewrite Rm_swap -!mulmxA mulmxV // mulmx1.
Qed.

Lemma Am_dag :
  Am - dag Am = invmx Tm *m (Rm - dag Rm) *m dag (invmx Tm) + Am *m (Lm - dag Lm) *m dag Am.
Proof.
  set M := invmx Tm.
  have dT : dag Tm *m dag M = 1%:M by rewrite -dagM mulVmx ?dag1.
  have A1 : Am = M *m (Rm *m dag Tm) *m dag M by rewrite -!mulmxA dT mulmx1.
  have TM : M *m Tm = 1%:M by rewrite mulVmx.
  have A2 : dag Am = M *m (Tm *m dag Rm) *m dag M.
    by rewrite mulmxA TM mul1mx dagM.
  have -> : Am - dag Am = M *m (Rm *m dag Tm - Tm *m dag Rm) *m dag M.
    by rewrite A2 {1}A1 -mulmxBl -mulmxBr.
  have -> : Am *m (Lm - dag Lm) *m dag Am = M *m (Rm *m (Lm - dag Lm) *m dag Rm) *m dag M.
    by rewrite dagM /Am !mulmxA.
  rewrite -mulmxDl -mulmxDr; congr (_ *m _ *m _).
  rewrite /Tm dagB dag1 dagM mulmxBr mulmx1 mulmxBl mul1mx mulmxBr mulmxBl !mulmxA.
  rewrite !opprB.
  rewrite -!addrA; congr (_ + _).
  rewrite addrCA [RHS]addrCA; congr (_ + _).
  by rewrite addrC.
Qed.

Lemma Im_A (c : 'I_n) :
  im (Am c c) =
  (\big[Rplus/0]_k (im (t k) * norm2 ((invmx Tm *m gv k) c 0%R))
   + \big[Rplus/0]_j (im (l j) * norm2 (Am c j)))%re.
Proof.
  have H : (Am - dag Am) c c = Cx 0%re (2 * im (Am c c))%re.
    rewrite !mxE; apply: cx_ext; rewrite !cxE /=; ring.
  have H1 : (invmx Tm *m (Rm - dag Rm) *m dag (invmx Tm)) c c =
    \sum_k Cx 0%re (2 * (im (t k) * norm2 ((invmx Tm *m gv k) c 0%R)))%re.
    have -> : Rm - dag Rm = \sum_k (Cx 0%re (2 * im (t k))%re) *: (gv k *m (gv k)^T).
      rewrite /Rm /dag linear_sum /= raddf_sum -sumrB.
      apply: eq_bigr => k _; rewrite linearZ /= trmx_mul trmxK.
      apply/matrixP => i j; rewrite !mxE !big_ord1 !mxE.
      by apply: cx_ext; rewrite !cxE /=; ring.
    rewrite mulmx_sumr mulmx_suml summxE; apply: eq_bigr => k _.
    rewrite -scalemxAr -scalemxAl (mulmxA (invmx Tm)) -(mulmxA (invmx Tm *m gv k)).
    have -> : (gv k)^T *m dag (invmx Tm) = dag (invmx Tm *m gv k).
      rewrite dagM; congr (_ *m _); apply/matrixP => i j; rewrite !mxE.
      by rewrite conj_rcx.
    rewrite !mxE big_ord1 !mxE mul_conj.
    by apply: cx_ext; rewrite !cxE /=; ring.
  have H2 : (Am *m (Lm - dag Lm) *m dag Am) c c =
    \sum_j Cx 0%re (2 * (im (l j) * norm2 (Am c j)))%re.
    have -> : Lm - dag Lm = diag_mx (\row_i Cx 0%re (2 * im (l i))%re).
      apply/matrixP => i j; rewrite !mxE eq_sym; case: eqP => [-> | _].
        by rewrite ?eqxx !mulr1n; apply: cx_ext; rewrite !cxE /=; ring.
      by rewrite !mulr0n; apply: cx_ext; rewrite !cxE /=; ring.
    rewrite mul_mx_diag !mxE; apply: eq_bigr => j _; rewrite !mxE.
    by rewrite -mulrA [_ * conj _]mulrC mulrA mul_conj; apply: cx_ext; rewrite !cxE /=; ring.
  move: H; rewrite Am_dag mxE H1 H2 => /(f_equal im); rewrite imD !im_sum /=.
  rewrite -!big_distrr /=; lra.
Qed.
End Unit.

(** ** The inverse exists *)
Hypothesis t_im : forall k, (0 <= im (t k))%re.
Hypothesis l_im : forall i, (0 <= im (l i))%re.
Hypothesis l_ok : forall i, (forall k, g k i = 0%re) \/ (0 < im (l i))%re \/ l i = 0.

Lemma Tm_unit : Tm \in unitmx.
Proof.
  rewrite unitmxE unitfE; apply/negP => /det0P [v vn0 vT].
  have vE : v = v *m Rm *m Lm.
    move/eqP: vT; rewrite /Tm mulmxBr mulmx1 subr_eq0 mulmxA => /eqP //.
  set u := v *m Rm in vE.
  have uE i : v 0 i = u 0 i * l i.
    by rewrite vE mul_mx_diag !mxE.
  have q1 : (u *m dag v) 0 0 = \sum_i conj (l i) * rcx (norm2 (u 0 i)).
    rewrite mxE; apply: eq_bigr => i _; rewrite dagE uE rmorphM /=.
    by rewrite mulrA mul_conj mulrC.
  have q2 : (u *m dag v) 0 0 = \sum_k t k * rcx (norm2 ((v *m gv k) 0 0)).
    rewrite /u /Rm mulmx_sumr mulmx_suml summxE; apply: eq_bigr => k _.
    rewrite -scalemxAr -scalemxAl mxE; congr (_ * _).
    rewrite (mulmxA v) -(mulmxA (v *m gv k)).
    have -> : (gv k)^T *m dag v = dag (v *m gv k).
      rewrite dagM; congr (_ *m _); apply/matrixP => i j; rewrite !mxE.
      by rewrite conj_rcx.
    by rewrite mxE big_ord1 dagE mul_conj.
  have e1 : im ((u *m dag v) 0 0) = (- \big[Rplus/0]_i (im (l i) * norm2 (u 0%R i)))%re.
    rewrite q1 im_sum (big_morph Ropp (id1 := 0%re) (op1 := Rplus)).
    - by apply: eq_bigr => i _; rewrite !cxE /=; ring.
    - by move=> x y; ring.
    - by ring.
  have e2 : (0 <= im ((u *m dag v) 0%R 0%R))%re.
    rewrite q2 im_sum; apply: Rsum_ge0 => k _.
    have -> x : im (t k * rcx x) = (im (t k) * x)%re by rewrite imM /=; ring.
    exact: (Rmult_le_pos _ _ (t_im k) (norm2_ge0 _)).
  have z : (\big[Rplus/0]_i (im (l i) * norm2 (u 0%R i)) = 0)%re.
    have : (0 <= \big[Rplus/0]_i (im (l i) * norm2 (u 0%R i)))%re.
      by apply: Rsum_ge0 => i _; exact: (Rmult_le_pos _ _ (l_im i) (norm2_ge0 _)).
    rewrite e1 in e2; lra.
  have z' i : (im (l i) * norm2 (u 0%R i) = 0)%re.
    apply: (Rsum_eq0 _ z i) => j; exact: (Rmult_le_pos _ _ (l_im j) (norm2_ge0 _)).
  move/negP: vn0; apply; apply/eqP/matrixP => a i; rewrite (ord1 a) mxE uE.
  case: (l_ok i) => [gz | [lp | ->]]; last by rewrite mulr0.
    suff -> : u 0 i = 0 by rewrite mul0r.
    rewrite /u /Rm mulmx_sumr summxE big1 // => k _.
    rewrite -scalemxAr mxE mulmxA mxE big_ord1 !mxE gz rcx0.
    by rewrite mulr0 mulr0.
  have: norm2 (u 0 i) = 0%re by move: (z' i); nra.
  by move/norm2_eq0 => ->; rewrite mul0r.
Qed.
End Core.
