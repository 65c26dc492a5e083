From Coq Require Import Reals Lra String ZArith FunctionalExtensionality.
From mathcomp Require Import all_ssreflect all_algebra.
From Verif Require Import Outcome Cplx QuantumModel SpinFactorModel KinematicsModel CoulombModel RMatrixModel RMatrixSpec RMatrixProofs RMatrixCodeProofs RMatrixObservableProofs
  ChannelModel SpinGroupModel SpinGroupSpec SpinGroupProofs SpinGroupEvalProofs DecoupleSpec DecoupleProofs DecoupleTheorems SymmetrySpec SymmetryProofs.
Set Implicit Arguments.
Unset Strict Implicit.
Unset Printing Implicit Defensive.
Import GRing.Theory.
Local Open Scope ring_scope.

(** * The signs of channels *)
Lemma move_signs (a b c d e : cx) : (a * b) * (c * d) * e = a * (b * d * e) * c.
Proof. by rewrite mulrACA -!mulrA; congr (_ * _); rewrite mulrCA; congr (_ * _); rewrite mulrCA; congr (_ * _); rewrite mulrC. Qed.
Lemma outer_signs (a b c d e : cx) : a * (b * c * d) * e = b * (a * c * e) * d.
Proof. by rewrite -!mulrA mulrCA; congr (_ * _); congr (_ * _); congr (_ * _); rewrite mulrC. Qed.
Section Signs.
Variables (n : nat) (b : boundary_option) (E : R) (table : seq resonance) (vs : seq values) (sg : nat -> bool).
Definition flipped (r : resonance) : resonance :=
  Resonance (rs_energy r) [seq (if sg i then - nth 0 (rs_widths r) i else nth 0 (rs_widths r) i)%re | i <- iota 0 (size (rs_widths r))]
    (rs_eliminated r).
Definition sign (i : 'I_n) : cx := if sg i then -1 else 1.
Lemma sign2 i : sign i * sign i = 1.
Proof. by rewrite /sign; case: (sg i); rewrite ?mulrNN mulr1. Qed.
Lemma norm2_sign i z : norm2 (sign i * z) = norm2 z.
Proof. rewrite /sign; case: (sg i); rewrite ?mulN1r ?mul1r // /norm2 /=; ring. Qed.
Hypothesis sz : sized n table.
Lemma flipped_sized : sized n [seq flipped r | r <- table].
Proof. by move=> r /List.in_map_iff [x [<- Hx]]; rewrite /= size_map size_iota; apply: sz. Qed.
Lemma flipped_regular : regular E table -> regular E [seq flipped r | r <- table].
Proof. by move=> reg r /List.in_map_iff [x [<- Hx]]; exact: (reg x Hx). Qed.
Lemma flipped_R i j : R_spec n E [seq flipped r | r <- table] vs i j = sign i * R_spec n E table vs i j * sign j.
Proof.
  rewrite !mxE big_map mulr_sumr mulr_suml.
  rewrite !(big_tnth _ _ table); apply: eq_bigr => k _; set r := tnth _ k.
  have Hr : size (rs_widths r) = n.
    apply: sz; rewrite /r; clear; case: k => k /= Hk; rewrite (tnth_nth (Resonance 0%re [::] 0%re)) /=.
    by elim: table k Hk => // x t IH [|k] Hk /=; [left | right; apply: IH].
  have W (c : 'I_n) : rcx (open_width vs (flipped r) c) = sign c * rcx (open_width vs r c).
    rewrite /open_width /width; case: (isclosed _ _); first by rewrite rcx0 mulr0.
    rewrite /= (nth_map 0%N) ?size_iota ?Hr // nth_iota ?Hr // add0n /sign.
    by case: (sg c); rewrite ?mul1r // mulN1r; apply: cx_ext; rewrite /=; ring.
  by rewrite !rcxM !W move_signs.
Qed.
Variables (A : 'M[cx]_n).
Hypothesis rl : is_RL b E table vs A.
Definition A_flipped : 'M[cx]_n := \matrix_(i, j) (sign i * A i j * sign j).
Lemma flipped_RL : is_RL b E [seq flipped r | r <- table] vs A_flipped.
Proof.
  pose D : 'M[cx]_n := diag_mx (\row_i sign i).
  have DD : D *m D = 1%:M.
    by apply/matrixP => i j; rewrite mul_diag_mx !mxE; case: eqP => [->|_]; rewrite ?mulr1n ?sign2 // mulr0.
  have Dc (B : 'M[cx]_n) : (\matrix_(i, j) (sign i * B i j * sign j)) = D *m B *m D.
    by apply/matrixP => i j; rewrite mul_mx_diag mul_diag_mx !mxE.
  have ER : R_spec n E [seq flipped r | r <- table] vs = D *m R_spec n E table vs *m D.
    by rewrite -Dc; apply/matrixP => i j; rewrite flipped_R [RHS]mxE.
  have DL : D *m L_spec n b vs = L_spec n b vs *m D.
    by apply/matrixP => i j; rewrite mul_diag_mx mul_mx_diag !mxE; case: eqP => [->|_]; rewrite ?mulr1n ?mulr0 ?mul0r // mulrC.
  have ET : 1%:M - R_spec n E [seq flipped r | r <- table] vs *m L_spec n b vs = D *m (1%:M - R_spec n E table vs *m L_spec n b vs) *m D.
    by rewrite ER mulmxBr mulmxBl mulmx1 DD; congr (_ - _); rewrite -!mulmxA DL.
  case: rl => u e; have uD : D \in unitmx by case: (mulmx1_unit DD).
  rewrite /is_RL ET !unitmx_mul u uD; split=> //.
  rewrite /A_flipped Dc ER -!mulmxA; congr (_ *m _); rewrite (mulmxA D D) DD mul1mx !mulmxA; congr (_ *m _); exact: e.
Qed.
Lemma flipped_U i j : U_spec vs A_flipped i j = sign i * U_spec vs A i j * sign j.
Proof.
  have e : (if j == i then 1 else 0) = sign i * (if j == i then 1 else 0) * sign j.
    by case: eqP => [->|_]; rewrite ?mulr1 ?sign2 // mulr0 mul0r.
  rewrite !U_entry !T_entry !mxE [in LHS]e -[RHS]outer_signs; congr (_ * _ * _).
  rewrite mulrDr mulrDl; congr (_ + _); rewrite outer_signs; set X := _ * A i j * _.
  by rewrite -[_ * X * _]mulrA mulrCA -mulrA; congr (_ * _); rewrite mulrA.
Qed.
Lemma norm2_flipped i j : norm2 (U_spec vs A_flipped i j) = norm2 (U_spec vs A i j).
Proof. by rewrite flipped_U mulrC !norm2_sign. Qed.
Lemma norm2_flipped_diff i j z :
  norm2 ((if j == i then z else 0) - U_spec vs A_flipped i j) = norm2 ((if j == i then z else 0) - U_spec vs A i j).
Proof.
  case: eqP => [->|_]; last by rewrite !sub0r !norm2N norm2_flipped.
  by rewrite flipped_U mulrAC sign2 mul1r.
Qed.
End Signs.
