(** Channels that share no resonance do not influence each other. *)
From Coq Require Import Reals Lra.
From mathcomp Require Import all_ssreflect all_algebra.
From Verif Require Import Cplx RMatrixModel RMatrixSpec RMatrixProofs RMatrixCodeProofs RMatrixObservableProofs.
Set Implicit Arguments.
Unset Strict Implicit.
Unset Printing Implicit Defensive.
Import GRing.Theory.
Local Open Scope ring_scope.

(** * Part of the channels *)
Lemma one_RL p (R : 'M[cx]_p) l i k : (1%:M - R *m diag_mx l) i k = (i == k)%:R - R i k * l 0 k.
Proof. by rewrite mul_mx_diag !mxE. Qed.

Section Part.
Variables (m n : nat) (f : 'I_m -> 'I_n).
Hypothesis Hf : injective f.

Lemma big_part (T : Type) (idx : T) (op : Monoid.com_law idx) (P : pred 'I_n) (F : 'I_n -> T) :
  (forall k, k \notin codom f -> P k -> F k = idx) -> \big[op/idx]_(k | P k) F k = \big[op/idx]_(i | P (f i)) F (f i).
Proof.
  move=> H; rewrite (bigID (mem (codom f))) /= [X in op _ X]big1 ?Monoid.mulm1; last by move=> k /andP [Pk Hk]; apply: H.
  have U : uniq (codom f) by rewrite map_inj_uniq // enum_uniq.
  rewrite [RHS](_ : _ = \big[op/idx]_(k <- codom f | P k) F k); last by rewrite /codom /image_mem big_map big_enum_cond.
  rewrite -big_filter -[RHS]big_filter; apply: perm_big; apply: uniq_perm; rewrite ?filter_uniq ?index_enum_uniq //.
  by move=> k; rewrite !mem_filter mem_index_enum andbT.
Qed.

Section Solve.
Variables (R A : 'M[cx]_n) (l : 'rV[cx]_n).
Hypothesis H0 : forall i k, k \notin codom f -> R (f i) k = 0.
Hypothesis Hu : 1%:M - R *m diag_mx l \in unitmx.
Hypothesis HA : (1%:M - R *m diag_mx l) *m A = R.
Let Rs : 'M[cx]_m := \matrix_(i, j) R (f i) (f j).
Let ls : 'rV[cx]_m := \row_i l 0 (f i).
Let As : 'M[cx]_m := \matrix_(i, j) A (f i) (f j).

Lemma T_row i j (B : 'M[cx]_n) : ((1%:M - R *m diag_mx l) *m B) (f i) j =
  ((1%:M - Rs *m diag_mx ls) *m (\matrix_(a, b) B (f a) j : 'M[cx]_(m, 1))) i 0.
Proof.
  rewrite mxE [RHS]mxE (big_part (GRing.add_comoid _)) /=; last first.
    move=> k Hk _; rewrite one_RL H0 // mul0r subr0.
    by rewrite (_ : (f i == k) = false) ?mul0r //; apply: contraNF Hk => /eqP <-; apply: codom_f.
  by apply: eq_bigr => k _; rewrite !one_RL !mxE (inj_eq Hf).
Qed.
Lemma part_unit : 1%:M - Rs *m diag_mx ls \in unitmx.
Proof.
  suff /mulmx1_unit [] : (1%:M - Rs *m diag_mx ls) *m (\matrix_(i, j) invmx (1%:M - R *m diag_mx l) (f i) (f j)) = 1%:M by [].
  apply/matrixP => i j.
  have := T_row i (f j) (invmx (1%:M - R *m diag_mx l)); rewrite mulmxV // mxE (inj_eq Hf) => E1; rewrite [RHS]mxE E1.
  by rewrite mxE [RHS]mxE; apply: eq_bigr => k _; rewrite !mxE.
Qed.
Lemma part_solves : (1%:M - Rs *m diag_mx ls) *m As = Rs.
Proof.
  apply/matrixP => i j; have := T_row i (f j) A; rewrite HA => E.
  by rewrite [RHS]mxE E mxE [RHS]mxE; apply: eq_bigr => k _; rewrite !mxE.
Qed.
Lemma part_zero i k : k \notin codom f -> A (f i) k = 0.
Proof.
  move=> Hk; pose x : 'M[cx]_(m, 1) := \matrix_(a, b) A (f a) k.
  have Hx : (1%:M - Rs *m diag_mx ls) *m x = 0.
    by apply/matrixP => a b; rewrite (ord1 b) -T_row HA mxE; apply: H0.
  have : x = 0 by rewrite -[x](mulKmx part_unit) Hx mulmx0.
  by move=> /matrixP /(_ i 0); rewrite !mxE.
Qed.
End Solve.
End Part.

(** * Two systems with a common part *)
Section Common.
Variables (b : boundary_option) (E : R) (m n1 n2 : nat) (f1 : 'I_m -> 'I_n1) (f2 : 'I_m -> 'I_n2)
  (t1 t2 : seq resonance) (vs1 vs2 : seq values) (A1 : 'M[cx]_n1) (A2 : 'M[cx]_n2).
Hypotheses (I1 : injective f1) (I2 : injective f2) (rl1 : is_RL b E t1 vs1 A1) (rl2 : is_RL b E t2 vs2 A2).
Hypothesis Hv : forall i, val_of vs1 (f1 i) = val_of vs2 (f2 i).
Hypothesis HR : forall i j, R_spec n1 E t1 vs1 (f1 i) (f1 j) = R_spec n2 E t2 vs2 (f2 i) (f2 j).
Hypothesis Z1 : forall i k, k \notin codom f1 -> R_spec n1 E t1 vs1 (f1 i) k = 0.
Hypothesis Z2 : forall i k, k \notin codom f2 -> R_spec n2 E t2 vs2 (f2 i) k = 0.

Lemma common_A i j : A1 (f1 i) (f1 j) = A2 (f2 i) (f2 j).
Proof.
  case: rl1 => u1 e1; case: rl2 => u2 e2.
  have U := part_unit I1 Z1 u1; have S1 := part_solves I1 Z1 e1; have S2 := part_solves I2 Z2 e2.
  set l1 := (\row_i _) in u1 e1 U S1; set l2 := (\row_i _) in u2 e2 S2.
  have El : l1 = l2 by apply/matrixP => x y; rewrite !mxE !Hv.
  have ER : (\matrix_(i, j) R_spec n1 E t1 vs1 (f1 i) (f1 j) : 'M[cx]_m) = \matrix_(i, j) R_spec n2 E t2 vs2 (f2 i) (f2 j).
    by apply/matrixP => x y; rewrite !mxE; have := HR x y; rewrite !mxE.
  rewrite -El -ER in S2.
  have /matrixP /(_ i j) := can_inj (mulKmx U) (etrans S1 (esym S2)); by rewrite !mxE.
Qed.
Lemma common_U i j : U_spec vs1 A1 (f1 i) (f1 j) = U_spec vs2 A2 (f2 i) (f2 j).
Proof.
  by rewrite !U_entry !T_entry /omega /sqrtP -!/(val_of _ _) !Hv common_A (inj_eq I1) (inj_eq I2).
Qed.
Lemma common_zero i k : k \notin codom f1 -> U_spec vs1 A1 (f1 i) k = 0.
Proof.
  move=> Hk; case: rl1 => u1 e1; rewrite U_entry T_entry (part_zero I1 Z1 u1 e1) // mulr0 mul0r mulr0 addr0.
  by rewrite (_ : (k == f1 i) = false) ?mulr0 ?mul0r //; apply: contraNF Hk => /eqP ->; apply: codom_f.
Qed.
End Common.
