(** Continuity of complex functions and matrices of a real variable. *)
From Coq Require Import Reals Lra.
From mathcomp Require Import all_ssreflect all_algebra.
From mathcomp Require Import fingroup perm.
From Verif Require Import Cplx.
Set Implicit Arguments.
Unset Strict Implicit.
Unset Printing Implicit Defensive.
Import GRing.Theory.
Local Open Scope ring_scope.

Lemma cont_near (f g : R -> R) (x a : R) : (0 < a)%re -> (forall y, Rabs (y - x) < a -> f y = g y)%re ->
  continuity_pt f x -> continuity_pt g x.
Proof. move=> a0 H; apply: (@continuity_pt_locally_ext f g a x a0) => y Hy; exact: H. Qed.
Lemma cont_ext (f g : R -> R) (x : R) : (forall y, f y = g y) -> continuity_pt f x -> continuity_pt g x.
Proof. by move=> H; apply: (@cont_near f g x 1%re Rlt_0_1) => y _; exact: H. Qed.
Lemma cont_const (a x : R) : continuity_pt (fun _ => a) x.
Proof. by apply: continuity_pt_const => y z. Qed.
Lemma cont_id (x : R) : continuity_pt (fun e => e) x.
Proof. exact: derivable_continuous_pt (derivable_pt_id x). Qed.
Lemma cont_add (f g : R -> R) x : continuity_pt f x -> continuity_pt g x -> continuity_pt (fun e => f e + g e)%re x.
Proof. exact: continuity_pt_plus. Qed.
Lemma cont_sub (f g : R -> R) x : continuity_pt f x -> continuity_pt g x -> continuity_pt (fun e => f e - g e)%re x.
Proof. exact: continuity_pt_minus. Qed.
Lemma cont_mul (f g : R -> R) x : continuity_pt f x -> continuity_pt g x -> continuity_pt (fun e => f e * g e)%re x.
Proof. exact: continuity_pt_mult. Qed.
Lemma cont_opp (f : R -> R) x : continuity_pt f x -> continuity_pt (fun e => - f e)%re x.
Proof. exact: continuity_pt_opp. Qed.
Lemma cont_div (f g : R -> R) x : continuity_pt f x -> continuity_pt g x -> g x <> 0%re -> continuity_pt (fun e => f e / g e)%re x.
Proof. move=> Hf Hg Hn; exact: (continuity_pt_div f g x Hf Hg Hn). Qed.
Lemma cont_comp (f g : R -> R) x : continuity_pt g x -> continuity_pt f (g x) -> continuity_pt (fun e => f (g e)) x.
Proof. move=> Hg Hf; exact: (continuity_pt_comp g f x Hg Hf). Qed.
Lemma cont_sum I (r : seq I) (P : pred I) (F : I -> R -> R) x : (forall i, P i -> continuity_pt (F i) x) ->
  continuity_pt (fun e => \big[Rplus/0%re]_(i <- r | P i) F i e) x.
Proof.
  move=> H; elim: r => [|i r IH].
  - by apply: (@cont_ext (fun _ => 0%re)) => [y|]; [rewrite big_nil | exact: cont_const].
  - case E: (P i).
    + apply: (@cont_ext (fun e => F i e + \big[Rplus/0%re]_(i <- r | P i) F i e)%re) => [y|]; first by rewrite big_cons E.
      by apply: cont_add => //; apply: H.
    + by apply: cont_ext IH => y; rewrite big_cons E.
Qed.
Lemma pos_near (f : R -> R) x : continuity_pt f x -> f x <> 0%re -> exists a, (0 < a)%re /\ forall y, (Rabs (y - x) < a -> f y <> 0)%re.
Proof.
  move=> H n0; case: (Rdichotomy _ _ n0) => h.
  - case: (H (- f x)%re) => [|a [a0 Ha]]; first lra.
    exists a; split=> // y Hy; case: (Req_EM_T y x) => [->//|ne].
    have := Ha y; rewrite /dist /= /R_dist => /(_ (Logic.conj (Logic.conj Logic.I (not_eq_sym ne)) Hy)).
    by move/Rabs_def2; lra.
  - case: (H (f x)%re) => [|a [a0 Ha]]; first lra.
    exists a; split=> // y Hy; case: (Req_EM_T y x) => [->//|ne].
    have := Ha y; rewrite /dist /= /R_dist => /(_ (Logic.conj (Logic.conj Logic.I (not_eq_sym ne)) Hy)).
    by move/Rabs_def2; lra.
Qed.

(** * Complex functions *)
Definition ccont (f : R -> cx) (x : R) : Prop := continuity_pt (fun e => re (f e)) x /\ continuity_pt (fun e => im (f e)) x.
Lemma ccont_near (f g : R -> cx) (x a : R) : (0 < a)%re -> (forall y, Rabs (y - x) < a -> f y = g y)%re -> ccont f x -> ccont g x.
Proof. by move=> a0 H [H1 H2]; split; [apply: cont_near H1 | apply: cont_near H2]; (try exact: a0) => y /H ->. Qed.
Lemma ccont_ext (f g : R -> cx) (x : R) : (forall y, f y = g y) -> ccont f x -> ccont g x.
Proof. by move=> H; apply: (ccont_near Rlt_0_1) => y _. Qed.
Lemma ccont_const z x : ccont (fun _ => z) x.
Proof. by split; exact: cont_const. Qed.
Lemma ccont_Cx f g x : continuity_pt f x -> continuity_pt g x -> ccont (fun e => Cx (f e) (g e)) x.
Proof. by []. Qed.
Lemma ccont_rcx f x : continuity_pt f x -> ccont (fun e => rcx (f e)) x.
Proof. by move=> H; split=> //; exact: cont_const. Qed.
Lemma ccont_add f g x : ccont f x -> ccont g x -> ccont (fun e => f e + g e) x.
Proof. by move=> [a b] [c d]; split; exact: cont_add. Qed.
Lemma ccont_opp f x : ccont f x -> ccont (fun e => - f e) x.
Proof. by move=> [a b]; split; exact: cont_opp. Qed.
Lemma ccont_sub f g x : ccont f x -> ccont g x -> ccont (fun e => f e - g e) x.
Proof. by move=> [a b] [c d]; split; exact: cont_sub. Qed.
Lemma ccont_mul f g x : ccont f x -> ccont g x -> ccont (fun e => f e * g e) x.
Proof.
  move=> [a b] [c d]; split.
  - by apply: cont_sub; apply: cont_mul.
  - by apply: cont_add; apply: cont_mul.
Qed.
Lemma cont_norm2 f x : ccont f x -> continuity_pt (fun e => norm2 (f e)) x.
Proof. by move=> [a b]; apply: cont_add; apply: cont_mul. Qed.
Lemma ccont_inv f x : ccont f x -> f x <> 0 -> ccont (fun e => (f e)^-1) x.
Proof.
  move=> H n0; have [a b] := H; have n2 : norm2 (f x) <> 0%re by apply: norm2_neq0.
  by split; apply: (cont_div _ (cont_norm2 H) n2) => //; exact: cont_opp.
Qed.
Lemma ccont_sum I (r : seq I) (P : pred I) (F : I -> R -> cx) x : (forall i, P i -> ccont (F i) x) -> ccont (fun e => \sum_(i <- r | P i) F i e) x.
Proof.
  move=> H; elim: r => [|i r IH].
  - by apply: (@ccont_ext (fun _ => 0)) => [y|]; [rewrite big_nil | exact: ccont_const].
  - case E: (P i).
    + apply: (@ccont_ext (fun e => F i e + \sum_(i <- r | P i) F i e)) => [y|]; first by rewrite big_cons E.
      by apply: ccont_add => //; apply: H.
    + by apply: ccont_ext IH => y; rewrite big_cons E.
Qed.
Lemma ccont_prod I (r : seq I) (F : I -> R -> cx) x : (forall i, ccont (F i) x) -> ccont (fun e => \prod_(i <- r) F i e) x.
Proof.
  move=> H; elim: r => [|i r IH].
  - by apply: (@ccont_ext (fun _ => 1)) => [y|]; [rewrite big_nil | exact: ccont_const].
  - apply: (@ccont_ext (fun e => F i e * \prod_(i <- r) F i e)) => [y|]; first by rewrite big_cons.
    exact: ccont_mul.
Qed.

(** * Matrices *)
Definition mcont m n (F : R -> 'M[cx]_(m, n)) (x : R) : Prop := forall i j, ccont (fun e => F e i j) x.
Lemma mcont_det n (F : R -> 'M[cx]_n) x : mcont F x -> ccont (fun e => \det (F e)) x.
Proof.
  move=> H; apply: ccont_sum => s _; apply: ccont_mul; first exact: ccont_const.
  by apply: ccont_prod => i; exact: H.
Qed.
Lemma mcont_adj n (F : R -> 'M[cx]_n) x : mcont F x -> mcont (fun e => \adj (F e)) x.
Proof.
  move=> H i j; apply: (@ccont_ext (fun e => (-1) ^+ (j + i) * \det (row' j (col' i (F e))))) => [y|].
    by rewrite mxE.
  apply: ccont_mul; first exact: ccont_const.
  by apply: mcont_det => a c; apply: (@ccont_ext (fun e => F e (lift j a) (lift i c))) => [y|]; [rewrite !mxE | exact: H].
Qed.
Lemma mcont_mul m n p (F : R -> 'M[cx]_(m, n)) (G : R -> 'M[cx]_(n, p)) x : mcont F x -> mcont G x -> mcont (fun e => F e *m G e) x.
Proof.
  move=> HF HG i j; apply: (@ccont_ext (fun e => \sum_k F e i k * G e k j)) => [y|]; first by rewrite mxE.
  by apply: ccont_sum => k _; apply: ccont_mul.
Qed.
Lemma mcont_sub m n (F G : R -> 'M[cx]_(m, n)) x : mcont F x -> mcont G x -> mcont (fun e => F e - G e) x.
Proof.
  move=> HF HG i j; apply: (@ccont_ext (fun e => F e i j - G e i j)) => [y|]; first by rewrite !mxE.
  exact: ccont_sub.
Qed.
Lemma mcont_const m n (M : 'M[cx]_(m, n)) x : mcont (fun _ => M) x.
Proof. by move=> i j; exact: ccont_const. Qed.
Lemma mcont_inv n (F : R -> 'M[cx]_n) (x a : R) : mcont F x -> (0 < a)%re -> (forall y, Rabs (y - x) < a -> F y \in unitmx)%re ->
  mcont (fun e => invmx (F e)) x.
Proof.
  move=> H a0 U i j; apply: (@ccont_near (fun e => (\det (F e))^-1 * \adj (F e) i j) _ x a a0).
    by move=> y Hy; rewrite /invmx (U y Hy) [RHS]mxE.
  apply: ccont_mul; last exact: mcont_adj.
  apply: ccont_inv; first exact: mcont_det.
  have z : Rabs (x - x) = 0%re by rewrite Rminus_diag_eq // Rabs_R0.
  by have := U x; rewrite z => /(_ a0); rewrite unitmxE unitfE => /eqP.
Qed.
