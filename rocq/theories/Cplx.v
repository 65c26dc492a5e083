(** Complex numbers over the reals, as a mathcomp field, so that mathcomp's matrices can be
    used over them.  [std::complex<double>] is modelled by [cx] with exact real parts. *)
From Coq Require Import Reals Lra Epsilon FunctionalExtensionality.
From mathcomp Require Import all_ssreflect all_algebra.
Set Implicit Arguments.
Unset Strict Implicit.
Unset Printing Implicit Defensive.
Delimit Scope R_scope with re.

Record cx : Type := Cx { re : R; im : R }.

Definition cx_eq_dec (x y : cx) : {x = y} + {x <> y}.
Proof.
  destruct x as [a b], y as [c d].
  destruct (Req_EM_T a c) as [-> | n]; [destruct (Req_EM_T b d) as [-> | m] |].
  - by left.
  - by right => [[]].
  - by right => [[]].
Defined.

Definition cx_eqb (x y : cx) : bool := if cx_eq_dec x y then true else false.
Lemma cx_eqP : Equality.axiom cx_eqb.
Proof. by move=> x y; rewrite /cx_eqb; case: (cx_eq_dec x y) => H; constructor. Qed.
Canonical cx_eqMixin := EqMixin cx_eqP.
Canonical cx_eqType := Eval hnf in EqType cx cx_eqMixin.

(* a choice function, as the reals' equality is classical already *)
Definition cx_pick (P : pred cx) (_ : nat) : option cx :=
  let x := epsilon (inhabits (Cx 0%re 0%re)) (fun x => P x = true) in
  if P x then Some x else None.
Lemma cx_pick_some P n x : cx_pick P n = Some x -> P x.
Proof.
  rewrite /cx_pick; case E: (P (epsilon _ _)) => //; by case=> <-; rewrite E.
Qed.
Lemma cx_pick_ex (P : pred cx) : (exists x : cx, P x) -> exists n, cx_pick P n.
Proof.
  move=> H; exists 0%N; rewrite /cx_pick.
  have -> : P (epsilon (inhabits (Cx 0%re 0%re)) (fun x => P x = true)) = true; last by [].
  apply: (epsilon_spec (inhabits (Cx 0%re 0%re)) (fun x => P x = true)); by case: H => x Hx; exists x.
Qed.
Lemma cx_pick_ext (P Q : pred cx) : P =1 Q -> cx_pick P =1 cx_pick Q.
Proof.
  move=> H n; suff -> : P = Q by [].
  exact: functional_extensionality.
Qed.
Canonical cx_choiceMixin : choiceMixin cx := Choice.Mixin cx_pick_some cx_pick_ex cx_pick_ext.
Canonical cx_choiceType := Eval hnf in ChoiceType cx cx_choiceMixin.

Lemma cx_ext (x y : cx) : re x = re y -> im x = im y -> x = y.
Proof. by destruct x, y; simpl => -> ->. Qed.

Definition cx_zero := Cx 0%re 0%re.
Definition cx_one := Cx 1%re 0%re.
Definition cx_add (x y : cx) := Cx (re x + re y)%re (im x + im y)%re.
Definition cx_opp (x : cx) := Cx (- re x)%re (- im x)%re.
Definition cx_mul (x y : cx) :=
  Cx (re x * re y - im x * im y)%re (re x * im y + im x * re y)%re.
(** std::norm: the squared modulus *)
Definition norm2 (x : cx) : R := (re x * re x + im x * im x)%re.
Definition cx_inv (x : cx) := Cx (re x / norm2 x)%re (- im x / norm2 x)%re.

Ltac cxring := intros; apply: cx_ext; rewrite /=; ring.

Lemma cx_addA : associative cx_add. Proof. move=> x y z; cxring. Qed.
Lemma cx_addC : commutative cx_add. Proof. move=> x y; cxring. Qed.
Lemma cx_add0 : left_id cx_zero cx_add. Proof. move=> x; cxring. Qed.
Lemma cx_addN : left_inverse cx_zero cx_opp cx_add. Proof. move=> x; cxring. Qed.
Definition cx_zmodMixin := ZmodMixin cx_addA cx_addC cx_add0 cx_addN.
Canonical cx_zmodType := Eval hnf in ZmodType cx cx_zmodMixin.
Lemma cx_mulA : associative cx_mul. Proof. move=> x y z; cxring. Qed.
Lemma cx_mulC : commutative cx_mul. Proof. move=> x y; cxring. Qed.
Lemma cx_mul1 : left_id cx_one cx_mul. Proof. move=> x; cxring. Qed.
Lemma cx_mulD : left_distributive cx_mul cx_add. Proof. move=> x y z; cxring. Qed.
Lemma cx_1n0 : cx_one != cx_zero. Proof. by apply/eqP => [[]]; lra. Qed.
Definition cx_ringMixin := ComRingMixin cx_mulA cx_mulC cx_mul1 cx_mulD cx_1n0.
Canonical cx_ringType := Eval hnf in RingType cx cx_ringMixin.
Canonical cx_comRingType := Eval hnf in ComRingType cx cx_mulC.

Lemma norm2_ge0 x : (0 <= norm2 x)%re.
Proof. rewrite /norm2; nra. Qed.
Lemma norm2_eq0 x : norm2 x = 0%re -> x = cx_zero.
Proof. rewrite /norm2 => H; apply: cx_ext => /=; nra. Qed.
Lemma norm2_neq0 x : x <> cx_zero -> norm2 x <> 0%re.
Proof. by move=> H /norm2_eq0. Qed.

Lemma cx_mulV : GRing.Field.axiom cx_inv.
Proof.
  move=> x /eqP /norm2_neq0 H; rewrite /GRing.mul /= /cx_mul /cx_inv /=.
  rewrite /norm2 in H *; apply: cx_ext => /=; by field.
Qed.
Lemma cx_inv0 : cx_inv 0%R = 0%R.
Proof. apply: cx_ext; rewrite /= /norm2 /= /Rdiv; ring. Qed.
Definition cx_fieldMixin := FieldMixin cx_mulV cx_inv0.
Definition cx_unitRingMixin := FieldUnitMixin cx_mulV cx_inv0.
Canonical cx_unitRingType := Eval hnf in UnitRingType cx cx_unitRingMixin.
Canonical cx_comUnitRingType := Eval hnf in [comUnitRingType of cx].
Definition cx_idomainMixin := FieldIdomainMixin cx_fieldMixin.
Canonical cx_idomainType := Eval hnf in IdomainType cx cx_idomainMixin.
Canonical cx_fieldType := Eval hnf in FieldType cx cx_fieldMixin.

Local Open Scope ring_scope.

Lemma reD (x y : cx) : re (x + y) = (re x + re y)%re. Proof. by []. Qed.
Lemma imD (x y : cx) : im (x + y) = (im x + im y)%re. Proof. by []. Qed.
Lemma reN (x : cx) : re (- x) = (- re x)%re. Proof. by []. Qed.
Lemma imN (x : cx) : im (- x) = (- im x)%re. Proof. by []. Qed.
Lemma reB (x y : cx) : re (x - y) = (re x - re y)%re. Proof. by []. Qed.
Lemma imB (x y : cx) : im (x - y) = (im x - im y)%re. Proof. by []. Qed.
Lemma reM (x y : cx) : re (x * y) = (re x * re y - im x * im y)%re. Proof. by []. Qed.
Lemma imM (x y : cx) : im (x * y) = (re x * im y + im x * re y)%re. Proof. by []. Qed.
Lemma re0 : re (0 : cx) = 0%re. Proof. by []. Qed.
Lemma im0 : im (0 : cx) = 0%re. Proof. by []. Qed.
Lemma re1 : re (1 : cx) = 1%re. Proof. by []. Qed.
Lemma im1 : im (1 : cx) = 0%re. Proof. by []. Qed.
Definition cxE := (reB, imB, reD, imD, reN, imN, reM, imM, re0, im0, re1, im1).

(** real number, imaginary unit, exponential of an imaginary number, conjugate *)
Definition rcx (x : R) : cx := Cx x 0%re.
Definition ci : cx := Cx 0%re 1%re.
Definition cis (t : R) : cx := Cx (cos t) (sin t).
Definition conj (x : cx) : cx := Cx (re x) (- im x)%re.

Lemma conj_is_rmorphism : rmorphism conj.
Proof.
  split; first by move=> x y; apply: cx_ext; rewrite /= ?cxE /=; ring.
  split; last by apply: cx_ext; rewrite /= ?cxE /=; ring.
  by move=> x y; apply: cx_ext; rewrite /= ?cxE /=; ring.
Qed.
Canonical conj_additive := Additive conj_is_rmorphism.
Canonical conj_rmorphism := RMorphism conj_is_rmorphism.

Lemma rcx_is_rmorphism (x y : R) :
  rcx (x - y)%re = rcx x - rcx y /\ rcx (x * y)%re = rcx x * rcx y /\ rcx 1%re = 1.
Proof. by split; [|split]; apply: cx_ext; rewrite /= ?cxE /=; ring. Qed.
Lemma rcxM x y : rcx (x * y)%re = rcx x * rcx y.
Proof. apply: cx_ext; rewrite /= ?cxE /=; ring. Qed.
Lemma rcxD x y : rcx (x + y)%re = rcx x + rcx y.
Proof. apply: cx_ext; rewrite /= ?cxE /=; ring. Qed.
Lemma rcx0 : rcx 0%re = 0. Proof. by []. Qed.
Lemma rcx1 : rcx 1%re = 1. Proof. by []. Qed.
Lemma conj_rcx x : conj (rcx x) = rcx x.
Proof. apply: cx_ext; rewrite /=; ring. Qed.
Lemma conjK : involutive conj.
Proof. move=> x; apply: cx_ext; rewrite /=; ring. Qed.

Lemma norm2M x y : norm2 (x * y) = (norm2 x * norm2 y)%re.
Proof. rewrite /norm2 !cxE; ring. Qed.
Lemma norm2_conj x : norm2 (conj x) = norm2 x.
Proof. rewrite /norm2 /=; ring. Qed.
Lemma norm2_cis t : norm2 (cis t) = 1%re.
Proof. rewrite /norm2 /=; move: (sin2_cos2 t); rewrite /Rsqr => H; lra. Qed.
Lemma mul_conj x : x * conj x = rcx (norm2 x).
Proof. apply: cx_ext; rewrite ?cxE /= /norm2; ring. Qed.
Lemma norm2N x : norm2 (- x) = norm2 x.
Proof. rewrite /norm2 !cxE; ring. Qed.
Lemma norm2_rcx x : norm2 (rcx x) = (x * x)%re.
Proof. rewrite /norm2 /=; ring. Qed.
Lemma norm20 : norm2 0 = 0%re.
Proof. rewrite /norm2 !cxE; ring. Qed.
Lemma norm21 : norm2 1 = 1%re.
Proof. rewrite /norm2 !cxE; ring. Qed.
Lemma cisD a b : cis (a + b)%re = cis a * cis b.
Proof. apply: cx_ext; rewrite ?cxE /= ?cos_plus ?sin_plus; ring. Qed.
Lemma cis0 : cis 0%re = 1.
Proof. apply: cx_ext; rewrite /= ?cos_0 ?sin_0 ?cxE; ring. Qed.
Lemma conj_cis t : conj (cis t) = cis (- t)%re.
Proof. apply: cx_ext; rewrite /= ?cos_neg ?sin_neg; ring. Qed.

(** Finite sums of reals, written with [Rplus], as mathcomp big operators. *)
Lemma RplusA : associative Rplus. Proof. by move=> x y z; ring. Qed.
Lemma RplusC : commutative Rplus. Proof. by move=> x y; ring. Qed.
Lemma Rplus0x : left_id 0%re Rplus. Proof. by move=> x; ring. Qed.
Lemma Rplusx0 : right_id 0%re Rplus. Proof. by move=> x; ring. Qed.
Canonical Rplus_monoid := Monoid.Law RplusA Rplus0x Rplusx0.
Canonical Rplus_comoid := Monoid.ComLaw RplusC.
Lemma RmultDl : left_distributive Rmult Rplus. Proof. by move=> x y z; ring. Qed.
Lemma RmultDr : right_distributive Rmult Rplus. Proof. by move=> x y z; ring. Qed.
Lemma Rmult0x : left_zero 0%re Rmult. Proof. by move=> x; ring. Qed.
Lemma Rmultx0 : right_zero 0%re Rmult. Proof. by move=> x; ring. Qed.
Canonical Rmult_muloid := Monoid.MulLaw Rmult0x Rmultx0.
Canonical Rplus_addoid := Monoid.AddLaw RmultDl RmultDr.

Lemma re_sum I (r : seq I) (P : pred I) (F : I -> cx) :
  re (\sum_(i <- r | P i) F i) = \big[Rplus/0%re]_(i <- r | P i) re (F i).
Proof. by rewrite (big_morph re (id1 := 0%re) (op1 := Rplus)). Qed.
Lemma im_sum I (r : seq I) (P : pred I) (F : I -> cx) :
  im (\sum_(i <- r | P i) F i) = \big[Rplus/0%re]_(i <- r | P i) im (F i).
Proof. by rewrite (big_morph im (id1 := 0%re) (op1 := Rplus)). Qed.
Lemma Rsum_ge0 I (r : seq I) (P : pred I) (F : I -> R) :
  (forall i, P i -> (0 <= F i)%re) -> (0 <= \big[Rplus/0%re]_(i <- r | P i) F i)%re.
Proof. move=> H; elim/big_ind: _ => // [|x y]; lra. Qed.
Lemma Rsum_eq0 (I : finType) (F : I -> R) :
  (forall i, (0 <= F i)%re) -> (\big[Rplus/0%re]_i F i = 0)%re -> forall i, F i = 0%re.
Proof.
  move=> H; move=> E i; move: E; rewrite (bigD1 i) //=.
  have := @Rsum_ge0 _ (index_enum I) (fun j => j != i) F (fun j _ => H j).
  move: (H i); lra.
Qed.
Lemma Rsum_le I (r : seq I) (P : pred I) (F G : I -> R) :
  (forall i, P i -> (F i <= G i)%re) ->
  (\big[Rplus/0%re]_(i <- r | P i) F i <= \big[Rplus/0%re]_(i <- r | P i) G i)%re.
Proof. move=> H; elim/big_ind2: _ => // [|x y z t]; lra. Qed.
