(** The Coulomb wave functions: straight-line code in exact arithmetic is the same code on real
    numbers as long as nothing is divided by zero and no root or logarithm is taken of what has
    none. *)
From Coq Require Import ZArith Reals Bool Lia Lra.
From Verif Require Import ListFacts CoulombWaveModel CoulombExactModel CoulombExactProofs.
Open Scope R_scope.

(** The same operations without infinities and NaN *)
Definition real_dec (m e : Z) : R := match e with Z0 => IZR m | Zpos _ => IZR (m * 10 ^ e) | Zneg p => IZR m / IZR (10 ^ Zpos p) end.
Definition real : arithmetic :=
  {| num := R; dec := real_dec; add := Rplus; sub := Rminus; mul := Rmult; div := Rdiv; opp := Ropp; fabs := Rabs; fmax := Rmax;
     fsqrt := sqrt; fexp := exp; flog := ln; fsin := sin; fcos := cos; fasin := asin; fatan := atan; fpow := Rpower;
     lt := Rltb; le := Rleb; eqb := Reqb; trunc := fun a => Some (Rtrunc a) |}.
Definition lifted (p : R * R) : pair_of exact := (Fin (fst p), Fin (snd p)).

Lemma add_lift X Y x y : X = Fin x -> Y = Fin y -> ext_add X Y = Fin (x + y). Proof. intros -> ->. reflexivity. Qed.
Lemma sub_lift X Y x y : X = Fin x -> Y = Fin y -> ext_sub X Y = Fin (x - y). Proof. intros -> ->. reflexivity. Qed.
Lemma mul_lift X Y x y : X = Fin x -> Y = Fin y -> ext_mul X Y = Fin (x * y). Proof. intros -> ->. reflexivity. Qed.
Lemma opp_lift X x : X = Fin x -> ext_opp X = Fin (- x). Proof. intros ->. reflexivity. Qed.
Lemma exp_lift X x : X = Fin x -> ext_exp X = Fin (exp x). Proof. intros ->. reflexivity. Qed.
Lemma finite_lift f X x : X = Fin x -> finite f X = Fin (f x). Proof. intros ->. reflexivity. Qed.
Lemma div_lift X Y x y : X = Fin x -> Y = Fin y -> y <> 0 -> ext_div X Y = Fin (x / y). Proof. intros -> -> H. apply div_Fin. exact H. Qed.
Lemma sqrt_lift X x : X = Fin x -> 0 <= x -> ext_sqrt X = Fin (sqrt x). Proof. intros -> H. apply sqrt_Fin. exact H. Qed.
Lemma log_lift X x : X = Fin x -> 0 < x -> ext_log X = Fin (ln x). Proof. intros -> H. cbn [ext_log]. rewrite Rltb_true by exact H. reflexivity. Qed.
Lemma asin_lift X x : X = Fin x -> Rabs x <= 1 -> ext_asin X = Fin (asin x). Proof. intros -> H. cbn [ext_asin]. rewrite Rleb_true by exact H. reflexivity. Qed.
Lemma pow_lift X Y x y : X = Fin x -> Y = Fin y -> 0 < x -> ext_pow X Y = Fin (Rpower x y). Proof. intros -> -> H. cbn [ext_pow]. rewrite Rltb_true by exact H. reflexivity. Qed.
Lemma dec_lift m e : ext_dec m e = Fin (real_dec m e). Proof. destruct e; reflexivity. Qed.

Lemma half_lift : @PI_2 exact = Fin (@PI_2 real). Proof. reflexivity. Qed.
Lemma quarter_lift : @PI_4 exact = Fin (@PI_4 real). Proof. reflexivity. Qed.

Ltac norm := cbn [exact add sub mul div opp fabs fmax fsqrt fexp flog fsin fcos fasin fatan fpow dec lt le eqb].
Ltac lift := lazymatch goal with
  | |- ext_add _ _ = _ => eapply add_lift; [lift | lift]
  | |- ext_sub _ _ = _ => eapply sub_lift; [lift | lift]
  | |- ext_mul _ _ = _ => eapply mul_lift; [lift | lift]
  | |- ext_opp _ = _ => eapply opp_lift; lift
  | |- ext_exp _ = _ => eapply exp_lift; lift
  | |- finite _ _ = _ => eapply finite_lift; lift
  | |- ext_div _ _ = _ => eapply div_lift; [lift | lift |]
  | |- ext_sqrt _ = _ => eapply sqrt_lift; [lift |]
  | |- ext_log _ = _ => eapply log_lift; [lift |]
  | |- ext_asin _ = _ => eapply asin_lift; [lift |]
  | |- ext_pow _ _ = _ => eapply pow_lift; [lift | lift |]
  | |- ext_dec ?m ?e = _ => exact (dec_lift m e)
  | |- @PI_2 _ = _ => exact half_lift
  | |- @PI_4 _ = _ => exact quarter_lift
  | |- Fin ?x = _ => exact (eq_refl (Fin x))
  end.
(** One let: its value, called [name], by the tactic [tac] for the side conditions *)
Ltac bind_let name tac := lazymatch goal with
  | |- (let x := ?E in @?B x) = ?rhs =>
      let v := fresh "v" in
      eassert (v : E = Fin _) by (norm; lift; tac);
      lazymatch type of v with _ = Fin ?e => pose (name := e); change (B E = rhs); rewrite v; change e with name; clear v; cbv beta end
  end.
