(** One level of the Reich-Moore formalism is one level of the Breit-Wigner formalism. *)
From Coq Require Import Reals Lra.
From mathcomp Require Import all_ssreflect all_algebra.
From Verif Require Import Cplx RMatrixModel RMatrixSpec RMatrixProofs RMatrixCodeProofs RMatrixObservableProofs
  KMatrixModel KMatrixSpec KMatrixProofs KMatrixMore SingleLevelSpec SingleLevelProofs BreitWignerSpec.
Set Implicit Arguments.
Unset Strict Implicit.
Unset Printing Implicit Defensive.
Import GRing.Theory.
Local Open Scope ring_scope.

Section Level.
Variables (E P phi Er gn fa fb gc : R).
Hypotheses (HP : (0 < P)%re) (reg : Er <> E \/ gc <> 0%re).
Let r := Resonance Er [:: gn; fa; fb] gc.
Let vs := three_channels P phi.
Definition level_widths : level :=
  let n := (2 * P * (gn * gn))%re in let c := (2 * (gc * gc))%re in let f := (2 * (fa * fa) + 2 * (fb * fb))%re in
  Level Er n c f (n + c + f).
Let v := level_widths.

Lemma one_regular : regular E [:: r].
Proof. by move=> x [<-|[]]. Qed.
Lemma one_RL : is_RL ShiftFactor E [:: r] vs (RL3 E P phi [:: r]).
Proof.
  have Hu := spec_unit E [:: r] (physical3 phi HP); split; first exact: Hu.
  by rewrite /RL3 mulKVmx.
Qed.
Lemma one_full : full 3 r vs = w_T v :> R.
Proof.
  rewrite /full (_ : \big[Rplus/0%re]_(i < 3) partial r vs i = (2 * P * (gn * gn) + (2 * (fa * fa) + 2 * (fb * fb)))%re).
    by rewrite /eliminated /v /=; ring.
  by rewrite !big_ord_recl big_ord0 /partial /open_width /width /isclosed /val_of /=; ring.
Qed.
Lemma one_distance : distance 3 ShiftFactor E r vs = (E - Er)%re.
Proof.
  rewrite /distance /shifted (_ : \big[Rplus/0%re]_(i < 3) _ = 0%re); first by rewrite /=; ring.
  by rewrite !big_ord_recl big_ord0; ring.
Qed.
Lemma one_resonant : resonant 3 ShiftFactor E r vs = norm2 (pole E v).
Proof. by rewrite /resonant one_full one_distance /norm2 /=; field. Qed.
Lemma one_pos i : (0 <= v_P (@val_of 3 vs i))%re.
Proof. exact: (proj1 (physical3 phi HP i)). Qed.
Lemma one_scatter : J_elastic E P phi [:: r] = scattered (collision (cis (- (2 * phi))%re) E [:: v]).
Proof.
  rewrite /J_elastic ord0_o0 /U3 U_entry eqxx omega3 /=.
  have -> (x : cx) : cis (- phi)%re * x * cis (- phi)%re = cis (- (2 * phi))%re * x.
    have -> : (- (2 * phi) = - phi + - phi)%re by ring.
    by rewrite cisD mulrAC.
  have E1 := level_scatter one_RL one_regular one_pos o0.
  have T := level_T one_RL one_regular o0 o0.
  rewrite T; rewrite /scattered /collision /=; congr norm2; congr (1 - _ * (1 + _)).
  have Z := level_z 3 ShiftFactor E r vs; rewrite {}Z one_full one_distance.
  have -> : Cx (- (E - Er))%re (- (w_T v / 2))%re = pole E v by rewrite /pole; congr Cx; rewrite /=; ring.
  have Q := sqrt_sqrt P (Rlt_le _ _ HP).
  rewrite /cdiv; change (cx_inv (pole E v)) with (pole E v)^-1; move: (pole E v)^-1 => y.
  rewrite /open_width /width /isclosed /val_of /=.
  have -> : (sqrt P * gn * (sqrt P * gn) = P * (gn * gn))%re by rewrite -[in RHS]Q; ring.
  by apply: cx_ext; rewrite !cxE /=; ring.
Qed.
Lemma one_transfer j : j != o0 -> norm2 (U3 E P phi [:: r] o0 j) = (w_n v * (2 * (nth 0%re (rs_widths r) j * nth 0%re (rs_widths r) j)) / norm2 (pole E v))%re.
Proof.
  move=> jn; rewrite /U3 U_entry (negbTE jn) add0r !omega3 eqxx (negbTE jn) mulr1 norm2M norm2_cis Rmult_1_l.
  rewrite (level_transfer one_RL one_regular one_pos) /transfer one_resonant; congr (_ * _ / _)%re.
  by rewrite /partial /open_width /isclosed /width /val_of /=; move: jn; case: (ord3 j) => [->|[->|->]] //= _; ring.
Qed.
Lemma one_fission : J_fission E P phi [:: r] = reaction E (w_f v) v.
Proof. by rewrite /J_fission ord0_o0 inord1_o1 inord2_o2 !one_transfer // /reaction /=; rewrite /Rdiv; ring. Qed.
Lemma one_capture : J_capture E P phi [:: r] = reaction E (w_c v) v.
Proof.
  rewrite /J_capture ord0_o0.
  have := level_capture one_RL one_regular one_pos o0; rewrite /captured one_resonant => H.
  transitivity (partial r vs o0 * eliminated r / norm2 (pole E v))%re; last by rewrite /reaction /eliminated /partial /open_width /isclosed /width /val_of.
  rewrite -H; congr (1 - _)%re; apply: eq_bigr => j _.
  rewrite /U3 U_entry !omega3 /= norm2M [in X in (X * _)%re]norm2M norm2_cis Rmult_1_l; by case: (j == o0); rewrite ?norm2_cis ?norm21 Rmult_1_r.
Qed.
End Level.
