(** Rounding errors of the unresolved resonance cross sections. *)
From Coq Require Import String List ZArith Reals Lra Lia Bool Psatz.
From Flocq Require Import Core.Core IEEE754.BinarySingleNaN.
From Verif Require Import Outcome QuantumModel QuantumSpec KinematicsModel ListFacts UnresolvedModel UnresolvedSpec UnresolvedProofs UnresolvedTheorems
  DoubleModel DoubleProofs RoundingModel RoundingProofs ChannelRoundingModel ChannelRoundingProofs FluctuationRoundingModel FluctuationRoundingSpec FluctuationRoundingProofs
  FluctuationLiteralProofs FluctuationRoundingTheorems.
From Verif Require Import FluctuationSpec FluctuationSystem FluctuationRoundingSystem CloseProofs BreitWignerRoundingSpec BreitWignerRoundingProofs
  UnresolvedRoundingModel UnresolvedRoundingSpec.
Import ListNotations.
Open Scope R_scope.

(** * The integrals for slightly different neutron widths *)
Lemma average_le r f g : rule_ok r -> (forall p, In p r -> f (snd p) <= g (snd p)) -> average r f <= average r g.
Proof.
  intros H L. assert (0 <= average r (fun x => g x + - 1 * f x)). { apply average_nonneg; [exact H|]. intros p I. specialize (L p I). lra. }
  rewrite average_plus, average_scale in H0. lra.
Qed.
Lemma average3_le r1 r2 r3 f g : rule_ok r1 -> rule_ok r2 -> rule_ok r3 ->
  (forall a b c, In a r1 -> In b r2 -> In c r3 -> f (snd a) (snd b) (snd c) <= g (snd a) (snd b) (snd c)) -> average3 r1 r2 r3 f <= average3 r1 r2 r3 g.
Proof.
  intros H1 H2 H3 L. unfold average3. apply average_le; [exact H1|]. intros a Ia. apply average_le; [exact H2|]. intros b Ib. apply average_le; [exact H3|]. intros c Ic. apply L; assumption.
Qed.
Section Change.
Variables (G G' Gg Gf Gx : R) (k : nat) (r1 r2 r3 : list (R * R)) (h : R -> R -> R -> R).
Hypotheses (O1 : rule_ok r1) (O2 : rule_ok r2) (O3 : rule_ok r3).
Hypotheses (P1 : 0 < G) (P2 : 0 <= Gg) (P3 : 0 <= Gf) (P4 : 0 <= Gx).
Hypothesis V : G * (1 - u) ^ k <= G' <= G * (1 + u) ^ k.
Hypothesis Ph : forall a b c, 0 < a -> 0 < b -> 0 < c -> 0 < h a b c.
Let J (G : R) : R := average3 r1 r2 r3 (fun a b c => h a b c / UnresolvedSpec.total_width G Gg Gf Gx a b c).
Lemma total_pos g a b c : 0 < g -> 0 < a -> 0 < b -> 0 < c -> 0 < UnresolvedSpec.total_width g Gg Gf Gx a b c.
Proof. intros. unfold UnresolvedSpec.total_width. pose proof (Rmult_lt_0_compat a g). pose proof (Rmult_le_pos b Gf). pose proof (Rmult_le_pos c Gx). lra. Qed.
Lemma changed_pos : 0 < G'.
Proof. pose proof (down_pow k) as [D _]. pose proof (Rmult_lt_0_compat _ _ P1 D). lra. Qed.
Lemma total_changed a b c : 0 < a -> 0 < b -> 0 < c ->
  UnresolvedSpec.total_width G Gg Gf Gx a b c * (1 - u) ^ k <= UnresolvedSpec.total_width G' Gg Gf Gx a b c <= UnresolvedSpec.total_width G Gg Gf Gx a b c * (1 + u) ^ k.
Proof.
  intros A B C. unfold UnresolvedSpec.total_width. pose proof (down_pow k) as D. pose proof (up_pow k) as U. pose proof (Rmult_le_pos b Gf ltac:(lra) P3) as Q1. pose proof (Rmult_le_pos c Gx ltac:(lra) P4) as Q2.
  set (s := Gg + b * Gf + c * Gx). assert (S0 : 0 <= s) by (unfold s; lra).
  assert (s * (1 - u) ^ k <= s * 1) by (apply Rmult_le_compat_l; lra). assert (s * 1 <= s * (1 + u) ^ k) by (apply Rmult_le_compat_l; lra).
  assert (a * (G * (1 - u) ^ k) <= a * G') by (apply Rmult_le_compat_l; lra). assert (a * G' <= a * (G * (1 + u) ^ k)) by (apply Rmult_le_compat_l; lra).
  replace (a * G + Gg + b * Gf + c * Gx) with (a * G + s) by (unfold s; ring). replace (a * G' + Gg + b * Gf + c * Gx) with (a * G' + s) by (unfold s; ring). lra.
Qed.
Lemma integral_changed : J G * (1 - u) ^ (2 * k) <= J G' <= J G * (1 + u) ^ (2 * k).
Proof.
  assert (Q : forall a b c, In a r1 -> In b r2 -> In c r3 -> let t := h (snd a) (snd b) (snd c) / UnresolvedSpec.total_width G Gg Gf Gx (snd a) (snd b) (snd c) in
    t * (1 - u) ^ (2 * k) <= h (snd a) (snd b) (snd c) / UnresolvedSpec.total_width G' Gg Gf Gx (snd a) (snd b) (snd c) <= t * (1 + u) ^ (2 * k)).
  { intros a b c Ia Ib Ic t. destruct (O1 a Ia) as [_ A], (O2 b Ib) as [_ B], (O3 c Ic) as [_ C]. specialize (Ph _ _ _ A B C).
    pose proof (quotient 0 k (h (snd a) (snd b) (snd c)) (UnresolvedSpec.total_width G' Gg Gf Gx (snd a) (snd b) (snd c)) (h (snd a) (snd b) (snd c)) (UnresolvedSpec.total_width G Gg Gf Gx (snd a) (snd b) (snd c)) Ph
      (total_pos _ _ _ _ P1 A B C) Ph (total_pos _ _ _ _ changed_pos A B C) ltac:(cbn [pow]; lra) (total_changed _ _ _ A B C)) as Q. exact Q. }
  unfold J. rewrite (Rmult_comm _ ((1 - u) ^ (2 * k))), (Rmult_comm _ ((1 + u) ^ (2 * k))), <- !average3_scale.
  split; apply average3_le; try assumption; intros a b c Ia Ib Ic; specialize (Q a b c Ia Ib Ic); cbv zeta in Q; lra.
Qed.
Lemma about_changed n x : about n x (J G') -> about (n + 2 * k) x (J G).
Proof.
  intros (F & P & V1 & V2). pose proof integral_changed as [C1 C2]. pose proof (down_pow n) as D. pose proof (up_pow n) as U. pose proof (down_pow (2 * k)) as D'. pose proof (up_pow (2 * k)) as U'.
  split; [exact F|]. split.
  - destruct (Rle_or_lt 0 (J G)) as [H | H]; [exact H|]. exfalso. assert (J G * (1 + u) ^ (2 * k) < 0) by nra. lra.
  - rewrite !pow_add. split; [apply Rle_trans with (2 := V1) | apply Rle_trans with (1 := V2)].
    + replace (J G * ((1 - u) ^ n * (1 - u) ^ (2 * k))) with (J G * (1 - u) ^ (2 * k) * (1 - u) ^ n) by ring. apply Rmult_le_compat_r; lra.
    + replace (J G * ((1 + u) ^ n * (1 + u) ^ (2 * k))) with (J G * (1 + u) ^ (2 * k) * (1 + u) ^ n) by ring. apply Rmult_le_compat_r; lra.
Qed.
End Change.

(** * The integrals are not tiny *)
Definition heavy (r : list (R * R)) : Prop := exists p, In p r /\ / 5 <= fst p /\ 2 / 5 <= snd p <= 2.
Lemma chi2_heavy n : (1 <= n <= 4)%nat -> heavy (chi2_rule n).
Proof.
  intros H. assert (C : (n = 1 \/ n = 2 \/ n = 3 \/ n = 4)%nat) by lia. destruct C as [-> | [-> | [-> | ->]]]; cbn [chi2_rule].
  - exists (2.8440987e-1, 4.3282415e-1). split; [cbn [In]; tauto | cbn [fst snd]; lra].
  - exists (2.1347043e-1, 7.4083443e-1). split; [cbn [In]; tauto | cbn [fst snd]; lra].
  - exists (3.3431475e-1, 1.0160615). split; [cbn [In]; tauto | cbn [fst snd]; lra].
  - exists (3.0156335e-1, 7.4083443e-1). split; [cbn [In]; tauto | cbn [fst snd]; lra].
Qed.
Lemma constant_heavy : heavy constant_rule.
Proof. exists (1, 1). split; [left; reflexivity | cbn [fst snd]; lra]. Qed.
Lemma width_heavy G n : (1 <= n)%nat -> (G <> 0 -> (n <= 4)%nat) -> heavy (width_rule G n).
Proof. intros L H. unfold width_rule. destruct (Req_EM_T G 0) as [_ | N]; [exact constant_heavy | apply chi2_heavy; specialize (H N); lia]. Qed.
Lemma width_ok G n : rule_ok (width_rule G n).
Proof. unfold width_rule. destruct (Req_EM_T G 0); [exact constant_ok | apply chi2_ok]. Qed.
Lemma average_heavy r f m : rule_ok r -> heavy r -> (forall q, 0 < q -> 0 <= f q) -> (forall q, 2 / 5 <= q <= 2 -> m <= f q) -> / 5 * m <= average r f.
Proof.
  intros O (p & I & W & Q) P M. unfold average. apply in_split in I. destruct I as (l1 & l2 & E).
  assert (N : forall l, (forall p, In p l -> In p r) -> 0 <= Rsum (map (fun p => fst p * f (snd p)) l)).
  { intros l S. apply Rsum_map_nonneg. intros x Hx. destruct (O x (S x Hx)) as [A B]. apply Rmult_le_pos; [exact A | apply P, B]. }
  pose proof (N l1) as N1. pose proof (N l2) as N2. rewrite E in *. rewrite map_app, Rsum_app, map_cons, Rsum_cons.
  specialize (N1 ltac:(intros y Hy; apply in_or_app; left; exact Hy)). specialize (N2 ltac:(intros y Hy; apply in_or_app; right; right; exact Hy)).
  specialize (M (snd p) Q). specialize (P (snd p) ltac:(lra)). assert (/ 5 * f (snd p) <= fst p * f (snd p)) by (apply Rmult_le_compat_r; lra). lra.
Qed.
Lemma average3_heavy r1 r2 r3 f m : rule_ok r1 -> rule_ok r2 -> rule_ok r3 -> heavy r1 -> heavy r2 -> heavy r3 -> (forall a b c, 0 < a -> 0 < b -> 0 < c -> 0 <= f a b c) ->
  (forall a b c, 2 / 5 <= a <= 2 -> 2 / 5 <= b <= 2 -> 2 / 5 <= c <= 2 -> m <= f a b c) -> / 125 * m <= average3 r1 r2 r3 f.
Proof.
  intros O1 O2 O3 H1 H2 H3 P M. unfold average3.
  assert (Z : forall r, rule_ok r -> forall f, (forall q, 0 < q -> 0 <= f q) -> 0 <= average r f). { intros r O g Hg. apply average_nonneg; [exact O|]. intros p I. apply Hg, (O p I). }
  replace (/ 125 * m) with (/ 5 * (/ 5 * (/ 5 * m))) by field.
  apply average_heavy; [exact O1 | exact H1 | |].
  { intros a A. apply Z; [exact O2|]. intros b B. apply Z; [exact O3|]. intros c C. apply P; assumption. }
  intros a A. apply average_heavy; [exact O2 | exact H2 | |].
  { intros b B. apply Z; [exact O3|]. intros c C. apply P; lra. }
  intros b B. apply average_heavy; [exact O3 | exact H3 | |].
  { intros c C. apply P; lra. }
  intros c C. apply M; assumption.
Qed.
Lemma integral_heavy G Gg Gf Gx r1 r2 r3 h : rule_ok r1 -> rule_ok r2 -> rule_ok r3 -> heavy r1 -> heavy r2 -> heavy r3 -> 0 < G -> 0 <= Gg -> 0 <= Gf -> 0 <= Gx ->
  (forall a b c, 0 < a -> 0 < b -> 0 < c -> 0 < h a b c) -> (forall a b c, 2 / 5 <= a <= 2 -> 2 / 5 <= b <= 2 -> 2 / 5 <= c <= 2 -> 4 / 25 <= h a b c) ->
  / 2000 / (G + Gg + Gf + Gx) <= average3 r1 r2 r3 (fun a b c => h a b c / UnresolvedSpec.total_width G Gg Gf Gx a b c).
Proof.
  intros O1 O2 O3 H1 H2 H3 P1 P2 P3 P4 Ph Hh. apply Rle_trans with (/ 125 * (2 / 25 / (G + Gg + Gf + Gx))).
  { unfold Rdiv. rewrite <- !Rmult_assoc. apply Rmult_le_compat_r; [left; apply Rinv_0_lt_compat; lra | lra]. }
  apply average3_heavy; try assumption.
  - intros a b c A B C. left. apply Rdiv_lt_0_compat; [apply Ph; assumption | apply total_pos; assumption].
  - intros a b c A B C. specialize (Hh a b c A B C). assert (T : UnresolvedSpec.total_width G Gg Gf Gx a b c <= 2 * (G + Gg + Gf + Gx)).
    { unfold UnresolvedSpec.total_width. assert (a * G <= 2 * G) by (apply Rmult_le_compat_r; lra). assert (b * Gf <= 2 * Gf) by (apply Rmult_le_compat_r; lra). assert (c * Gx <= 2 * Gx) by (apply Rmult_le_compat_r; lra). lra. }
    pose proof (total_pos Gg Gf Gx P2 P3 P4 G a b c P1 ltac:(lra) ltac:(lra) ltac:(lra)) as TP.
    apply Rle_trans with (4 / 25 / (2 * (G + Gg + Gf + Gx))); [right; field; lra|]. unfold Rdiv. apply Rmult_le_compat; [lra | left; apply Rinv_0_lt_compat; lra | exact Hh |].
    apply Rinv_le_contravar; assumption.
Qed.
