(** Rounding errors of the interference of two resonances, and of the sums. *)
From Coq Require Import String List ZArith Reals Lra Lia Bool Psatz.
From Flocq Require Import Core.Core IEEE754.BinarySingleNaN.
From Verif Require Import Outcome UnresolvedModel DoubleModel DoubleSpec DoubleProofs RoundingModel RoundingProofs FluctuationRoundingModel FluctuationRoundingProofs CloseProofs
  BreitWignerRoundingModel BreitWignerRoundingSpec BreitWignerRoundingProofs.
Import ListNotations.
Open Scope R_scope.

Section Two.
Variables (w b : Z) (energy p q s : double).
Hypotheses (Hw : (0 <= w <= 40)%Z) (Hb : (0 <= b <= 80)%Z) (Hc : (w + 2 * b <= 100)%Z).
Hypothesis (UE : usable_energy b energy p q s).
Let x (g : given64) := precompute64 energy p q s (makeResonance64 g).
Let e (g : given64) := neutron_width p g.
Let G (g : given64) := total_width p q g.
Let d (g : given64) := B2R (b_delta (x g)).
Lemma cross_close g g' : usable w b g -> usable w b g' ->
  let v := bw_interference (e g) (G g) (d g) (e g') (G g') (d g') in let m := bw_interference_size (e g) (G g) (d g) (e g') (G g') (d g') in
  close 77 (cross64 (x g) (x g')) v m /\ 0 <= m <= 16 /\ (m = 0 \/ bpow radix2 (-810) <= m).
Proof.
  intros U U' v m. set (c := (w + 2 * b)%Z) in *.
  pose proof (elastic_near w b energy p q s g Hw Hb U UE) as E. pose proof (elastic_near w b energy p q s g' Hw Hb U' UE) as E'.
  pose proof (total_near w b energy p q s g Hw Hb U UE) as T. pose proof (total_near w b energy p q s g' Hw Hb U' UE) as T'.
  pose proof (delta_close w b energy p q s g Hw Hb U UE) as (F & _ & L & H). pose proof (delta_close w b energy p q s g' Hw Hb U' UE) as (F' & _ & L' & H').
  pose proof (denominator_near w b energy p q s g Hw Hb U UE) as D. pose proof (denominator_near w b energy p q s g' Hw Hb U' UE) as D'.
  pose proof (lorentz_pos w b energy p q s g Hw Hb U UE) as P. pose proof (lorentz_pos w b energy p q s g' Hw Hb U' UE) as P'.
  pose proof (width_le w b energy p q s g Hw Hb U UE) as W. pose proof (width_le w b energy p q s g' Hw Hb U' UE) as W'.
  destruct (bounds energy p q s g) as [Q1 Q2]. destruct (bounds energy p q s g') as [Q1' Q2'].
  set (hd := Z.max _ _) in D, D'. assert (Hd : (0 <= hd <= 203)%Z) by (unfold hd; fold c; lia). clearbody hd. set (h := Z.max 40 _) in H, H'. assert (Hh : (40 <= h <= 98)%Z) by (unfold h; lia). clearbody h.
  fold c in E, E', T, T', D, D'. fold (x g) in E, T, F, L, H, D. fold (x g') in E', T', F', L', H', D'. fold (x g) in P, Q1, Q2. fold (x g') in P', Q1', Q2'.
  fold (e g) in E, W. fold (e g') in E', W'. fold (G g) in T, D, P, W, Q1, Q2. fold (G g') in T', D', P', W', Q1', Q2'. fold (d g) in D, P, Q1, Q2, L, H. fold (d g') in D', P', Q1', Q2', L', H'.
  assert (Hc0 : (0 <= c <= 100)%Z) by lia.
  unfold cross64. set (y := x g) in *. set (y' := x g') in *.
  pose proof (near0_mult _ _ _ _ _ _ _ _ _ _ (or_intror (near_Z 2 ltac:(lia))) E ltac:(lia) ltac:(lia) ltac:(lia)) as H1.
  pose proof (near0_mult _ _ _ _ _ _ _ _ _ _ H1 E' ltac:(lia) ltac:(lia) ltac:(lia)) as H2. cbn [Nat.add] in H2.
  assert (C1 : close 2 (b_delta y * b_delta y')%D (d g * d g') (Rabs (d g) * Rabs (d g'))).
  { apply (close_mult 0 0 _ _ _ _ _ _ (close_exact _ F) (close_exact _ F')); [|apply few4; lia]. apply (sized_of (-188) 202); [lia | lia |]. change (B2R (b_delta y)) with (d g). change (B2R (b_delta y')) with (d g').
    destruct L as [Z|L]; [left; rewrite Z, Rabs_R0; ring|]. destruct L' as [Z|L']; [left; rewrite Z, Rabs_R0; ring|]. right. split.
    - change (-188)%Z with (-94 + -94)%Z. rewrite bpow_plus. apply Rmult_le_compat; try apply bpow_ge_0; assumption.
    - apply Rle_trans with (bpow radix2 (3 + h + (3 + h))); [|apply bpow_le; lia]. rewrite (bpow_plus radix2 (3 + h)). apply Rmult_le_compat; try apply Rabs_pos; assumption. }
  pose proof (near_mult _ _ _ _ _ _ _ _ _ _ quarter_near T ltac:(lia) ltac:(lia) ltac:(lia)) as H3.
  pose proof (near_mult _ _ _ _ _ _ _ _ _ _ H3 T' ltac:(lia) ltac:(lia) ltac:(lia)) as H4. cbn [Nat.add] in H4.
  set (M := Rabs (d g) * Rabs (d g') + / 4 * G g * G g'). pose proof (Rabs_pos (d g)) as A. pose proof (Rabs_pos (d g')) as A'.
  assert (MH : M <= bpow radix2 205).
  { apply Rle_trans with (2 * bpow radix2 204); [|change 205%Z with (1 + 204)%Z; rewrite bpow_plus; change (bpow radix2 1) with 2; lra]. unfold M.
    assert (Rabs (d g) * Rabs (d g') <= bpow radix2 204). { apply Rle_trans with (bpow radix2 (3 + h + (3 + h))); [|apply bpow_le; lia]. rewrite (bpow_plus radix2 (3 + h)). apply Rmult_le_compat; assumption. }
    assert (/ 4 * G g * G g' <= bpow radix2 204). { apply near_le_hi in H4. apply Rle_trans with (1 := H4). apply bpow_le. lia. } lra. }
  assert (ML : bpow radix2 (-202) <= M).
  { apply Rle_trans with (/ 4 * G g * G g'); [|unfold M; nra]. destruct H4 as (_ & [H4 _] & _). apply Rle_trans with (2 := H4). apply bpow_le. lia. }
  assert (C2 : close 13 (b_delta y * b_delta y' + quarter64 * b_total y * b_total y')%D (d g * d g' + / 4 * G g * G g') M).
  { apply (close_plus 2 12); [exact C1 | apply (near_close _ _ _ _ _ H4) | apply few; lia |]. fold M. apply Rle_trans with (1 := MH), bpow_le. lia. }
  set (N := 2 * e g * e g' * M). pose proof (near0_le _ _ _ _ _ H2) as [K0 K1]. pose proof (bpow_gt_0 radix2 (-202)) as PB.
  assert (NL : N = 0 \/ bpow radix2 (-402) <= N).
  { destruct (Req_dec (2 * e g * e g') 0) as [Z|NZ]; [left; unfold N; rewrite Z; ring | right]. pose proof (near0_floor _ _ _ _ _ H2 NZ) as Fl. apply Rle_trans with (bpow radix2 (-200 + -202)); [apply bpow_le; lia|]. rewrite bpow_plus.
    unfold N. apply Rmult_le_compat; try apply bpow_ge_0; [|exact ML]. apply Rle_trans with (2 := Fl). apply bpow_le. lia. }
  assert (N0 : 0 <= N) by (unfold N; apply Rmult_le_pos; lra).
  assert (NH : N <= bpow radix2 425). { apply Rle_trans with (bpow radix2 (220 + 205)); [|apply bpow_le; lia]. rewrite bpow_plus. apply Rmult_le_compat; try lra. apply Rle_trans with (1 := K1). apply bpow_le. lia. }
  assert (C3 : close 21 (#2 * b_elastic y * b_elastic y' * (b_delta y * b_delta y' + quarter64 * b_total y * b_total y'))%D (2 * e g * e g' * (d g * d g' + / 4 * G g * G g')) N).
  { apply (close_mult 6 13 _ _ _ _ _ _ (near0_close _ _ _ _ _ H2) C2); [|apply few4; lia]. apply (sized_of (-402) 425); [lia | lia |]. destruct NL as [Z|NL]; [left; exact Z | right; split; assumption]. }
  assert (I : forall g0 : given64, near 13 (- 2 * c - 2) hd (b_denominator (x g0)) (lorentz (G g0) (d g0)) -> bpow radix2 (-203) <= / lorentz (G g0) (d g0) <= bpow radix2 202).
  { intros g0 (_ & [B1 B2] & _). pose proof (bpow_gt_0 radix2 (- 2 * c - 2)). split.
    - apply Rle_trans with (bpow radix2 (- hd)); [apply bpow_le; lia|]. rewrite bpow_opp. apply Rinv_le; lra.
    - apply Rle_trans with (bpow radix2 (- (- 2 * c - 2))); [rewrite bpow_opp; apply Rinv_le; lra | apply bpow_le; lia]. }
  pose proof (I g D) as I1. pose proof (I g' D') as I2. clear I.
  assert (S1 : N / lorentz (G g) (d g) = 0 \/ bpow radix2 (-605) <= N / lorentz (G g) (d g) <= bpow radix2 627).
  { destruct NL as [Z|NL]; [left; rewrite Z; field; lra | right]. unfold Rdiv. change (-605)%Z with (-402 + -203)%Z. change 627%Z with (425 + 202)%Z. rewrite !bpow_plus. pose proof (bpow_ge_0 radix2 (-402)). pose proof (bpow_ge_0 radix2 (-203)). split; apply Rmult_le_compat; lra. }
  pose proof (close_div 21 13 _ _ _ _ _ _ _ C3 D ltac:(apply (sized_of (-605) 627); [lia | lia | exact S1]) ltac:(lia)) as C4.
  assert (R : 0 <= N / lorentz (G g) (d g) / lorentz (G g') (d g') <= 16).
  { split; [unfold Rdiv; apply Rmult_le_pos; [apply Rmult_le_pos; [exact N0|]|]; left; apply Rinv_0_lt_compat; assumption|].
    apply (Rmult_le_reg_r (lorentz (G g) (d g) * lorentz (G g') (d g'))); [apply Rmult_lt_0_compat; assumption|].
    replace (N / lorentz (G g) (d g) / lorentz (G g') (d g') * (lorentz (G g) (d g) * lorentz (G g') (d g'))) with N by (field; lra).
    set (l := lorentz (G g) (d g)) in *. set (l' := lorentz (G g') (d g')) in *.
    assert (X1 : (G g * Rabs (d g)) * (G g' * Rabs (d g')) <= l * l') by (apply Rmult_le_compat; try assumption; apply Rmult_le_pos; lra).
    assert (X2 : (G g * G g) * (G g' * G g') <= (4 * l) * (4 * l')) by (apply Rmult_le_compat; try assumption; apply Rle_0_sqr).
    assert (X3 : 2 * e g * e g' <= 2 * (G g * G g')) by (rewrite Rmult_assoc; apply Rmult_le_compat_l; [lra|]; apply Rmult_le_compat; lra).
    apply Rle_trans with (2 * (G g * G g') * M); [apply Rmult_le_compat_r; lra|]. unfold M. nra. }
  assert (S2 : N / lorentz (G g) (d g) / lorentz (G g') (d g') = 0 \/ bpow radix2 (-808) <= N / lorentz (G g) (d g) / lorentz (G g') (d g')).
  { destruct S1 as [Z|S1]; [left; rewrite Z; field; lra | right]. unfold Rdiv at 1. change (-808)%Z with (-605 + -203)%Z. rewrite bpow_plus. apply Rmult_le_compat; try apply bpow_ge_0; lra. }
  split; [|split; [exact R|]].
  - apply (close_div 49 13 _ _ _ _ _ _ _ C4 D'); [|lia]. apply (sized_of (-808) 4); [lia | lia |]. change (bpow radix2 4) with 16. destruct S2 as [S2|S2]; [left; exact S2 | right; split; [exact S2 | apply R]].
  - destruct S2 as [S2|S2]; [left; exact S2 | right]. apply Rle_trans with (2 := S2). apply bpow_le. lia.
Qed.
End Two.
