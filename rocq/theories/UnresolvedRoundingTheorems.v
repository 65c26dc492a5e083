(** Rounding errors of the unresolved resonance cross sections: the results against the quadrature
    rules. *)
From Coq Require Import String List ZArith Reals Lra Lia Bool Psatz.
From Flocq Require Import Core.Core IEEE754.BinarySingleNaN.
From Verif Require Import Outcome QuantumModel QuantumSpec KinematicsModel ListFacts UnresolvedModel UnresolvedSpec UnresolvedProofs UnresolvedTheorems
  DoubleModel DoubleProofs RoundingModel RoundingProofs ChannelRoundingModel ChannelRoundingProofs FluctuationRoundingModel FluctuationRoundingSpec FluctuationRoundingProofs
  FluctuationLiteralProofs FluctuationRoundingTheorems.
From Verif Require Import FluctuationSpec FluctuationSystem FluctuationRoundingSystem CloseProofs BreitWignerRoundingSpec BreitWignerRoundingProofs
  UnresolvedRoundingModel UnresolvedRoundingSpec UnresolvedRoundingProofs.
From Verif Require FluctuationProofs.
Import ListNotations.
Open Scope R_scope.

Definition rng (lo hi : Z) (r : R) : Prop := bpow radix2 lo <= r <= bpow radix2 hi.
Lemma rng_pos lo hi r : rng lo hi r -> 0 < r.
Proof. intros [A _]. pose proof (bpow_gt_0 radix2 lo). lra. Qed.
Lemma rng_mult lo hi lo' hi' r s : rng lo hi r -> rng lo' hi' s -> rng (lo + lo') (hi + hi') (r * s).
Proof.
  intros [A B] [C D]. pose proof (bpow_gt_0 radix2 lo). pose proof (bpow_gt_0 radix2 lo'). split; rewrite bpow_plus; apply Rmult_le_compat; lra.
Qed.
Lemma rng_zero_mult lo hi lo' hi' r s : rng lo hi r -> s = 0 \/ rng lo' hi' s -> r * s = 0 \/ rng (lo + lo') (hi + hi') (r * s).
Proof. intros A [-> | B]; [left; ring | right; apply rng_mult; assumption]. Qed.
Lemma rng_weaken lo hi lo' hi' r : rng lo hi r -> (lo' <= lo)%Z -> (hi <= hi')%Z -> rng lo' hi' r.
Proof. intros [A B] L1 L2. split; [apply Rle_trans with (2 := A) | apply Rle_trans with (1 := B)]; apply bpow_le; assumption. Qed.
Lemma rng_sized lo hi r : r = 0 \/ rng lo hi r -> (-900 <= lo)%Z -> (hi <= 900)%Z -> sized r.
Proof. intros. apply (sized_of lo hi); assumption. Qed.
Lemma many n : (n <= 2000)%nat -> INR n * u <= / 4.
Proof. intros H. assert (N : INR n <= 2000) by (replace 2000 with (INR 2000) by (rewrite INR_IZR_INZ; f_equal); apply le_INR; exact H). rewrite u_value. lra. Qed.
Lemma close_times n k lo hi x y r s m m' : close n x r m -> close k y s m' -> m * m' = 0 \/ rng lo hi (m * m') -> (-900 <= lo)%Z -> (hi <= 900)%Z -> (n + k <= 2000)%nat ->
  close (n + k + 2) (mult x y) (r * s) (m * m').
Proof. intros Hx Hy S L H N. apply close_mult; [exact Hx | exact Hy | apply (rng_sized lo hi); assumption | apply many; exact N]. Qed.
Lemma close_error n x r m : (n <= 1070)%nat -> close n x r m -> is_finite x = true /\ Rabs (B2R x - r) <= 1.2e-13 * m.
Proof.
  intros L (F & M & E). split; [exact F|]. apply Rle_trans with (1 := E). pose proof (Rabs_pos r). apply Rmult_le_compat_r; [lra|].
  pose proof (up_many n ltac:(lia)) as B. assert (N : INR n <= 1070) by (replace 1070 with (INR 1070) by (rewrite INR_IZR_INZ; f_equal); apply le_INR; exact L).
  assert (1001 / 1000 * INR n * u <= 1.2e-13); [|lra]. rewrite u_value. lra.
Qed.
Lemma near_rng n lo hi x r : near n lo hi x r -> rng lo hi r.
Proof. intros (_ & B & _). exact B. Qed.

(** Means of functions that are not negative *)
Lemma mean_nonneg m f v : FluctuationProofs.averaging m -> (forall y, 0 < y -> 0 <= f y) -> m f v -> 0 <= v.
Proof. intros A H V. apply (FluctuationProofs.m_le m A (fun _ => 0) f); [exact H | apply (FluctuationProofs.m_const m A) | exact V]. Qed.
Lemma mean3_nonneg Gf Gx dn df dx f v : (1 <= dn)%nat -> (1 <= df)%nat -> (1 <= dx)%nat ->
  (forall x y z, 0 < x -> 0 < y -> 0 < z -> 0 <= f x y z) -> mean3 (FluctuationSpec.mean dn) (mean_of Gf df) (mean_of Gx dx) f v -> 0 <= v.
Proof.
  intros H1 H2 H3 P (g & h & Hg & Hh & Hv). apply (mean_nonneg _ h _ (FluctuationProofs.mean_averaging dn H1)); [|exact Hv].
  intros x Hx. apply (mean_nonneg _ (g x) _ (FluctuationProofs.mean_of_averaging Gf df H2)); [|apply Hh, Hx].
  intros y Hy. apply (mean_nonneg _ (f x y) _ (FluctuationProofs.mean_of_averaging Gx dx H3)); [|apply Hg; assumption].
  intros z Hz. apply P; assumption.
Qed.
Lemma exact_nonneg Gn Gg Gf Gx dn df dx e c f g : (1 <= dn)%nat -> (1 <= df)%nat -> (1 <= dx)%nat -> 0 < Gn -> 0 <= Gg -> 0 <= Gf -> 0 <= Gx ->
  exact Gn Gg Gf Gx dn df dx e c f g -> 0 <= e /\ 0 <= c /\ 0 <= f.
Proof.
  intros H1 H2 H3 P1 P2 P3 P4 (E & C & F & _).
  assert (T : forall x y z, 0 < x -> 0 < y -> 0 < z -> 0 < total Gn Gg Gf Gx x y z) by (intros x y z Hx Hy Hz; exact (total_pos Gg Gf Gx P2 P3 P4 Gn x y z P1 Hx Hy Hz)).
  assert (Q : forall n x y z, 0 < x -> 0 < y -> 0 < z -> 0 <= n -> 0 <= n / total Gn Gg Gf Gx x y z).
  { intros n x y z Hx Hy Hz Hn. apply Rmult_le_pos; [exact Hn | left; apply Rinv_0_lt_compat, T; assumption]. }
  split; [|split]; [revert E | revert C | revert F]; apply mean3_nonneg; try assumption; intros x y z Hx Hy Hz; apply Q; try assumption; repeat apply Rmult_le_pos; lra.
Qed.

Section Cross.
Variables (pi k a sf energy p sinphi : double) (x : parameters64) (d : data nat).
Hypothesis UP : usable_parameters x d.
Hypothesis UC : usable_channel pi k a sf energy p sinphi.
Let w := unresolvedWidths64 energy p k a x d.
Let Gn := average_width k a energy p x d.
Let Gg := B2R (a_capture x).
Let Gf := B2R (a_fission x).
Let Gx := B2R (a_competition x).
Let rn := chi2_rule (d_elastic d).
Let rf := width_rule Gf (Nat.max 1 (d_fission d)).
Let rx := width_rule Gx (Nat.max 1 (d_competition d)).

Lemma width_near : near 7 (-192) 192 (d_elastic w) Gn.
Proof.
  destruct UP as (_ & H1 & _ & _ & _ & H2 & _). destruct UC as (_ & Hk & Ha & _ & He & Hp & _).
  pose proof (near_mult _ _ _ _ _ _ _ _ _ _ (positive_near _ _ Hk) (positive_near _ _ Ha) ltac:(lia) ltac:(lia) ltac:(lia)) as N1.
  assert (N2 : near 0 0 2 (double_of (Z.of_nat (d_elastic d))) (INR (d_elastic d))).
  { destruct (near_Z (Z.of_nat (d_elastic d)) ltac:(lia)) as (F & _ & V). split; [exact F|]. rewrite INR_IZR_INZ. split; [|exact V]. cbn. split; apply IZR_le; lia. }
  pose proof (near_mult _ _ _ _ _ _ _ _ _ _ N2 (positive_near _ _ Hp) ltac:(lia) ltac:(lia) ltac:(lia)) as N3.
  pose proof (near_div _ _ _ _ _ _ _ _ _ _ N3 N1 ltac:(lia) ltac:(lia) ltac:(lia)) as N4.
  pose proof (near_sqrt 0 (-20) 20 energy (B2R energy) (positive_near _ _ He) ltac:(lia) ltac:(lia) ltac:(lia)) as N5.
  pose proof (near_mult _ _ _ _ _ _ _ _ _ _ (positive_near _ _ H1) N5 ltac:(lia) ltac:(lia) ltac:(lia)) as N6.
  pose proof (near_mult _ _ _ _ _ _ _ _ _ _ N6 N4 ltac:(lia) ltac:(lia) ltac:(lia)) as (F & B & V).
  split; [exact F|]. split; [|exact V]. apply (rng_weaken _ _ _ _ _ B); lia.
Qed.
Lemma ordinary_width : ordinary (d_elastic w).
Proof.
  destruct width_near as (F & [B1 B2] & V1 & V2). pose proof (down_2 7 ltac:(lia)) as D. pose proof (up_2 7 ltac:(lia)) as U. pose proof (bpow_gt_0 radix2 (-192)). split; [exact F|]. split.
  - apply Rle_trans with (bpow radix2 (-192 + -1)); [apply bpow_le; lia|]. rewrite bpow_plus. change (bpow radix2 (-1)) with (/ 2). apply Rle_trans with (2 := V1). apply Rmult_le_compat; [apply bpow_ge_0 | lra | exact B1 | exact D].
  - apply Rle_trans with (bpow radix2 (192 + 1)); [|apply bpow_le; lia]. rewrite bpow_plus. change (bpow radix2 1) with 2. apply Rle_trans with (1 := V2). pose proof (up_pow 7). apply Rmult_le_compat; [apply Rle_trans with (2 := B1), bpow_ge_0 | lra | exact B2 | exact U].
Qed.
Lemma zero_ordinary y : zero_or_within 40 y -> ordinary_or_zero y.
Proof. intros [H | [F B]]; [left; exact H | right]. split; [exact F|]. apply (rng_weaken _ _ _ _ _ B); lia. Qed.
Lemma zero_rng y : zero_or_within 40 y -> B2R y = 0 \/ rng (-40) 40 (B2R y).
Proof. intros [[_ E] | [_ B]]; [left; exact E | right; exact B]. Qed.
Lemma zero_nonneg y : zero_or_within 40 y -> 0 <= B2R y <= bpow radix2 40.
Proof. intros H. pose proof (bpow_ge_0 radix2 40). destruct (zero_rng y H) as [-> | B]; [lra|]. pose proof (rng_pos _ _ _ B). destruct B. lra. Qed.

Definition integral_value (y : double) (I : R) : Prop := about 1034 y I /\ rng (-205) 311 I.
Lemma value_of n y G' h : let J G := average3 rn rf rx (fun a b c => h a b c / UnresolvedSpec.total_width G Gg Gf Gx a b c) in
  (n <= 1000)%nat -> partial_sum n y (J G') -> Gn * (1 - u) ^ 7 <= G' <= Gn * (1 + u) ^ 7 ->
  (forall a b c, 0 < a -> 0 < b -> 0 < c -> 0 < h a b c) -> (forall a b c, 2 / 5 <= a <= 2 -> 2 / 5 <= b <= 2 -> 2 / 5 <= c <= 2 -> 4 / 25 <= h a b c) ->
  integral_value y (J Gn).
Proof.
  intros J L [A S] V Ph Hh. destruct UP as (_ & _ & C1 & C2 & C3 & D1 & D2 & D3). pose proof (zero_nonneg _ C1) as [P2 B2]. pose proof (zero_nonneg _ C2) as [P3 B3]. pose proof (zero_nonneg _ C3) as [P4 B4].
  fold Gg in P2, B2. fold Gf in P3, B3. fold Gx in P4, B4. pose proof (near_rng _ _ _ _ _ width_near) as RG. pose proof (rng_pos _ _ _ RG) as P1.
  assert (O1 : rule_ok rn) by apply chi2_ok. assert (O2 : rule_ok rf) by apply width_ok. assert (O3 : rule_ok rx) by apply width_ok.
  split.
  - apply (about_more (20 + n + 2 * 7)); [lia|]. apply (about_changed Gn G' Gg Gf Gx 7 rn rf rx h); assumption.
  - split.
    + apply Rle_trans with (/ 2000 / (Gn + Gg + Gf + Gx)).
      * assert (T : Gn + Gg + Gf + Gx <= bpow radix2 194).
        { replace (bpow radix2 194) with (4 * bpow radix2 192) by (change 4 with (bpow radix2 2); rewrite <- bpow_plus; reflexivity).
          assert (bpow radix2 40 <= bpow radix2 192) by (apply bpow_le; lia). destruct RG as [_ RG]. lra. }
        replace (-205)%Z with (-11 + - (194))%Z by lia. rewrite bpow_plus, bpow_opp. unfold Rdiv. apply Rmult_le_compat; [apply bpow_ge_0 | left; apply Rinv_0_lt_compat, bpow_gt_0 | cbn; lra |].
        apply Rinv_le_contravar; [lra | exact T].
      * apply integral_heavy; try assumption; [apply chi2_heavy; lia | |].
        -- apply width_heavy; [lia|]. intros N. specialize (D2 N). lia.
        -- apply width_heavy; [lia|]. intros N. specialize (D3 N). lia.
    + pose proof (integral_changed Gn G' Gg Gf Gx 7 rn rf rx h O1 O2 O3 P1 P2 P3 P4 V Ph) as [C _]. fold (J Gn) in C. fold (J G') in C. pose proof (down_2 (2 * 7) ltac:(lia)) as D.
      assert (N : INR n <= 1000) by (apply thousand; exact L). pose proof (bpow_gt_0 radix2 300). assert (J G' <= 1000 * bpow radix2 300) by (apply Rle_trans with (1 := S); apply Rmult_le_compat_r; lra).
      assert (Q : J Gn * / 2 <= 1000 * bpow radix2 300).
      { apply Rle_trans with (2 := H0). destruct (Rle_or_lt 0 (J Gn)) as [Z | Z]; [apply Rle_trans with (2 := C); apply Rmult_le_compat_l; lra|]. destruct A as (_ & A & _). fold (J G') in A. lra. }
      replace 311%Z with (11 + 300)%Z by lia. rewrite bpow_plus. change (bpow radix2 11) with 2048. lra.
Qed.

Lemma integrals_values : exists i, fluctuationIntegrals64 w d = Ok i /\
  integral_value (d_elastic i) (I_elastic Gn Gg Gf Gx rn rf rx) /\ integral_value (d_capture i) (I_capture Gn Gg Gf Gx rn rf rx) /\
  (Gf <> 0 -> integral_value (d_fission i) (I_fission Gn Gg Gf Gx rn rf rx)).
Proof.
  destruct UP as (_ & _ & C1 & C2 & C3 & D1 & D2 & D3).
  destruct (integrals_near w d ordinary_width (zero_ordinary _ C1) D1 (or_zero_usable _ _ (zero_ordinary _ C2) D2) (or_zero_usable _ _ (zero_ordinary _ C3) D3))
    as (y & i & n & L & E1 & E2 & S1 & S2 & S3 & S4).
  exists y. split; [exact E1|].
  destruct (integrals_value_spec (mkData (B2R (d_elastic w)) Gg Gf Gx) d D1 (not_zero_real Gf _ D2) (not_zero_real Gx _ D3)) as [(_ & E) | (_ & i' & E & V1 & V2 & V3 & V3' & V4 & V4')].
  { exfalso. change (mkData (B2R (d_elastic w)) (B2R (d_capture w)) (B2R (d_fission w)) (B2R (d_competition w))) with (mkData (B2R (d_elastic w)) Gg Gf Gx) in E2. congruence. }
  change (mkData (B2R (d_elastic w)) (B2R (d_capture w)) (B2R (d_fission w)) (B2R (d_competition w))) with (mkData (B2R (d_elastic w)) Gg Gf Gx) in E2.
  assert (i' = i) by congruence. subst i'. rewrite !width_rule_max in *. fold rn in V1, V2, V3, V4.
  cbn [d_elastic d_capture d_fission d_competition] in V1, V2, V3, V3'. fold rf rx in V1, V2, V3.
  rewrite V1 in S1. rewrite V2 in S2. pose proof width_near as (_ & _ & W).
  split; [|split].
  - apply (value_of n (d_elastic y) (B2R (d_elastic w)) (fun a b c => a * a)); [exact L | exact S1 | exact W | intros; nra | intros; nra].
  - apply (value_of n (d_capture y) (B2R (d_elastic w)) (fun a b c => a)); [exact L | exact S2 | exact W | intros; assumption | intros; lra].
  - intros N. rewrite (V3 N) in S3. apply (value_of n (d_fission y) (B2R (d_elastic w)) (fun a b c => a * b)); [exact L | exact S3 | exact W | intros; nra | intros; nra].
Qed.

Lemma factor_near : near 5 (-80) 82 (#2 * pi * pi / (k * k))%D (2 * B2R pi * B2R pi / (B2R k * B2R k)).
Proof.
  destruct UC as (Hpi & Hk & _). pose proof (near_Z 2 ltac:(lia)) as (F2 & _ & V2).
  assert (N2 : near 0 1 1 (double_of 2) 2) by (split; [exact F2|]; split; [cbn; lra | exact V2]).
  pose proof (near_mult _ _ _ _ _ _ _ _ _ _ N2 (positive_near _ _ Hpi) ltac:(lia) ltac:(lia) ltac:(lia)) as N3.
  pose proof (near_mult _ _ _ _ _ _ _ _ _ _ N3 (positive_near _ _ Hpi) ltac:(lia) ltac:(lia) ltac:(lia)) as N4.
  pose proof (near_mult _ _ _ _ _ _ _ _ _ _ (positive_near _ _ Hk) (positive_near _ _ Hk) ltac:(lia) ltac:(lia) ltac:(lia)) as N5.
  destruct (near_div _ _ _ _ _ _ _ _ _ _ N4 N5 ltac:(lia) ltac:(lia) ltac:(lia)) as (F & B & V).
  split; [exact F|]. split; [|exact V]. apply (rng_weaken _ _ _ _ _ B); lia.
Qed.

Let F := formation64 pi k a sf energy p x d.
Let s2 := B2R sinphi * B2R sinphi.
Lemma sin2_close : close 2 (mult sinphi sinphi) s2 s2 /\ (s2 = 0 \/ rng (-160) 160 s2).
Proof.
  destruct UC as (_ & _ & _ & _ & _ & _ & H). pose proof (close_exact sinphi (within_finite _ _ H)) as C.
  assert (E : Rabs (B2R sinphi) * Rabs (B2R sinphi) = s2) by (rewrite <- Rabs_mult; apply Rabs_pos_eq, Rle_0_sqr).
  assert (Q : s2 = 0 \/ rng (-160) 160 s2).
  { destruct H as [[_ Z] | [_ B]]; [left; unfold s2; rewrite Z; ring | right]. rewrite <- E. apply (rng_weaken (-80 + -80) (80 + 80)); [apply rng_mult; exact B | lia | lia]. }
  split; [|exact Q]. rewrite <- E at 2. apply (close_mult 0 0); [exact C | exact C | rewrite E; apply (rng_sized (-160) 160); [exact Q | lia | lia] | cbn; lra].
Qed.
Lemma reaction_close g y G I : is_finite g = true -> B2R g = G -> G = 0 \/ rng (-40) 40 G -> integral_value y I ->
  close 1054 ((#2 * pi * pi / (k * k) * sf / a_spacing x) * (d_elastic w * g * y))%D (F * (G * I)) (F * (G * I)).
Proof.
  intros Fg Eg Rg [A RI]. destruct UC as (_ & _ & _ & Hsf & _). destruct UP as (HD & _). subst G.
  pose proof (near_mult _ _ _ _ _ _ _ _ _ _ factor_near (positive_near _ _ Hsf) ltac:(lia) ltac:(lia) ltac:(lia)) as N1.
  pose proof (near_div _ _ _ _ _ _ _ _ _ _ N1 (positive_near _ _ HD) ltac:(lia) ltac:(lia) ltac:(lia)) as N2.
  set (T := 2 * B2R pi * B2R pi / (B2R k * B2R k) * B2R sf / B2R (a_spacing x)) in *.
  pose proof width_near as W. pose proof (near_rng _ _ _ _ _ W) as RW. pose proof (near_rng _ _ _ _ _ N2) as RT. pose proof (close_exact g Fg) as Cg.
  rewrite Rabs_pos_eq in Cg by (destruct Rg as [-> | R]; [lra | left; apply (rng_pos _ _ _ R)]).
  pose proof (rng_zero_mult _ _ _ _ _ _ RW Rg) as R1.
  pose proof (close_times _ _ _ _ _ _ _ _ _ _ (near_close _ _ _ _ _ W) Cg R1 ltac:(lia) ltac:(lia) ltac:(lia)) as C1.
  assert (R2 : Gn * B2R g * I = 0 \/ rng (-192 + -40 + -205) (192 + 40 + 311) (Gn * B2R g * I)) by (destruct R1 as [-> | R1]; [left; ring | right; apply rng_mult; assumption]).
  pose proof (close_times _ _ _ _ _ _ _ _ _ _ C1 (about_close _ _ _ A) R2 ltac:(lia) ltac:(lia) ltac:(lia)) as C2.
  pose proof (rng_zero_mult _ _ _ _ _ _ RT R2) as R3.
  pose proof (close_times _ _ _ _ _ _ _ _ _ _ (near_close _ _ _ _ _ N2) C2 R3 ltac:(lia) ltac:(lia) ltac:(lia)) as C3.
  replace (F * (B2R g * I)) with (T * (Gn * B2R g * I)) by (unfold F, formation64, T; fold Gn; ring).
  apply (close_more _ 1054) in C3; [exact C3 | lia].
Qed.
Lemma elastic_close y I : integral_value y I ->
  close 1063 ((#2 * pi * pi / (k * k)) * (sf / a_spacing x * (d_elastic w * minus (d_elastic w * y) (#2 * (sinphi * sinphi)))))%D (F * (Gn * I - 2 * s2)) (F * (Gn * I + 2 * s2)).
Proof.
  intros [A RI]. destruct UC as (_ & _ & _ & Hsf & _). destruct UP as (HD & _).
  pose proof (near_div _ _ _ _ _ _ _ _ _ _ (positive_near _ _ Hsf) (positive_near _ _ HD) ltac:(lia) ltac:(lia) ltac:(lia)) as N1.
  pose proof width_near as W. pose proof (near_rng _ _ _ _ _ W) as RW. pose proof (near_rng _ _ _ _ _ N1) as R1. pose proof factor_near as N0. pose proof (near_rng _ _ _ _ _ N0) as R0.
  pose proof (rng_mult _ _ _ _ _ _ RW RI) as R2.
  pose proof (close_times _ _ _ _ _ _ _ _ _ _ (near_close _ _ _ _ _ W) (about_close _ _ _ A) (or_intror R2) ltac:(lia) ltac:(lia) ltac:(lia)) as C1.
  pose proof (near_Z 2 ltac:(lia)) as (F2 & _ & V2). assert (N2 : near 0 1 1 (double_of 2) 2) by (split; [exact F2|]; split; [cbn; lra | exact V2]).
  destruct sin2_close as [Cs Rs]. pose proof (rng_zero_mult _ _ _ _ _ _ (near_rng _ _ _ _ _ N2) Rs) as R3.
  pose proof (close_times _ _ _ _ _ _ _ _ _ _ (near_close _ _ _ _ _ N2) Cs R3 ltac:(lia) ltac:(lia) ltac:(lia)) as C2.
  assert (R4 : rng (-397) 504 (Gn * I + 2 * s2)).
  { assert (Z : 0 <= 2 * s2 <= bpow radix2 161). { destruct R3 as [-> | R3]; [pose proof (bpow_ge_0 radix2 161); lra|]. pose proof (rng_pos _ _ _ R3). destruct R3 as [_ R3]. change (1 + 160)%Z with 161%Z in R3. lra. }
    destruct R2 as [B1 B2]. split; [change (-192 + -205)%Z with (-397)%Z in B1; lra|]. replace 504%Z with (1 + 503)%Z by lia. rewrite bpow_plus. change (bpow radix2 1) with 2.
    assert (bpow radix2 161 <= bpow radix2 503) by (apply bpow_le; lia). change (192 + 311)%Z with 503%Z in B2. lra. }
  pose proof (close_minus _ _ _ _ _ _ _ _ C1 C2) as C3. specialize (C3 ltac:(eapply Rle_trans; [apply many; lia | lra])).
  specialize (C3 ltac:(apply Rle_trans with (1 := proj2 R4); apply bpow_le; lia)).
  pose proof (rng_mult _ _ _ _ _ _ RW R4) as R5.
  pose proof (close_times _ _ _ _ _ _ _ _ _ _ (near_close _ _ _ _ _ W) C3 (or_intror R5) ltac:(lia) ltac:(lia) ltac:(lia)) as C4.
  pose proof (rng_mult _ _ _ _ _ _ R1 R5) as R6.
  pose proof (close_times _ _ _ _ _ _ _ _ _ _ (near_close _ _ _ _ _ N1) C4 (or_intror R6) ltac:(lia) ltac:(lia) ltac:(lia)) as C5.
  pose proof (rng_mult _ _ _ _ _ _ R0 R6) as R7.
  pose proof (close_times _ _ _ _ _ _ _ _ _ _ (near_close _ _ _ _ _ N0) C5 (or_intror R7) ltac:(lia) ltac:(lia) ltac:(lia)) as C6.
  set (T := 2 * B2R pi * B2R pi / (B2R k * B2R k)) in *.
  replace (F * (Gn * I - 2 * s2)) with (T * (B2R sf / B2R (a_spacing x) * (Gn * (Gn * I - 2 * s2)))) by (unfold F, formation64, T; fold Gn; unfold Rdiv; ring).
  replace (F * (Gn * I + 2 * s2)) with (T * (B2R sf / B2R (a_spacing x) * (Gn * (Gn * I + 2 * s2)))) by (unfold F, formation64, T; fold Gn; unfold Rdiv; ring).
  apply (close_more _ 1063) in C6; [exact C6 | lia].
Qed.

Lemma cross_sections_rounded : exists result, unresolved64 pi k a sf energy p sinphi x d = Ok result /\
  cross_sections 1.2e-13 0 pi k a sf energy p sinphi x d (Gn * I_elastic Gn Gg Gf Gx rn rf rx) (Gg * I_capture Gn Gg Gf Gx rn rf rx) (Gf * I_fission Gn Gg Gf Gx rn rf rx) result.
Proof.
  destruct integrals_values as (i & E & V1 & V2 & V3). unfold unresolved64. fold w. rewrite E. cbn [bind]. eexists. split; [reflexivity|].
  destruct UP as (_ & _ & C1 & C2 & _). unfold cross_sections. fold F s2. rewrite !Rplus_0_r.
  assert (FC : is_finite (a_capture x) = true) by (destruct C1 as [[H _] | [H _]]; exact H). assert (FF : is_finite (a_fission x) = true) by (destruct C2 as [[H _] | [H _]]; exact H).
  split; [|split].
  - destruct (close_error 1063 _ _ _ ltac:(lia) (elastic_close _ _ V1)) as [A B]. split; [exact A|]. apply Rle_trans with (1 := B). right; change (B2R (a_capture x)) with Gg; change (B2R (a_fission x)) with Gf; ring.
  - destruct (close_error 1054 _ _ _ ltac:(lia) (reaction_close _ _ _ _ FC eq_refl (zero_rng _ C1) V2)) as [A B]. split; [exact A|]. apply Rle_trans with (1 := B). right; change (B2R (a_capture x)) with Gg; change (B2R (a_fission x)) with Gf; ring.
  - change (d_fission w) with (a_fission x). rewrite (nonzero_same (a_fission x) FF). destruct (nonzero (B2R (a_fission x))) eqn:Nf.
    + assert (N : Gf <> 0) by (intros Z; apply nonzero_0 in Z; unfold Gf in Z; rewrite Z in Nf; discriminate).
      destruct (close_error 1054 _ _ _ ltac:(lia) (reaction_close _ _ _ _ FF eq_refl (zero_rng _ C2) (V3 N))) as [A B]. split; [exact A|]. apply Rle_trans with (1 := B). right; change (B2R (a_capture x)) with Gg; change (B2R (a_fission x)) with Gf; ring.
    + apply nonzero_0. exact Nf.
Qed.

(** Against the averages over chi-square distributions *)
Lemma cross_sections_accurate : let df := Nat.max 1 (d_fission d) in let dx := Nat.max 1 (d_competition d) in
  exists result e c f g, unresolved64 pi k a sf energy p sinphi x d = Ok result /\
  exact Gn Gg Gf Gx (d_elastic d) df dx e c f g /\ e + c + f + g = 1 /\
  cross_sections 1.3e-13 (1.01 * allowed_error Gf Gx (d_elastic d) df dx) pi k a sf energy p sinphi x d e c f result.
Proof.
  intros df dx. destruct cross_sections_rounded as (result & E & H).
  destruct UP as (_ & _ & C1 & C2 & C3 & D1 & D2 & D3). pose proof (zero_nonneg _ C1) as [P2 _]. pose proof (zero_nonneg _ C2) as [P3 _]. pose proof (zero_nonneg _ C3) as [P4 _].
  fold Gg in P2. fold Gf in P3. fold Gx in P4. pose proof (rng_pos _ _ _ (near_rng _ _ _ _ _ width_near)) as P1.
  destruct (integrals_accurate (mkData Gn Gg Gf Gx) d D1 D2 D3 P1 P2 P3 P4) as (i & e & c & f & g & EI & EX & S & B1 & B2 & B3 & B4).
  cbn [d_elastic d_capture d_fission d_competition] in *. fold df dx in EX, B1, B2, B3, B4.
  destruct (integrals_value_spec (mkData Gn Gg Gf Gx) d D1 (not_zero_real Gf _ D2) (not_zero_real Gx _ D3)) as [(_ & E') | (_ & i' & E' & V1 & V2 & V3 & V3' & V4 & V4')]; [congruence|].
  assert (i' = i) by congruence. subst i'. rewrite !width_rule_max in *. cbn [d_elastic d_capture d_fission d_competition] in V1, V2, V3, V3'. fold rn rf rx in V1, V2, V3.
  exists result, e, c, f, g. split; [exact E|]. split; [exact EX|]. split; [exact S|]. set (al := allowed_error Gf Gx (d_elastic d) df dx) in *.
  assert (FP : 0 <= F). { unfold F, formation64. fold Gn. destruct UC as (_ & _ & _ & Hsf & _). destruct UP as (HD & _).
    pose proof (near_div _ _ _ _ _ _ _ _ _ _ (near_mult _ _ _ _ _ _ _ _ _ _ factor_near (positive_near _ _ Hsf) ltac:(lia) ltac:(lia) ltac:(lia)) (positive_near _ _ HD) ltac:(lia) ltac:(lia) ltac:(lia)) as N2.
    apply Rmult_le_pos; [left; apply (rng_pos _ _ _ (near_rng _ _ _ _ _ N2)) | lra]. }
  assert (A0 : 0 <= al) by (pose proof (Rabs_pos (Gn * d_elastic i - e)); lra).
  assert (K : forall y t v s, 0 <= s -> Rabs (y - F * (t - s)) <= F * (1.2e-13 * (t + s) + 0) -> Rabs (t - v) <= al -> 0 <= v ->
    Rabs (y - F * (v - s)) <= F * (1.3e-13 * (v + s) + 1.01 * al)).
  { intros y t v s Hs H1 H2 Hv. replace (y - F * (v - s)) with ((y - F * (t - s)) + F * (t - v)) by ring. apply Rle_trans with (1 := Rabs_triang _ _). rewrite Rabs_mult, (Rabs_pos_eq F) by exact FP.
    apply Rle_trans with (F * (1.2e-13 * (t + s) + 0) + F * al); [apply Rplus_le_compat; [exact H1 | apply Rmult_le_compat_l; assumption]|].
    rewrite <- Rmult_plus_distr_l. apply Rmult_le_compat_l; [exact FP|]. apply Rabs_le_inv in H2. lra. }
  destruct result as [[el ca] fi]. unfold cross_sections in *. fold F s2 in H. fold F s2. cbv zeta in *. destruct H as ((F1 & H1) & (F2 & H2) & H3).
  assert (Z2 : 0 <= 2 * s2) by (unfold s2; pose proof (Rle_0_sqr (B2R sinphi)) as Q; unfold Rsqr in Q; lra).
  assert (SH : 0 <= e /\ 0 <= c /\ 0 <= f) by (apply (exact_nonneg Gn Gg Gf Gx (d_elastic d) df dx e c f g); first [assumption | unfold df, dx; lia]).
  destruct SH as (Pe & Pc & Pf). rewrite <- V1 in H1. rewrite <- V2 in H2.
  split; [split; [exact F1|]; apply (K _ _ _ _ Z2 H1 B1 Pe)|]. split; [split; [exact F2|]|].
  - specialize (K (B2R ca) (Gg * d_capture i) c 0 (Rle_refl 0)). rewrite !Rminus_0_r, (Rplus_0_r (Gg * _)), (Rplus_0_r c) in K. apply K; assumption.
  - destruct fi as [fi |]; [|exact H3]. destruct H3 as [F3 H3]. split; [exact F3|]. destruct (Req_EM_T Gf 0) as [Z | N].
    + specialize (K (B2R fi) (Gf * d_fission i) f 0 (Rle_refl 0)). rewrite !Rminus_0_r, (Rplus_0_r (Gf * _)), (Rplus_0_r f) in K. apply K; try assumption.
      rewrite Z in H3 |- *. rewrite !Rmult_0_l in H3 |- *. exact H3.
    + rewrite <- (V3 N) in H3. specialize (K (B2R fi) (Gf * d_fission i) f 0 (Rle_refl 0)). rewrite !Rminus_0_r, (Rplus_0_r (Gf * _)), (Rplus_0_r f) in K. apply K; assumption.
Qed.
End Cross.
