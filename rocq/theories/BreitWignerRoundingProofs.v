(** Rounding errors of the Breit-Wigner formulas for one resonance. *)
From Coq Require Import String List ZArith Reals Lra Lia Bool Psatz.
From Flocq Require Import Core.Core IEEE754.BinarySingleNaN.
From Verif Require Import Outcome UnresolvedModel DoubleModel DoubleSpec DoubleProofs RoundingModel RoundingProofs FluctuationRoundingModel FluctuationRoundingProofs FluctuationLiteralProofs CloseProofs
  BreitWignerRoundingModel BreitWignerRoundingSpec.
Import ListNotations.
Open Scope R_scope.

Lemma positive_near n x : positive_within n x -> near 0 (- n) n x (B2R x).
Proof. intros [F B]. apply near_exact; [exact F | reflexivity | exact B]. Qed.
Lemma zero_near0 n x : is_zero x \/ positive_within n x -> near0 0 (- n) n x (B2R x).
Proof. intros [[F E] | H]; [left; repeat split; assumption | right; apply positive_near; exact H]. Qed.
Lemma within_finite n x : within n x -> is_finite x = true.
Proof. intros [[F _] | [F _]]; exact F. Qed.
Lemma within_size n x : within n x -> Rabs (B2R x) <= bpow radix2 n.
Proof. intros [[_ ->] | [_ B]]; [rewrite Rabs_R0; apply bpow_ge_0 | lra]. Qed.
Lemma about_near n lo hi x r : about n x r -> bpow radix2 lo <= r <= bpow radix2 hi -> near n lo hi x r.
Proof. intros (F & _ & V) B. split; [exact F|]. split; assumption. Qed.
Lemma near0_nonneg n lo hi x r : near0 n lo hi x r -> 0 <= r.
Proof. intros H. apply near0_le in H. lra. Qed.
Lemma near_le_hi n lo hi x r : near n lo hi x r -> r <= bpow radix2 hi.
Proof. intros (_ & [_ B] & _). exact B. Qed.
Lemma near0_floor n lo hi x r : near0 n lo hi x r -> r <> 0 -> bpow radix2 lo <= r.
Proof. intros [(_ & _ & E) | (_ & B & _)] N; [contradiction | lra]. Qed.
Lemma near0_close n lo hi x r : near0 n lo hi x r -> close n x r r.
Proof. intros H. apply about_close, (near0_about _ lo hi). exact H. Qed.

Lemma quarter_near : near 0 (-2) (-2) quarter64 (/ 4).
Proof. destruct (literal_value 1 (-2)) as [F V]; [lia | lia |]. apply near_exact; [exact F | unfold quarter64; rewrite V; cbn; lra | cbn; lra]. Qed.
Lemma sized_of lo hi m : (-900 <= lo)%Z -> (hi <= 900)%Z -> m = 0 \/ bpow radix2 lo <= m <= bpow radix2 hi -> sized m.
Proof.
  intros L1 L2 [-> | [A B]]; [left; reflexivity | right]. split; [apply Rle_trans with (2 := A) | apply Rle_trans with (1 := B)]; apply bpow_le; assumption.
Qed.

Section One.
Variables (w b : Z) (energy p q s : double) (g : given64).
Hypotheses (Hw : (0 <= w <= 40)%Z) (Hb : (0 <= b <= 80)%Z).
Hypotheses (U : usable w b g) (UE : usable_energy b energy p q s).
Let c := (w + 2 * b)%Z.
Let h := Z.max 40 (20 + w + b).
Let hd := Z.max (2 * c + 3) (2 * h + 7).
Let r := makeResonance64 g.
Let x := precompute64 energy p q s r.
Let e := neutron_width p g.
Let G := total_width p q g.
Let d := B2R (b_delta x).

Lemma toP_near : near0 1 (- w - b) (w + b) (y_toP r) (B2R (g_elastic g) / B2R (g_P g)).
Proof.
  destruct U as (_ & HN & _ & _ & _ & _ & HP & _ & _). pose proof (near0_div _ _ _ _ _ _ _ _ _ _ (zero_near0 _ _ HN) (positive_near _ _ HP)) as H.
  replace (- w - b)%Z with (- w + - b)%Z by ring. replace (w + b)%Z with (w - - b)%Z by ring. apply H; lia.
Qed.
Lemma elastic_near : near0 2 (- c) c (b_elastic x) e.
Proof.
  destruct UE as (_ & Hp & _ & _). pose proof (near0_mult _ _ _ _ _ _ _ _ _ _ (or_intror (positive_near _ _ Hp)) toP_near) as H.
  unfold c. replace (- (w + 2 * b))%Z with (- b + (- w - b))%Z by ring. replace (w + 2 * b)%Z with (b + (w + b))%Z by ring. apply H; lia.
Qed.
Lemma competition_near : near0 2 (- c) c (competition64 r q) (B2R q * (B2R (g_competition g) / B2R (g_Q g))).
Proof.
  destruct U as (_ & _ & _ & _ & HX & _ & _ & HQ & _). destruct UE as (_ & _ & Hq & _).
  pose proof (near0_div _ _ _ _ _ _ _ _ _ _ (zero_near0 _ _ HX) (positive_near _ _ HQ) ltac:(lia) ltac:(lia) ltac:(lia)) as H1.
  pose proof (near0_mult _ _ _ _ _ _ _ _ _ _ (zero_near0 _ _ Hq) H1 ltac:(lia) ltac:(lia) ltac:(lia)) as H.
  unfold c. replace (- (w + 2 * b))%Z with (- b + (- w - b))%Z by ring. replace (w + 2 * b)%Z with (b + (w - - b))%Z by ring. exact H.
Qed.
Lemma total_near : near 5 (- c) (c + 2) (b_total x) G.
Proof.
  pose proof elastic_near as He. pose proof competition_near as HX. destruct U as (_ & HN & HC & HF & _ & NZ & HP & _ & _). apply zero_near0 in HC, HF.
  pose proof (near0_le _ _ _ _ _ He) as Be. pose proof (near0_le _ _ _ _ _ HX) as BX. pose proof (near0_le _ _ _ _ _ HC) as BC. pose proof (near0_le _ _ _ _ _ HF) as BF.
  assert (Bw : bpow radix2 w <= bpow radix2 c) by (apply bpow_le; unfold c; lia).
  assert (B2 : bpow radix2 (c + 2) = 4 * bpow radix2 c) by (rewrite bpow_plus, Rmult_comm; reflexivity).
  assert (B9 : 4 * bpow radix2 c <= bpow radix2 900) by (rewrite <- B2; apply bpow_le; unfold c; lia).
  apply about_near.
  - unfold G, total_width. fold e.
    apply (about_plus 4 2 (elastic64 r p + y_capture r + y_fission r)%D (competition64 r q) (e + B2R (g_capture g) + B2R (g_fission g))); [apply (about_plus 3 0 (elastic64 r p + y_capture r)%D (y_fission r)); [apply (about_plus 2 0)| | |]| | |].
    + apply (near0_about _ _ _ _ _ He).
    + apply (near0_about _ _ _ _ _ HC).
    + lia.
    + lra.
    + apply (near0_about _ _ _ _ _ HF).
    + lia.
    + lra.
    + apply (near0_about _ _ _ _ _ HX).
    + lia.
    + lra.
  - unfold G, total_width. fold e. split; [|lra].
    assert (L : bpow radix2 (- c) <= bpow radix2 (- w)) by (apply bpow_le; unfold c; lia).
    destruct (Req_dec (B2R (g_capture g)) 0) as [EC|NC]; [|apply (near0_floor _ _ _ _ _ HC) in NC; lra].
    destruct (Req_dec (B2R (g_fission g)) 0) as [EF|NF]; [|apply (near0_floor _ _ _ _ _ HF) in NF; lra].
    assert (NN : B2R (g_elastic g) <> 0) by lra. assert (Ne : e <> 0).
    { unfold e, neutron_width. destruct UE as (_ & [_ Hp] & _). destruct HP as [_ HP]. pose proof (bpow_gt_0 radix2 (- b)). 
      apply Rmult_integral_contrapositive_currified; [lra|]. apply Rmult_integral_contrapositive_currified; [exact NN | apply Rinv_neq_0_compat; lra]. }
    pose proof (near0_floor _ _ _ _ _ He Ne). lra.
Qed.
Lemma width_le : 0 <= e <= G.
Proof.
  pose proof (near0_le _ _ _ _ _ elastic_near). pose proof (near0_le _ _ _ _ _ competition_near). destruct U as (_ & HN & HC & HF & _). apply zero_near0 in HC, HF.
  pose proof (near0_le _ _ _ _ _ HC). pose proof (near0_le _ _ _ _ _ HF). unfold G, total_width. fold e. lra.
Qed.
Lemma other_le : (0 <= B2R (g_capture g) <= G) /\ (0 <= B2R (g_fission g) <= G).
Proof.
  pose proof (near0_le _ _ _ _ _ elastic_near). pose proof (near0_le _ _ _ _ _ competition_near). destruct U as (_ & HN & HC & HF & _). apply zero_near0 in HC, HF.
  pose proof (near0_le _ _ _ _ _ HC). pose proof (near0_le _ _ _ _ _ HF). unfold G, total_width. fold e. lra.
Qed.

(** The distance from the level *)
Lemma shift_floor : B2R (g_S g) - B2R s = 0 \/ bpow radix2 (-73) <= Rabs (B2R (g_S g) - B2R s).
Proof.
  destruct U as (_ & _ & _ & _ & _ & _ & _ & _ & HS). destruct UE as (_ & _ & _ & Hs). destruct HS as [[_ E] | [_ [HS _]]]; [|apply (difference_floor _ _ (-20)); [lia | exact HS]].
  rewrite E. destruct Hs as [[_ E'] | [_ [Hs _]]]; [left; rewrite E'; ring|]. right. replace (0 - B2R s) with (- B2R s) by ring. rewrite Rabs_Ropp. apply Rle_trans with (2 := Hs). apply bpow_le. lia.
Qed.
Lemma shift_close : close 6 (minus (y_shift r) s / #2 * y_toP r)%D (displacement s g) (Rabs (displacement s g)) /\ Rabs (displacement s g) <= bpow radix2 (20 + w + b).
Proof.
  pose proof toP_near as HT. pose proof (near0_nonneg _ _ _ _ _ HT) as T0. pose proof (near0_le _ _ _ _ _ HT) as T1. destruct U as (_ & _ & _ & _ & _ & _ & _ & _ & HS). destruct UE as (_ & _ & _ & Hs).
  pose proof (within_size _ _ HS) as B1. pose proof (within_size _ _ Hs) as B2. apply within_finite in HS, Hs.
  set (D := B2R (g_S g) - B2R s). assert (BD : Rabs D <= bpow radix2 21).
  { unfold D, Rminus. apply Rle_trans with (1 := Rabs_triang _ _). rewrite Rabs_Ropp. change 21%Z with (1 + 20)%Z. rewrite bpow_plus. change (bpow radix2 1) with 2. lra. }
  assert (C1 : close 1 (minus (y_shift r) s) D (Rabs D)) by (apply close_difference; [exact HS | exact Hs | apply Rle_trans with (1 := BD), bpow_le; lia]).
  assert (B20 : bpow radix2 20 = bpow radix2 21 / 2) by (change 21%Z with (1 + 20)%Z; rewrite bpow_plus; change (bpow radix2 1) with 2; field).
  assert (S2 : Rabs D / 2 = 0 \/ bpow radix2 (-74) <= Rabs D / 2 <= bpow radix2 20).
  { destruct shift_floor as [E|F]; [left; fold D in E; rewrite E, Rabs_R0; field|]. right. fold D in F. split; [|lra]. change (-74)%Z with (-1 + -73)%Z. rewrite bpow_plus. change (bpow radix2 (-1)) with (/ 2). lra. }
  pose proof (close_div 1 0 0 16 _ _ _ _ _ C1 (near_Z 2 ltac:(lia)) ltac:(apply (sized_of (-74) 20); [lia | lia | exact S2]) ltac:(lia)) as C2. cbn [Nat.add Nat.mul] in C2.
  assert (Hab : Rabs (displacement s g) = Rabs D / 2 * (B2R (g_elastic g) / B2R (g_P g))).
  { unfold displacement. fold D. rewrite Rabs_mult, (Rabs_pos_eq (B2R (g_elastic g) / B2R (g_P g))) by exact T0. f_equal. unfold Rdiv. rewrite Rabs_mult. f_equal. apply Rabs_pos_eq. lra. }
  assert (B140 : bpow radix2 (20 + w + b) = bpow radix2 20 * bpow radix2 (w + b)) by (rewrite <- bpow_plus; f_equal; ring).
  assert (D0 : 0 <= Rabs D / 2) by (pose proof (Rabs_pos D); lra).
  assert (LE : Rabs (displacement s g) <= bpow radix2 (20 + w + b)). { rewrite Hab, B140. apply Rmult_le_compat; lra. }
  split; [|exact LE].
  rewrite Hab. apply (close_mult 3 1); [exact C2 | apply (near0_close _ _ _ _ _ HT) | | apply few4; lia].
  apply (sized_of (-194) (20 + w + b)); [lia | lia |].
  destruct S2 as [E|[F1 F2]]; [left; rewrite E; ring|]. destruct (Req_dec (B2R (g_elastic g) / B2R (g_P g)) 0) as [E|N]; [left; rewrite E; ring|].
  pose proof (near0_floor _ _ _ _ _ HT N) as FT. right. split; [|rewrite <- Hab; exact LE]. change (-194)%Z with (-74 + -120)%Z. rewrite bpow_plus.
  assert (bpow radix2 (-120) <= bpow radix2 (- w - b)) by (apply bpow_le; lia). pose proof (bpow_ge_0 radix2 (-74)). pose proof (bpow_ge_0 radix2 (-120)). apply Rmult_le_compat; lra.
Qed.
Lemma delta_close : is_finite (b_delta x) = true /\ displaced energy s g d /\ (d = 0 \/ bpow radix2 (-94) <= Rabs d) /\ Rabs d <= bpow radix2 (3 + h).
Proof.
  destruct shift_close as [C B]. destruct U as (HE & _). destruct UE as ([FE RE] & _).
  assert (PE : 0 < B2R energy) by (pose proof (bpow_gt_0 radix2 (- (40))); lra).
  pose proof (within_size _ _ HE) as BE. apply within_finite in HE. 
  assert (Hh : (40 <= h <= 140)%Z) by (unfold h; lia). assert (B4 : bpow radix2 40 <= bpow radix2 h) by (apply bpow_le; lia). assert (B5 : bpow radix2 (20 + w + b) <= bpow radix2 h) by (apply bpow_le; unfold h; lia). assert (B9 : 4 * bpow radix2 h <= bpow radix2 900) by (change 4 with (bpow radix2 2); rewrite <- bpow_plus; apply bpow_le; lia).
  pose proof (Rabs_pos (B2R (g_energy g))). pose proof (Rabs_pos (displacement s g)). pose proof (bpow_gt_0 radix2 140) as P140.
  assert (M : Nat.max 0 6 = 6%nat) by reflexivity.
  assert (C1 : close 7 (energyPrime64 r s) (B2R (g_energy g) + displacement s g) (Rabs (B2R (g_energy g)) + Rabs (displacement s g))).
  { apply (close_plus 0 6); [apply close_exact; exact HE | exact C | apply few; cbn; lia | lra]. }
  assert (C2 : close 8 (b_delta x) (distance energy s g) (Rabs (B2R energy) + (Rabs (B2R (g_energy g)) + Rabs (displacement s g)))).
  { apply (close_minus 0 7); [apply close_exact; exact FE | exact C1 | apply few; cbn; lia |]. rewrite (Rabs_pos_eq (B2R energy)) by lra. lra. }
  pose proof (close_size _ _ _ _ C2) as Sz. pose proof (close_size _ _ _ _ C1) as S1. pose proof (up_2 8 ltac:(lia)) as U8. pose proof (up_2 7 ltac:(lia)) as U7. pose proof (up_tight 8 ltac:(lia)) as T8. destruct C1 as (F1 & _). destruct C2 as (F & M2 & E2).
  split; [exact F|]. rewrite (Rabs_pos_eq (B2R energy)) in * by lra. split; [|split].
  - unfold displaced. fold d in E2. apply Rle_trans with (1 := E2). rewrite (Rabs_pos_eq (B2R energy)) by lra. fold u.
    replace (INR 8) with 8 in T8 by (cbn; ring). pose proof u_small. rewrite Rplus_assoc. apply Rmult_le_compat_r; lra.
  - assert (V : B2R (b_delta x) = rnd (B2R energy - B2R (energyPrime64 r s))).
    { apply diff_finite; [exact FE | exact F1 |]. unfold Rminus. apply Rle_trans with (1 := Rabs_triang _ _). rewrite Rabs_Ropp, (Rabs_pos_eq (B2R energy)) by lra.
      apply Rle_trans with (bpow radix2 40 + 2 * (2 * bpow radix2 h)); [apply Rplus_le_compat; [lra|]; apply Rle_trans with (1 := S1); pose proof (up_pow 7); apply Rmult_le_compat; lra|].
      apply Rle_trans with (bpow radix2 (3 + h)); [rewrite (bpow_plus radix2 3); change (bpow radix2 3) with 8; lra | apply bpow_le; lia]. }
    unfold d. rewrite V. pose proof (rnd_diff energy (energyPrime64 r s) FE F1) as E.
    destruct (difference_floor energy (energyPrime64 r s) (-40)) as [Z|Fl]; [lia | rewrite Rabs_pos_eq by lra; exact (proj1 RE) | left; rewrite Z; apply rnd_0 |]. right.
    set (v := B2R energy - B2R (energyPrime64 r s)) in *. replace (rnd v) with (v - - (rnd v - v)) by ring. pose proof (Rabs_triang_inv v (- (rnd v - v))) as T. rewrite Rabs_Ropp in T. apply Rle_trans with (2 := T).
    change (-94)%Z with (-1 + (-40 - 53))%Z. rewrite bpow_plus. change (bpow radix2 (-1)) with (/ 2). pose proof u_small. pose proof (Rabs_pos v). nra.
  - fold d in Sz. apply Rle_trans with (1 := Sz). rewrite (bpow_plus radix2 3). change (bpow radix2 3) with 8. pose proof (up_pow 8). apply Rle_trans with (2 * (4 * bpow radix2 h)); [apply Rmult_le_compat; lra | lra].
Qed.
Lemma square_about : about 3 (b_delta x * b_delta x)%D (d * d).
Proof.
  destruct delta_close as (F & _ & Fl & Hi). assert (S : sized (Rabs d * Rabs d)).
  { apply (sized_of (-188) (3 + h + (3 + h))); [lia | unfold h; lia |]. destruct Fl as [->|Fl]; [left; rewrite Rabs_R0; ring|]. right. pose proof (bpow_ge_0 radix2 (-94)). pose proof (Rabs_pos d).
    change (-188)%Z with (-94 + -94)%Z. rewrite (bpow_plus radix2 (-94)), (bpow_plus radix2 (3 + h)). split; apply Rmult_le_compat; lra. }
  pose proof (close_mult 0 0 _ _ _ _ _ _ (close_exact _ F) (close_exact _ F) S ltac:(apply few4; lia)) as (F2 & _ & E). fold d in E.
  assert (A : Rabs d * Rabs d = d * d) by (rewrite <- Rabs_mult; apply Rabs_pos_eq; nra). rewrite A in E. split; [exact F2|]. assert (0 <= d * d) by nra. split; [assumption|].
  apply Rabs_le_inv in E. cbn [Nat.add] in E. pose proof u_small as Us. split.
  - apply Rle_trans with (d * d * (2 - (1 + u) ^ 2)); [|lra]. apply Rmult_le_compat_l; [lra|]. cbn [pow]. nra.
  - apply Rle_trans with (d * d * (1 + u) ^ 2); [lra|]. apply Rmult_le_compat_l; [lra|]. apply up_incr. lia.
Qed.
Lemma lorentz_pos : 0 < lorentz G d.
Proof. pose proof (near_pos _ _ _ _ _ total_near). unfold lorentz. nra. Qed.
Lemma denominator_near : near 13 (- 2 * c - 2) hd (b_denominator x) (lorentz G d).
Proof.
  pose proof total_near as HT. pose proof square_about as HD. destruct delta_close as (_ & _ & _ & Hi). destruct (near_pos _ _ _ _ _ HT) as [PG _].
  assert (Hc : (0 <= c <= 200)%Z) by (unfold c; lia). assert (Hh : (40 <= h <= 140)%Z) by (unfold h; lia). assert (Hd : (2 * c + 3 <= hd /\ 2 * h + 7 <= hd /\ hd <= 403)%Z) by (unfold hd; lia).
  pose proof (near_mult _ _ _ _ _ _ _ _ _ _ quarter_near HT ltac:(lia) ltac:(lia) ltac:(lia)) as H1.
  pose proof (near_mult _ _ _ _ _ _ _ _ _ _ H1 HT ltac:(lia) ltac:(lia) ltac:(lia)) as H2.
  assert (B1 : bpow radix2 (- 2 * c - 2) <= / 4 * G * G). { destruct H2 as (_ & [B _] & _). apply Rle_trans with (2 := B). apply bpow_le. lia. }
  assert (B2 : / 4 * G * G <= bpow radix2 (2 * c + 2)). { destruct H2 as (_ & [_ B] & _). apply Rle_trans with (1 := B). apply bpow_le. lia. }
  assert (B3 : d * d <= bpow radix2 (2 * h + 6)). { rewrite <- (Rabs_pos_eq (d * d)) by nra. rewrite Rabs_mult. replace (2 * h + 6)%Z with ((3 + h) + (3 + h))%Z by ring. rewrite (bpow_plus radix2 (3 + h)). pose proof (Rabs_pos d). apply Rmult_le_compat; lra. }
  assert (B4 : d * d + / 4 * G * G <= bpow radix2 hd).
  { apply Rle_trans with (2 * bpow radix2 (hd - 1)).
    - assert (bpow radix2 (2 * h + 6) <= bpow radix2 (hd - 1)) by (apply bpow_le; lia). assert (bpow radix2 (2 * c + 2) <= bpow radix2 (hd - 1)) by (apply bpow_le; lia). lra.
    - change 2 with (bpow radix2 1) at 1. rewrite <- bpow_plus. apply bpow_le. lia. }
  assert (B5 : bpow radix2 (- 2 * c - 2) <= lorentz G d <= bpow radix2 hd) by (unfold lorentz; split; [nra | lra]).
  apply about_near; [|exact B5].
  apply (about_plus 3 12); [exact HD | apply (near_about _ _ _ _ _ H2) | lia |]. apply Rle_trans with (1 := B4). apply bpow_le. lia.
Qed.
Lemma bounds : G * G <= 4 * lorentz G d /\ G * Rabs d <= lorentz G d.
Proof.
  unfold lorentz. split; [nra|]. assert (E : d * d = Rabs d * Rabs d) by (rewrite <- Rabs_mult, Rabs_pos_eq; [reflexivity | apply Rle_0_sqr]). rewrite E. pose proof (Rle_0_sqr (Rabs d - / 2 * G)) as Q. unfold Rsqr in Q. lra.
Qed.

(** * The components *)
Lemma reaction_close y v : near0 0 (- w) w y v -> v <= G ->
  close 31 (y * b_elastic x / b_denominator x)%D (bw_reaction v e G d) (bw_reaction v e G d) /\ 0 <= bw_reaction v e G d <= 4 /\
  (bw_reaction v e G d = 0 \/ bpow radix2 (-2 * c - hd) <= bw_reaction v e G d).
Proof.
  intros Hy Le. assert (Hc : (0 <= c <= 200 /\ w <= c)%Z) by (unfold c; lia). assert (Hh : (40 <= h <= 140)%Z) by (unfold h; lia). assert (Hd : (2 * c + 3 <= hd /\ 2 * h + 7 <= hd /\ hd <= 403)%Z) by (unfold hd; lia). pose proof (near0_mult _ _ _ _ _ _ _ _ _ _ Hy elastic_near ltac:(lia) ltac:(lia) ltac:(lia)) as H1.
  pose proof denominator_near as HD. pose proof lorentz_pos as PL. pose proof width_le as We. pose proof (near0_nonneg _ _ _ _ _ Hy) as V0. destruct bounds as [B1 _].
  assert (R : 0 <= bw_reaction v e G d <= 4).
  { unfold bw_reaction. split.
    - apply Rmult_le_pos; [nra | left; apply Rinv_0_lt_compat; exact PL].
    - apply (Rmult_le_reg_r (lorentz G d)); [exact PL|]. replace (v * e / lorentz G d * lorentz G d) with (v * e) by (field; lra). apply Rle_trans with (2 := B1). apply Rmult_le_compat; lra. }
  assert (Fl : bw_reaction v e G d = 0 \/ bpow radix2 (-2 * c - hd) <= bw_reaction v e G d).
  { destruct (Req_dec (v * e) 0) as [Z|N]; [left; unfold bw_reaction; rewrite Z; field; lra|]. right. pose proof (near0_floor _ _ _ _ _ H1 N) as F. destruct HD as (_ & [_ HD] & _).
    unfold bw_reaction. apply Rle_trans with (bpow radix2 (- w + - c) * bpow radix2 (- hd)); [rewrite <- bpow_plus; apply bpow_le; lia|].
    apply Rmult_le_compat; try apply bpow_ge_0; [exact F|]. rewrite bpow_opp. apply Rinv_le; assumption. }
  split; [|split; assumption].
  apply (close_div 3 13 _ _ _ _ _ _ _ (near0_close _ _ _ _ _ H1) HD); [|lia]. apply (sized_of (-2 * c - hd) 2); [lia | lia |]. fold (bw_reaction v e G d). change (bpow radix2 2) with 4. destruct Fl as [Fl|Fl]; [left; exact Fl | right; lra].
Qed.
Lemma elastic_close s1 s2 : within 80 s1 -> within 80 s2 -> Rabs (B2R s1) <= 1 -> Rabs (B2R s2) <= 1 ->
  let v := bw_elastic (B2R s1) (B2R s2) e G d in let m := bw_elastic_size (B2R s1) (B2R s2) e G d in
  close 44 (b_elastic x * (minus (b_elastic x) (#2 * b_total x * (s1 * s1)) + #2 * b_delta x * s2) / b_denominator x)%D v m /\ 0 <= m <= 16 /\
  (m = 0 \/ bpow radix2 (-2 * c - hd) <= m).
Proof.
  intros W1 W2 L1 L2 v m. assert (Hc : (0 <= c <= 200)%Z) by (unfold c; lia). assert (Hh : (40 <= h <= 140)%Z) by (unfold h; lia). assert (Hd : (2 * c + 3 <= hd /\ 2 * h + 7 <= hd /\ hd <= 403)%Z) by (unfold hd; lia).
  pose proof denominator_near as HD. pose proof lorentz_pos as PL. pose proof width_le as We. pose proof total_near as HT. pose proof elastic_near as He. destruct bounds as [B1 B2]. destruct delta_close as (Fd & _ & Dl & Dh).
  pose proof (within_finite _ _ W1) as F1. pose proof (within_finite _ _ W2) as F2. pose proof (Rabs_pos (B2R s1)) as P1. pose proof (Rabs_pos (B2R s2)) as P2. pose proof (Rabs_pos d) as Pd.
  destruct (near_pos _ _ _ _ _ HT) as [PG _]. pose proof (near_le_hi _ _ _ _ _ HT) as GH.
  assert (A1 : Rabs (B2R s1) * Rabs (B2R s1) = B2R s1 * B2R s1) by (rewrite <- Rabs_mult; apply Rabs_pos_eq; nra).
  assert (Q1 : 0 <= B2R s1 * B2R s1 <= 1) by (rewrite <- A1; nra).
  assert (Z1 : B2R s1 * B2R s1 = 0 \/ bpow radix2 (-160) <= B2R s1 * B2R s1).
  { destruct W1 as [[_ Z] | [_ [W1 _]]]; [left; rewrite Z; ring | right]. rewrite <- A1. change (-160)%Z with (-80 + -80)%Z. rewrite bpow_plus. pose proof (bpow_ge_0 radix2 (-80)). apply Rmult_le_compat; assumption. }
  assert (C1 : close 2 (s1 * s1)%D (B2R s1 * B2R s1) (B2R s1 * B2R s1)).
  { pose proof (close_mult 0 0 _ _ _ _ _ _ (close_exact _ F1) (close_exact _ F1)) as H. rewrite A1 in H. apply H; [|apply few4; lia].
    apply (sized_of (-160) 0); [lia | lia |]. change (bpow radix2 0) with 1. destruct Z1 as [Z|Z]; [left; exact Z | right; lra]. }
  pose proof (near_mult _ _ _ _ _ _ _ _ _ _ (near_Z 2 ltac:(lia)) HT ltac:(lia) ltac:(lia) ltac:(lia)) as H2T.
  assert (B203 : 2 * G <= bpow radix2 (c + 3)). { replace (c + 3)%Z with (1 + (c + 2))%Z by ring. rewrite bpow_plus. change (bpow radix2 1) with 2. lra. }
  assert (C2 : close 10 (#2 * b_total x * (s1 * s1))%D (2 * G * (B2R s1 * B2R s1)) (2 * G * (B2R s1 * B2R s1))).
  { apply (close_mult 6 2 _ _ _ _ _ _ (near_close _ _ _ _ _ H2T) C1); [|apply few4; lia]. apply (sized_of (- c - 160) (c + 3)); [lia | lia |].
    destruct Z1 as [Z|Z]; [left; rewrite Z; ring|]. right. split; [|nra]. unfold Zminus. rewrite bpow_plus. apply Rmult_le_compat; try apply bpow_ge_0; [|exact Z]. destruct HT as (_ & [HT _] & _). lra. }
  assert (Eh : e <= bpow radix2 c) by (apply near0_le in He; lra).
  assert (BC : bpow radix2 c <= bpow radix2 200) by (apply bpow_le; lia). assert (B3 : bpow radix2 (c + 3) <= bpow radix2 203) by (apply bpow_le; lia).
  assert (B9 : 8 * bpow radix2 203 <= bpow radix2 900) by (change 8 with (bpow radix2 3); rewrite <- bpow_plus; apply bpow_le; lia).
  assert (BB : bpow radix2 200 <= bpow radix2 203 /\ bpow radix2 (3 + h) <= bpow radix2 203) by (split; apply bpow_le; lia).
  assert (C3 : close 11 (minus (b_elastic x) (#2 * b_total x * (s1 * s1)))%D (e - 2 * G * (B2R s1 * B2R s1)) (e + 2 * G * (B2R s1 * B2R s1))).
  { apply (close_minus 2 10); [apply (near0_close _ _ _ _ _ He) | exact C2 | apply few; lia | nra]. }
  assert (C4 : close 2 (#2 * b_delta x)%D (2 * d) (2 * Rabs d)).
  { apply (close_mult 0 0 _ _ _ _ _ _ (near_close _ _ _ _ _ (near_Z 2 ltac:(lia))) (close_exact _ Fd)); [|apply few4; lia]. fold d. apply (sized_of (-94) (1 + (3 + h))); [lia | lia |].
    destruct Dl as [Z|Z]; [left; rewrite Z, Rabs_R0; ring | right]. split; [lra|]. rewrite (bpow_plus radix2 1). change (bpow radix2 1) with 2. lra. }
  assert (C5 : close 4 (#2 * b_delta x * s2)%D (2 * d * B2R s2) (2 * Rabs d * Rabs (B2R s2))).
  { apply (close_mult 2 0 _ _ _ _ _ _ C4 (close_exact _ F2)); [|apply few4; lia]. apply (sized_of (-174) (1 + (3 + h))); [lia | lia |].
    destruct Dl as [Z|Z]; [left; rewrite Z, Rabs_R0; ring|]. destruct W2 as [[_ Z2] | [_ [W2 _]]]; [left; rewrite Z2, Rabs_R0; ring|]. right. split.
    - change (-174)%Z with (-94 + -80)%Z. rewrite bpow_plus. change (bpow radix2 (- (80))) with (bpow radix2 (-80)) in W2. apply Rmult_le_compat; try apply bpow_ge_0; lra.
    - rewrite (bpow_plus radix2 1). change (bpow radix2 1) with 2. apply Rle_trans with (2 * Rabs d * 1); [apply Rmult_le_compat_l; lra | lra]. }
  set (M := e + 2 * G * (B2R s1 * B2R s1) + 2 * Rabs d * Rabs (B2R s2)) in *.
  assert (M1 : 2 * G * (B2R s1 * B2R s1) <= 2 * G) by nra. assert (M0 : 0 <= 2 * G * (B2R s1 * B2R s1)) by nra.
  assert (M2 : 2 * Rabs d * Rabs (B2R s2) <= 2 * Rabs d) by nra. assert (M3 : 0 <= 2 * Rabs d * Rabs (B2R s2)) by nra.
  assert (C6 : close 12 (minus (b_elastic x) (#2 * b_total x * (s1 * s1)) + #2 * b_delta x * s2)%D (e - 2 * G * (B2R s1 * B2R s1) + 2 * d * B2R s2) M).
  { apply (close_plus 11 4); [exact C3 | exact C5 | apply few; lia |]. lra. }
  assert (Me : e <= M <= bpow radix2 206). { change 206%Z with (3 + 203)%Z. rewrite bpow_plus. change (bpow radix2 3) with 8. unfold M. lra. }
  assert (SeM : e * M = 0 \/ bpow radix2 (- 2 * c) <= e * M).
  { destruct (Req_dec e 0) as [Z|N]; [left; rewrite Z; ring | right]. pose proof (near0_floor _ _ _ _ _ He N) as F. replace (- 2 * c)%Z with (- c + - c)%Z by ring. rewrite bpow_plus. apply Rmult_le_compat; try apply bpow_ge_0; lra. }
  assert (C7 : close 16 (b_elastic x * (minus (b_elastic x) (#2 * b_total x * (s1 * s1)) + #2 * b_delta x * s2))%D (e * (e - 2 * G * (B2R s1 * B2R s1) + 2 * d * B2R s2)) (e * M)).
  { apply (close_mult 2 12 _ _ _ _ _ _ (near0_close _ _ _ _ _ He) C6); [|apply few4; lia]. apply (sized_of (- 2 * c) (c + 206)); [lia | lia |].
    destruct SeM as [Z|Z]; [left; exact Z | right]. split; [exact Z|]. rewrite bpow_plus. apply Rmult_le_compat; lra. }
  assert (Hm : m = e * M / lorentz G d) by reflexivity.
  assert (R : 0 <= m <= 16).
  { rewrite Hm. split; [apply Rmult_le_pos; [nra | left; apply Rinv_0_lt_compat; exact PL]|]. apply (Rmult_le_reg_r (lorentz G d)); [exact PL|]. replace (e * M / lorentz G d * lorentz G d) with (e * M) by (field; lra).
    apply Rle_trans with (G * (3 * G + 2 * Rabs d)); [apply Rmult_le_compat; unfold M; lra|]. nra. }
  assert (Fl : m = 0 \/ bpow radix2 (-2 * c - hd) <= m).
  { destruct SeM as [Z|Z]; [left; rewrite Hm, Z; field; lra | right]. destruct HD as (_ & [_ HD] & _). rewrite Hm.
    replace (-2 * c - hd)%Z with (- 2 * c + - hd)%Z by ring. rewrite bpow_plus. apply Rmult_le_compat; try apply bpow_ge_0; [exact Z|]. rewrite bpow_opp. apply Rinv_le; assumption. }
  split; [|split; assumption]. unfold v, bw_elastic. rewrite Hm.
  apply (close_div 16 13 _ _ _ _ _ _ _ C7 HD); [|lia]. rewrite <- Hm. apply (sized_of (-2 * c - hd) 4); [lia | lia |]. change (bpow radix2 4) with 16. destruct Fl as [Z|Z]; [left; exact Z | right; lra].
Qed.
End One.
