(** Rounding errors of the Breit-Wigner cross sections of a spin group. *)
From Coq Require Import String List ZArith Reals Lra Lia Bool Psatz.
From Flocq Require Import Core.Core IEEE754.BinarySingleNaN.
From Verif Require Import Outcome UnresolvedModel DoubleModel DoubleSpec DoubleProofs RoundingModel RoundingProofs FluctuationRoundingModel FluctuationRoundingProofs CloseProofs
  BreitWignerRoundingModel BreitWignerRoundingSpec BreitWignerRoundingProofs BreitWignerRoundingTheorems.
Import ListNotations.
Open Scope R_scope.

(** * Sums *)
Lemma total_map {A B} (f : B -> R) (h : A -> B) l : total_of f (map h l) = total_of (fun a => f (h a)) l.
Proof. induction l as [|a l IH]; [reflexivity|]. cbn. rewrite IH. reflexivity. Qed.
Lemma total_app {A} (f : A -> R) l l' : total_of f (l ++ l') = total_of f l + total_of f l'.
Proof. induction l as [|a l IH]; cbn; [ring|]. rewrite IH. ring. Qed.
Lemma sum_total {A} (f : A -> R) l : sum_of (map f l) = total_of f l.
Proof. induction l as [|a l IH]; [reflexivity|]. cbn. rewrite IH. reflexivity. Qed.
Definition fine (m : R) : Prop := 0 <= m <= 16 /\ (m = 0 \/ bpow radix2 (-810) <= m).
Lemma total_fine {A} (f : A -> R) l : (forall a, In a l -> fine (f a)) -> 0 <= total_of f l <= 16 * INR (length l) /\ (total_of f l = 0 \/ bpow radix2 (-810) <= total_of f l).
Proof.
  induction l as [|a l IH]; intros H; [cbn; split; [lra | left; reflexivity]|]. destruct (H a (or_introl eq_refl)) as [B F]. destruct IH as [B' F']; [intros y Hy; apply H; right; exact Hy|].
  change (length (a :: l)) with (S (length l)). rewrite S_INR. cbn [total_of]. split; [lra|]. destruct F as [F|F], F' as [F'|F']; [left | right | right | right]; lra.
Qed.
Lemma zero_close n : close n (#0)%D 0 0.
Proof. split; [reflexivity|]. split; [rewrite Rabs_R0; lra|]. change (B2R (#0)%D) with 0. rewrite Rminus_eq_0, Rabs_R0. lra. Qed.
Lemma total_close {A} (fx : A -> double) (fr fm : A -> R) k l : (k <= 100)%nat -> (Z.of_nat (length l) <= 2 ^ 41)%Z ->
  (forall a, In a l -> close k (fx a) (fr a) (fm a) /\ fine (fm a)) ->
  close (k + length l) (fold_left plus (map fx l) (#0)%D) (total_of fr l) (total_of fm l) /\ 0 <= total_of fm l <= bpow radix2 46 /\
  (total_of fm l = 0 \/ bpow radix2 (-810) <= total_of fm l) /\ INR (k + length l) * u <= / 8.
Proof.
  intros Hk Hl H. destruct (total_fine fm l) as [B F]; [intros a Ha; apply H; exact Ha|].
  assert (L : INR (length l) <= 2199023255552) by (rewrite INR_IZR_INZ; apply (IZR_le _ 2199023255552); exact Hl).
  assert (Nu : INR (k + length l) * u <= / 8). { rewrite plus_INR. apply INR_100 in Hk. pose proof (pos_INR k). pose proof (pos_INR (length l)). rewrite u_value. lra. }
  assert (B46 : 16 * INR (length l) <= bpow radix2 46) by (change (bpow radix2 46) with 70368744177664; lra).
  split; [|split; [lra | split; [exact F | exact Nu]]].
  pose proof (sum_close (map fx l) (map fr l) (map fm l) k k (#0)%D 0 0) as S. rewrite !map_length, !sum_total, !Rplus_0_l in S. apply S; try lia; [|apply zero_close | lra |].
  - clear - H. induction l as [|a l IH]; [constructor|]. cbn. constructor; [apply H; left; reflexivity | apply IH; intros y Hy; apply H; right; exact Hy].
  - apply Rle_trans with (bpow radix2 46); [lra | apply bpow_le; lia].
Qed.
Lemma fold_data (l : list (data double)) : forall a,
  d_elastic (fold_left data_add64 l a) = fold_left plus (map (@d_elastic _) l) (d_elastic a) /\
  d_capture (fold_left data_add64 l a) = fold_left plus (map (@d_capture _) l) (d_capture a) /\
  d_fission (fold_left data_add64 l a) = fold_left plus (map (@d_fission _) l) (d_fission a).
Proof. induction l as [|y l IH]; intros a; [repeat split|]. cbn [fold_left map]. apply (IH (data_add64 a y)). Qed.

(** * The factor in front *)
Lemma factor_near pi k sf : positive_within 2 pi -> positive_within 30 k -> positive_within 20 sf -> near 4 (-82) 82 (factor64 pi k sf) (bw_factor pi k sf).
Proof.
  intros H1 H2 H3. apply positive_near in H1, H2, H3.
  pose proof (near_mult _ _ _ _ _ _ _ _ _ _ H2 H2 ltac:(lia) ltac:(lia) ltac:(lia)) as A.
  pose proof (near_div _ _ _ _ _ _ _ _ _ _ H1 A ltac:(lia) ltac:(lia) ltac:(lia)) as B.
  exact (near_mult _ _ _ _ _ _ _ _ _ _ B H3 ltac:(lia) ltac:(lia) ltac:(lia)).
Qed.
Lemma factored n pi k sf x r m : positive_within 2 pi -> positive_within 30 k -> positive_within 20 sf -> close n x r m -> 0 <= m <= bpow radix2 46 -> (m = 0 \/ bpow radix2 (-810) <= m) -> INR n * u <= / 8 ->
  is_finite (factor64 pi k sf * x)%D = true /\ Rabs (B2R (factor64 pi k sf * x)%D - bw_factor pi k sf * r) <= 2 * (INR n + 6) * bpow radix2 (-53) * (bw_factor pi k sf * m).
Proof.
  intros H1 H2 H3 C [M0 M1] F Nu. pose proof (factor_near _ _ _ H1 H2 H3) as Hf. pose proof (near_pos _ _ _ _ _ Hf) as [Pf _]. assert (Bf : bpow radix2 (-82) <= bw_factor pi k sf <= bpow radix2 82) by (destruct Hf as (_ & Bf & _); exact Bf).
  assert (N4 : INR (4 + n) * u <= / 4). { rewrite plus_INR. pose proof u_small. replace (INR 4) with 4 by (cbn; ring). lra. }
  pose proof (close_mult 4 n _ _ _ _ _ _ (near_close _ _ _ _ _ Hf) C) as K. destruct K as (K1 & _ & K2); [|exact N4|].
  - apply (sized_of (-892) 128); [lia | lia |]. destruct F as [->|F]; [left; ring | right]. change (-892)%Z with (-82 + -810)%Z. change 128%Z with (82 + 46)%Z. rewrite !bpow_plus. pose proof (bpow_ge_0 radix2 (-82)). pose proof (bpow_ge_0 radix2 (-810)). split; apply Rmult_le_compat; lra.
  - split; [exact K1|]. apply Rle_trans with (1 := K2). pose proof (up_any (4 + n + 2)) as Up. rewrite !plus_INR in Up. replace (INR 4) with 4 in Up by (cbn; ring). replace (INR 2) with 2 in Up by (cbn; ring). fold u. pose proof u_small.
    apply Rmult_le_compat_r; [apply Rmult_le_pos; lra|]. apply Rle_trans with (1 + 2 * (4 + INR n + 2) * u - 1); [|lra]. apply Rplus_le_compat_r, Up. lra.
Qed.

(** * The single-level formulas *)
Section Group.
Variables (w b : Z) (energy p q s sinphi sintwophi pi k sf : double) (gs : list given64).
Hypotheses (Hw : (0 <= w <= 40)%Z) (Hb : (0 <= b <= 80)%Z).
Hypotheses (U : Forall (usable w b) gs) (UE : usable_energy b energy p q s).
Hypotheses (W1 : within 80 sinphi) (W2 : within 80 sintwophi) (L1 : Rabs (B2R sinphi) <= 1) (L2 : Rabs (B2R sintwophi) <= 1).
Hypotheses (Hpi : positive_within 2 pi) (Hk : positive_within 30 k) (Hsf : positive_within 20 sf).
Let f := bw_factor pi k sf.
Let x (g : given64) := precompute64 energy p q s (makeResonance64 g).
Let e (g : given64) := neutron_width p g.
Let G (g : given64) := total_width p q g.
Let d (g : given64) := B2R (b_delta (x g)).
Let N := INR (length gs).
Lemma fine_of m lo hi : 0 <= m <= hi -> (m = 0 \/ bpow radix2 lo <= m) -> (-810 <= lo)%Z -> hi <= 16 -> fine m.
Proof. intros A F L H. split; [lra|]. destruct F as [F|F]; [left; exact F | right; apply Rle_trans with (2 := F), bpow_le; exact L]. Qed.
Lemma slbw_parts : (Z.of_nat (length gs) <= 2 ^ 40)%Z ->
  let '(el, ca, fi) := slbw64 pi k sf energy p q s sinphi sintwophi (map makeResonance64 gs) in
  (is_finite el = true /\ Rabs (B2R el - f * total_of (fun g => bw_elastic (B2R sinphi) (B2R sintwophi) (e g) (G g) (d g)) gs)
     <= 2 * (N + 50) * bpow radix2 (-53) * (f * total_of (fun g => bw_elastic_size (B2R sinphi) (B2R sintwophi) (e g) (G g) (d g)) gs)) /\
  (is_finite ca = true /\ Rabs (B2R ca - f * total_of (fun g => bw_reaction (B2R (g_capture g)) (e g) (G g) (d g)) gs)
     <= 2 * (N + 37) * bpow radix2 (-53) * (f * total_of (fun g => bw_reaction (B2R (g_capture g)) (e g) (G g) (d g)) gs)) /\
  match fi with
  | Some fi => is_finite fi = true /\ Rabs (B2R fi - f * total_of (fun g => bw_reaction (B2R (g_fission g)) (e g) (G g) (d g)) gs)
     <= 2 * (N + 37) * bpow radix2 (-53) * (f * total_of (fun g => bw_reaction (B2R (g_fission g)) (e g) (G g) (d g)) gs)
  | None => f * total_of (fun g => bw_reaction (B2R (g_fission g)) (e g) (G g) (d g)) gs = 0
  end.
Proof.
  intros Hl. unfold slbw64. cbv zeta. rewrite map_map, map_map. set (c64 := fun g : given64 => calculate64 (sinphi * sinphi)%D sintwophi (x g)). change (map (fun x0 : given64 => calculate64 (sinphi * sinphi)%D sintwophi (precompute64 energy p q s (makeResonance64 x0))) gs) with (map c64 gs).
  destruct (fold_data (map c64 gs) (mkData #0%D #0%D #0%D #0%D)) as (E1 & E2 & E3). rewrite E1, E2, E3. rewrite !map_map. cbn [d_elastic d_capture d_fission]. rewrite Forall_forall in U. assert (Hl' : (Z.of_nat (length gs) <= 2 ^ 41)%Z) by lia.
  assert (Lo : (-810 <= -2 * (w + 2 * b) - Z.max (2 * (w + 2 * b) + 3) (2 * Z.max 40 (20 + w + b) + 7))%Z) by lia.
  assert (C1 : forall g, In g gs -> close 44 (d_elastic (c64 g)) (bw_elastic (B2R sinphi) (B2R sintwophi) (e g) (G g) (d g)) (bw_elastic_size (B2R sinphi) (B2R sintwophi) (e g) (G g) (d g)) /\ fine (bw_elastic_size (B2R sinphi) (B2R sintwophi) (e g) (G g) (d g))).
  { intros g Hg. destruct (elastic_close w b energy p q s g Hw Hb (U g Hg) UE sinphi sintwophi W1 W2 L1 L2) as (A & B & C). split; [exact A | apply (fine_of _ _ _ B C Lo); lra]. }
  assert (C2 : forall g, In g gs -> close 31 (d_capture (c64 g)) (bw_reaction (B2R (g_capture g)) (e g) (G g) (d g)) (bw_reaction (B2R (g_capture g)) (e g) (G g) (d g)) /\ fine (bw_reaction (B2R (g_capture g)) (e g) (G g) (d g))).
  { intros g Hg. pose proof (U g Hg) as Ug. destruct (other_le w b energy p q s g Hw Hb Ug UE) as [[_ O1] _]. destruct Ug as (_ & _ & HC & _).
    destruct (reaction_close w b energy p q s g Hw Hb (U g Hg) UE (g_capture g) (B2R (g_capture g)) (zero_near0 _ _ HC) O1) as (A & B & C). split; [exact A | apply (fine_of _ _ _ B C Lo); lra]. }
  assert (C3 : forall g, In g gs -> close 31 (d_fission (c64 g)) (bw_reaction (B2R (g_fission g)) (e g) (G g) (d g)) (bw_reaction (B2R (g_fission g)) (e g) (G g) (d g)) /\ fine (bw_reaction (B2R (g_fission g)) (e g) (G g) (d g))).
  { intros g Hg. pose proof (U g Hg) as Ug. destruct (other_le w b energy p q s g Hw Hb Ug UE) as [_ [_ O1]]. destruct Ug as (_ & _ & _ & HF & _).
    destruct (reaction_close w b energy p q s g Hw Hb (U g Hg) UE (g_fission g) (B2R (g_fission g)) (zero_near0 _ _ HF) O1) as (A & B & C). split; [exact A | apply (fine_of _ _ _ B C Lo); lra]. }
  apply total_close in C1; [|lia | exact Hl']. apply total_close in C2; [|lia | exact Hl']. apply total_close in C3; [|lia | exact Hl'].
  destruct C1 as (C1 & M1 & F1 & N1). destruct C2 as (C2 & M2 & F2 & N2). destruct C3 as (C3 & M3 & F3 & N3).
  assert (I : forall j, INR (j + length gs) = INR j + N) by (intros; apply plus_INR).
  split; [|split].
  - pose proof (factored _ _ _ _ _ _ _ Hpi Hk Hsf C1 M1 F1 N1) as R. rewrite I in R. replace (INR 44 + N + 6) with (N + 50) in R by (replace (INR 44) with 44 by (cbn; ring); ring). exact R.
  - pose proof (factored _ _ _ _ _ _ _ Hpi Hk Hsf C2 M2 F2 N2) as R. rewrite I in R. replace (INR 31 + N + 6) with (N + 37) in R by (replace (INR 31) with 31 by (cbn; ring); ring). exact R.
  - destruct (nonzero64 _) eqn:Z.
    + pose proof (factored _ _ _ _ _ _ _ Hpi Hk Hsf C3 M3 F3 N3) as R. rewrite I in R. replace (INR 31 + N + 6) with (N + 37) in R by (replace (INR 31) with 31 by (cbn; ring); ring). exact R.
    + destruct C3 as (Fi & _ & E). unfold nonzero64 in Z. rewrite negb_false_iff in Z. rewrite Beqb_correct in Z by (try exact Fi; reflexivity). change (B2R (#0)%D) with 0 in Z.
      destruct (Req_bool_spec (B2R (fold_left plus (map (fun a => d_fission (c64 a)) gs) (#0)%D)) 0) as [V|]; [|discriminate]. rewrite V in E.
      set (T := total_of (fun g => bw_reaction (B2R (g_fission g)) (e g) (G g) (d g)) gs) in *. change (f * T = 0). assert (T0 : T = 0); [|rewrite T0; ring]. pose proof (up_any (31 + length gs)) as Up. assert (N3' : INR (31 + length gs) * u <= / 2) by lra. apply Up in N3'.
      replace (0 - T) with (- T) in E by ring. rewrite Rabs_Ropp, Rabs_pos_eq in E by lra. destruct (Req_dec T 0) as [|NT]; [assumption|]. nra.
Qed.
(** * The multi-level formula *)
Fixpoint pair_list {A} (before l : list A) : list (A * A) :=
  match l with [] => [] | y :: r => map (fun z => (y, z)) before ++ pair_list (before ++ [y]) r end.
Lemma pairs_total {A} (h : A -> A -> R) (l : list A) : forall before, pairs_of h before l = total_of (fun z => h (fst z) (snd z)) (pair_list before l).
Proof. induction l as [|y l IH]; intros before; [reflexivity|]. cbn [pairs_of pair_list]. rewrite total_app, total_map, IH. reflexivity. Qed.
Lemma pair_in {A} (l : list A) : forall before z, In z (pair_list before l) -> In (fst z) l /\ In (snd z) (before ++ l).
Proof.
  induction l as [|y l IH]; intros before z H; [contradiction|]. cbn [pair_list] in H. apply in_app_or in H. destruct H as [H|H].
  - apply in_map_iff in H. destruct H as (v & <- & Hv). cbn. split; [left; reflexivity | apply in_or_app; left; exact Hv].
  - destruct (IH _ _ H) as [A1 A2]. split; [right; exact A1|]. rewrite <- app_assoc in A2. exact A2.
Qed.
Lemma pair_length {A} (l : list A) : forall before, (length (pair_list before l) <= length l * (length before + length l))%nat.
Proof.
  induction l as [|y l IH]; intros before; [cbn; lia|]. cbn [pair_list]. rewrite app_length, map_length. specialize (IH (before ++ [y])). rewrite app_length in IH. cbn [length] in *. nia.
Qed.
Lemma crosses_fold (l : list given64) : forall before t,
  crosses64 (map x before) (map x l) t = fold_left plus (map (fun z => cross64 (x (fst z)) (x (snd z))) (pair_list before l)) t.
Proof.
  induction l as [|y l IH]; intros before t; [reflexivity|]. cbn [map crosses64 pair_list]. change [x y] with (map x [y]). rewrite <- map_app, IH, map_app, fold_left_app. f_equal.
  rewrite map_map. clear. revert t. induction before as [|z before IH]; intros t; [reflexivity|]. cbn. apply IH.
Qed.
Lemma mlbw_part : (Z.of_nat (length gs) <= 2 ^ 20)%Z -> (w + 2 * b <= 100)%Z ->
  let t := mlbw64 pi k sf energy p q s (map makeResonance64 gs) in
  is_finite t = true /\ Rabs (B2R t - f * pairs_of (fun g g' => bw_interference (e g) (G g) (d g) (e g') (G g') (d g')) [] gs)
    <= 2 * (N * N + 83) * bpow radix2 (-53) * (f * pairs_of (fun g g' => bw_interference_size (e g) (G g) (d g) (e g') (G g') (d g')) [] gs).
Proof.
  intros Hl Hc t. unfold t, mlbw64. rewrite map_map. change (map (fun x0 : given64 => precompute64 energy p q s (makeResonance64 x0)) gs) with (map x gs). change (@nil precomputed64) with (map x []). rewrite crosses_fold, !pairs_total.
  pose proof (pair_length gs []) as Lp. cbn [length Nat.add] in Lp. assert (Lz : (Z.of_nat (length (pair_list [] gs)) <= 2 ^ 40)%Z) by nia.
  destruct (total_close (fun z => cross64 (x (fst z)) (x (snd z))) (fun z => bw_interference (e (fst z)) (G (fst z)) (d (fst z)) (e (snd z)) (G (snd z)) (d (snd z)))
    (fun z => bw_interference_size (e (fst z)) (G (fst z)) (d (fst z)) (e (snd z)) (G (snd z)) (d (snd z))) 77 (pair_list [] gs)) as (C & M & F & Nu); [lia | lia | |].
  - intros z Hz. apply pair_in in Hz. cbn [app] in Hz. destruct Hz as [Z1 Z2]. rewrite Forall_forall in U.
    destruct (cross_close w b energy p q s Hw Hb Hc UE (fst z) (snd z) (U _ Z1) (U _ Z2)) as (A & B & D). split; [exact A|]. apply (fine_of _ _ _ B D); [lia | lra].
  - pose proof (factored _ _ _ _ _ _ _ Hpi Hk Hsf C M F Nu) as [R1 R2]. split; [exact R1|]. apply Rle_trans with (1 := R2). pose proof (factor_near _ _ _ Hpi Hk Hsf) as Hf. apply near_pos in Hf.
    apply Rmult_le_compat_r; [apply Rmult_le_pos; [unfold f; lra | lra]|]. apply Rmult_le_compat_r; [apply bpow_ge_0|]. apply Rmult_le_compat_l; [lra|]. rewrite plus_INR. replace (INR 77) with 77 by (cbn; ring).
    apply le_INR in Lp. rewrite mult_INR in Lp. fold N in Lp. lra.
Qed.
End Group.

(** * Together *)
Section Displaced.
Variables (w b : Z) (energy p q s : double).
Hypotheses (Hw : (0 <= w <= 40)%Z) (Hb : (0 <= b <= 80)%Z) (UE : usable_energy b energy p q s).
Definition distance64 (g : given64) : R := B2R (b_delta (precompute64 energy p q s (makeResonance64 g))).
Lemma all_displaced gs : Forall (usable w b) gs -> Forall2 (displaced energy s) gs (map distance64 gs).
Proof.
  induction 1 as [|g gs Ug _ IH]; [constructor|]. cbn. constructor; [|exact IH]. destruct (delta_close w b energy p q s g Hw Hb Ug UE) as (_ & H & _). exact H.
Qed.
Lemma combine_total (h : given64 * R -> R) gs : total_of h (combine gs (map distance64 gs)) = total_of (fun g => h (g, distance64 g)) gs.
Proof. induction gs as [|g gs IH]; [reflexivity|]. cbn. rewrite IH. reflexivity. Qed.
Lemma combine_pairs (h : given64 * R -> given64 * R -> R) gs : forall before,
  pairs_of h (combine before (map distance64 before)) (combine gs (map distance64 gs)) = pairs_of (fun g g' => h (g, distance64 g) (g', distance64 g')) before gs.
Proof.
  induction gs as [|g gs IH]; intros before; [reflexivity|]. cbn [combine map pairs_of]. rewrite combine_total. f_equal. rewrite <- IH. f_equal.
  rewrite map_app. cbn [map]. induction before as [|y before IHb]; [reflexivity|]. cbn. rewrite <- IHb. reflexivity.
Qed.
End Displaced.

Lemma slbw_rounded energy p q s sinphi sintwophi pi k sf gs :
  Forall (usable 40 80) gs -> usable_energy 80 energy p q s -> within 80 sinphi -> within 80 sintwophi -> Rabs (B2R sinphi) <= 1 -> Rabs (B2R sintwophi) <= 1 ->
  positive_within 2 pi -> positive_within 30 k -> positive_within 20 sf -> (Z.of_nat (length gs) <= 2 ^ 40)%Z ->
  exists ds, Forall2 (displaced energy s) gs ds /\
    single_level p q sinphi sintwophi pi k sf (combine gs ds) (slbw64 pi k sf energy p q s sinphi sintwophi (map makeResonance64 gs)).
Proof.
  intros U UE W1 W2 L1 L2 Hpi Hk Hsf Hl. exists (map (distance64 energy p q s) gs). split; [apply (all_displaced 40 80); [lia | lia | exact UE | exact U]|].
  pose proof (slbw_parts 40 80 energy p q s sinphi sintwophi pi k sf gs ltac:(lia) ltac:(lia) U UE W1 W2 L1 L2 Hpi Hk Hsf Hl) as H. unfold single_level.
  destruct (slbw64 _ _ _ _ _ _ _ _ _ _) as [[el ca] fi]. rewrite combine_length, map_length, Nat.min_id, !combine_total. exact H.
Qed.
Lemma mlbw_rounded energy p q s sinphi sintwophi pi k sf gs :
  Forall (usable 30 35) gs -> usable_energy 35 energy p q s -> within 80 sinphi -> within 80 sintwophi -> Rabs (B2R sinphi) <= 1 -> Rabs (B2R sintwophi) <= 1 ->
  positive_within 2 pi -> positive_within 30 k -> positive_within 20 sf -> (Z.of_nat (length gs) <= 2 ^ 20)%Z ->
  exists ds, Forall2 (displaced energy s) gs ds /\
    single_level p q sinphi sintwophi pi k sf (combine gs ds) (slbw64 pi k sf energy p q s sinphi sintwophi (map makeResonance64 gs)) /\
    interference p q pi k sf (combine gs ds) (mlbw64 pi k sf energy p q s (map makeResonance64 gs)).
Proof.
  intros U UE W1 W2 L1 L2 Hpi Hk Hsf Hl. exists (map (distance64 energy p q s) gs). split; [apply (all_displaced 30 35); [lia | lia | exact UE | exact U]|]. split.
  - pose proof (slbw_parts 30 35 energy p q s sinphi sintwophi pi k sf gs ltac:(lia) ltac:(lia) U UE W1 W2 L1 L2 Hpi Hk Hsf ltac:(lia)) as H. unfold single_level.
    destruct (slbw64 _ _ _ _ _ _ _ _ _ _) as [[el ca] fi]. rewrite combine_length, map_length, Nat.min_id, !combine_total. exact H.
  - pose proof (mlbw_part 30 35 energy p q s pi k sf gs ltac:(lia) ltac:(lia) U UE Hpi Hk Hsf Hl ltac:(lia)) as H. unfold interference.
    rewrite combine_length, map_length, Nat.min_id. change (@nil (given64 * R)) with (combine (@nil given64) (map (distance64 energy p q s) [])). rewrite !combine_pairs. exact H.
Qed.

(** * Without the displaced distances *)
Lemma lorentz_pos' G d : 0 < G -> 0 < lorentz G d.
Proof. intros H. unfold lorentz. nra. Qed.
Lemma reaction_ratio v e G d d' y : 0 <= v -> 0 <= e -> 0 < G -> 0 <= y <= / 6 -> Rabs (d' - d) <= y * G ->
  Rabs (bw_reaction v e G d' - bw_reaction v e G d) <= 5 * y * bw_reaction v e G d.
Proof.
  intros Hv He HG Hy Hd. pose proof (lorentz_pos' G d HG) as P. pose proof (lorentz_pos' G d' HG) as P'. set (L := lorentz G d) in *. set (L' := lorentz G d') in *.
  assert (A : Rabs (L' - L) <= (2 * y + 4 * (y * y)) * L).
  { unfold L', L, lorentz. replace (d' * d' + / 4 * G * G - (d * d + / 4 * G * G)) with ((d' - d) * (2 * d + (d' - d))) by ring. rewrite Rabs_mult.
    assert (T : Rabs (2 * d + (d' - d)) <= 2 * Rabs d + y * G). { apply Rle_trans with (1 := Rabs_triang _ _). rewrite Rabs_mult, (Rabs_pos_eq 2) by lra. lra. }
    pose proof (Rabs_pos d) as D0. pose proof (Rabs_pos (d' - d)). apply Rle_trans with (y * G * (2 * Rabs d + y * G)); [apply Rmult_le_compat; try apply Rabs_pos; assumption|].
    assert (E : d * d = Rabs d * Rabs d) by (rewrite <- Rabs_mult, Rabs_pos_eq; [reflexivity | apply Rle_0_sqr]). rewrite E.
    assert (Q1 : G * Rabs d <= Rabs d * Rabs d + / 4 * G * G) by (pose proof (Rle_0_sqr (Rabs d - / 2 * G)) as Q; unfold Rsqr in Q; lra).
    assert (Q2 : G * G <= 4 * (Rabs d * Rabs d + / 4 * G * G)) by nra. assert (Y : 0 <= y * y) by nra. set (W := Rabs d * Rabs d + / 4 * G * G) in *. replace (y * G * (2 * Rabs d + y * G)) with (2 * y * (G * Rabs d) + y * y * (G * G)) by ring. pose proof (Rmult_le_compat_l (2 * y) _ _ ltac:(lra) Q1). pose proof (Rmult_le_compat_l (y * y) _ _ Y Q2). lra. }
  assert (B : L' >= L * (1 - 8 / 3 * y)). { apply Rabs_le_inv in A. assert (y * y <= / 6 * y) by nra. assert ((2 * y + 4 * (y * y)) * L <= 8 / 3 * y * L) by (apply Rmult_le_compat_r; lra). lra. }
  unfold bw_reaction. fold L L'. replace (v * e / L' - v * e / L) with (v * e * ((L - L') / (L * L'))) by (field; lra). rewrite Rabs_mult, (Rabs_pos_eq (v * e)) by nra.
  replace (5 * y * (v * e / L)) with (v * e * (5 * y / L)) by (field; lra). apply Rmult_le_compat_l; [nra|]. unfold Rdiv. rewrite Rabs_mult, Rabs_inv, (Rabs_pos_eq (L * L')) by nra. rewrite Rabs_minus_sym.
  apply (Rmult_le_reg_r (L * L')); [nra|]. replace (Rabs (L' - L) * / (L * L') * (L * L')) with (Rabs (L' - L)) by (field; lra). replace (5 * y * / L * (L * L')) with (5 * y * L') by (field; lra).
  apply Rle_trans with (1 := A). apply Rle_trans with (5 * y * (L * (1 - 8 / 3 * y))); [|apply Rmult_le_compat_l; lra]. replace (5 * y * (L * (1 - 8 / 3 * y))) with ((5 * y - 40 / 3 * (y * y)) * L) by field. assert (y * y <= / 6 * y) by nra. apply Rmult_le_compat_r; lra.
Qed.
Lemma reactions_total y (h : given64 -> R) p q energy s gs ds : 0 <= y <= / 6 -> Forall2 (displaced energy s) gs ds ->
  (forall g, In g gs -> 0 <= h g /\ 0 <= neutron_width p g /\ 0 < total_width p q g /\ 9 * bpow radix2 (-53) * (Rabs (B2R energy) + Rabs (B2R (g_energy g)) + Rabs (displacement s g)) <= y * total_width p q g) ->
  Rabs (total_of (fun z => bw_reaction (h (fst z)) (neutron_width p (fst z)) (total_width p q (fst z)) (snd z)) (combine gs ds) -
        total_of (fun g => bw_reaction (h g) (neutron_width p g) (total_width p q g) (distance energy s g)) gs)
  <= 5 * y * total_of (fun g => bw_reaction (h g) (neutron_width p g) (total_width p q g) (distance energy s g)) gs /\
  0 <= total_of (fun g => bw_reaction (h g) (neutron_width p g) (total_width p q g) (distance energy s g)) gs.
Proof.
  intros Hy H. induction H as [|g d gs ds Hd _ IH]; intros A; [cbn; rewrite Rminus_eq_0, Rabs_R0; lra|]. destruct IH as [I1 I2]; [intros g' Hg; apply A; right; exact Hg|]. cbn [combine total_of fst snd].
  destruct (A g (or_introl eq_refl)) as (A1 & A2 & A3 & A4). pose proof (reaction_ratio (h g) (neutron_width p g) (total_width p q g) (distance energy s g) d y A1 A2 A3 Hy) as R.
  assert (P : 0 <= bw_reaction (h g) (neutron_width p g) (total_width p q g) (distance energy s g)) by (unfold bw_reaction; apply Rmult_le_pos; [nra | left; apply Rinv_0_lt_compat, lorentz_pos'; exact A3]).
  split; [|lra].
  match goal with |- Rabs (?a + ?b - (?c + ?d)) <= _ => replace (a + b - (c + d)) with ((a - c) + (b - d)) by ring end. apply Rle_trans with (1 := Rabs_triang _ _).
  assert (R' := R ltac:(unfold displaced in Hd; lra)). lra.
Qed.
Lemma close_total (x a b0 m : R) (eps y f : R) : 0 <= f -> 0 <= y <= / 6 -> 0 <= eps -> Rabs (x - f * a) <= eps * (f * a) -> Rabs (a - b0) <= 5 * y * b0 -> 0 <= b0 -> Rabs (x - f * b0) <= (2 * eps + 5 * y) * (f * b0).
Proof.
  intros Hf Hy He H1 H2 H3. replace (x - f * b0) with ((x - f * a) + f * (a - b0)) by ring. apply Rle_trans with (1 := Rabs_triang _ _). rewrite Rabs_mult, (Rabs_pos_eq f) by exact Hf.
  assert (A : a <= 2 * b0) by (apply Rabs_le_inv in H2; nra).
  apply Rle_trans with (eps * (f * (2 * b0)) + f * (5 * y * b0)); [|right; ring]. apply Rplus_le_compat; [|apply Rmult_le_compat_l; assumption]. apply Rle_trans with (1 := H1). apply Rmult_le_compat_l; [exact He|]. apply Rmult_le_compat_l; assumption.
Qed.
Lemma zero_total a b0 y : 0 <= y <= / 6 -> a = 0 -> Rabs (a - b0) <= 5 * y * b0 -> 0 <= b0 -> b0 = 0.
Proof. intros Hy -> H H0. replace (0 - b0) with (- b0) in H by ring. rewrite Rabs_Ropp, Rabs_pos_eq in H by exact H0. nra. Qed.
Lemma forall2_length {A B} (P : A -> B -> Prop) l m : Forall2 P l m -> length l = length m.
Proof. induction 1; cbn; congruence. Qed.
Lemma reactions_accurate y energy p q s sinphi sintwophi pi k sf gs :
  Forall (usable 40 80) gs -> usable_energy 80 energy p q s -> within 80 sinphi -> within 80 sintwophi -> Rabs (B2R sinphi) <= 1 -> Rabs (B2R sintwophi) <= 1 ->
  positive_within 2 pi -> positive_within 30 k -> positive_within 20 sf -> (Z.of_nat (length gs) <= 2 ^ 40)%Z -> 0 <= y <= / 6 ->
  (forall g, In g gs -> 9 * bpow radix2 (-53) * (Rabs (B2R energy) + Rabs (B2R (g_energy g)) + Rabs (displacement s g)) <= y * total_width p q g) ->
  let '(_, ca, fi) := slbw64 pi k sf energy p q s sinphi sintwophi (map makeResonance64 gs) in
  let exact h := bw_factor pi k sf * total_of (fun g => bw_reaction (h g) (neutron_width p g) (total_width p q g) (distance energy s g)) gs in
  let error := 4 * (INR (length gs) + 37) * bpow radix2 (-53) + 5 * y in
  let c := exact (fun g => B2R (g_capture g)) in let f := exact (fun g => B2R (g_fission g)) in
  Rabs (B2R ca - c) <= error * c /\ match fi with Some fi => Rabs (B2R fi - f) <= error * f | None => f = 0 end.
Proof.
  intros U UE W1 W2 L1 L2 Hpi Hk Hsf Hl Hy HY. destruct (slbw_rounded energy p q s sinphi sintwophi pi k sf gs U UE W1 W2 L1 L2 Hpi Hk Hsf Hl) as (ds & D & H).
  unfold single_level in H. destruct (slbw64 _ _ _ _ _ _ _ _ _ _) as [[el ca] fi]. destruct H as (_ & (_ & Hc) & Hf). cbv zeta.
  assert (Le : length (combine gs ds) = length gs) by (rewrite combine_length, <- (forall2_length _ _ _ D); lia). rewrite Le in Hc. rewrite Le in Hf.
  rewrite Forall_forall in U. pose proof (near_pos _ _ _ _ _ (factor_near _ _ _ Hpi Hk Hsf)) as [Pf _]. set (F := bw_factor pi k sf) in *.
  assert (A : forall g, In g gs -> (0 <= B2R (g_capture g)) /\ (0 <= B2R (g_fission g)) /\ 0 <= neutron_width p g /\ 0 < total_width p q g).
  { intros g Hg. destruct (other_le 40 80 energy p q s g ltac:(lia) ltac:(lia) (U g Hg) UE) as [[O1 _] [O2 _]]. pose proof (width_le 40 80 energy p q s g ltac:(lia) ltac:(lia) (U g Hg) UE) as [O3 _].
    pose proof (near_pos _ _ _ _ _ (total_near 40 80 energy p q s g ltac:(lia) ltac:(lia) (U g Hg) UE)) as [O4 _]. repeat split; assumption. }
  destruct (reactions_total y (fun g => B2R (g_capture g)) p q energy s gs ds Hy D) as [C1 C2]; [intros g Hg; destruct (A g Hg) as (A1 & A2 & A3 & A4); repeat split; try assumption; apply HY; exact Hg|].
  destruct (reactions_total y (fun g => B2R (g_fission g)) p q energy s gs ds Hy D) as [F1 F2]; [intros g Hg; destruct (A g Hg) as (A1 & A2 & A3 & A4); repeat split; try assumption; apply HY; exact Hg|].
  pose proof (pos_INR (length gs)) as N0. pose proof (bpow_gt_0 radix2 (-53)) as B0. assert (E0 : 0 <= 2 * (INR (length gs) + 37) * bpow radix2 (-53)) by (apply Rmult_le_pos; lra).
  replace (4 * (INR (length gs) + 37) * bpow radix2 (-53)) with (2 * (2 * (INR (length gs) + 37) * bpow radix2 (-53))) by ring.
  split; [apply (close_total _ _ _ 0 _ y F ltac:(lra) Hy E0 Hc C1 C2)|]. destruct fi as [fi|].
  - destruct Hf as [_ Hf]. apply (close_total _ _ _ 0 _ y F ltac:(lra) Hy E0 Hf F1 F2).
  - apply Rmult_integral in Hf. destruct Hf as [Hf | Hf]; [lra|]. rewrite (zero_total _ _ y Hy Hf F1 F2). apply Rmult_0_r.
Qed.
