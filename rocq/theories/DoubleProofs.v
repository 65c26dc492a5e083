(** Half-integers in doubles. *)
From Coq Require Import String List ZArith Reals Lra Lia Bool.
From Flocq Require Import Core.Core IEEE754.BinarySingleNaN.
From Verif Require Import Outcome QuantumModel QuantumSpec QuantumProofs DoubleModel DoubleSpec.
Import ListNotations.
Open Scope Z_scope.

Definition fexp64 := SpecFloat.fexp 53 1024.
Lemma half_format z : Z.abs z < 2 ^ 53 -> generic_format radix2 fexp64 (IZR z / 2).
Proof.
  intros H. change fexp64 with (FLT_exp (3 - 1024 - 53) 53). apply generic_format_FLT. exists (Float radix2 z (-1)).
  - unfold F2R. cbn. lra.
  - exact H.
  - cbn. lia.
Qed.
Lemma half_small z : Z.abs z < 2 ^ 53 -> (Rabs (IZR z / 2) < bpow radix2 1024)%R.
Proof.
  intros H. apply Rlt_trans with (bpow radix2 53); [|apply bpow_lt; lia].
  apply Rle_lt_trans with (IZR (Z.abs z)).
  - rewrite abs_IZR. unfold Rdiv. rewrite Rabs_mult, (Rabs_pos_eq (/ 2)) by lra. pose proof (Rabs_pos (IZR z)). lra.
  - change (bpow radix2 53) with (IZR (2 ^ 53)). apply IZR_lt. exact H.
Qed.
Lemma round_half z : Z.abs z < 2 ^ 53 -> round radix2 fexp64 (round_mode mode_NE) (IZR z / 2) = (IZR z / 2)%R.
Proof. intros H. apply round_generic; [apply valid_rnd_N | apply half_format, H]. Qed.
Lemma plus_holds x y a b : holds x a -> holds y b -> Z.abs (a + b) < 2 ^ 53 -> holds (plus x y) (a + b).
Proof.
  intros [Fx Vx] [Fy Vy] H. pose proof (Bplus_correct 53 1024 eq_refl eq_refl mode_NE x y Fx Fy) as C. fold fexp64 in C.
  rewrite Vx, Vy in C. replace (IZR a / 2 + IZR b / 2)%R with (IZR (a + b) / 2)%R in C by (rewrite plus_IZR; lra).
  rewrite (round_half _ H), Rlt_bool_true in C by (apply half_small, H). destruct C as (C1 & C2 & _). split; assumption.
Qed.
Lemma minus_holds x y a b : holds x a -> holds y b -> Z.abs (a - b) < 2 ^ 53 -> holds (minus x y) (a - b).
Proof.
  intros [Fx Vx] [Fy Vy] H. pose proof (Bminus_correct 53 1024 eq_refl eq_refl mode_NE x y Fx Fy) as C. fold fexp64 in C.
  rewrite Vx, Vy in C. replace (IZR a / 2 - IZR b / 2)%R with (IZR (a - b) / 2)%R in C by (rewrite minus_IZR; lra).
  rewrite (round_half _ H), Rlt_bool_true in C by (apply half_small, H). destruct C as (C1 & C2 & _). split; assumption.
Qed.
Lemma of_holds z : Z.abs (2 * z) < 2 ^ 53 -> holds (double_of z) (2 * z).
Proof.
  intros H. pose proof (binary_normalize_correct 53 1024 eq_refl eq_refl mode_NE z 0 false) as C. cbv zeta in C. fold fexp64 in C.
  replace (F2R (Float radix2 z 0)) with (IZR (2 * z) / 2)%R in C by (unfold F2R; cbn [Fnum Fexp bpow]; rewrite mult_IZR; lra).
  rewrite (round_half _ H), Rlt_bool_true in C by (apply half_small, H). destruct C as (C1 & C2 & _). split; assumption.
Qed.
Lemma abs_holds x a : holds x a -> holds (Babs x) (Z.abs a).
Proof.
  intros [F V]. split; [rewrite is_finite_Babs; exact F|]. rewrite B2R_Babs, V, abs_IZR. unfold Rdiv. rewrite Rabs_mult, (Rabs_pos_eq (/ 2)) by lra. reflexivity.
Qed.
Lemma ltb_holds x y a b : holds x a -> holds y b -> Bltb x y = (a <? b).
Proof.
  intros [Fx Vx] [Fy Vy]. rewrite Bltb_correct, Vx, Vy by assumption. destruct (Z.ltb_spec a b) as [H|H].
  - apply Rlt_bool_true. apply IZR_lt in H. lra.
  - apply Rlt_bool_false. apply IZR_le in H. lra.
Qed.
Lemma eqb_holds x y a b : holds x a -> holds y b -> Beqb x y = (a =? b).
Proof.
  intros [Fx Vx] [Fy Vy]. rewrite Beqb_correct, Vx, Vy by assumption. destruct (Z.eqb_spec a b) as [->|H].
  - apply Req_bool_true. reflexivity.
  - apply Req_bool_false. intros Q. apply H, eq_IZR. lra.
Qed.
Lemma one_holds : holds (double_of 1) 2.
Proof. exact (of_holds 1 ltac:(cbn; lia)). Qed.
Lemma zero_holds : holds (double_of 0) 0.
Proof. exact (of_holds 0 ltac:(cbn; lia)). Qed.

(** * Outcomes *)
Lemma same_bind {A B A' B'} (R : A -> B -> Prop) (R' : A' -> B' -> Prop) o o' f g : same_outcome R o o' ->
  (forall a b, R a b -> same_outcome R' (f a) (g b)) -> same_outcome R' (bind o f) (bind o' g).
Proof. destruct o, o'; cbn; intros H K; try contradiction; try exact H. apply K, H. Qed.
Lemma same_mapM {A B A' B'} (R : A -> B -> Prop) (R' : A' -> B' -> Prop) f g l l' : Forall2 R l l' ->
  (forall a b, R a b -> same_outcome R' (f a) (g b)) -> same_outcome (Forall2 R') (mapM f l) (mapM g l').
Proof.
  intros H K. induction H as [|x y l l' Hxy H IH]; [constructor|]. cbn [mapM].
  apply (same_bind R'); [apply K, Hxy|]. intros a b Hab. apply (same_bind (Forall2 R')); [exact IH|]. intros r r' Hr. constructor; assumption.
Qed.
Lemma concat_all {A B} (R : A -> B -> Prop) l l' : Forall2 (Forall2 R) l l' -> Forall2 R (concat l) (concat l').
Proof. induction 1; [constructor|]. cbn. apply Forall2_app; assumption. Qed.

(** * The loop *)
Lemma loop_holds fuel : forall X x B b, holds X x -> holds B b -> - 2 ^ 52 <= x <= 2 ^ 52 -> - 2 ^ 52 <= b <= 2 ^ 52 + 2 ->
  same_outcome (Forall2 holds) (loop64 fuel X B) (coupling_loop fuel x b).
Proof.
  induction fuel as [|n IH]; intros X x B b HX HB Hx Hb; [exact Logic.I|]. cbn [loop64 coupling_loop].
  rewrite (ltb_holds _ _ _ _ HB HX), Z.gtb_ltb. destruct (Z.ltb_spec b x) as [L|L].
  - apply (same_bind (Forall2 holds)).
    + apply IH; [exact HX | apply plus_holds; [exact HB | exact one_holds | lia] | exact Hx | lia].
    + intros r r' H. constructor; assumption.
  - constructor; [exact HB | constructor].
Qed.
Lemma loop_more n : forall m max back r, coupling_loop n max back = Ok r -> (n <= m)%nat -> coupling_loop m max back = Ok r.
Proof.
  induction n as [|n IH]; intros m max back r H L; [discriminate|]. destruct m as [|m]; [lia|]. cbn [coupling_loop] in *.
  destruct (max >? back); [|exact H]. destruct (coupling_loop n max (back + 2)) as [r'| | |] eqn:E; try discriminate.
  rewrite (IH m _ _ _ E) by lia. exact H.
Qed.

(** The fuel for which the exact model is known to end is enough for every loop below. *)
Lemma loop_same X x B b fuel r : holds X x -> holds B b -> - 2 ^ 52 <= x <= 2 ^ 52 -> - 2 ^ 52 <= b <= 2 ^ 52 + 2 ->
  coupling_loop (coupling_fuel b x) x b = Ok r -> (coupling_fuel b x <= fuel)%nat ->
  same_outcome (Forall2 holds) (loop64 fuel X B) (coupling_loop (coupling_fuel b x) x b).
Proof.
  intros HX HB Hx Hb H L. rewrite H, <- (loop_more _ _ _ _ _ H L). apply loop_holds; assumption.
Qed.
Lemma fuel_le b x M fuel : 0 <= b -> x <= M -> (S (Z.to_nat M) <= fuel)%nat -> (coupling_fuel b x <= fuel)%nat.
Proof. intros Hb Hx H. unfold coupling_fuel. lia. Qed.
Lemma spins_same x y i I fuel : holds x i -> holds y I -> 0 <= i <= 2 ^ 50 -> 0 <= I <= 2 ^ 50 -> (S (Z.to_nat (i + I)) <= fuel)%nat ->
  same_outcome (Forall2 holds) (spins64 fuel x y) (possibleChannelSpinValues i I).
Proof.
  intros Hx Hy Hi HI L. destruct (channel_spins_spec i I (proj1 Hi) (proj1 HI)) as (l & E & _). unfold spins64. unfold possibleChannelSpinValues in *. cbv zeta in *.
  apply (loop_same _ _ _ _ _ l); [apply plus_holds; [exact Hx | exact Hy | lia] | apply abs_holds, minus_holds; [exact Hx | exact Hy | lia] | lia | lia | exact E |].
  apply (fuel_le _ _ (i + I)); lia.
Qed.
Lemma l_holds l : Z.of_nat l <= 2 ^ 49 -> holds (double_of (Z.of_nat l)) (2 * Z.of_nat l).
Proof. intros H. apply of_holds. lia. Qed.
Lemma J_same l y s fuel : holds y s -> Z.of_nat l <= 2 ^ 49 -> 0 <= s <= 2 ^ 51 -> (S (Z.to_nat (2 * Z.of_nat l + s)) <= fuel)%nat ->
  same_outcome (Forall2 holds) (J64 fuel l y) (possibleJ l s).
Proof.
  intros Hy Hl Hs L. destruct (possibleJ_spec l s (proj1 Hs)) as (r & E & _). unfold J64. unfold possibleJ in *. cbv zeta in *.
  apply (loop_same _ _ _ _ _ r); [apply plus_holds; [apply l_holds; lia | exact Hy | lia] | apply abs_holds, minus_holds; [apply l_holds; lia | exact Hy | lia] | lia | lia | exact E |].
  apply (fuel_le _ _ (2 * Z.of_nat l + s)); lia.
Qed.
Lemma J3_same l x y i I fuel : holds x i -> holds y I -> Z.of_nat l <= 2 ^ 49 -> 0 <= i <= 2 ^ 50 -> 0 <= I <= 2 ^ 50 -> (S (Z.to_nat (2 * Z.of_nat l + I + i)) <= fuel)%nat ->
  same_outcome (Forall2 holds) (J3_64 fuel l x y) (possibleJ3 l i I).
Proof.
  intros Hx Hy Hl Hi HI L. destruct (possibleJ3_list l i I (proj1 Hi) (proj1 HI)) as (r & E & _). unfold J3_64. unfold possibleJ3 in *. cbv zeta in *.
  pose proof (l_holds l ltac:(lia)) as H0.
  apply (loop_same _ _ _ _ _ r); [apply plus_holds; [apply plus_holds; [exact H0 | exact Hy | lia] | exact Hx | lia]
    | apply abs_holds, minus_holds; [apply abs_holds, minus_holds; [exact H0 | exact Hy | lia] | exact Hx | lia] | lia | lia | exact E |].
  apply (fuel_le _ _ (2 * Z.of_nat l + I + i)); lia.
Qed.
Lemma Forall2_self {A} (R : A -> A -> Prop) l : (forall x, In x l -> R x x) -> Forall2 R l l.
Proof. induction l as [|x l IH]; intros H; constructor; [apply H; left; reflexivity | apply IH; intros y Hy; apply H; right; exact Hy]. Qed.
Lemma Forall2_strong {A B} (R R' : A -> B -> Prop) l l' : Forall2 R l l' -> (forall x y, In y l' -> R x y -> R' x y) -> Forall2 R' l l'.
Proof. intros H. induction H as [|x y l l' Hxy H IH]; intros K; constructor; [apply K; [left; reflexivity | exact Hxy] | apply IH; intros a b Hb; apply K; right; exact Hb]. Qed.
Lemma numbers_same x y i I lmax fuel : holds x i -> holds y I -> 0 <= i <= 2 ^ 50 -> 0 <= I <= 2 ^ 50 -> Z.of_nat lmax <= 2 ^ 49 ->
  (S (Z.to_nat (2 * Z.of_nat lmax + i + I)) <= fuel)%nat ->
  same_outcome (Forall2 holds_number) (makeQuantumNumbers64 fuel x y lmax) (makeQuantumNumbers i I lmax).
Proof.
  intros Hx Hy Hi HI Hl L. unfold makeQuantumNumbers64, makeQuantumNumbers. destruct (channel_spins_spec i I (proj1 Hi) (proj1 HI)) as (ss & E & _ & Hss).
  apply (same_bind (fun a b => Forall2 holds a b /\ b = ss)).
  - pose proof (spins_same x y i I fuel Hx Hy Hi HI ltac:(lia)) as H. rewrite E in *. destruct (spins64 fuel x y); try contradiction. split; [exact H | reflexivity].
  - intros spins spins' [Hs ->]. apply (same_bind (Forall2 (Forall2 holds_number))); [|intros r r' Hr; apply concat_all, Hr].
    apply (same_mapM (fun a b => a = b /\ (b < lmax)%nat)).
    + apply Forall2_self. intros l Hin. apply in_seq in Hin. split; [reflexivity | lia].
    + intros l l' [-> Hlm]. unfold numbers_l64, numbers_l. apply (same_bind (Forall2 (Forall2 holds_number))); [|intros r r' Hr; apply concat_all, Hr].
      apply (same_mapM (fun a b => holds a b /\ triangle i I b)).
      * apply (Forall2_strong holds); [exact Hs|]. intros a b Hb Hab. split; [exact Hab | apply Hss, Hb].
      * intros s s' [Hs' T]. unfold numbers_l_s64, numbers_l_s. pose proof (triangle_nonneg _ _ _ T) as P. destruct T as [T _].
        apply (same_bind (Forall2 holds)); [apply J_same; [exact Hs' | lia | lia | lia]|].
        intros js js' Hj. cbn. induction Hj as [|a b r r' Hab Hr IH]; cbn; constructor; [|exact IH]. repeat split; cbn; first [exact (proj1 Hs') | exact (proj2 Hs') | exact (proj1 Hab) | exact (proj2 Hab) | reflexivity].
Qed.

(** * Retrieval *)
Lemma matches_same l j z q n : holds j z -> holds_number q n -> matches64 l j q = matches l z n.
Proof. intros Hj (H1 & _ & H3 & _). unfold matches64, matches. rewrite H1, (eqb_holds _ _ _ _ H3 (abs_holds _ _ Hj)). reflexivity. Qed.
Lemma compare_same a b a' b' : holds_number a a' -> holds_number b b' -> compareNumbers64 a b = compareNumbers a' b'.
Proof.
  intros (H1 & H2 & H3 & H4) (K1 & K2 & K3 & K4). unfold compareNumbers64, compareNumbers.
  rewrite H1, K1, H4, K4, (eqb_holds _ _ _ _ H2 K2), (eqb_holds _ _ _ _ H3 K3). reflexivity.
Qed.
Lemma erase_same a a' l l' : holds_number a a' -> Forall2 holds_number l l' -> same_outcome (Forall2 holds_number) (erase_first64 a l) (erase_first a' l').
Proof.
  intros Ha H. induction H as [|x y l l' Hxy H IH]; [reflexivity|]. cbn [erase_first64 erase_first]. rewrite (compare_same _ _ _ _ Hxy Ha).
  destruct (compareNumbers y a'); [exact H|]. apply (same_bind (Forall2 holds_number)); [exact IH|]. intros r r' Hr. constructor; assumption.
Qed.
Lemma filter_same {A B} (R : A -> B -> Prop) f g l l' : Forall2 R l l' -> (forall a b, R a b -> f a = g b) -> Forall2 R (filter f l) (filter g l').
Proof.
  intros H K. induction H as [|x y l l' Hxy H IH]; [constructor|]. cbn [filter]. rewrite (K _ _ Hxy). destruct (g y); [constructor|]; assumption.
Qed.
Lemma last_same {A B} (R : A -> B -> Prop) l l' : Forall2 R l l' -> forall d d', R d d' -> R (last l d) (last l' d').
Proof.
  intros H. induction H as [|x y l l' Hxy H IH]; intros d d' Hd; [exact Hd|].
  destruct H as [|x2 y2 l2 l2' H2 H]; [exact Hxy|]. exact (IH d d' Hd).
Qed.
Definition holds_pair (p : qnum64 * list qnum64) (p' : qnum * list qnum) : Prop := holds_number (fst p) (fst p') /\ Forall2 holds_number (snd p) (snd p').
Lemma retrieve_same l j z av av' : holds j z -> Forall2 holds_number av av' ->
  same_outcome holds_pair (retrieveQuantumNumber64 l j av) (retrieveQuantumNumber l z av').
Proof.
  intros Hj H. unfold retrieveQuantumNumber64, retrieveQuantumNumber. cbv zeta.
  pose proof (filter_same _ _ _ _ _ H (fun a b => matches_same l j z a b Hj)) as F. destruct F as [|x y r r' Hxy F]; [reflexivity|].
  rewrite (ltb_holds _ _ _ _ Hj zero_holds).
  set (c := match r with [] => x | _ => if z <? 0 then x else last r x end). set (c' := match r' with [] => y | _ => if z <? 0 then y else last r' y end).
  assert (Hc : holds_number c c').
  { subst c c'. pose proof (last_same _ _ _ F x y Hxy) as Q. destruct F; [exact Hxy|]. destruct (z <? 0); [exact Hxy | exact Q]. }
  apply (same_bind (Forall2 holds_number)); [apply erase_same; assumption|]. intros rest rest' Hr. split; assumption.
Qed.

(** * Text *)
Lemma rem_neg z : z <= 0 -> - (2) < Z.rem z 2 <= 0.
Proof. intros H. pose proof (Z.rem_bound_pos (- z) 2 ltac:(lia) ltac:(lia)) as B. rewrite Z.rem_opp_l in B by lia. lia. Qed.
Lemma trunc_holds a z : holds a z -> Btrunc a = Z.quot z 2.
Proof.
  intros [F V]. apply eq_IZR. rewrite (Btrunc_correct 53 1024 eq_refl), V. unfold round, scaled_mantissa, cexp, FIX_exp, F2R. cbn [Fnum Fexp bpow Z.opp]. rewrite !Rmult_1_r. f_equal.
  assert (Q : (IZR z / 2 = IZR (Z.quot z 2) + IZR (Z.rem z 2) / 2)%R) by (rewrite (Z.quot_rem' z 2) at 1; rewrite plus_IZR, mult_IZR; lra).
  destruct (Z_le_gt_dec 0 z) as [P|P].
  - pose proof (Z.rem_bound_pos z 2 P ltac:(lia)) as B. rewrite Ztrunc_floor by (apply IZR_le in P; lra). apply Zfloor_imp. rewrite plus_IZR.
    destruct B as [B1 B2]. apply IZR_le in B1. apply IZR_lt in B2. lra.
  - pose proof (rem_neg z ltac:(lia)) as B. assert (P' : z <= 0) by lia. rewrite Ztrunc_ceil by (apply IZR_le in P'; lra). apply Zceil_imp. rewrite minus_IZR.
    destruct B as [B1 B2]. apply IZR_lt in B1. apply IZR_le in B2. change (IZR (-(2))) with (-2)%R in B1. lra.
Qed.
Lemma int_ok z : - 2 ^ 31 <= z < 2 ^ 31 -> in_int z = Ok z.
Proof. intros H. unfold in_int. rewrite (proj2 (Z.leb_le _ _)), (proj2 (Z.ltb_lt _ _)) by lia. reflexivity. Qed.
Lemma text_same a z : holds a z -> - 2 ^ 31 < z < 2 ^ 31 -> toHalfIntegerString64 a = Ok (toHalfIntegerString z).
Proof.
  intros H Hz. unfold toHalfIntegerString64. cbv zeta. destruct H as [F V]. rewrite F. pose proof (trunc_holds a z (conj F V)) as T. rewrite T.
  pose proof (Z.quot_rem' z 2) as Q. assert (B : 0 <= z /\ 0 <= Z.rem z 2 <= 1 \/ z < 0 /\ - 1 <= Z.rem z 2 <= 0).
  { destruct (Z_le_gt_dec 0 z) as [P|P]; [pose proof (Z.rem_bound_pos z 2 P ltac:(lia)); lia | pose proof (rem_neg z ltac:(lia)); lia]. }
  set (h := Z.quot z 2) in *. set (r := Z.rem z 2) in *.
  pose proof (of_holds h ltac:(lia)) as Hh. unfold to_int. rewrite (proj1 Hh), (trunc_holds _ _ Hh). rewrite (Z.mul_comm 2 h), Z.quot_mul by lia.
  rewrite (proj2 (Z.leb_le _ _)), (proj2 (Z.ltb_lt _ _)) by lia. cbn [andb bind]. rewrite (eqb_holds a _ z (2 * h) (conj F V) Hh).
  unfold toHalfIntegerString. fold h r. cbv zeta. destruct (Z.eqb_spec r 0) as [R|R].
  - rewrite (proj2 (Z.eqb_eq _ _)) by lia. reflexivity.
  - rewrite (proj2 (Z.eqb_neq _ _)) by lia. rewrite (int_ok (2 * h)) by lia. cbn [bind]. rewrite int_ok by lia. reflexivity.
Qed.
Lemma number_text q n : holds_number q n -> - 2 ^ 31 < qs n < 2 ^ 31 -> - 2 ^ 31 < qJ n < 2 ^ 31 -> toString64 q = Ok (toString n).
Proof. intros (H1 & H2 & H3 & H4) B1 B2. unfold toString64, toString. rewrite (text_same _ _ H2 B1), (text_same _ _ H3 B2), H1, H4. reflexivity. Qed.

(** * Without the bound *)
Definition two_53 : double := double_of (2 ^ 53).
Lemma stuck : plus two_53 (double_of 1) = two_53.
Proof. apply B2SF_inj. vm_compute. reflexivity. Qed.
Lemma endless_loop fuel X : Bltb two_53 X = true -> loop64 fuel X two_53 = Diverge.
Proof. intros H. induction fuel as [|n IH]; [reflexivity|]. cbn [loop64]. rewrite H, stuck, IH. reflexivity. Qed.
Lemma endless fuel : spins64 fuel (double_of 2) two_53 = Diverge.
Proof.
  unfold spins64. set (X := plus (double_of 2) two_53). set (b0 := Babs (minus (double_of 2) two_53)).
  assert (E0 : b0 = double_of (2 ^ 53 - 2)) by (apply B2SF_inj; vm_compute; reflexivity).
  assert (E1 : plus b0 (double_of 1) = double_of (2 ^ 53 - 1)) by (rewrite E0; apply B2SF_inj; vm_compute; reflexivity).
  assert (E2 : plus (double_of (2 ^ 53 - 1)) (double_of 1) = two_53) by (apply B2SF_inj; vm_compute; reflexivity).
  assert (L0 : Bltb b0 X = true) by (rewrite E0; vm_compute; reflexivity).
  assert (L1 : Bltb (double_of (2 ^ 53 - 1)) X = true) by (vm_compute; reflexivity).
  assert (L2 : Bltb two_53 X = true) by (vm_compute; reflexivity).
  destruct fuel as [|fuel]; [reflexivity|]. cbn [loop64]. rewrite L0, E1. destruct fuel as [|fuel]; [reflexivity|]. cbn [loop64]. rewrite L1, E2, endless_loop by exact L2. reflexivity.
Qed.

(** * Against the triangle rule *)
Lemma from_same {A B} (R : A -> B -> Prop) o b : same_outcome R o (Ok b) -> exists a, o = Ok a /\ R a b.
Proof. destruct o; cbn; try contradiction. eauto. Qed.
(** The fuel does not matter once there is enough. *)
Lemma fuel_any fuel : forall fuel' X B r, loop64 fuel X B = Ok r -> (fuel <= fuel')%nat -> loop64 fuel' X B = Ok r.
Proof.
  induction fuel as [|n IH]; intros m X B r H L; [discriminate|]. destruct m as [|m]; [lia|]. cbn [loop64] in *.
  destruct (Bltb B X); [|exact H]. destruct (loop64 n X (plus B (double_of 1))) as [r'| | |] eqn:E; try discriminate.
  rewrite (IH m _ _ _ E) by lia. exact H.
Qed.
Lemma spins_64 x y i I : holds x i -> holds y I -> 0 <= i <= 2 ^ 50 -> 0 <= I <= 2 ^ 50 ->
  exists n vs zs, (forall fuel, (n <= fuel)%nat -> spins64 fuel x y = Ok vs) /\ Forall2 holds vs zs /\
    Sorted.StronglySorted Z.lt zs /\ forall s, In s zs <-> triangle i I s.
Proof.
  intros Hx Hy Hi HI. destruct (channel_spins_spec i I (proj1 Hi) (proj1 HI)) as (zs & E & Hs & Ht).
  pose proof (spins_same x y i I _ Hx Hy Hi HI (le_n _)) as H. rewrite E in H. apply from_same in H as (vs & Ev & Hv).
  eexists _, vs, zs. split; [|auto]. intros fuel L. exact (fuel_any _ _ _ _ _ Ev L).
Qed.
Lemma J_64 l y s : holds y s -> Z.of_nat l <= 2 ^ 49 -> 0 <= s <= 2 ^ 51 ->
  exists n vs zs, (forall fuel, (n <= fuel)%nat -> J64 fuel l y = Ok vs) /\ Forall2 holds vs zs /\
    Sorted.StronglySorted Z.lt zs /\ forall J, In J zs <-> triangle (2 * Z.of_nat l) s J.
Proof.
  intros Hy Hl Hs. destruct (possibleJ_spec l s (proj1 Hs)) as (zs & E & Ho & Ht).
  pose proof (J_same l y s _ Hy Hl Hs (le_n _)) as H. rewrite E in H. apply from_same in H as (vs & Ev & Hv).
  eexists _, vs, zs. split; [|auto]. intros fuel L. exact (fuel_any _ _ _ _ _ Ev L).
Qed.
Lemma J3_64_same l x y i I : holds x i -> holds y I -> Z.of_nat l <= 2 ^ 49 -> 0 <= i <= 2 ^ 50 -> 0 <= I <= 2 ^ 50 ->
  exists n vs zs, (forall fuel, (n <= fuel)%nat -> J3_64 fuel l x y = Ok vs) /\ Forall2 holds vs zs /\ possibleJ3 l i I = Ok zs.
Proof.
  intros Hx Hy Hl Hi HI. destruct (possibleJ3_list l i I (proj1 Hi) (proj1 HI)) as (zs & E & _).
  pose proof (J3_same l x y i I _ Hx Hy Hl Hi HI (le_n _)) as H. rewrite E in H. apply from_same in H as (vs & Ev & Hv).
  eexists _, vs, zs. split; [|auto]. intros fuel L. exact (fuel_any _ _ _ _ _ Ev L).
Qed.
Lemma numbers_64 x y i I lmax : holds x i -> holds y I -> 0 <= i <= 2 ^ 50 -> 0 <= I <= 2 ^ 50 -> Z.of_nat lmax <= 2 ^ 49 ->
  exists n zs, (forall fuel, (n <= fuel)%nat -> exists vs, makeQuantumNumbers64 fuel x y lmax = Ok vs /\ Forall2 holds_number vs zs) /\
    NoDup zs /\ forall q, In q zs <-> spec_number i I lmax q.
Proof.
  intros Hx Hy Hi HI Hl. destruct (makeQuantumNumbers_spec i I lmax (proj1 Hi) (proj1 HI)) as (zs & E & Ho & Ht).
  exists (S (Z.to_nat (2 * Z.of_nat lmax + i + I))), zs. split; [|auto]. intros fuel L.
  pose proof (numbers_same x y i I lmax fuel Hx Hy Hi HI Hl L) as H. rewrite E in H. apply from_same in H as (vs & Ev & Hv). eauto.
Qed.
Lemma endless_case : exists x y, holds x (2 * 2) /\ holds y (2 * 2 ^ 53) /\ forall fuel, spins64 fuel x y = Diverge.
Proof.
  exists (double_of 2), two_53. split; [exact (of_holds 2 ltac:(cbn; lia))|]. split; [|exact endless]. split; [vm_compute; reflexivity|].
  assert (E : B2SF two_53 = SpecFloat.S754_finite false 4503599627370496 1) by (vm_compute; reflexivity).
  destruct two_53; cbn in E; try discriminate. injection E as -> -> ->. cbn. unfold F2R. cbn. lra.
Qed.
Definition half_double (z : Z) : double := binary_normalize 53 1024 eq_refl eq_refl mode_NE z (-1) false.
Lemma half_double_holds z : Z.abs z < 2 ^ 53 -> holds (half_double z) z.
Proof.
  intros H. pose proof (binary_normalize_correct 53 1024 eq_refl eq_refl mode_NE z (-1) false) as C. cbv zeta in C. fold fexp64 in C.
  replace (F2R (Float radix2 z (-1))) with (IZR z / 2)%R in C by (unfold F2R; cbn; lra).
  rewrite (round_half _ H), Rlt_bool_true in C by (apply half_small, H). destruct C as (C1 & C2 & _). split; assumption.
Qed.
Lemma double_case : exists x y j, holds x 1 /\ holds y 5 /\ holds j (- 4) /\
  (exists q rest, match makeQuantumNumbers64 20 x y 2 with Ok av => retrieveQuantumNumber64 1 j av = Ok (q, rest) /\ toString64 q = Ok "{1,2,2-}"%string | _ => False end).
Proof.
  exists (half_double 1), (half_double 5), (half_double (-4)). repeat (split; [apply half_double_holds; cbn; lia|]).
  pose proof (numbers_same _ _ 1 5 2 20 (half_double_holds 1 ltac:(cbn; lia)) (half_double_holds 5 ltac:(cbn; lia)) ltac:(lia) ltac:(lia) ltac:(cbn; lia) ltac:(cbn; lia)) as H.
  generalize dependent (makeQuantumNumbers64 20 (half_double 1) (half_double 5) 2). intros o H.
  pose (o' := makeQuantumNumbers 1 5 2). vm_compute in o'. change (makeQuantumNumbers 1 5 2) with o' in H. subst o'. apply from_same in H as (vs & -> & Hv).
  pose proof (retrieve_same 1 _ (-4) vs _ (half_double_holds (-4) ltac:(cbn; lia)) Hv) as R.
  generalize dependent (retrieveQuantumNumber64 1 (half_double (-4)) vs). intros o R.
  set (r := retrieveQuantumNumber 1 (-4) _) in R. vm_compute in r. subst r. apply from_same in R as ([q rest] & -> & Hq & _). exists q, rest. split; [reflexivity|].
  apply (number_text q _ Hq); cbn; lia.
Qed.
