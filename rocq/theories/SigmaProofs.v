(** Stirling's sum for the Coulomb phase and its error. *)
From Coq Require Import ZArith Reals Lia Lra Psatz.
From Coquelicot Require Import Coquelicot.
From Verif Require Import SigmaSpec.
Open Scope R_scope.

(** * Functions of the order of 1 / x *)
Definition small (f : R -> R) : Prop := exists C, 0 <= C /\ forall x, 4 <= x -> Rabs (f x) <= C / x.
Lemma small_ext f g : (forall x, 4 <= x -> f x = g x) -> small f -> small g.
Proof. intros E (C & H0 & H). exists C. split; [exact H0|]. intros x Hx. rewrite <- E by exact Hx. apply H, Hx. Qed.
Lemma small_plus f g : small f -> small g -> small (fun x => f x + g x).
Proof.
  intros (C & C0 & H) (D & D0 & G). exists (C + D). split; [lra|]. intros x Hx. eapply Rle_trans; [apply Rabs_triang|]. unfold Rdiv. rewrite Rmult_plus_distr_r. apply Rplus_le_compat; [apply H | apply G]; exact Hx.
Qed.
Lemma small_scal a f : small f -> small (fun x => a * f x).
Proof.
  intros (C & C0 & H). exists (Rabs a * C). split; [apply Rmult_le_pos; [apply Rabs_pos | exact C0]|]. intros x Hx. rewrite Rabs_mult. unfold Rdiv. rewrite Rmult_assoc. apply Rmult_le_compat_l; [apply Rabs_pos | apply H, Hx].
Qed.
Lemma small_opp f : small f -> small (fun x => - f x).
Proof. intros H. apply (small_ext (fun x => -1 * f x)); [intros; ring | apply small_scal, H]. Qed.
Lemma small_minus f g : small f -> small g -> small (fun x => f x - g x).
Proof. intros F G. apply (small_plus f (fun x => - g x)); [exact F | apply small_opp, G]. Qed.
Lemma small_shift f : small f -> small (fun x => f (x + 1)).
Proof.
  intros (C & C0 & H). exists C. split; [exact C0|]. intros x Hx. eapply Rle_trans; [apply H; lra|]. unfold Rdiv. apply Rmult_le_compat_l; [exact C0|]. apply Rinv_le_contravar; lra.
Qed.
Lemma small_bound f : (forall x, 4 <= x -> Rabs (f x) <= / x) -> small f.
Proof. intros H. exists 1. split; [lra|]. intros x Hx. unfold Rdiv. rewrite Rmult_1_l. apply H, Hx. Qed.
Lemma inv_pow_le x k : 1 <= x -> 0 < / x ^ S k <= / x.
Proof.
  intros H. assert (1 <= x ^ k) by (apply pow_R1_Rle; exact H). cbn [pow]. split; [apply Rinv_0_lt_compat; apply Rmult_lt_0_compat; lra | apply Rinv_le_contravar; [lra|]; rewrite <- (Rmult_1_r x) at 1; apply Rmult_le_compat_l; lra].
Qed.
Lemma small_inv_pow k : small (fun x => / x ^ S k).
Proof. apply small_bound. intros x Hx. pose proof (inv_pow_le x k ltac:(lra)). rewrite Rabs_pos_eq by lra. lra. Qed.
Lemma not_small f c x0 : small f -> 4 <= x0 -> 0 < c -> (forall x, x0 <= x -> c <= Rabs (f x)) -> False.
Proof.
  intros (C & C0 & H) Hx Hc B. set (x := Rmax x0 (2 * (C + 1) / c)). assert (X1 : x0 <= x) by apply Rmax_l. assert (X2 : 2 * (C + 1) / c <= x) by apply Rmax_r.
  specialize (B x X1). specialize (H x ltac:(lra)). assert (x0' : 0 < x) by lra.
  assert (E : c * x <= C). { apply (Rmult_le_compat_r x) in H; [|lra]. unfold Rdiv in H. rewrite (Rmult_assoc C), Rinv_l, Rmult_1_r in H by lra. apply (Rmult_le_compat_r x) in B; lra. }
  apply (Rmult_le_compat_l c) in X2; [|lra]. replace (c * (2 * (C + 1) / c)) with (2 * (C + 1)) in X2 by (field; lra). lra.
Qed.
Lemma mean_value (f d : R -> R) a b : a < b -> (forall x, a <= x <= b -> is_derive f x (d x)) -> exists c, a <= c <= b /\ f b - f a = d c * (b - a).
Proof.
  intros H D. destruct (MVT_gen f a b d) as (c & Hc & E).
  - rewrite Rmin_left, Rmax_right by lra. intros t Ht. apply D. lra.
  - rewrite Rmin_left, Rmax_right by lra. intros t Ht. apply derivable_continuous_pt. exists (d t). apply is_derive_Reals, D. lra.
  - rewrite Rmin_left, Rmax_right in Hc by lra. exists c. split; assumption.
Qed.
(** A convex function that tends to zero is not negative *)
Lemma convex_nonneg f f1 f2 : (forall x, 4 <= x -> is_derive f x (f1 x)) -> (forall x, 4 <= x -> is_derive f1 x (f2 x)) -> (forall x, 4 <= x -> 0 <= f2 x) ->
  small f -> small f1 -> forall x, 4 <= x -> 0 <= f x.
Proof.
  intros D D1 P S S1.
  assert (N1 : forall x, 4 <= x -> f1 x <= 0).
  { intros x Hx. destruct (Rle_lt_dec (f1 x) 0) as [L|L]; [exact L|]. exfalso. apply (not_small f1 (f1 x) x S1 Hx L). intros y Hy.
    destruct (Req_dec x y) as [->|N]; [apply Rle_abs|]. destruct (mean_value f1 f2 x y ltac:(lra) ltac:(intros; apply D1; lra)) as (c & Hc & E). specialize (P c ltac:(lra)).
    assert (0 <= f2 c * (y - x)) by (apply Rmult_le_pos; lra). eapply Rle_trans; [|apply Rle_abs]. lra. }
  intros x Hx. destruct (Rle_lt_dec 0 (f x)) as [L|L]; [exact L|]. exfalso. apply (not_small f (- f x) x S Hx ltac:(lra)). intros y Hy.
  destruct (Req_dec x y) as [->|N]; [rewrite <- Rabs_Ropp; apply Rle_abs|]. destruct (mean_value f f1 x y ltac:(lra) ltac:(intros; apply D; lra)) as (c & Hc & E). specialize (N1 c ltac:(lra)).
  assert (0 <= - f1 c * (y - x)) by (apply Rmult_le_pos; lra). rewrite <- Rabs_Ropp. eapply Rle_trans; [|apply Rle_abs]. lra.
Qed.

(** * Elementary bounds *)
Lemma atan_mean t : exists c, Rabs c <= Rabs t /\ atan t = / (1 + c ^ 2) * t.
Proof.
  assert (D : forall x, is_derive atan x (/ (1 + x ^ 2))) by (intros x; auto_derive; [exact I|]; replace (x * (x * 1)) with (x ^ 2) by ring; field; pose proof (pow2_ge_0 x); lra).
  destruct (Rtotal_order t 0) as [H|[-> |H]].
  - destruct (mean_value atan (fun x => / (1 + x ^ 2)) t 0 H (fun x _ => D x)) as (c & Hc & E). exists c. split; [rewrite !Rabs_left1 by lra; lra|]. rewrite atan_0 in E. lra.
  - exists 0. split; [lra|]. rewrite atan_0. ring.
  - destruct (mean_value atan (fun x => / (1 + x ^ 2)) 0 t H (fun x _ => D x)) as (c & Hc & E). exists c. split; [rewrite !Rabs_pos_eq by lra; lra|]. rewrite atan_0 in E. lra.
Qed.
Lemma inverse_one c : 0 < / (1 + c ^ 2) <= 1 /\ 1 - / (1 + c ^ 2) <= Rabs c.
Proof.
  pose proof (pow2_ge_0 c) as P. assert (I0 : 0 < / (1 + c ^ 2)) by (apply Rinv_0_lt_compat; lra). assert (E : / (1 + c ^ 2) * (1 + c ^ 2) = 1) by (apply Rinv_l; lra). rewrite <- (pow2_abs c) in *. pose proof (Rabs_pos c). set (i := / (1 + Rabs c ^ 2)) in *. split; [split; nra|].
  apply (Rmult_le_reg_r (1 + Rabs c ^ 2)); [lra|]. rewrite Rmult_minus_distr_r, E. nra.
Qed.
Lemma atan_le t : Rabs (atan t) <= Rabs t.
Proof. destruct (atan_mean t) as (c & _ & ->). destruct (inverse_one c) as ((A & B) & _). rewrite Rabs_mult, (Rabs_pos_eq (/ (1 + c ^ 2))) by lra. pose proof (Rabs_pos t). nra. Qed.
Lemma atan_close t : Rabs (atan t - t) <= t ^ 2.
Proof.
  destruct (atan_mean t) as (c & L & ->). destruct (inverse_one c) as ((A & B) & D). replace (/ (1 + c ^ 2) * t - t) with (- ((1 - / (1 + c ^ 2)) * t)) by ring. rewrite Rabs_Ropp, Rabs_mult, (Rabs_pos_eq (1 - _)) by lra. rewrite <- (pow2_abs t). pose proof (Rabs_pos t). nra.
Qed.
Lemma ln_one y : 0 <= y -> 0 <= ln (1 + y) <= y.
Proof.
  intros H. split.
  - destruct H as [H| <-]; [|rewrite Rplus_0_r, ln_1; lra]. left. rewrite <- ln_1. apply ln_increasing; lra.
  - destruct H as [H| <-]; [|rewrite Rplus_0_r, ln_1; lra]. left. apply exp_lt_inv. rewrite exp_ln by lra. apply exp_ineq1. lra.
Qed.

(** * Powers of 1 / (x + i eta) *)
Section Eta.
Variable eta : R.
Definition unit_ (x : R) : C := (x / (x ^ 2 + eta ^ 2), - eta / (x ^ 2 + eta ^ 2)).
Fixpoint ipow (k : nat) (x : R) : C := match k with O => RtoC 1 | S k => Cmult (unit_ x) (ipow k x) end.
Definition re (k : nat) (x : R) : R := fst (ipow k x).
Definition im (k : nat) (x : R) : R := snd (ipow k x).
Lemma square_pos x : 0 < x -> 0 < x ^ 2 + eta ^ 2.
Proof. intros H. pose proof (pow_lt x 2 H). pose proof (pow2_ge_0 eta). lra. Qed.
Lemma ipow_derive k x : 0 < x -> is_derive (re k) x (- INR k * re (S k) x) /\ is_derive (im k) x (- INR k * im (S k) x).
Proof.
  intros H. pose proof (square_pos x H) as Q. induction k as [|k [IH1 IH2]].
  - split; [apply (is_derive_ext (fun _ => 1)); [reflexivity|] | apply (is_derive_ext (fun _ => 0)); [reflexivity|]]; cbn [INR]; rewrite Ropp_0, Rmult_0_l; apply (@is_derive_const R_AbsRing).
  - rewrite S_INR. set (n := INR k) in *.
    assert (E1 : forall k x, re (S k) x = x / (x ^ 2 + eta ^ 2) * re k x - - eta / (x ^ 2 + eta ^ 2) * im k x) by (intros; reflexivity).
    assert (E2 : forall k x, im (S k) x = x / (x ^ 2 + eta ^ 2) * im k x + - eta / (x ^ 2 + eta ^ 2) * re k x) by (intros; reflexivity).
    rewrite (E1 (S k) x), (E2 (S k) x), !(E1 k x), !(E2 k x). rewrite (E1 k x) in IH1. rewrite (E2 k x) in IH2.
    pose proof (E1 k) as E1k. pose proof (E2 k) as E2k. set (A := re k) in *. set (B := im k) in *. clearbody A B. split.
    + apply (is_derive_ext (fun x => x / (x ^ 2 + eta ^ 2) * A x - - eta / (x ^ 2 + eta ^ 2) * B x)); [intros t; symmetry; apply E1k|].
      auto_derive; [repeat split; try (eexists; eassumption); lra|]. change (fun x : R => A x) with A. change (fun x : R => B x) with B. rewrite (is_derive_unique _ _ _ IH1), (is_derive_unique _ _ _ IH2). field. lra.
    + apply (is_derive_ext (fun x => x / (x ^ 2 + eta ^ 2) * B x + - eta / (x ^ 2 + eta ^ 2) * A x)); [intros t; symmetry; apply E2k|].
      auto_derive; [repeat split; try (eexists; eassumption); lra|]. change (fun x : R => A x) with A. change (fun x : R => B x) with B. rewrite (is_derive_unique _ _ _ IH1), (is_derive_unique _ _ _ IH2). field. lra.
Qed.
Lemma unit_mod x : 0 < x -> Cmod (unit_ x) <= / x.
Proof.
  intros H. pose proof (square_pos x H) as Q. unfold Cmod, unit_. cbn [fst snd].
  replace ((x / (x ^ 2 + eta ^ 2)) ^ 2 + (- eta / (x ^ 2 + eta ^ 2)) ^ 2) with (/ (x ^ 2 + eta ^ 2)) by (field; lra).
  rewrite <- (sqrt_pow2 (/ x)) by (left; apply Rinv_0_lt_compat; exact H). apply sqrt_le_1_alt. rewrite <- Rinv_pow by lra. apply Rinv_le_contravar; [apply pow_lt; exact H | pose proof (pow2_ge_0 eta); lra].
Qed.
Lemma ipow_mod k x : 0 < x -> Cmod (ipow k x) <= / x ^ k.
Proof.
  intros H. induction k as [|k IH]; [cbn [ipow pow]; rewrite Cmod_1; lra|]. cbn [ipow pow]. rewrite Cmod_mult, Rinv_mult. apply Rmult_le_compat; try apply Cmod_ge_0; [apply unit_mod, H | exact IH].
Qed.
Lemma im_small k : small (im (S k)).
Proof.
  apply small_bound. intros x Hx. eapply Rle_trans; [eapply Rle_trans; [|apply (Rmax_Cmod (ipow (S k) x))]; apply Rmax_r|]. eapply Rle_trans; [apply ipow_mod; lra | apply inv_pow_le; lra].
Qed.

(** * The imaginary part of Stirling's sum for ln Gamma (x + i eta) *)
Definition stirling (x : R) : R :=
  eta / 2 * ln (x ^ 2 + eta ^ 2) + (x - 1 / 2) * atan (eta / x) - eta + im 1 x / 12 - im 3 x / 360 + im 5 x / 1260.
Definition stirling1 (x : R) : R := atan (eta / x) - im 1 x / 2 - im 2 x / 12 + im 4 x / 120 - im 6 x / 252.
Definition stirling2 (x : R) : R := im 1 x + im 2 x / 2 + im 3 x / 6 - im 5 x / 30 + im 7 x / 42.
Lemma im_1 x : im 1 x = - eta / (x ^ 2 + eta ^ 2).
Proof. unfold im. cbn. unfold Rdiv. ring. Qed.
Lemma atan_derive x : 0 < x -> is_derive (fun x => atan (eta / x)) x (im 1 x).
Proof.
  intros H. rewrite im_1. pose proof (square_pos x H). auto_derive; [lra|]. field. repeat split; nra.
Qed.
Lemma is_derive_eq (f : R -> R) (x a b : R) : is_derive f x a -> a = b -> is_derive f x b.
Proof. intros H <-. exact H. Qed.
Lemma stirling_derive x : 0 < x -> is_derive stirling x (stirling1 x).
Proof.
  intros H. pose proof (square_pos x H) as Q. destruct (ipow_derive 1 x H) as [_ D1]. destruct (ipow_derive 3 x H) as [_ D3]. destruct (ipow_derive 5 x H) as [_ D5]. pose proof (atan_derive x H) as D.
  unfold stirling. set (F1 := im 1) in *. set (F3 := im 3) in *. set (F5 := im 5) in *. set (G := fun x => atan (eta / x)) in *.
  change (is_derive (fun x => eta / 2 * ln (x ^ 2 + eta ^ 2) + (x - 1 / 2) * G x - eta + F1 x / 12 - F3 x / 360 + F5 x / 1260) x (stirling1 x)).
  change (is_derive G x (F1 x)) in D. assert (EG : atan (eta / x) = G x) by reflexivity. assert (EF : F1 x = - eta / (x ^ 2 + eta ^ 2)) by apply im_1. unfold stirling1. rewrite EG. fold F1. set (i2 := im 2 x) in *. set (i4 := im 4 x) in *. set (i6 := im 6 x) in *. clearbody F1 F3 F5 G i2 i4 i6.
  auto_derive; [repeat split; try (eexists; eassumption); lra|].
  change (fun x : R => G x) with G. change (fun x : R => F1 x) with F1. change (fun x : R => F3 x) with F3. change (fun x : R => F5 x) with F5.
  rewrite (is_derive_unique _ _ _ D), (is_derive_unique _ _ _ D1), (is_derive_unique _ _ _ D3), (is_derive_unique _ _ _ D5), EF. cbn [INR]. field. lra.
Qed.
Lemma stirling1_derive x : 0 < x -> is_derive stirling1 x (stirling2 x).
Proof.
  intros H. destruct (ipow_derive 1 x H) as [_ D1]. destruct (ipow_derive 2 x H) as [_ D2]. destruct (ipow_derive 4 x H) as [_ D4]. destruct (ipow_derive 6 x H) as [_ D6]. pose proof (atan_derive x H) as D.
  unfold stirling1, stirling2. set (F1 := im 1) in *. set (F2 := im 2) in *. set (F4 := im 4) in *. set (F6 := im 6) in *. set (G := fun x => atan (eta / x)) in *.
  change (is_derive (fun x => G x - F1 x / 2 - F2 x / 12 + F4 x / 120 - F6 x / 252) x (F1 x + F2 x / 2 + im 3 x / 6 - im 5 x / 30 + im 7 x / 42)). change (is_derive G x (F1 x)) in D.
  set (i3 := im 3 x) in *. set (i5 := im 5 x) in *. set (i7 := im 7 x) in *. change (im 2 x) with (F2 x) in D1. clearbody F1 F2 F4 F6 G i3 i5 i7. auto_derive; [repeat split; try (eexists; eassumption); lra|].
  change (fun x : R => G x) with G. change (fun x : R => F1 x) with F1. change (fun x : R => F2 x) with F2. change (fun x : R => F4 x) with F4. change (fun x : R => F6 x) with F6.
  rewrite (is_derive_unique _ _ _ D), (is_derive_unique _ _ _ D1), (is_derive_unique _ _ _ D2), (is_derive_unique _ _ _ D4), (is_derive_unique _ _ _ D6). cbn [INR]. field.
Qed.

(** * What it fails the recurrence by *)
Definition defect (x : R) : R := stirling (x + 1) - stirling x - atan (eta / x).
Definition defect1 (x : R) : R := stirling1 (x + 1) - stirling1 x - im 1 x.
Definition defect2 (x : R) : R := stirling2 (x + 1) - stirling2 x + im 2 x.
Lemma shift_derive (f : R -> R) x d : is_derive f (x + 1) d -> is_derive (fun x => f (x + 1)) x d.
Proof. intros D. auto_derive; [eexists; exact D|]. change (fun x : R => f x) with f. rewrite (is_derive_unique _ _ _ D). ring. Qed.
Lemma defect_derive x : 0 < x -> is_derive defect x (defect1 x).
Proof.
  intros H. unfold defect, defect1. apply (is_derive_minus (fun x => stirling (x + 1) - stirling x) (fun x => atan (eta / x))); [|apply atan_derive, H].
  apply (is_derive_minus (fun x => stirling (x + 1)) stirling); [apply shift_derive, stirling_derive; lra | apply stirling_derive, H].
Qed.
Lemma defect1_derive x : 0 < x -> is_derive defect1 x (defect2 x).
Proof.
  intros H. unfold defect1, defect2. apply (is_derive_eq _ _ (stirling2 (x + 1) - stirling2 x - - INR 1 * im 2 x)); [|cbn [INR]; ring]. apply (is_derive_minus (fun x => stirling1 (x + 1) - stirling1 x) (im 1)); [|apply ipow_derive, H].
  apply (is_derive_minus (fun x => stirling1 (x + 1)) stirling1); [apply shift_derive, stirling1_derive; lra | apply stirling1_derive, H].
Qed.
(** Im of complex combinations *)
Lemma unit_inverse x : 0 < x -> (unit_ x * (x, eta) = RtoC 1)%C.
Proof. intros H. pose proof (square_pos x H). unfold unit_, Cmult, RtoC. cbn [fst snd]. f_equal; field; lra. Qed.
Lemma unit_step x : 0 < x -> (unit_ x - unit_ (x + 1) = unit_ x * unit_ (x + 1))%C.
Proof.
  intros H. pose proof (square_pos x H). pose proof (square_pos (x + 1) ltac:(lra)). unfold unit_, Cminus, Cplus, Copp, Cmult. cbn [fst snd]. f_equal; field; lra.
Qed.
Definition product (x : R) : C := Cmult (unit_ x) (unit_ (x + 1)).
Fixpoint cpow (u : C) (k : nat) : C := match k with O => RtoC 1 | S k => Cmult u (cpow u k) end.
Lemma ipow_cpow k x : ipow k x = cpow (unit_ x) k.
Proof. induction k as [|k IH]; cbn [ipow cpow]; [reflexivity | rewrite IH; reflexivity]. Qed.
Lemma defect2_is x : 0 < x -> defect2 x = - (63 * snd (cpow (product x) 5) + 35 * snd (cpow (product x) 6) + 5 * snd (cpow (product x) 7)) / 210.
Proof.
  intros H. unfold defect2, stirling2, im. rewrite !ipow_cpow. pose proof (unit_step x H) as E. pose proof (unit_inverse x H) as Hi. pose proof (unit_inverse (x + 1) ltac:(lra)) as Hj. unfold product. set (u := unit_ x) in *. set (v := unit_ (x + 1)) in *. clearbody u v.
  assert (Id : (RtoC 210 * (cpow v 1 - cpow u 1) + RtoC 105 * (cpow v 2 - cpow u 2) + RtoC 35 * (cpow v 3 - cpow u 3) - RtoC 7 * (cpow v 5 - cpow u 5) + RtoC 5 * (cpow v 7 - cpow u 7) + RtoC 210 * cpow u 2
     = - (RtoC 63 * cpow (u * v) 5 + RtoC 35 * cpow (u * v) 6 + RtoC 5 * cpow (u * v) 7))%C).
  { set (z := (x, eta) : C) in *. replace ((x + 1, eta) : C) with (z + RtoC 1)%C in Hj by (unfold z, Cplus, RtoC; cbn; f_equal; ring).
    assert (Z0 : z <> RtoC 0) by (intros Z; apply (f_equal fst) in Z; cbn in Z; lra). assert (Z1 : (z + RtoC 1 <> RtoC 0)%C) by (intros Z; apply (f_equal fst) in Z; cbn in Z; lra).
    assert (Eq : forall a b : C, (a * b)%C = RtoC 1 -> b <> RtoC 0 -> a = (/ b)%C) by (intros a b Hab Hb; rewrite <- (Cmult_1_r a), <- (Cinv_r b Hb), Cmult_assoc, Hab; apply Cmult_1_l).
    assert (Eu : u = (/ z)%C) by (apply Eq; assumption). assert (Ev : v = (/ (z + RtoC 1))%C) by (apply Eq; assumption).
    rewrite Eu, Ev. clear - Z0 Z1. clearbody z. cbn [cpow].
    set (i := RtoC 1) in *. assert (E2 : RtoC 2 = (i + i)%C) by (unfold i; rewrite <- RtoC_plus; f_equal; lra). assert (E3 : RtoC 3 = (i + i + i)%C) by (unfold i; rewrite <- !RtoC_plus; f_equal; lra).
    assert (E5 : RtoC 5 = (RtoC 2 + RtoC 3)%C) by (rewrite <- RtoC_plus; f_equal; lra). assert (E7 : RtoC 7 = (RtoC 2 + RtoC 5)%C) by (rewrite <- RtoC_plus; f_equal; lra).
    replace (RtoC 210) with (RtoC 2 * RtoC 3 * RtoC 5 * RtoC 7)%C by (rewrite <- !RtoC_mult; f_equal; lra). replace (RtoC 105) with (RtoC 3 * RtoC 5 * RtoC 7)%C by (rewrite <- !RtoC_mult; f_equal; lra).
    replace (RtoC 35) with (RtoC 5 * RtoC 7)%C by (rewrite <- !RtoC_mult; f_equal; lra). replace (RtoC 63) with (RtoC 3 * RtoC 3 * RtoC 7)%C by (rewrite <- !RtoC_mult; f_equal; lra).
    rewrite E7, E5, E2, E3. unfold i in *. field. split; assumption. }
  assert (Sn : forall a b, snd (a + b)%C = snd a + snd b) by reflexivity. assert (Sm : forall a b, snd (a - b)%C = snd a - snd b) by (intros; reflexivity). assert (So : forall a, snd (- a)%C = - snd a) by reflexivity.
  assert (Ss : forall r a, snd (RtoC r * a)%C = r * snd a) by (intros; cbn; ring).
  apply (f_equal snd) in Id. rewrite !Sn, !Sm, !So, !Ss, !Sn, !Ss, !Sm in Id. lra.
Qed.

(** * Bounds *)
Lemma small_atan : small (fun x => atan (eta / x)).
Proof.
  exists (Rabs eta). split; [apply Rabs_pos|]. intros x Hx. eapply Rle_trans; [apply atan_le|]. unfold Rdiv. rewrite Rabs_mult, Rabs_inv, (Rabs_pos_eq x) by lra. lra.
Qed.
Lemma small_div f k : small f -> small (fun x => f x / k).
Proof. intros H. apply (small_ext (fun x => / k * f x)); [intros; unfold Rdiv; ring | apply small_scal, H]. Qed.
Lemma stirling1_small : small stirling1.
Proof.
  unfold stirling1. apply (small_minus (fun x => atan (eta / x) - im 1 x / 2 - im 2 x / 12 + im 4 x / 120) (fun x => im 6 x / 252)); [|apply small_div, im_small].
  apply (small_plus (fun x => atan (eta / x) - im 1 x / 2 - im 2 x / 12) (fun x => im 4 x / 120)); [|apply small_div, im_small].
  apply (small_minus (fun x => atan (eta / x) - im 1 x / 2) (fun x => im 2 x / 12)); [|apply small_div, im_small].
  apply (small_minus (fun x => atan (eta / x)) (fun x => im 1 x / 2)); [apply small_atan | apply small_div, im_small].
Qed.
Lemma defect1_small : small defect1.
Proof.
  unfold defect1. apply (small_minus (fun x => stirling1 (x + 1) - stirling1 x) (im 1)); [|apply im_small]. apply (small_minus (fun x => stirling1 (x + 1)) stirling1); [apply small_shift|]; apply stirling1_small.
Qed.
Lemma square_small x : 4 <= x -> x * (eta / x) ^ 2 <= eta ^ 2 / x /\ (eta / x) ^ 2 <= eta ^ 2 / x.
Proof.
  intros H. assert (E : x * (eta / x) ^ 2 = eta ^ 2 / x) by (field; lra). split; [lra|]. rewrite <- E. pose proof (pow2_ge_0 (eta / x)). nra.
Qed.
(** The sum is eta ln x, but for a term of the order of 1 / x *)
Lemma stirling_log : small (fun x => stirling x - eta * ln x).
Proof.
  apply (small_ext (fun x => (eta / 2 * ln (1 + (eta / x) ^ 2) + (x * (atan (eta / x) - eta / x) - 1 / 2 * atan (eta / x))) + (im 1 x / 12 - im 3 x / 360 + im 5 x / 1260))).
  { intros x Hx. unfold stirling. pose proof (pow2_ge_0 (eta / x)). replace (x ^ 2 + eta ^ 2) with (x * (x * (1 + (eta / x) ^ 2))) by (field; lra). rewrite ln_mult, ln_mult; try lra; [|apply Rmult_lt_0_compat; lra]. field. lra. }
  apply (small_plus (fun x => eta / 2 * ln (1 + (eta / x) ^ 2) + (x * (atan (eta / x) - eta / x) - 1 / 2 * atan (eta / x))) (fun x => im 1 x / 12 - im 3 x / 360 + im 5 x / 1260)).
  - apply (small_plus (fun x => eta / 2 * ln (1 + (eta / x) ^ 2)) (fun x => x * (atan (eta / x) - eta / x) - 1 / 2 * atan (eta / x))).
    + apply small_scal. exists (eta ^ 2). split; [apply pow2_ge_0|]. intros x Hx. destruct (ln_one ((eta / x) ^ 2) (pow2_ge_0 _)) as (A & B). rewrite Rabs_pos_eq by exact A. eapply Rle_trans; [exact B | apply square_small, Hx].
    + apply (small_minus (fun x => x * (atan (eta / x) - eta / x)) (fun x => 1 / 2 * atan (eta / x))); [|apply small_scal, small_atan].
      exists (eta ^ 2). split; [apply pow2_ge_0|]. intros x Hx. rewrite Rabs_mult, (Rabs_pos_eq x) by lra. eapply Rle_trans; [apply Rmult_le_compat_l; [lra | apply atan_close] | apply square_small, Hx].
  - apply (small_plus (fun x => im 1 x / 12 - im 3 x / 360) (fun x => im 5 x / 1260)); [|apply small_div, im_small]. apply (small_minus (fun x => im 1 x / 12) (fun x => im 3 x / 360)); apply small_div, im_small.
Qed.
Lemma log_step_small : small (fun x => ln (x + 1) - ln x).
Proof.
  apply small_bound. intros x Hx. replace (x + 1) with (x * (1 + / x)) by (field; lra). assert (I : 0 < / x) by (apply Rinv_0_lt_compat; lra). rewrite ln_mult by lra. destruct (ln_one (/ x) ltac:(lra)) as (A & B). replace (ln x + ln (1 + / x) - ln x) with (ln (1 + / x)) by ring. rewrite Rabs_pos_eq by exact A. exact B.
Qed.
Lemma defect_small : small defect.
Proof.
  apply (small_ext (fun x => ((stirling (x + 1) - eta * ln (x + 1)) - (stirling x - eta * ln x)) + (eta * (ln (x + 1) - ln x) - atan (eta / x)))).
  { intros x Hx. unfold defect. ring. }
  apply (small_plus (fun x => (stirling (x + 1) - eta * ln (x + 1)) - (stirling x - eta * ln x)) (fun x => eta * (ln (x + 1) - ln x) - atan (eta / x))).
  - apply (small_minus (fun x => stirling (x + 1) - eta * ln (x + 1)) (fun x => stirling x - eta * ln x)); [|apply stirling_log]. apply (small_shift (fun x => stirling x - eta * ln x)), stirling_log.
  - apply (small_minus (fun x => eta * (ln (x + 1) - ln x)) (fun x => atan (eta / x))); [apply small_scal, log_step_small | apply small_atan].
Qed.
Lemma cpow_mod u r k : Cmod u <= r -> Cmod (cpow u k) <= r ^ k.
Proof. intros H. induction k as [|k IH]; cbn [cpow pow]; [rewrite Cmod_1; lra|]. rewrite Cmod_mult. apply Rmult_le_compat; try apply Cmod_ge_0; assumption. Qed.
Lemma snd_mod z : Rabs (snd z) <= Cmod z.
Proof. eapply Rle_trans; [apply Rmax_r | apply (Rmax_Cmod z)]. Qed.
Definition tail (x : R) : R := / 1512 * (/ x ^ 7 - / (x + 1) ^ 7).
Definition tail1 (x : R) : R := / 1512 * (-7 * / x ^ 8 - -7 * / (x + 1) ^ 8).
Definition tail2 (x : R) : R := / 1512 * (56 * / x ^ 9 - 56 * / (x + 1) ^ 9).
Lemma defect2_le x : 4 <= x -> Rabs (defect2 x) <= tail2 x.
Proof.
  intros H. rewrite defect2_is by lra. set (p := / x * / (x + 1)). assert (a0 : 0 < / x) by (apply Rinv_0_lt_compat; lra). assert (b0 : 0 < / (x + 1)) by (apply Rinv_0_lt_compat; lra).
  assert (Hp : Cmod (product x) <= p) by (unfold product, p; rewrite Cmod_mult; apply Rmult_le_compat; try apply Cmod_ge_0; apply unit_mod; lra).
  assert (a4 : / x <= / 4) by (apply Rinv_le_contravar; lra). assert (b5 : / (x + 1) <= / 5) by (apply Rinv_le_contravar; lra).
  assert (P : 0 <= p <= / 20) by (unfold p; split; [apply Rmult_le_pos; lra|]; replace (/ 20) with (/ 4 * / 5) by lra; apply Rmult_le_compat; lra).
  assert (M : forall k, Rabs (snd (cpow (product x) k)) <= p ^ k) by (intros k; eapply Rle_trans; [apply snd_mod | apply cpow_mod, Hp]).
  pose proof (M 5%nat) as M5. pose proof (M 6%nat) as M6. pose proof (M 7%nat) as M7. set (c5 := snd (cpow (product x) 5)) in *. set (c6 := snd (cpow (product x) 6)) in *. set (c7 := snd (cpow (product x) 7)) in *.
  assert (Q : 0 <= p ^ 5) by (apply pow_le; lra). assert (Q6 : p ^ 6 <= / 20 * p ^ 5) by (replace (p ^ 6) with (p * p ^ 5) by ring; apply Rmult_le_compat_r; lra).
  assert (Q7 : p ^ 7 <= / 20 * p ^ 5) by (replace (p ^ 7) with ((p * p) * p ^ 5) by ring; apply Rmult_le_compat_r; [lra|]; nra).
  apply Rabs_le_between in M5. apply Rabs_le_between in M6. apply Rabs_le_between in M7.
  apply Rle_trans with (p ^ 5 / 3); [apply Rabs_le; lra|].
  unfold tail2. rewrite <- !pow_inv. set (a := / x) in *. set (b := / (x + 1)) in *. assert (D : a - b = p) by (unfold p, a, b; field; lra).
  replace (/ 1512 * (56 * a ^ 9 - 56 * b ^ 9)) with (/ 27 * ((a - b) * (a ^ 8 + a ^ 7 * b + a ^ 6 * b ^ 2 + a ^ 5 * b ^ 3 + a ^ 4 * b ^ 4 + a ^ 3 * b ^ 5 + a ^ 2 * b ^ 6 + a * b ^ 7 + b ^ 8))) by field.
  rewrite D. replace (p ^ 5 / 3) with (/ 27 * (p * (9 * p ^ 4))) by field. apply Rmult_le_compat_l; [lra|]. apply Rmult_le_compat_l; [lra|]. replace (p ^ 4) with (a ^ 4 * b ^ 4) by (unfold p; fold a b; ring).
  assert (S1 : 0 <= a * b * (a ^ 3 - b ^ 3) ^ 2) by (apply Rmult_le_pos; [apply Rmult_le_pos; lra | apply pow2_ge_0]). assert (S2 : 0 <= (a * b) ^ 2 * (a ^ 2 - b ^ 2) ^ 2) by (apply Rmult_le_pos; apply pow2_ge_0).
  assert (S3 : 0 <= (a * b) ^ 3 * (a - b) ^ 2) by (apply Rmult_le_pos; [apply pow_le, Rmult_le_pos; lra | apply pow2_ge_0]). assert (S0 : 0 <= (a ^ 4 - b ^ 4) ^ 2) by apply pow2_ge_0. ring_simplify in S0. ring_simplify in S1. ring_simplify in S2. ring_simplify in S3. lra.
Qed.
Lemma inv_pow_derive n x : 0 < x -> is_derive (fun x => / x ^ n) x (- INR n * / x ^ S n).
Proof.
  intros H. pose proof (pow_lt x n H) as P. auto_derive; [lra|]. destruct n as [|n]; [cbn; field; lra|]. cbn [pred]. pose proof (pow_lt x n H). cbn [pow]. field. split; lra.
Qed.
Lemma tail_derive x : 0 < x -> is_derive tail x (tail1 x) /\ is_derive tail1 x (tail2 x).
Proof.
  intros H.
  assert (G : forall c n (k : R), k = INR n -> is_derive (fun x => c * (/ x ^ n - / (x + 1) ^ n)) x (c * (- k * / x ^ S n - - k * / (x + 1) ^ S n))).
  { intros c n k ->. apply (is_derive_scal (fun x => / x ^ n - / (x + 1) ^ n)). apply (is_derive_minus (fun x => / x ^ n) (fun x => / (x + 1) ^ n)); [apply inv_pow_derive, H | apply (shift_derive (fun x => / x ^ n)), inv_pow_derive; lra]. }
  split.
  - unfold tail, tail1. apply (G (/ 1512) 7%nat 7). cbn; lra.
  - apply (is_derive_ext (fun x => (/ 1512 * -7) * (/ x ^ 8 - / (x + 1) ^ 8))); [intros t; unfold tail1; match goal with |- ?a = ?b => change (@eq R a b) end; ring|]. apply (is_derive_eq _ _ (/ 1512 * -7 * (- 8 * / x ^ 9 - - 8 * / (x + 1) ^ 9))); [apply (G _ 8%nat 8); cbn; lra|]. unfold tail2. ring.
Qed.
Lemma tail_small : small tail /\ small tail1.
Proof.
  split; unfold tail, tail1.
  - apply small_scal. apply (small_minus (fun x => / x ^ 7) (fun x => / (x + 1) ^ 7)); [|apply (small_shift (fun x => / x ^ 7))]; apply small_inv_pow.
  - apply small_scal. apply (small_minus (fun x => -7 * / x ^ 8) (fun x => -7 * / (x + 1) ^ 8)); [|apply (small_shift (fun x => -7 * / x ^ 8))]; apply small_scal, small_inv_pow.
Qed.
Lemma defect_le x : 4 <= x -> Rabs (defect x) <= tail x.
Proof.
  intros H. destruct tail_small as (T & T1).
  assert (P : 0 <= tail x + defect x).
  { apply (convex_nonneg (fun x => tail x + defect x) (fun x => tail1 x + defect1 x) (fun x => tail2 x + defect2 x)).
    - intros t Ht. apply (is_derive_plus tail defect); [apply tail_derive | apply defect_derive]; lra.
    - intros t Ht. apply (is_derive_plus tail1 defect1); [apply tail_derive | apply defect1_derive]; lra.
    - intros t Ht. pose proof (defect2_le t Ht) as L. apply Rabs_le_between in L. lra.
    - apply (small_plus tail defect); [exact T | apply defect_small].
    - apply (small_plus tail1 defect1); [exact T1 | apply defect1_small].
    - exact H. }
  assert (M : 0 <= tail x - defect x).
  { apply (convex_nonneg (fun x => tail x - defect x) (fun x => tail1 x - defect1 x) (fun x => tail2 x - defect2 x)).
    - intros t Ht. apply (is_derive_minus tail defect); [apply tail_derive | apply defect_derive]; lra.
    - intros t Ht. apply (is_derive_minus tail1 defect1); [apply tail_derive | apply defect1_derive]; lra.
    - intros t Ht. pose proof (defect2_le t Ht) as L. apply Rabs_le_between in L. lra.
    - apply (small_minus tail defect); [exact T | apply defect_small].
    - apply (small_minus tail1 defect1); [exact T1 | apply defect1_small].
    - exact H. }
  apply Rabs_le. lra.
Qed.

(** * The limit *)
Definition partial (n : nat) : R := stirling (INR n + 4) - sum_f_R0 (fun k => atan (eta / INR (S k))) (n + 2).
Lemma partial_step n : partial (S n) - partial n = defect (INR n + 4).
Proof.
  unfold partial, defect. replace (S n + 2)%nat with (S (n + 2))%nat by lia. cbn [sum_f_R0]. replace (INR (S n) + 4) with (INR n + 4 + 1) by (rewrite S_INR; ring). replace (INR (S (S (n + 2)))) with (INR n + 4) by (rewrite !S_INR, plus_INR; cbn [INR]; ring). ring.
Qed.
Definition rest (n : nat) : R := / 1512 * / (INR n + 4) ^ 7.
Lemma rest_step n : Rabs (partial (S n) - partial n) <= rest n - rest (S n).
Proof.
  rewrite partial_step. eapply Rle_trans; [apply defect_le; pose proof (pos_INR n); lra|]. unfold tail, rest. replace (INR (S n) + 4) with (INR n + 4 + 1) by (rewrite S_INR; ring). lra.
Qed.
Lemma rest_limit : is_lim_seq rest 0.
Proof.
  apply (is_lim_seq_le_le (fun _ => 0) rest (fun n => / INR (S n))).
  - intros n. unfold rest. pose proof (pos_INR n). pose proof (inv_pow_le (INR n + 4) 6 ltac:(lra)) as (A & B). split; [nra|]. rewrite S_INR. assert (/ (INR n + 4) <= / (INR n + 1)) by (apply Rinv_le_contravar; lra). nra.
  - apply is_lim_seq_const.
  - apply (is_lim_seq_incr_1 (fun n => / INR n)). replace (Finite 0) with (Rbar_inv p_infty) by reflexivity. apply is_lim_seq_inv; [apply is_lim_seq_INR | discriminate].
Qed.
Lemma rest_total n k : Rabs (partial (n + k) - partial n) <= rest n - rest (n + k).
Proof.
  induction k as [|k IH]; [rewrite Nat.add_0_r, !Rminus_eq_0, Rabs_R0; lra|]. rewrite Nat.add_succ_r. replace (partial (S (n + k)) - partial n) with ((partial (S (n + k)) - partial (n + k)) + (partial (n + k) - partial n)) by ring. eapply Rle_trans; [apply Rabs_triang|]. pose proof (rest_step (n + k)). lra.
Qed.
Lemma rest_nonneg n : 0 <= rest n.
Proof. unfold rest. pose proof (pos_INR n). pose proof (inv_pow_le (INR n + 4) 6 ltac:(lra)). nra. Qed.
Lemma partial_limit : exists sigma : R, is_lim_seq partial sigma /\ Rabs (sigma - partial 0) <= rest 0.
Proof.
  assert (Cv : ex_finite_lim_seq partial).
  { apply ex_lim_seq_cauchy_corr. intros eps. pose proof rest_limit as L. apply is_lim_seq_spec in L. specialize (L (mkposreal (eps / 2) ltac:(destruct eps; cbn; lra))). destruct L as (N & L). cbn in L. exists N.
    assert (G : forall n, (N <= n)%nat -> Rabs (partial n - partial N) < eps / 2).
    { intros n Hn. replace n with (N + (n - N))%nat by lia. eapply Rle_lt_trans; [apply rest_total|]. specialize (L N (le_n N)). rewrite Rminus_0_r, Rabs_pos_eq in L by apply rest_nonneg. pose proof (rest_nonneg (N + (n - N))). lra. }
    intros n m Hn Hm. pose proof (G n Hn). pose proof (G m Hm). replace (partial n - partial m) with ((partial n - partial N) + - (partial m - partial N)) by ring. eapply Rle_lt_trans; [apply Rabs_triang|]. rewrite Rabs_Ropp. lra. }
  destruct Cv as (sigma & L). exists sigma. split; [exact L|].
  assert (LA : is_lim_seq (fun n => Rabs (partial n - partial 0)) (Rabs (sigma - partial 0))).
  { apply (is_lim_seq_abs (fun n => partial n - partial 0) (sigma - partial 0)). apply (is_lim_seq_minus' partial (fun _ => partial 0) sigma (partial 0)); [exact L | apply is_lim_seq_const]. }
  apply (is_lim_seq_le (fun n => Rabs (partial n - partial 0)) (fun _ => rest 0) (Rabs (sigma - partial 0)) (rest 0)); [|exact LA | apply is_lim_seq_const].
  intros n. pose proof (rest_total 0 n) as G. change (0 + n)%nat with n in G. pose proof (rest_nonneg n). eapply Rle_trans; [exact G | lra].
Qed.
Lemma phase_exists : exists sigma, coulomb_phase eta sigma /\ Rabs (sigma - partial 0) <= / 1512 * / 4 ^ 7.
Proof.
  destruct partial_limit as (sigma & L & B). exists sigma. split; [|unfold rest in B; cbn [INR] in B; rewrite Rplus_0_l in B; exact B].
  unfold coulomb_phase. apply (is_lim_seq_incr_n _ 2).
  apply (is_lim_seq_ext (fun n => partial n + ((eta * (ln (INR n + 3) - ln (INR n + 4))) - (stirling (INR n + 4) - eta * ln (INR n + 4))))).
  { intros n. unfold partial. replace (INR (S (n + 2))) with (INR n + 3) by (rewrite !S_INR, plus_INR; cbn [INR]; ring). ring. }
  replace (Finite sigma) with (Finite (sigma + (eta * 0 - 0))) by (f_equal; ring).
  apply is_lim_seq_plus'; [exact L|]. assert (Z : forall f, small f -> is_lim_seq (fun n => f (INR n + 4)) 0).
  { intros f (C & C0 & H). apply is_lim_seq_abs_0. apply (is_lim_seq_le_le (fun _ => 0) _ (fun n => C * / INR (S n))).
    - intros n. split; [apply Rabs_pos|]. pose proof (pos_INR n). eapply Rle_trans; [apply H; lra|]. unfold Rdiv. apply Rmult_le_compat_l; [exact C0|]. rewrite S_INR. apply Rinv_le_contravar; lra.
    - apply is_lim_seq_const.
    - replace (Finite 0) with (Finite (C * 0)) by (f_equal; ring). apply (is_lim_seq_scal_l (fun n => / INR (S n)) C 0). apply (is_lim_seq_incr_1 (fun n => / INR n)). replace (Finite 0) with (Rbar_inv p_infty) by reflexivity. apply is_lim_seq_inv; [apply is_lim_seq_INR | discriminate]. }
  apply is_lim_seq_minus'; [|apply (Z (fun x => stirling x - eta * ln x)), stirling_log]. apply (is_lim_seq_scal_l (fun n => ln (INR n + 3) - ln (INR n + 4)) eta 0).
  apply (is_lim_seq_incr_1 (fun n => ln (INR n + 3) - ln (INR n + 4))).
  apply (is_lim_seq_ext (fun n => - (ln (INR n + 4 + 1) - ln (INR n + 4)))).
  { intros n. rewrite S_INR. replace (INR n + 1 + 3) with (INR n + 4) by ring. replace (INR n + 1 + 4) with (INR n + 4 + 1) by ring. ring. }
  replace (Finite 0) with (Finite (- 0)) by (f_equal; ring). apply (is_lim_seq_opp (fun n => ln (INR n + 4 + 1) - ln (INR n + 4)) 0). apply (Z (fun x => ln (x + 1) - ln x)), log_step_small.
Qed.
Lemma phase_unique s s' : coulomb_phase eta s -> coulomb_phase eta s' -> s = s'.
Proof. intros A B. apply is_lim_seq_unique in A. apply is_lim_seq_unique in B. rewrite A in B. injection B. auto. Qed.
Lemma phase_error sigma : coulomb_phase eta sigma -> Rabs (sigma - partial 0) <= / 1512 * / 4 ^ 7.
Proof. intros H. destruct phase_exists as (s & Hs & B). rewrite (phase_unique _ _ H Hs). exact B. Qed.
(** The code's expression *)
Lemma partial_code : partial 0 =
  - eta + eta * ln (16 + eta * eta) / 2 + 35 / 10 * atan (eta / 4) - (atan eta + atan (eta / 2) + atan (eta / 3))
  - eta * (1 + (eta * eta - 48) / (30 * ((16 + eta * eta) * (16 + eta * eta))) + (eta * eta * (eta * eta) - 160 * (eta * eta) + 1280) / (105 * ((16 + eta * eta) * (16 + eta * eta)) * ((16 + eta * eta) * (16 + eta * eta)))) / (12 * (16 + eta * eta)).
Proof.
  unfold partial, stirling. change (0 + 2)%nat with 2%nat. cbn [INR sum_f_R0]. rewrite Rplus_0_l. replace (4 ^ 2 + eta ^ 2) with (16 + eta * eta) by ring. replace (1 + 1 + 1) with 3 by ring. replace (1 + 1) with 2 by ring. replace (eta / 1) with eta by field.
  assert (P : 0 < 16 + eta * eta) by nra. unfold im. cbn [ipow]. unfold unit_. replace (4 ^ 2 + eta ^ 2) with (16 + eta * eta) by ring. unfold Cmult, RtoC. cbn [fst snd]. field. lra.
Qed.
End Eta.
