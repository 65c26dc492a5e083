(** Integrals over the positive axis. *)
From Coq Require Import Reals Lra Lia.
From Coquelicot Require Import Coquelicot.
From Verif Require Import FluctuationSpec.
Open Scope R_scope.

Lemma ball_sub (x y e : R) : ball x e y <-> Rabs (y - x) < e.
Proof. split; intros H; exact H. Qed.
Lemma at_right_below (e : R) (P : R -> Prop) : 0 < e -> (forall u, 0 < u < e -> P u) -> at_right 0 P.
Proof.
  intros He H. exists (mkposreal e He). intros u Hu Hp. apply H. split; [exact Hp|]. apply ball_sub in Hu. apply Rabs_def2 in Hu. cbn in Hu. lra.
Qed.
Lemma product_ends (e M : R) (P : R * R -> Prop) : 0 < e -> (forall u v, 0 < u < e -> M < v -> P (u, v)) -> filter_prod (at_right 0) (Rbar_locally p_infty) P.
Proof.
  intros He H. exists (fun u => 0 < u < e) (fun v => M < v).
  - apply (at_right_below e); [exact He | auto].
  - exists M. auto.
  - intros u v Hu Hv. apply H; assumption.
Qed.
Lemma ends_product (P : R * R -> Prop) : filter_prod (at_right 0) (Rbar_locally p_infty) P -> forall w : R, 0 < w -> exists u v, 0 < u < w /\ w < v /\ P (u, v).
Proof.
  intros [Q R0 Hq Hr H] w Hw. destruct Hq as (d & Hd). destruct Hr as (M & HM).
  exists (Rmin (d / 2) (w / 2)), (Rmax (M + 1) (w + 1)). pose proof (cond_pos d) as D. pose proof (Rmin_l (d / 2) (w / 2)). pose proof (Rmin_r (d / 2) (w / 2)).
  assert (0 < Rmin (d / 2) (w / 2)) by (apply Rmin_glb_lt; lra). pose proof (Rmax_l (M + 1) (w + 1)). pose proof (Rmax_r (M + 1) (w + 1)).
  split; [lra|]. split; [lra|]. apply H.
  - apply Hd; [|assumption]. apply ball_sub. rewrite Rabs_right; lra.
  - apply HM. lra.
Qed.
Lemma integral_unique f a b : integral f a -> integral f b -> a = b.
Proof. intros H1 H2. rewrite <- (is_RInt_gen_unique f a H1). apply is_RInt_gen_unique. exact H2. Qed.
Lemma integral_ext f g v : (forall y, 0 < y -> f y = g y) -> integral f v -> integral g v.
Proof.
  intros H. refine (is_RInt_gen_ext (Fa := at_right 0) (Fb := Rbar_locally p_infty) f g v _). apply (product_ends 1 1); [lra|]. intros u w Hu Hw x Hx. apply H. cbn in Hx. rewrite Rmin_left in Hx by lra. lra.
Qed.
Lemma integral_plus f g a b : integral f a -> integral g b -> integral (fun y => f y + g y) (a + b).
Proof. exact (is_RInt_gen_plus f g a b). Qed.
Lemma integral_scal c f a : integral f a -> integral (fun y => c * f y) (c * a).
Proof. exact (is_RInt_gen_scal f c a). Qed.
(** Limits of the proper integrals *)
Lemma integral_nonneg f v : (forall y, 0 < y -> 0 <= f y) -> integral f v -> 0 <= v.
Proof.
  intros H Hv. destruct (Rle_dec 0 v) as [|N]; [assumption|]. exfalso.
  assert (Q : filter_prod (at_right 0) (Rbar_locally p_infty) (fun ab => exists y, is_RInt f (fst ab) (snd ab) y /\ y < 0)).
  { apply (Hv (fun y => y < 0)). exists (mkposreal (- v / 2) ltac:(lra)). intros y Hy. apply ball_sub in Hy. apply Rabs_def2 in Hy. cbn in Hy. lra. }
  destruct (ends_product _ Q 1 Rlt_0_1) as (a & b & Ha & Hb & y & Hy & Ny). cbn in Hy.
  pose proof (is_RInt_ge_0 f a b y ltac:(lra) Hy (fun x Hx => H x ltac:(lra))). lra.
Qed.
Lemma integral_le f g a b : (forall y, 0 < y -> f y <= g y) -> integral f a -> integral g b -> a <= b.
Proof.
  intros H H1 H2. assert (0 <= b + -1 * a); [|lra]. apply (integral_nonneg (fun y => g y + -1 * f y)); [intros y Hy; specialize (H y Hy); lra|].
  apply integral_plus; [exact H2 | apply integral_scal; exact H1].
Qed.
(** Positive functions with bounded integrals *)
Lemma RInt_wider f u u' v v' : (forall y, 0 < y -> continuous f y) -> (forall y, 0 < y -> 0 <= f y) -> 0 < u' -> u' <= u -> u <= v -> v <= v' -> RInt f u v <= RInt f u' v'.
Proof.
  intros C P H0 H1 H2 H3. assert (Ex : forall a b, 0 < a -> a <= b -> ex_RInt f a b).
  { intros a b Ha Hb. apply (ex_RInt_continuous f). intros z Hz. rewrite Rmin_left in Hz by lra. apply C. lra. }
  assert (Ps : forall a b, 0 < a -> a <= b -> 0 <= RInt f a b). { intros a b Ha Hb. apply RInt_ge_0; [exact Hb | apply Ex; lra|]. intros x Hx. apply P. lra. }
  assert (E1 : RInt f u' v' = RInt f u' u + RInt f u v').
  { symmetry. apply (RInt_Chasles f u' u v'); apply Ex; lra. }
  assert (E2 : RInt f u v' = RInt f u v + RInt f v v') by (symmetry; apply (RInt_Chasles f u v v'); apply Ex; lra).
  pose proof (Ps u' u H0 H1). pose proof (Ps v v' ltac:(lra) H3). lra.
Qed.
Lemma integral_exists f M : (forall y, 0 < y -> continuous f y) -> (forall y, 0 < y -> 0 <= f y) -> (forall u v, 0 < u -> u <= v -> RInt f u v <= M) ->
  exists A, integral f A /\ (forall u v, 0 < u -> u <= v -> RInt f u v <= A).
Proof.
  intros C P HM. destruct (completeness (fun z => exists u v, 0 < u /\ u <= v /\ z = RInt f u v)) as (A & Ub & Lub).
  - exists M. intros z (u & v & Hu & Hv & ->). apply HM; assumption.
  - exists (RInt f 1 1), 1, 1. repeat split; lra.
  - assert (Hle : forall u v, 0 < u -> u <= v -> RInt f u v <= A) by (intros u v Hu Hv; apply Ub; exists u, v; auto).
    exists A. split; [|exact Hle]. intros Q (d & Hd).
    assert (N : exists u v, 0 < u /\ u <= v /\ A - d < RInt f u v).
    { destruct (Classical_Prop.classic (exists u v, 0 < u /\ u <= v /\ A - d < RInt f u v)) as [|N]; [assumption|]. exfalso.
      assert (A <= A - d). { apply Lub. intros z (u & v & Hu & Hv & ->). destruct (Rle_dec (RInt f u v) (A - d)); [assumption|]. exfalso. apply N. exists u, v. repeat split; lra. }
      pose proof (cond_pos d). lra. }
    destruct N as (u & v & Hu & Hv & HN). apply (product_ends u v); [exact Hu|]. intros a b Ha Hb. cbn [fst snd]. exists (RInt f a b). split.
    + apply (RInt_correct f), (ex_RInt_continuous f). intros z Hz. rewrite Rmin_left in Hz by lra. apply C. lra.
    + apply Hd. pose proof (RInt_wider f u a v b C P ltac:(lra) ltac:(lra) Hv ltac:(lra)). pose proof (Hle a b ltac:(lra) ltac:(lra)).
      apply ball_sub. apply Rabs_def1; lra.
Qed.
Lemma integral_dominated f g A : (forall y, 0 < y -> continuous f y) -> (forall y, 0 < y -> continuous g y) -> (forall y, 0 < y -> 0 <= f y <= g y) ->
  (forall u v, 0 < u -> u <= v -> RInt g u v <= A) ->
  exists B, integral f B /\ (forall u v, 0 < u -> u <= v -> RInt f u v <= B).
Proof.
  intros Cf Cg H HA. destruct (integral_exists f A Cf (fun y Hy => proj1 (H y Hy))) as (B & HB & HL); [|exists B; split; [exact HB | exact HL]].
  intros u v Hu Hv. apply Rle_trans with (2 := HA u v Hu Hv). apply RInt_le; [exact Hv|..].
  - apply (ex_RInt_continuous f). intros z Hz. rewrite Rmin_left in Hz by lra. apply Cf. lra.
  - apply (ex_RInt_continuous g). intros z Hz. rewrite Rmin_left in Hz by lra. apply Cg. lra.
  - intros x Hx. apply H. lra.
Qed.
(** The integral of a derivative *)
Lemma integral_derive f f' : (forall y, 0 < y -> is_derive f y (f' y)) -> (forall y, 0 < y -> continuous f' y) ->
  filterlim f (at_right 0) (locally 0) -> filterlim f (Rbar_locally p_infty) (locally 0) -> integral f' 0.
Proof.
  intros D C L1 L2. apply (integral_ext (Derive f)); [intros y Hy; apply is_derive_unique, D, Hy|].
  rewrite <- (Rminus_0_r 0). refine (is_RInt_gen_Derive (Fa := at_right 0) (Fb := Rbar_locally p_infty) f 0 0 _ _ L1 L2).
  - apply (product_ends 1 1); [lra|]. intros u v Hu Hv x Hx. cbn in Hx. rewrite Rmin_left in Hx by lra. exists (f' x). apply D. lra.
  - apply (product_ends 1 1); [lra|]. intros u v Hu Hv x Hx. cbn in Hx. rewrite Rmin_left in Hx by lra.
    apply (fun h => continuous_ext_loc (Derive f) f' x h (C x ltac:(lra))). exists (mkposreal x ltac:(lra)). intros y Hy. symmetry. apply is_derive_unique, D.
    apply ball_sub in Hy. apply Rabs_def2 in Hy. cbn in Hy. lra.
Qed.
